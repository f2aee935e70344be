(** Proofs about groups and several assemblies. *)
From Coq Require Import ssreflect ssrbool List String Bool NArith Lia.
From Verif Require Import Prelude DecStr Assemble_Model Assemble_Spec.
Import ListNotations.
Open Scope string_scope. Open Scope list_scope.

(** ** Groups *)
Fixpoint spaces (counter : N) (gs : list group) : list string * N :=
  match gs with
  | [] => ([], counter)
  | g :: gs => let '(s, counter) := group_space counter g in
               let '(l, counter) := spaces counter gs in (s :: l, counter)
  end.
Definition put (sp : list string) (m : ginst * option nat) : ginst :=
  match snd m with None => fst m | Some k => set_space (nth k sp "") (fst m) end.

Lemma spaces_length gs : forall n, List.length (fst (spaces n gs)) = List.length gs.
Proof.
  elim: gs => [|g gs IH] n //=. case: (group_space n g) => s m. have := IH m.
  case: (spaces m gs) => l c /= ->. done.
Qed.
Lemma spaces_app a b : forall n, spaces n (a ++ b) =
  (fst (spaces n a) ++ fst (spaces (snd (spaces n a)) b), snd (spaces (snd (spaces n a)) b)).
Proof.
  elim: a => [|g a IH] n /=; first by case: (spaces n b).
  case: (group_space n g) => s m. rewrite IH. by case: (spaces m a).
Qed.

Lemma nth_mid pre (x : string) post : nth (List.length pre) (pre ++ x :: post) "" = x.
Proof. by elim: pre. Qed.

Lemma collapse_groups_flat gs : forall n pre post k, k = List.length pre ->
  flat_map gr_insts (fst (collapse_groups n gs)) =
    map (put (pre ++ fst (spaces n gs) ++ post)) (grouped k gs) /\
  snd (collapse_groups n gs) = snd (spaces n gs).
Proof.
  elim: gs => [|g gs IH] n pre post k Hk //=.
  rewrite /collapse_group. case E: (group_space n g) => [s m] /=.
  have := IH m (pre ++ [s]) post (S k). rewrite app_length /= => /(_ ltac:(lia)).
  case: (collapse_groups m gs) => [gs' c] /=. case: (spaces m gs) => [l c'] /= [H1 H2]. split=> //.
  rewrite map_app H1 map_map -!app_assoc /=. congr (_ ++ _).
  apply: map_ext => i. by rewrite /put /= Hk nth_mid.
Qed.

Lemma collapse_flat cs : forall n pre post k, k = List.length pre ->
  all_insts (fst (collapse n cs)) =
    map (put (pre ++ fst (spaces n (flat_map co_groups cs)) ++ post)) (members k cs).
Proof.
  elim: cs => [|c cs IH] n pre post k Hk //=.
  rewrite /collapse_comp.
  rewrite spaces_app /=. set l1 := fst (spaces n (co_groups c)). set m := snd (spaces n (co_groups c)).
  have := collapse_groups_flat (co_groups c) n pre (fst (spaces m (flat_map co_groups cs)) ++ post) k Hk.
  case E: (collapse_groups n (co_groups c)) => [gs m'] /= [H1 H2]. rewrite -/m in H2. subst m'.
  have := IH m (pre ++ l1) post (k + List.length (co_groups c)).
  rewrite app_length spaces_length Hk => /(_ eq_refl).
  case: (collapse m cs) => [cs' m2] /= H3.
  rewrite /all_insts /= in H3 *. rewrite H3 H1 !map_app map_map map_id -Hk !app_assoc.
  done.
Qed.

Lemma spaces_In gs : forall n s, In s (fst (spaces n gs)) ->
  In s (flat_map (fun g => match gr_name g with Some n => [n] | None => [] end) gs) \/
  exists k, (n <= k)%N /\ s = ("unamed_group_" ++ dec k)%string.
Proof.
  elim: gs => [|g gs IH] n s //=.
  rewrite /group_space. case E: (gr_name g) => [nm|] /=.
  - have := IH n s. case: (spaces n gs) => l c /= H [<-|/H []]; [by left; left|by left; right|by right].
  - have := IH (N.succ n) s. case: (spaces _ gs) => l c /= H [<-|/H [H'|[k [L Hk]]]].
    + right. exists n. split=> //. lia.
    + by left.
    + right. exists k. split=> //. lia.
Qed.

Lemma made_up_inj a b : ("unamed_group_" ++ dec a)%string = ("unamed_group_" ++ dec b)%string -> a = b.
Proof. move=> /string_app_inj_l. exact: dec_inj. Qed.

Lemma spaces_NoDup gs : forall n,
  let names := flat_map (fun g => match gr_name g with Some n => [n] | None => [] end) gs in
  NoDup names -> (forall s, In s names -> not_made_up s) -> NoDup (fst (spaces n gs)).
Proof.
  elim: gs => [|g gs IH] n /=; first by constructor.
  rewrite /group_space. case E: (gr_name g) => [nm|] /= N M.
  - inversion N; subst. have := IH n H2 (fun s H => M s (or_intror H)).
    have SI := spaces_In gs n nm. case: (spaces n gs) SI => l c /= SI H. constructor=> //.
    move=> /SI [//|[k [_ Hk]]]. exact: (M nm (or_introl eq_refl) k).
  - have := IH (N.succ n) N M.
    have SI := spaces_In gs (N.succ n) ("unamed_group_" ++ dec n). case: (spaces _ gs) SI => l c /= SI H.
    constructor=> //. move=> /SI [H'|[k [L /made_up_inj Hk]]].
    + exact: (M _ H' n).
    + subst. lia.
Qed.

Lemma group_names_flat cs : group_names cs =
  flat_map (fun g => match gr_name g with Some n => [n] | None => [] end) (flat_map co_groups cs).
Proof. elim: cs => [|c cs IH] //=. by rewrite flat_map_app -IH. Qed.

Lemma grouped_In gs : forall k i o, In (i, o) (grouped k gs) ->
  exists m, o = Some m /\ k <= m < k + List.length gs.
Proof.
  elim: gs => [|g gs IH] k i o //= /in_app_iff [/in_map_iff [j [[_ <-] _]]|/IH [m [-> H]]].
  - exists k. split=> //. lia.
  - exists m. split=> //. lia.
Qed.
Lemma members_In cs : forall k i m, In (i, Some m) (members k cs) ->
  k <= m < k + List.length (flat_map co_groups cs).
Proof.
  elim: cs => [|c cs IH] k i m //= /in_app_iff [/in_map_iff [j [E _]]|] //.
  rewrite app_length. move=> /in_app_iff [/grouped_In [m' [[<-] H]]|/IH]; lia.
Qed.
Definition loose (m : ginst * option nat) : bool := match snd m with None => true | _ => false end.
Lemma loose_members cs : forall k, map gi_name (map fst (filter loose (members k cs))) = loose_names cs.
Proof.
  elim: cs => [|c cs IH] k //=. rewrite !filter_app !map_app IH.
  have -> : filter loose (grouped k (co_groups c)) = [].
  { elim: (co_groups c) k {IH} => [|g gs IH] k //=. rewrite filter_app IH app_nil_r.
    by elim: (gr_insts g). }
  congr (_ ++ _). elim: (co_insts c) => [|i l IHl] //=. by rewrite IHl.
Qed.
Lemma members_loose_In cs k i : In (i, None) (members k cs) -> exists c, In c cs /\ In i (co_insts c).
Proof.
  elim: cs k => [|c cs IH] k //= /in_app_iff [/in_map_iff [j [[<-] H]]|].
  - exists c. auto.
  - move=> /in_app_iff [/grouped_In [m [//]]|/IH [d [? ?]]]. exists d. auto.
Qed.

Lemma filter_pos A B (f : A -> B) (P : A -> bool) l : NoDup (map f (filter P l)) ->
  forall p q x y, nth_error l p = Some x -> nth_error l q = Some y -> P x = true -> P y = true ->
  f x = f y -> p = q.
Proof.
  elim: l => [|a l IH] N p q x y; first by case: p.
  have Nr : NoDup (map f (filter P l)) by move: N => /=; case: (P a) => //= N; inversion N.
  case: p => [|p]; case: q => [|q] //=.
  - move=> [<-] Hy Pa Py E. move: N => /=. rewrite Pa /= => N. inversion N; subst. case: H1.
    rewrite E. apply: in_map. apply/filter_In. split=> //. exact: (nth_error_In _ _ Hy).
  - move=> Hx [<-] Px Pa E. move: N => /=. rewrite Pa /= => N. inversion N; subst. case: H1.
    rewrite -E. apply: in_map. apply/filter_In. split=> //. exact: (nth_error_In _ _ Hx).
  - move=> Hx Hy Px Py E. congr S. exact: (IH Nr p q x y).
Qed.

Lemma collapse_at cs out k' p i o : collapse 0 cs = (out, k') ->
  nth_error (members 0 cs) p = Some (i, o) ->
  nth_error (all_insts out) p = Some (put (fst (spaces 0 (flat_map co_groups cs))) (i, o)).
Proof.
  move=> C H. have := collapse_flat cs 0 [] [] 0 eq_refl. rewrite C /= app_nil_r => ->.
  by rewrite nth_error_map H.
Qed.

Lemma collapse_loose cs out k' p i i' : collapse 0 cs = (out, k') -> (forall c, In c cs -> fresh_comp c) ->
  nth_error (members 0 cs) p = Some (i, None) -> nth_error (all_insts out) p = Some i' ->
  gi_space i' = gi_name i.
Proof.
  move=> C F H. rewrite (collapse_at _ _ _ _ _ _ C H). move=> [<-] /=.
  have [c [Hc Hi]] := members_loose_In _ _ _ (nth_error_In _ _ H). exact: (F c Hc).
Qed.
Lemma collapse_same cs out k' p q i j g i' j' : collapse 0 cs = (out, k') ->
  nth_error (members 0 cs) p = Some (i, Some g) -> nth_error (members 0 cs) q = Some (j, Some g) ->
  nth_error (all_insts out) p = Some i' -> nth_error (all_insts out) q = Some j' ->
  gi_space i' = gi_space j'.
Proof.
  move=> C H1 H2. rewrite (collapse_at _ _ _ _ _ _ C H1) (collapse_at _ _ _ _ _ _ C H2).
  by move=> [<-] [<-].
Qed.

Lemma collapse_sep cs out k' p q i j gi gj i' j' : collapse 0 cs = (out, k') ->
  (forall c, In c cs -> fresh_comp c) -> good_names cs ->
  nth_error (members 0 cs) p = Some (i, gi) -> nth_error (members 0 cs) q = Some (j, gj) ->
  nth_error (all_insts out) p = Some i' -> nth_error (all_insts out) q = Some j' ->
  gi_space i' = gi_space j' -> p = q \/ exists g, gi = Some g /\ gj = Some g.
Proof.
  move=> C F [N M] H1 H2. rewrite (collapse_at _ _ _ _ _ _ C H1) (collapse_at _ _ _ _ _ _ C H2).
  move=> [<-] [<-] E.
  set sp := fst (spaces 0 (flat_map co_groups cs)) in E.
  have Ng : NoDup (group_names cs).
  { clear -N. elim: (group_names cs) N => [|x l IH] /= N; first by constructor. inversion N; subst.
    constructor; last by apply: IH. by move=> H; apply: H1; apply/in_app_iff; left. }
  have Nl : NoDup (loose_names cs).
  { clear -N. elim: (group_names cs) N => [|x l IH] //= N. inversion N; subst. exact: IH. }
  have D : forall x, In x (group_names cs) -> ~ In x (loose_names cs).
  { clear -N. elim: (group_names cs) N => [|x l IH] //= N y. inversion N; subst.
    move=> [<-|H] H'; [apply: H1; apply/in_app_iff; by right|exact: (IH H2 y)]. }
  have Nsp : NoDup sp.
  { apply: spaces_NoDup; rewrite -group_names_flat // => s Hs. apply: M. apply/in_app_iff. by left. }
  have Lsp : forall l s, In l (loose_names cs) -> In s sp -> l <> s.
  { move=> l s Hl /spaces_In. rewrite -group_names_flat. case=> [Hs|[k [_ Hk]]] Els; subst.
    - exact: (D s).
    - apply: (M _ (proj2 (in_app_iff _ _ _) (or_intror Hl)) k). done. }
  have InL : forall i p, nth_error (members 0 cs) p = Some (i, None) -> In (gi_name i) (loose_names cs) /\ gi_space i = gi_name i.
  { move=> x r H. have [c [Hc Hi]] := members_loose_In _ _ _ (nth_error_In _ _ H). split; last by apply: (F c Hc).
    apply/in_flat_map. exists c. split=> //. by apply: in_map. }
  have Lm : forall g x r, nth_error (members 0 cs) r = Some (x, Some g) -> g < List.length sp.
  { move=> g x r H. have := members_In _ _ _ _ (nth_error_In _ _ H). rewrite /sp spaces_length. lia. }
  case: gi H1 E => [g|] H1; case: gj H2 => [h|] H2 /= E.
  - right. exists g. split=> //. congr Some. symmetry.
    by apply: (proj1 (NoDup_nth sp "") Nsp g h) => //; [exact: (Lm _ _ _ H1)|exact: (Lm _ _ _ H2)].
  - have [I S'] := InL _ _ H2. case: (Lsp _ (nth g sp "") I); last by rewrite E.
    apply: nth_In. exact: (Lm _ _ _ H1).
  - have [I S'] := InL _ _ H1. case: (Lsp _ (nth h sp "") I); last by rewrite -E.
    apply: nth_In. exact: (Lm _ _ _ H2).
  - left. have [I1 S1] := InL _ _ H1. have [I2 S2] := InL _ _ H2.
    have NL := loose_members cs 0. rewrite map_map in NL. rewrite -NL in Nl.
    apply: (filter_pos _ _ _ _ _ Nl p q _ _ H1 H2) => //=. by rewrite -S1 -S2.
Qed.

Lemma collapse_names cs out k' : collapse 0 cs = (out, k') ->
  map gi_name (all_insts out) = map gi_name (map fst (members 0 cs)) /\
  Forall2 (fun c c' => co_groups c' = [] /\ co_conns c' = co_conns c /\
    map gi_name (co_insts c') = map gi_name (co_insts c ++ flat_map gr_insts (co_groups c))) cs out.
Proof.
  move=> C. split.
  - have := collapse_flat cs 0 [] [] 0 eq_refl. rewrite C /= => ->. rewrite !map_map.
    apply: map_ext => [[i [g|]]] //.
  - move: C. move: (0%N) => n. elim: cs n out => [|c cs IH] n out /=; first by move=> [<- _].
    rewrite /collapse_comp. have CG : forall gs m,
      map gi_name (flat_map gr_insts (fst (collapse_groups m gs))) = map gi_name (flat_map gr_insts gs).
    { elim=> [|g gs IHg] m //=. rewrite /collapse_group. case: (group_space m g) => s m1.
      have := IHg m1. case: (collapse_groups m1 gs) => l m2 /= IH1.
      rewrite !map_app IH1 map_map. congr (_ ++ _). }
    have := CG (co_groups c) n. case: (collapse_groups n _) => gs m /= E.
    case C': (collapse m cs) => [o m'] [<- E']. subst m'. constructor; last by apply: (IH m).
    split=> //. split=> //=. by rewrite !map_app E.
Qed.

(** ** Several assemblies *)
Lemma others_keep s a l : others_of (keep_first s a l) = others_of l.
Proof.
  elim: l s => [|[b|w] l IH] s //=.
  - by case: s; rewrite /= ?IH.
  - by rewrite IH.
Qed.
Lemma flat_keep A (f : assembly -> list A) a l :
  let F := flat_map (fun i => match i with Asm a => f a | Other _ => [] end) in
  F (keep_first true a l) = [] /\ (assemblies l <> [] -> F (keep_first false a l) = f a).
Proof.
  elim: l => [|[b|w] l [IH1 IH2]] //=. split=> //. by move=> _; rewrite IH1 app_nil_r.
Qed.
Lemma count_keep a l : assembly_count (keep_first true a l) = 0 /\
  (assemblies l <> [] -> assembly_count (keep_first false a l) = 1).
Proof.
  rewrite /assembly_count. elim: l => [|[b|w] l [IH1 IH2]] //=. split=> // _. by rewrite IH1.
Qed.
Lemma flat_assemblies A (f : assembly -> list A) l :
  flat_map (fun i => match i with Asm a => f a | Other _ => [] end) l = flat_map f (assemblies l).
Proof. elim: l => [|[b|w] l IH] //=. by rewrite IH. Qed.
Lemma absorb_all A (f : assembly -> list A) : (forall a b, f (absorb a b) = f a ++ f b) ->
  forall l a, f (fold_left absorb l a) = f a ++ flat_map f l.
Proof.
  move=> H. elim=> [|b l IH] a /=; first by rewrite app_nil_r.
  by rewrite IH H app_assoc.
Qed.

Lemma compose_flat A (f : assembly -> list A) l out : (forall a b, f (absorb a b) = f a ++ f b) ->
  compose l = Ok out ->
  flat_map (fun i => match i with Asm a => f a | Other _ => [] end) out =
  flat_map (fun i => match i with Asm a => f a | Other _ => [] end) l.
Proof.
  move=> H. rewrite /compose (flat_assemblies _ f l). case E: (assemblies l) => [|a r] //. move=> [<-].
  have [_ K] := flat_keep _ f (fold_left absorb r a) l. rewrite K; first by rewrite E.
  by rewrite absorb_all.
Qed.

Lemma compose_ok l out : compose l = Ok out ->
  assembly_count out = 1 /\ insts_of out = insts_of l /\ conns_of out = conns_of l /\
  settings_of out = settings_of l /\ others_of out = others_of l.
Proof.
  move=> C. have CF := fun A f H => compose_flat A f l out H C.
  split; last split; last split; last split.
  - move: C. rewrite /compose. case E: (assemblies l) => [|a r] //. move=> [<-].
    have [_ K] := count_keep (fold_left absorb r a) l. apply: K. by rewrite E.
  - exact: (CF _ (fun a => co_insts (as_comp a))).
  - exact: (CF _ (fun a => co_conns (as_comp a))).
  - exact: (CF _ as_settings).
  - move: C. rewrite /compose. case E: (assemblies l) => [|a r] //. move=> [<-]. exact: others_keep.
Qed.
Lemma compose_err l : (exists e, compose l = Err e) <-> assembly_count l = 0.
Proof.
  have -> : assembly_count l = List.length (assemblies l).
  { rewrite /assembly_count. elim: l => [|[a|w] l IH] //=. by rewrite IH. }
  rewrite /compose. case: (assemblies l) => [|a r] /=.
  - split=> // _. by eexists.
  - by split=> [[e]|].
Qed.
Lemma compose_err' l e : compose l = Err e -> e = ParseError.
Proof. rewrite /compose. case: (assemblies l) => [|a r] //. by move=> [<-]. Qed.
Lemma compose_schedule l out a b : compose l = Ok out -> first_assembly l = Some a -> In (Asm b) out ->
  as_schedule b = as_schedule a /\ as_name b = as_name a.
Proof.
  have FA : first_assembly l = hd_error (assemblies l) by elim: l => [|[x|w] l IH].
  rewrite FA /compose. case: (assemblies l) => [|x r] //=. move=> [<-] [<-] H.
  have K : forall s l, In (Asm b) (keep_first s (fold_left absorb r x) l) -> b = fold_left absorb r x.
  { move=> s m. elim: m s => [|[y|w] m IH] s //=.
    - case: s => /=; first by apply: IH. by case=> [[<-//]|/IH].
    - by case=> [//|/IH]. }
  rewrite (K _ _ H). elim: r x {H K FA} => [|y r IH] x //=. have [-> ->] := IH (absorb x y). done.
Qed.
