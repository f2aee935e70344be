(** From the specification as written to the hierarchy stage 7 works on. *)
From Coq Require Import ssreflect ssrbool List String Ascii Bool Arith NArith Lia.
From Verif Require Import Prelude DecStr Flatten_Model Flatten_Spec Flatten_Proofs Flatten_Proofs2.
From Verif Require Import Whole_Model Whole_Spec.
Import ListNotations.
Open Scope string_scope.
Open Scope list_scope.

(** * Labels of address spaces *)
Definition made_up (n : N) : string := ("unamed_group_" ++ dec n)%string.
Lemma made_up_inj m n : made_up m = made_up n -> m = n.
Proof. rewrite /made_up => E. apply: dec_inj. exact: string_app_inj_l E. Qed.
Lemma digits_dot_free s : all_chars is_digit s = true -> dot_free s = true.
Proof.
  elim: s => [|a s IH] //= /andP [A B]. rewrite IH // andbT.
  case: (Ascii.eqb_spec a "."%char) => // E. by rewrite E in A.
Qed.
Lemma dot_free_app a b : dot_free (a ++ b)%string = dot_free a && dot_free b.
Proof. elim: a => [|x a IH] //=. by rewrite IH andbA. Qed.
Lemma made_up_dot_free n : dot_free (made_up n) = true.
Proof. rewrite /made_up dot_free_app (digits_dot_free _ (dec_digits n)). reflexivity. Qed.

Definition somes (l : list (option string)) : list string :=
  flat_map (fun o => match o with Some n => [n] | None => [] end) l.
Lemma somes_app a b : somes (a ++ b) = somes a ++ somes b.
Proof. exact: flat_map_app. Qed.
(** Wishes for names and the names given, with a counter that never goes back *)
Inductive labelled : N -> list (option string) -> list string -> N -> Prop :=
| lb_nil n m : (n <= m)%N -> labelled n [] [] m
| lb_some n m x o l : labelled n o l m -> labelled n (Some x :: o) (x :: l) m
| lb_none n n' m o l : (n <= n')%N -> labelled (N.succ n') o l m -> labelled n (None :: o) (made_up n' :: l) m.
Lemma labelled_le n n' o l m : labelled n o l m -> (n' <= n)%N -> labelled n' o l m.
Proof.
  move=> H. elim: H n' => {n o l m}.
  - move=> n m L n' L'. apply: lb_nil. lia.
  - move=> n m x o l H IH n' L. apply: lb_some. exact: IH.
  - move=> n n1 m o l L H IH n' L'. apply: lb_none H. lia.
Qed.
Lemma labelled_app n o l m o' l' m' : labelled n o l m -> labelled m o' l' m' ->
  labelled n (o ++ o') (l ++ l') m'.
Proof.
  move=> H. elim: H => {n o l m}.
  - move=> n m L H. exact: labelled_le H L.
  - move=> n m x o l H IH H'. apply: lb_some. exact: IH.
  - move=> n n1 m o l L H IH H'. apply: lb_none L _. exact: IH.
Qed.
Lemma labelled_In n o l m s : labelled n o l m -> In s l ->
  In s (somes o) \/ exists k, (n <= k)%N /\ s = made_up k.
Proof.
  elim=> {n o l m} [n m L|n m x o l H IH|n n1 m o l L H IH] //=.
  - move=> [->|I]; first by left; left.
    case: (IH I) => [I'|[k [K ->]]]; [by left; right|right; by exists k].
  - move=> [<-|I]; first by right; exists n1.
    case: (IH I) => [I'|[k [K ->]]]; [by left|right; exists k; split=> //; lia].
Qed.
Lemma labelled_length n o l m : labelled n o l m -> List.length l = List.length o.
Proof. by elim=> {n o l m} //= *; f_equal. Qed.
Lemma labelled_NoDup n o l m : labelled n o l m -> NoDup (somes o) ->
  Forall not_made_up (somes o) -> NoDup l.
Proof.
  elim=> {n o l m} [n m L|n m x o l H IH|n n1 m o l L H IH] /=.
  - constructor.
  - move=> N F. inversion N as [|? ? NI N2]; subst. inversion F as [|? ? FX F2]; subst. constructor; last exact: IH.
    move=> I. case: (labelled_In _ _ _ _ _ H I) => [//|[k [_ E]]]. exact: (FX k).
  - move=> N F. constructor; last exact: IH.
    move=> I. case: (labelled_In _ _ _ _ _ H I) => [I'|[k [K E]]].
    + move/Forall_forall: F => /(_ _ I') /(_ n1). by case.
    + move/made_up_inj: E => E. lia.
Qed.

(** * Stage 5 *)
(** The wishes of a block: the loose instances get their own names. *)
Definition wishes (b : block) : list (option string) :=
  map (fun i => Some (w_name i)) (bl_insts b) ++ map wg_name (bl_groups b).
Fixpoint spread (ls : list string) (gs : list wgroup) : list winst :=
  match ls, gs with
  | l :: ls, g :: gs => map (set_space l) (wg_insts g) ++ spread ls gs
  | _, _ => []
  end.
(** [b'] is [b] with its groups collapsed, labelled by [ls]. *)
Record collapsed (b : block) (ls : list string) (b' : block) : Prop := {
  cl_insts : bl_insts b' = bl_insts b ++ spread ls (bl_groups b);
  cl_len : List.length ls = List.length (bl_groups b);
  cl_conns : bl_conns b' = bl_conns b; cl_exports : bl_exports b' = bl_exports b;
  cl_settings : bl_settings b' = bl_settings b; cl_attrs : bl_attrs b' = bl_attrs b }.
Lemma collapse_groups_spec gs : forall n ws m, collapse_groups n gs = (ws, m) ->
  exists ls, labelled n (map wg_name gs) ls m /\ ws = spread ls gs.
Proof.
  elim: gs => [|g gs IH] n ws m /=.
  - case=> <- <-. exists []. split=> //. apply: lb_nil. lia.
  - rewrite /group_space. case E: (wg_name g) => [x|].
    + case C: (collapse_groups n gs) => [ws' m'] [<- <-].
      case: (IH _ _ _ C) => ls [L ->]. exists (x :: ls). split=> //. exact: lb_some.
    + case C: (collapse_groups (N.succ n) gs) => [ws' m'] [<- <-].
      case: (IH _ _ _ C) => ls [L ->]. exists (made_up n :: ls). split=> //.
      apply: lb_none L. lia.
Qed.
Lemma collapse_block_spec b n b' m : collapse_block n b = (b', m) ->
  exists ls, collapsed b ls b' /\
    labelled n (wishes b) (map w_name (bl_insts b) ++ ls) m.
Proof.
  rewrite /collapse_block. case C: (collapse_groups n (bl_groups b)) => [ws k] [<- <-].
  case: (collapse_groups_spec _ _ _ _ C) => ls [L ->]. exists ls. split.
  - split=> //=. by rewrite (labelled_length _ _ _ _ L) map_length.
  - rewrite /wishes. apply: labelled_app L.
    elim: (bl_insts b) => [|i l IH] /=; [apply: lb_nil; lia|exact: lb_some].
Qed.

(** All blocks of one kind, with increasing counters *)
Inductive coll_all : N -> list block -> list (list string) -> list block -> Prop :=
| ca_nil n : coll_all n [] [] []
| ca_cons n m b bs ls lss b' bs' : collapsed b ls b' ->
    labelled n (wishes b) (map w_name (bl_insts b) ++ ls) m -> coll_all m bs lss bs' ->
    coll_all n (b :: bs) (ls :: lss) (b' :: bs').
Lemma coll_all_le n n' bs lss bs' : coll_all n bs lss bs' -> (n' <= n)%N -> coll_all n' bs lss bs'.
Proof.
  move=> H L. inversion H; subst; first exact: ca_nil.
  econstructor; eauto. by apply: labelled_le; eauto.
Qed.
Lemma labelled_mono n o l m : labelled n o l m -> (n <= m)%N.
Proof. elim=> *; lia. Qed.
Lemma collapse_spec S : forall n S' m, collapse n S = (S', m) ->
  exists la lc, coll_all n (assemblies S) la (assemblies S') /\
    coll_all n (components S) lc (components S').
Proof.
  elim: S => [|[b|b] S IH] n S' m /=.
  - case=> <- _. exists [], []. split; exact: ca_nil.
  - case B: (collapse_block n b) => [b' k]. case C: (collapse k S) => [S1 k1] [<- _] /=.
    case: (IH _ _ _ C) => la [lc [A D]]. case: (collapse_block_spec _ _ _ _ B) => ls [CB L].
    exists la, (ls :: lc). split; last exact: ca_cons CB L D.
    apply: coll_all_le A _. exact: labelled_mono L.
  - case B: (collapse_block n b) => [b' k]. case C: (collapse k S) => [S1 k1] [<- _] /=.
    case: (IH _ _ _ C) => la [lc [A D]]. case: (collapse_block_spec _ _ _ _ B) => ls [CB L].
    exists (ls :: la), lc. split; first exact: ca_cons CB L A.
    apply: coll_all_le D _. exact: labelled_mono L.
Qed.

(** The space an instance of a block gets *)
Definition space_of (b : block) (ls : list string) (i : winst) (g : option nat) (s : string) : Prop :=
  match g with
  | None => In i (bl_insts b) /\ s = w_space i
  | Some k => nth_error ls k = Some s /\ exists gr, nth_error (bl_groups b) k = Some gr /\ In i (wg_insts gr)
  end.
Lemma space_of_member b ls i g s : space_of b ls i g s -> member b i g.
Proof. case: g => [k|] /=; by case. Qed.
Lemma member_space_of b ls b' i g : collapsed b ls b' -> member b i g -> exists s, space_of b ls i g s.
Proof.
  move=> C. case: g => [k|] /= M.
  - case: M => gr [G I]. have L: k < List.length ls.
    { rewrite (cl_len _ _ _ C). apply/nth_error_Some. by rewrite G. }
    case E: (nth_error ls k) => [s|]; last by move/nth_error_None: E; lia.
    exists s. split=> //. by exists gr.
  - by exists (w_space i).
Qed.
Lemma spread_In gs : forall ls x, In x (spread ls gs) <->
  exists k gr i s, nth_error gs k = Some gr /\ nth_error ls k = Some s /\ In i (wg_insts gr) /\ x = set_space s i.
Proof.
  elim: gs => [|g gs IH] [|l ls] x /=; try by (split=> // -[[|k] [gr [i [s [A [B _]]]]]]).
  rewrite in_app_iff in_map_iff IH. split.
  - case=> [[i [<- I]]|[k [gr [i [s H]]]]]; [by exists 0, g, i, l|by exists (S k), gr, i, s].
  - move=> [[|k] [gr [i [s [A [B [I ->]]]]]]] /=; [left|right].
    + case: A => A. case: B => B. subst. by exists i.
    + by exists k, gr, i, s.
Qed.
Lemma collapsed_In b ls b' x : collapsed b ls b' ->
  (In x (bl_insts b') <-> exists i g s, space_of b ls i g s /\ w_name x = w_name i /\ w_type x = w_type i /\ w_space x = s).
Proof.
  move=> C. rewrite (cl_insts _ _ _ C) in_app_iff spread_In. split.
  - case=> [I|[k [gr [i [s [A [B [I ->]]]]]]]].
    + by exists x, None, (w_space x).
    + exists i, (Some k), s. split=> //. split=> //. by exists gr.
  - move=> [i [[k|] [s [/= H [E1 [E2 E3]]]]]].
    + case: H => B [gr [A I]]. right. exists k, gr, i, s. split=> //. split=> //. split=> //.
      rewrite /set_space -E1 -E2 -E3. by case: x {E1 E2 E3}.
    + case: H => I E. left. have -> // : x = i. case: x i E1 E2 E3 E {I} => ? ? ? [? ? ?] /=. by move=> -> -> -> ->.
Qed.
Lemma spread_names gs : forall ls, List.length ls = List.length gs ->
  map w_name (spread ls gs) = flat_map (fun g => map w_name (wg_insts g)) gs.
Proof.
  elim: gs => [|g gs IH] [|l ls] //= [E]. rewrite map_app map_map /= IH //.
Qed.
Lemma collapsed_names b ls b' : collapsed b ls b' ->
  map w_name (bl_insts b') = loose_names b ++ grouped_names b.
Proof. move=> C. rewrite (cl_insts _ _ _ C) map_app spread_names //. exact: cl_len C. Qed.

(** Blocks with their labels, in order *)
Lemma coll_all_nth n bs lss bs' : coll_all n bs lss bs' -> forall k,
  (forall b, nth_error bs k = Some b -> exists ls b', nth_error lss k = Some ls /\
    nth_error bs' k = Some b' /\ collapsed b ls b') /\
  (forall b', nth_error bs' k = Some b' -> exists ls b, nth_error lss k = Some ls /\
    nth_error bs k = Some b /\ collapsed b ls b').
Proof.
  elim=> {n bs lss bs'} [n|n m b bs ls lss b' bs' C L A IH] [|k] //=.
  - split=> x [<-]; by [exists ls, b'|exists ls, b].
Qed.
Definition labels_of (bl : block * list string) : list string :=
  map w_name (bl_insts (fst bl)) ++ snd bl.
Lemma coll_all_labelled n bs lss bs' : coll_all n bs lss bs' ->
  exists m, labelled n (flat_map wishes bs) (flat_map labels_of (combine bs lss)) m.
Proof.
  elim=> {n bs lss bs'} [n|n m b bs ls lss b' bs' C L A [m' IH]] /=.
  - exists n. apply: lb_nil. lia.
  - exists m'. exact: labelled_app L IH.
Qed.
Lemma somes_wishes bs : somes (flat_map wishes bs) = flat_map (fun b => loose_names b ++ group_names b) bs.
Proof.
  elim: bs => [|b bs IH] //=. rewrite somes_app IH. f_equal. rewrite /wishes somes_app. f_equal.
  - rewrite /loose_names. elim: (bl_insts b) => [|i l IHl] //=. by rewrite IHl.
  - rewrite /group_names. elim: (bl_groups b) => [|g l IHl] //=. by rewrite IHl.
Qed.
Lemma NoDup_app_disjoint A (a b : list A) : NoDup (a ++ b) -> forall x, In x a -> In x b -> False.
Proof.
  elim: a => [|y a IH] //= N x. inversion N as [|? ? NI N2]; subst. move=> [<-|I] J.
  - apply: NI. apply/in_app_iff. by right.
  - exact: (IH N2 x).
Qed.
Lemma NoDup_app_remove_l A (a b : list A) : NoDup (a ++ b) -> NoDup b.
Proof. elim: a => [|y a IH] //= N. inversion N; subst. exact: IH. Qed.
Lemma NoDup_flat_map_nth A B (f : A -> list B) l : NoDup (flat_map f l) -> forall m m' a a' s,
  nth_error l m = Some a -> nth_error l m' = Some a' -> In s (f a) -> In s (f a') -> m = m'.
Proof.
  elim: l => [|x l IH] /= N [|m] [|m'] a a' s //=.
  - move=> [<-] M I I'. exfalso. apply: (NoDup_app_disjoint _ _ _ N s I).
    apply/in_flat_map. exists a'. split=> //. exact: nth_error_In M.
  - move=> M [<-] I I'. exfalso. apply: (NoDup_app_disjoint _ _ _ N s I').
    apply/in_flat_map. exists a. split=> //. exact: nth_error_In M.
  - move=> M M' I I'. f_equal. apply: (IH _ _ _ a a' s) => //. exact: NoDup_app_remove_l N.
Qed.
Lemma nth_error_combine A B (l : list A) : forall (m : list B) k a b,
  nth_error l k = Some a -> nth_error m k = Some b -> nth_error (combine l m) k = Some (a, b).
Proof. elim: l => [|x l IH] [|y m] [|k] a b //=; [by move=> [<-] [<-]|exact: IH]. Qed.
Lemma NoDup_flat_map_elem A B (f : A -> list B) l a : NoDup (flat_map f l) -> In a l -> NoDup (f a).
Proof.
  elim: l => [|x l IH] //= N [<-|I].
  - elim: (f x) N => [|y m IHm] //= N; first by constructor.
    inversion N as [|? ? NI N2]; subst. constructor; last exact: IHm.
    move=> J. apply: NI. apply/in_app_iff. by left.
  - apply: IH => //. exact: NoDup_app_remove_l N.
Qed.
(** The instances of a composition that share a space *)
Lemma spaces_apart n bs lss bs' m m' b b' ls ls' i i' g g' s :
  coll_all n bs lss bs' -> NoDup (flat_map (fun b => loose_names b ++ group_names b) bs) ->
  (forall b, In b bs -> Forall not_made_up (loose_names b ++ group_names b)) ->
  (forall b i, In b bs -> In i (bl_insts b) -> w_space i = w_name i) ->
  nth_error bs m = Some b -> nth_error lss m = Some ls ->
  nth_error bs m' = Some b' -> nth_error lss m' = Some ls' ->
  space_of b ls i g s -> space_of b' ls' i' g' s ->
  m = m' /\ ((g = None /\ g' = None /\ w_name i = w_name i') \/ exists k, g = Some k /\ g' = Some k).
Proof.
  move=> C N F W B L B' L' P P'.
  case: (coll_all_labelled _ _ _ _ C) => c LB.
  have {}N: NoDup (flat_map labels_of (combine bs lss)).
  { apply: labelled_NoDup LB _ _; rewrite somes_wishes //.
    apply/Forall_forall => x /in_flat_map [b0 [I J]]. move: (F _ I) => /Forall_forall. exact. }
  have IL: forall b ls i g, In b bs -> space_of b ls i g s -> In s (labels_of (b, ls)).
  { move=> b0 ls0 i0 [k|] IB /=; rewrite in_app_iff.
    - move=> [K _]. right. exact: nth_error_In K.
    - move=> [I ->]. left. rewrite (W _ _ IB I). exact: in_map. }
  have CB := nth_error_combine _ _ _ _ _ _ _ B L.
  have CB' := nth_error_combine _ _ _ _ _ _ _ B' L'.
  have IB := nth_error_In _ _ B. have IB' := nth_error_In _ _ B'.
  have E := NoDup_flat_map_nth _ _ _ _ N _ _ _ _ s CB CB' (IL _ _ _ _ IB P) (IL _ _ _ _ IB' P').
  subst m'. split=> //. rewrite B in B'. rewrite L in L'. case: B' => ?. case: L' => ?. subst b' ls'.
  have {}N := NoDup_flat_map_elem _ _ _ _ _ N (nth_error_In _ _ CB). rewrite /labels_of /= in N.
  case: g P => [k|] /= P; case: g' P' => [k'|] /= P'.
  - right. exists k. split=> //. f_equal. case: P P' => [P _] [P' _].
    have N2 := NoDup_app_remove_l _ _ _ N. rewrite NoDup_nth_error in N2.
    symmetry. apply: N2; last by rewrite P. apply/nth_error_Some. by rewrite P.
  - exfalso. case: P P' => [P _] [I' E]. apply: (NoDup_app_disjoint _ _ _ N s).
    + rewrite E (W _ _ IB I'). exact: in_map.
    + exact: nth_error_In P.
  - exfalso. case: P' P => [P _] [I' E]. apply: (NoDup_app_disjoint _ _ _ N s).
    + rewrite E (W _ _ IB I'). exact: in_map.
    + exact: nth_error_In P.
  - left. case: P P' => [I E] [I' E']. by rewrite -(W _ _ IB I) -(W _ _ IB I') -E -E'.
Qed.

(** * Stage 6 *)
Lemma absorb_all l : forall a, let r := fold_left absorb l a in
  bl_insts r = flat_map bl_insts (a :: l) /\ bl_conns r = flat_map bl_conns (a :: l) /\
  bl_settings r = flat_map bl_settings (a :: l) /\ bl_exports r = bl_exports a.
Proof.
  elim: l => [|b l IH] a /=; first by rewrite !app_nil_r.
  case: (IH (absorb a b)) => [-> [-> [-> ->]]] /=. by rewrite !app_assoc.
Qed.

(** * The hierarchy *)
Definition attached (ts : list comp) (i : winst) (x : inst) : Prop :=
  exists t, nth_error ts (w_type i) = Some t /\ x = Inst (w_name i) (w_space i) t.
Record rep (ts : list comp) (b : block) (c : comp) : Prop := {
  rp_insts : Forall2 (attached ts) (bl_insts b) (insts_of c);
  rp_conns : conns_of c = bl_conns b; rp_exports : exports_of c = bl_exports b;
  rp_settings : settings_of c = bl_settings b; rp_attrs : attrs_of c = bl_attrs b }.
Lemma unfold_rep ts b c : unfold ts b = Ok c -> rep ts b c.
Proof.
  rewrite /unfold. move=> /bind_Ok [l [H [<-]]]. split=> //=. move: H.
  elim: (bl_insts b) l => [|i is0 IH] l /=; first by case=> <-.
  move=> /bind_Ok [x [X /bind_Ok [xs [XS [<-]]]]]. constructor; last exact: IH.
  move: X. rewrite /attach. case E: (nth_error ts (w_type i)) => [t|] // [<-]. by exists t.
Qed.
Lemma rep_more ts ts' b c : rep ts b c -> rep (ts ++ ts') b c.
Proof.
  case=> A B C D E. split=> //. elim: A => [|i x l m [t [T ->]] _ IH]; constructor=> //.
  exists t. split=> //. rewrite nth_error_app1 //. apply/nth_error_Some. by rewrite T.
Qed.
Lemma Forall2_weaken A B (R R' : A -> B -> Prop) l m : (forall a b, R a b -> R' a b) ->
  Forall2 R l m -> Forall2 R' l m.
Proof. move=> H. by elim=> [|a b l0 m0 X _ IH]; constructor; auto. Qed.
Lemma unfold_all_rep bs ts : unfold_all bs = Ok ts -> Forall2 (rep ts) bs ts.
Proof.
  rewrite /unfold_all.
  have G: forall bs ts0 bs0 ts, foldM (fun ts b => t <- unfold ts b ;; Ok (ts ++ [t])) bs ts0 = Ok ts ->
    Forall2 (rep ts0) bs0 ts0 -> Forall2 (rep ts) (bs0 ++ bs) ts.
  { elim=> [|b bs0 IH] ts0 bs1 ts1 /=; first by case=> <-; rewrite app_nil_r.
    move=> /bind_Ok [ts2 [/bind_Ok [t [T [<-]]] H]] F.
    have -> : bs1 ++ b :: bs0 = (bs1 ++ [b]) ++ bs0 by rewrite -app_assoc.
    apply: IH H _. apply: Forall2_app.
    - apply: Forall2_weaken F => x y. exact: rep_more.
    - constructor=> //. apply: rep_more. exact: unfold_rep. }
  move=> H. apply: (G _ _ [] _ H). constructor.
Qed.
Lemma Forall2_nth A B (R : A -> B -> Prop) l m : Forall2 R l m -> forall k,
  (forall a, nth_error l k = Some a -> exists b, nth_error m k = Some b /\ R a b) /\
  (forall b, nth_error m k = Some b -> exists a, nth_error l k = Some a /\ R a b).
Proof.
  elim=> {l m} [|a b l m H _ IH] [|k] /=; try by split.
  - split=> x [<-]; by [exists b|exists a].
  - exact: IH.
Qed.
