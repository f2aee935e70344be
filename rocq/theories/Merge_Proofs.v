(** Proofs about connection merging. *)
From Coq Require Import ssreflect ssrbool List String Bool Arith Lia Permutation Relation_Operators.
From Verif Require Import Prelude DecStr Merge_Model Merge_Spec.
Import ListNotations.
Open Scope string_scope. Open Scope list_scope.

(** ** Sets *)
Lemma In_sadd A (E : Eqb A) (s : list A) x y : In y (sadd s x) <-> y = x \/ In y s.
Proof.
  rewrite /sadd. case M: (memb x s).
  - move: M => /memb_In M. split; [by right|]. by case=> [->|].
  - rewrite in_app_iff /=. intuition.
Qed.
Lemma NoDup_sadd A (E : Eqb A) (s : list A) x : NoDup s -> NoDup (sadd s x).
Proof.
  rewrite /sadd. case M: (memb x s) => // N. move: M => /memb_nIn M.
  apply: (Permutation_NoDup (l := x :: s)); first by apply: Permutation_cons_append.
  by constructor.
Qed.
Lemma In_sunion A (E : Eqb A) (t s : list A) y : In y (sunion s t) <-> In y s \/ In y t.
Proof.
  rewrite /sunion. elim: t s => [|x t IH] s /=; first by intuition.
  rewrite IH In_sadd. intuition.
Qed.
Lemma NoDup_sunion A (E : Eqb A) (t s : list A) : NoDup s -> NoDup (sunion s t).
Proof.
  rewrite /sunion. elim: t s => [|x t IH] s //= N. apply: IH. exact: NoDup_sadd.
Qed.
Lemma smeets_true A (E : Eqb A) (s t : list A) : smeets s t = true <-> exists x, In x s /\ In x t.
Proof.
  rewrite /smeets existsb_exists. split=> [[x [H M]]|[x [H M]]]; exists x; split=> //; by apply/memb_In.
Qed.
Lemma In_fold_sunion A B (E : Eqb B) (f : A -> list B) g s y :
  In y (fold_left (fun s c => sunion s (f c)) g s) <-> In y s \/ exists c, In c g /\ In y (f c).
Proof.
  elim: g s => [|x g IH] s /=; first by split=> [|[//|[? []//]]]; auto.
  rewrite IH In_sunion. split.
  - case=> [[H|H]|[c [H1 H2]]]; [by left|by right; exists x; auto|by right; exists c; auto].
  - case=> [H|[c [[<-|H1] H2]]]; [by left; left|by left; right|by right; exists c].
Qed.

(** ** Candidates *)
Definition cand_ok (P : mconn -> endkey -> Prop) (cand : dict endkey (list mconn)) : Prop :=
  NoDup (dkeys cand) /\
  (forall k s, dget cand k = Some s -> NoDup s /\ s <> [] /\ forall c, In c s <-> P c k) /\
  (forall k c, P c k -> exists s, dget cand k = Some s).

Lemma cand_ok_ext P Q cand : (forall c k, P c k <-> Q c k) -> cand_ok P cand -> cand_ok Q cand.
Proof.
  move=> H [N [A B]]. split=> //. split.
  - move=> k s /A [? [? X]]. split=> //. split=> // c. by rewrite X H.
  - move=> k c /H. apply: B.
Qed.

Lemma note_end_ok P cand c k : cand_ok P cand ->
  cand_ok (fun d l => P d l \/ (d = c /\ l = k)) (note_end c cand k).
Proof.
  move=> [N [A B]]. rewrite /note_end.
  have K : forall s, NoDup (dkeys (dset cand k s)) by move=> s; apply: NoDup_dset.
  case E: (dget cand k) => [s|].
  - have [Ns [ne Hs]] := A _ _ E. split; first by apply: K. split.
    + move=> l t. case: (eqb_spec k l) => [<-|ne'].
      * rewrite dget_dset_eq. move=> [<-]. split; first by apply: NoDup_sadd. split.
        { rewrite /sadd. case: (memb c s) => //. by case: (s). }
        move=> d. rewrite In_sadd Hs. intuition.
      * rewrite dget_dset_ne //; first by move=> H; apply: ne'.
        move=> /A [? [? X]]. split=> //. split=> // d. rewrite X.
        split; [by left|]. by case=> [//|[_ H]]; case: ne'.
    + move=> l d. case: (eqb_spec k l) => [<-|ne'] H.
      * rewrite dget_dset_eq. by eexists.
      * rewrite dget_dset_ne //; first by move=> H'; apply: ne'.
        case: H => [H|[_ H]]; first by apply: (B l d H). by case: ne'.
  - split; first by apply: K. split.
    + move=> l t. case: (eqb_spec k l) => [<-|ne'].
      * rewrite dget_dset_eq. move=> [<-]. split; first by repeat constructor; case. split=> //.
        move=> d /=. split=> [[<-|//]|[H|[-> _]]]; [by right| |by left].
        have [s X] := B _ _ H. by rewrite X in E.
      * rewrite dget_dset_ne //; first by move=> H; apply: ne'.
        move=> /A [? [? X]]. split=> //. split=> // d. rewrite X.
        split; [by left|]. by case=> [//|[_ H]]; case: ne'.
    + move=> l d. case: (eqb_spec k l) => [<-|ne'] H.
      * rewrite dget_dset_eq. by eexists.
      * rewrite dget_dset_ne //; first by move=> H'; apply: ne'.
        case: H => [H|[_ H]]; first by apply: (B l d H). by case: ne'.
Qed.

Lemma note_ends_ok ks : forall P cand c, cand_ok P cand ->
  cand_ok (fun d l => P d l \/ (d = c /\ In l ks)) (fold_left (note_end c) ks cand).
Proof.
  elim: ks => [|k ks IH] P cand c H /=.
  - apply: cand_ok_ext H => d l. intuition.
  - apply: cand_ok_ext (IH _ _ c (note_end_ok _ _ c k H)) => d l /=. intuition.
Qed.

Lemma add_connections_ok cs :
  cand_ok (fun c k => In c cs /\ In k (ends_of c)) (add_connections cs).
Proof.
  rewrite /add_connections.
  have G : forall cs P cand, cand_ok P cand ->
    cand_ok (fun c k => P c k \/ (In c cs /\ In k (ends_of c)))
      (fold_left (fun cand c => fold_left (note_end c) (ends_of c) cand) cs cand).
  { elim=> [|c l IH] P cand H /=.
    - apply: cand_ok_ext H => d k. intuition.
    - apply: cand_ok_ext (IH _ _ (note_ends_ok (ends_of c) _ _ c H)) => d k /=.
      split; [|by move=> [?|[[<-|?] ?]]; auto].
      move=> [[?|[-> ?]]|[? ?]]; auto. }
  apply: cand_ok_ext (G cs (fun _ _ => False) [] _); first by move=> c k; intuition.
  split; first by constructor. split=> //.
Qed.

(** ** Groups *)
Lemma In_merge_in i multi g : In g (merge_in i multi) ->
  g = i \/ In g multi \/ exists j, In j multi /\ smeets i j = true /\ g = sunion j i.
Proof.
  elim: multi => [|j multi IH] /=; first by case=> // ->; left.
  case M: (smeets i j) => /=; case=> [<-|H].
  - right. right. exists j. auto.
  - right. left. by right.
  - right. left. by left.
  - case: (IH H) => [->|[H'|[j' [? [? ?]]]]]; [by left|by right; left; right|].
    right. right. exists j'. auto.
Qed.
Lemma merge_in_keeps i multi j : In j multi -> exists g, In g (merge_in i multi) /\ incl j g.
Proof.
  elim: multi => [|j' multi IH] //= [<-|H].
  - case: (smeets i j'); eexists; split; try by left.
    + move=> x Hx. apply/In_sunion. by left.
    + done.
  - case: (smeets i j').
    + exists j. split; [by right|done].
    + have [g [H1 H2]] := IH H. exists g. split; [by right|done].
Qed.
Lemma merge_in_has i multi : exists g, In g (merge_in i multi) /\ incl i g.
Proof.
  elim: multi => [|j multi [g [H1 H2]]] /=; first by exists i; split; [left|].
  case: (smeets i j).
  - eexists. split; first by left. move=> x Hx. apply/In_sunion. by right.
  - exists g. split; [by right|done].
Qed.

Section Gen.
Variable R : mconn -> mconn -> Prop.    (* some transitive relation *)
Hypothesis Rt : forall a b c, R a b -> R b c -> R a c.
Definition clique (s : list mconn) := forall a b, In a s -> In b s -> R a b.
Lemma clique_union i j : smeets i j = true -> clique i -> clique j -> clique (sunion j i).
Proof.
  move=> /smeets_true [x [xi xj]] Ci Cj a b /In_sunion Ha /In_sunion Hb.
  case: Ha => Ha; case: Hb => Hb.
  - exact: Cj.
  - apply: (Rt _ x); [exact: Cj|exact: Ci].
  - apply: (Rt _ x); [exact: Ci|exact: Cj].
  - exact: Ci.
Qed.
Lemma groups_clique (L : list (list mconn)) : forall multi,
  (forall s, In s L -> clique s) -> (forall s, In s multi -> clique s) ->
  forall g, In g (fold_left (fun m i => merge_in i m) L multi) -> clique g.
Proof.
  elim: L => [|i L IH] multi HL HM g /=; first by apply: HM.
  apply: IH => [s Hs|s /In_merge_in]; first by apply: HL; right.
  have Ci : clique i by apply: HL; left.
  case=> [->//|[/HM//|[j [/HM Hj [M ->]]]]]. exact: clique_union.
Qed.
End Gen.

Lemma groups_wf (L : list (list mconn)) : forall multi,
  (forall s, In s L -> NoDup s /\ s <> []) -> (forall s, In s multi -> NoDup s /\ s <> []) ->
  forall g, In g (fold_left (fun m i => merge_in i m) L multi) -> NoDup g /\ g <> [].
Proof.
  elim: L => [|i L IH] multi HL HM g /=; first by apply: HM.
  apply: IH => [s Hs|s /In_merge_in]; first by apply: HL; right.
  have Ci := HL i (or_introl eq_refl).
  case=> [->//|[/HM//|[j [/HM [N ne] [M ->]]]]]. split; first by apply: NoDup_sunion.
  move=> E. case: j N ne M E => // x j _ _ _ E.
  have : In x (sunion (x :: j) i) by apply/In_sunion; left; left.
  by rewrite E.
Qed.

Lemma groups_src (L : list (list mconn)) : forall multi g x,
  In g (fold_left (fun m i => merge_in i m) L multi) -> In x g ->
  exists s, (In s L \/ In s multi) /\ In x s.
Proof.
  elim: L => [|i L IH] multi g x /= Hg Hx; first by exists g; auto.
  have [s [[H|H] Hs]] := IH _ _ _ Hg Hx; first by exists s; auto.
  case: (In_merge_in _ _ _ H) => [E|[H'|[j [Hj [_ E]]]]].
  - exists i. split; [by left; left|by rewrite -E].
  - exists s. auto.
  - move: Hs. rewrite E In_sunion. case=> ?; [exists j|exists i]; auto.
Qed.

Lemma groups_cover (L : list (list mconn)) : forall multi s, (In s L \/ In s multi) ->
  exists g, In g (fold_left (fun m i => merge_in i m) L multi) /\ incl s g.
Proof.
  elim: L => [|i L IH] multi s /=.
  - case=> // H. exists s. split=> //.
  - case=> [[<-|H]|H].
    + have [g [H1 H2]] := merge_in_has i multi. have [h [H3 H4]] := IH (merge_in i multi) g (or_intror H1).
      exists h. split=> // x Hx. by apply: H4; apply: H2.
    + by apply: IH; left.
    + have [g [H1 H2]] := merge_in_keeps i multi s H. have [h [H3 H4]] := IH (merge_in i multi) g (or_intror H1).
      exists h. split=> // x Hx. by apply: H4; apply: H2.
Qed.

Lemma groups_fold cand : groups cand = fold_left (fun m i => merge_in i m) (map snd cand) [].
Proof.
  rewrite /groups. elim: cand ([] : list (list mconn)) => [|kv cand IH] m //=.
Qed.

Definition cset (cs : list mconn) (s : list mconn) : Prop := In s (map snd (add_connections cs)).
Lemma cset_inv cs s : cset cs s -> exists k, NoDup s /\ s <> [] /\
  forall c, In c s <-> In c cs /\ In k (ends_of c).
Proof.
  move=> /in_map_iff [[k s'] [/= -> H]]. have [N [A _]] := add_connections_ok cs.
  exists k. apply: A. exact: In_dget.
Qed.
Lemma cset_of cs c k : In c cs -> In k (ends_of c) ->
  exists s, cset cs s /\ forall d, In d s <-> In d cs /\ In k (ends_of d).
Proof.
  move=> Hc Hk. have [N [A B]] := add_connections_ok cs.
  have [s E] := B k c (conj Hc Hk). exists s. split.
  - apply/in_map_iff. exists (k, s). split=> //. exact: dget_In.
  - by have [_ [_ X]] := A _ _ E.
Qed.

Lemma ends_share c d k : In k (ends_of c) -> In k (ends_of d) -> share c d.
Proof.
  rewrite /ends_of => /in_app_iff [] /in_map_iff [e [<- H]] /in_app_iff [] /in_map_iff [e' [E H']];
    try discriminate E; move: E => [E]; subst e'.
  - left. by exists e.
  - right. by exists e.
Qed.
Lemma share_ends c d : share c d -> exists k, In k (ends_of c) /\ In k (ends_of d).
Proof.
  case=> [[e [H1 H2]]|[e [H1 H2]]].
  - exists (true, e). rewrite /ends_of !in_app_iff. split; left; apply/in_map_iff; by exists e.
  - exists (false, e). rewrite /ends_of !in_app_iff. split; right; apply/in_map_iff; by exists e.
Qed.

Lemma linked_trans cs a b c : linked cs a b -> linked cs b c -> linked cs a c.
Proof. move=> H. elim: H => // x y z Hxy _ IH Hz. apply: (rt1n_trans _ _ _ y) => //. exact: IH. Qed.

Lemma groups_props cs g : In g (groups (add_connections cs)) ->
  NoDup g /\ g <> [] /\ (forall a b, In a g -> In b g -> linked cs a b) /\
  (forall a, In a g -> In a cs /\ exists k, In k (ends_of a)).
Proof.
  rewrite groups_fold => H.
  have [N ne] : NoDup g /\ g <> [].
  { apply: (groups_wf _ [] _ _ g H) => // s Hs. by have [k [? [? _]]] := cset_inv cs s Hs. }
  split=> //. split=> //. split.
  - apply: (groups_clique (linked cs) (linked_trans cs) _ [] _ _ g H) => // s Hs a b Ha Hb.
    have [k [_ [_ X]]] := cset_inv cs s Hs.
    move: Ha Hb => /X [? ?] /X [? ?]. apply: (rt1n_trans _ _ _ b); last by constructor.
    split=> //. split=> //. exact: (ends_share _ _ k).
  - move=> a Ha. have [s [[Hs|[]] Hx]] := groups_src _ [] g a H Ha.
    have [k [_ [_ X]]] := cset_inv cs s Hs. move: Hx => /X [? ?]. split=> //. by exists k.
Qed.
Lemma groups_together cs c d k : In c cs -> In d cs -> In k (ends_of c) -> In k (ends_of d) ->
  exists g, In g (groups (add_connections cs)) /\ In c g /\ In d g.
Proof.
  move=> Hc Hd Kc Kd. have [s [Hs X]] := cset_of cs c k Hc Kc.
  have [g [Hg I]] := groups_cover (map snd (add_connections cs)) [] s (or_introl Hs).
  exists g. rewrite groups_fold. split=> //. split; apply: I; by apply/X.
Qed.

(** ** Building and applying *)
Definition big (g : list mconn) : bool := match g with [_] => false | _ => true end.
Lemma build_inv g o : build g = Ok o ->
  match o with
  | None => big g = false
  | Some n => big g = true /\ merged_from g n /\ m_name n = join_name (ssort (map m_name g))
  end.
Proof.
  case: g => [|c [|d g]] //=; first by move=> [<-].
  case E: (String.eqb (m_type d) (m_type c) && _) => //. move=> [<-]. split=> //. split=> //.
  move: E => /andP [/String.eqb_eq E1 /forallb_forall E2]. split=> /=.
  - move=> x [<-//|[<-//|H]]. by apply/String.eqb_eq; apply: E2.
  - split=> e.
    + have := In_fold_sunion _ _ _ m_to (c :: d :: g) [] e. rewrite /= => ->. split=> [[//|[]]|H].
      * by move=> x Hx; exists x.
      * by right.
    + have := In_fold_sunion _ _ _ m_from (c :: d :: g) [] e. rewrite /= => ->. split=> [[//|[]]|H].
      * by move=> x Hx; exists x.
      * by right.
Qed.
Lemma build_ok g : g <> [] -> (forall a b, In a g -> In b g -> m_type a = m_type b) ->
  exists o, build g = Ok o.
Proof.
  case: g => [|c [|d g]] // _ H; first by exists None.
  cbv [build]. case E: (forallb _ _); first by eexists.
  move: E => /negbT /negP. case. apply/forallb_forall => x Hx. apply/String.eqb_eq.
  apply: H; [by right|by left].
Qed.

Lemma lremove_perm c l : forall l', lremove c l = Ok l' -> Permutation l (c :: l').
Proof.
  elim: l => [|x l IH] l' //. cbn [lremove]. case: (eqb_spec c x) => [->|ne]; first by move=> [->].
  case E: (lremove c l) => [l1|] //=. move=> [<-].
  apply: (perm_trans (l' := x :: c :: l1)); last by constructor.
  constructor. exact: IH.
Qed.
Lemma lremove_ok c l : In c l -> exists l', lremove c l = Ok l'.
Proof.
  elim: l => [|x l IH] // H. cbn [lremove]. case: (eqb_spec c x) => [_|ne]; first by eexists.
  case: H => [E|H]; first by case: ne.
  have [l' ->] := IH H. by eexists.
Qed.
Lemma removes_perm g : forall l l', foldM (fun l c => lremove c l) g l = Ok l' ->
  Permutation l (g ++ l').
Proof.
  elim: g => [|c g IH] l l' /=; first by move=> [->].
  case E: (lremove c l) => [l1|] //= /IH H.
  apply: (perm_trans (lremove_perm _ _ _ E)) => /=. by constructor.
Qed.
Lemma removes_ok g : forall l, NoDup g -> incl g l ->
  exists l', foldM (fun l c => lremove c l) g l = Ok l'.
Proof.
  elim: g => [|c g IH] l N I /=; first by eexists.
  have [l1 E] := lremove_ok c l (I c (or_introl eq_refl)). rewrite E /=.
  inversion N; subst. apply: IH => // x Hx.
  have : In x (c :: l1) by apply (Permutation_in x (lremove_perm _ _ _ E)); apply: I; right.
  case=> // Ex. by subst x.
Qed.

Lemma apply_groups_inv gs : forall l out, foldM apply_group gs l = Ok out ->
  exists news, Forall2 (fun g n => build g = Ok (Some n)) (filter big gs) news /\
    (forall g, In g gs -> exists o, build g = Ok o) /\
    Permutation (l ++ news) (List.concat (filter big gs) ++ out).
Proof.
  elim: gs => [|g gs IH] l out /=.
  - move=> [->]. exists []. split=> //. split=> //. by rewrite app_nil_r.
  - case AG: (apply_group l g) => [l2|] //=. move: AG. rewrite /apply_group. case B: (build g) => [o|] //=. have I := build_inv _ _ B.
    case: o I B => [n|] I B.
    + move: I => [-> [M Nm]]. case E: (foldM (fun l c => lremove c l) g l) => [l1|] //=.
      move=> [<-] H. have [news [F [A P]]] := IH _ _ H.
      exists (n :: news). split; first by constructor. split.
      { move=> h [<-|H']; [by eexists; apply: B|exact: A]. }
      have P1 := removes_perm _ _ _ E.
      apply: (perm_trans (l' := (g ++ l1) ++ n :: news)); first by apply: Permutation_app_tail.
      rewrite /= -!app_assoc. apply: Permutation_app_head.
      apply: perm_trans P. rewrite -app_assoc. reflexivity.
    + rewrite I /= => [[<-]] H. have [news [F [A P]]] := IH _ _ H. exists news. split=> //. split=> //.
      move=> h [<-|H']; [by eexists; apply: B|exact: A].
Qed.

(** ** Names grow *)
Lemma concat_length sep l : l <> [] ->
  fold_right (fun s n => (String.length s + n)%nat) 0 l <= String.length (String.concat sep l).
Proof.
  elim: l => [//|x l IH] _. case: l IH => [|y l] IH; first by simpl; lia.
  have H := IH ltac:(discriminate).
  change (String.concat sep (x :: y :: l)) with (x ++ sep ++ String.concat sep (y :: l))%string.
  rewrite !string_length_app. simpl in H |- *. lia.
Qed.
Lemma concat_length2 x y l :
  fold_right (fun s n => (String.length s + n)%nat) 0 (x :: y :: l) < String.length (String.concat "." (x :: y :: l)).
Proof.
  change (String.concat "." (x :: y :: l)) with (x ++ "." ++ String.concat "." (y :: l))%string.
  rewrite !string_length_app. have := concat_length "." (y :: l) ltac:(discriminate). simpl. lia.
Qed.
Lemma sinsert_perm x l : Permutation (x :: l) (sinsert x l).
Proof.
  elim: l => [|y l IH] //=. case: (String.leb x y) => //.
  apply: (perm_trans (perm_swap y x l)). by constructor.
Qed.
Lemma ssort_perm l : Permutation l (ssort l).
Proof.
  elim: l => [|x l IH] //=. apply: (perm_trans (l' := x :: ssort l)); [by constructor|exact: sinsert_perm].
Qed.
Lemma sum_perm l l' : Permutation l l' ->
  fold_right (fun s n => (String.length s + n)%nat) 0 l = fold_right (fun s n => (String.length s + n)%nat) 0 l'.
Proof. elim=> //= [x a b _ ->//|x y a|a b c _ -> _ ->//]. lia. Qed.
Lemma sum_In x l : In x l -> String.length x <= fold_right (fun s n => (String.length s + n)%nat) 0 l.
Proof. elim: l => [|y l IH] //= [->|/IH]; lia. Qed.

Lemma name_grows g n b : g <> [] -> build g = Ok (Some n) -> In b g ->
  String.length (m_name b) < String.length (m_name n).
Proof.
  move=> ne B H. have [G [_ ->]] := build_inv _ _ B.
  case: g ne G H B => [|x [|y g]] // _ _ H B.
  have P := ssort_perm (map m_name (x :: y :: g)).
  have L := Permutation_length P.
  rewrite /join_name. case E: (ssort _) P L => [|u [|v s]] // P L.
  have S := concat_length2 u v s. rewrite -(sum_perm _ _ P) in S.
  have : In (m_name b) (map m_name (x :: y :: g)) by apply: in_map.
  move=> /sum_In. simpl in S |- *. lia.
Qed.

(** ** Counting *)
Definition mdec (a b : mconn) : {a = b} + {a <> b}.
Proof. case: (eqb_spec a b) => H; [by left|by right]. Defined.
Notation cnt := (count_occ mdec).

Lemma count_two (G : list (list mconn)) g h x : In g G -> In h G -> g <> h -> In x g -> In x h ->
  2 <= cnt (List.concat G) x.
Proof.
  have One : forall G g, In g G -> In x g -> 1 <= cnt (List.concat G) x.
  { move=> G' g' H1 H2. have : In x (List.concat G') by apply/in_concat; exists g'.
    move=> /(count_occ_In mdec). lia. }
  elim: G => [|a G IH] //= Hg Hh ne Xg Xh. rewrite count_occ_app.
  case: Hg => [Eg|Hg]; case: Hh => [Eh|Hh].
  - by case: ne; rewrite -Eg -Eh.
  - subst a. have := One _ _ Hh Xh. move: Xg => /(count_occ_In mdec). lia.
  - subst a. have := One _ _ Hg Xg. move: Xh => /(count_occ_In mdec). lia.
  - have := IH Hg Hh ne Xg Xh. lia.
Qed.

Lemma Forall2_In_l' A B (R : A -> B -> Prop) l l' x : Forall2 R l l' -> In x l -> exists y, In y l' /\ R x y.
Proof. elim=> [|a b la lb H F IH] //= [<-|/IH [y [? ?]]]; [exists b|exists y]; auto. Qed.
Lemma Forall2_In_r' A B (R : A -> B -> Prop) l l' y : Forall2 R l l' -> In y l' -> exists x, In x l /\ R x y.
Proof. elim=> [|a b la lb H F IH] //= [<-|/IH [x [? ?]]]; [exists a|exists x]; auto. Qed.

Section Done.
Variables (cs out news : list mconn).
Hypothesis Ncs : NoDup cs.
Let gs := groups (add_connections cs).
Hypothesis F : Forall2 (fun g n => build g = Ok (Some n)) (filter big gs) news.
Hypothesis P : Permutation (cs ++ news) (List.concat (filter big gs) ++ out).

Lemma big_two g (a b : mconn) : In a g -> In b g -> a <> b -> big g = true.
Proof. case: g => [|x [|y g]] // [<-|//] [<-|//] H. by case: H. Qed.

Lemma news_ends h n b k : In h gs -> build h = Ok (Some n) -> In b h -> In k (ends_of b) ->
  In k (ends_of n).
Proof.
  move=> Hh B Hb. have [_ [[_ [To From]] _]] := build_inv _ _ B.
  rewrite /ends_of !in_app_iff. case=> /in_map_iff [e [<- He]]; [left|right]; apply/in_map_iff; exists e; split=> //.
  - apply/To. by exists b.
  - apply/From. by exists b.
Qed.

Lemma cnt_le1_aux m : forall c, String.length (m_name c) < m -> In c cs ->
  cnt (List.concat (filter big gs)) c <= 1.
Proof.
  elim: m => [|m IH] c L Hc; first lia.
  case: (Nat.le_gt_cases (cnt (List.concat (filter big gs)) c) 1) => // Two. exfalso.
  have C1 : cnt cs c <= 1 by apply: (proj1 (NoDup_count_occ mdec cs)).
  have EQ := proj1 (Permutation_count_occ mdec _ _) P c. rewrite !count_occ_app in EQ.
  have : In c news by apply/(count_occ_In mdec); lia.
  move=> /(Forall2_In_r' _ _ _ _ _ _ F) [h [/filter_In [Hh Bh] B]].
  have [Nh [neh [Lk Src]]] := groups_props _ _ Hh.
  have [b Hb] : exists b, In b h by case: (h) neh => // b ? _; exists b; left.
  have [Hbcs [k Kb]] := Src b Hb.
  have Lb := name_grows _ _ _ neh B Hb.
  have Kc := news_ends _ _ _ _ Hh B Hb Kb.
  have [g [Hg [Bg Cg]]] := groups_together cs b c k Hbcs Hc Kb Kc.
  have nbc : b <> c by move=> E; subst b; lia.
  have ngh : g <> h. { move=> E. subst g. have := name_grows _ _ _ neh B Cg. lia. }
  have : 2 <= cnt (List.concat (filter big gs)) b.
  { apply: (count_two _ g h) => //; apply/filter_In; split=> //. exact: (big_two g b c). }
  have := IH b ltac:(lia) Hbcs. lia.
Qed.

Lemma cnt_le1 c : cnt (List.concat (filter big gs)) c <= 1.
Proof.
  case: (in_dec mdec c (List.concat (filter big gs))) => [H|H].
  - apply: (cnt_le1_aux (S (String.length (m_name c)))); first lia.
    move: H => /in_concat [g [/filter_In [Hg _] Hc]].
    have [_ [_ [_ S']]] := groups_props _ _ Hg. by have [] := S' c Hc.
  - rewrite (proj1 (count_occ_not_In mdec _ _) H). lia.
Qed.
Lemma one_group g h c : In g gs -> In h gs -> big g = true -> big h = true -> In c g -> In c h -> g = h.
Proof.
  move=> Hg Hh Bg Bh Cg Ch. case: (eqb_spec g h) => // ne.
  have : 2 <= cnt (List.concat (filter big gs)) c by apply: (count_two _ g h) => //; apply/filter_In.
  have := cnt_le1 c. lia.
Qed.
Lemma news_fresh n : In n news -> ~ In n cs.
Proof.
  move=> /(Forall2_In_r' _ _ _ _ _ _ F) [h [/filter_In [Hh Bh] B]] Hn.
  have [Nh [neh [Lk Src]]] := groups_props _ _ Hh.
  have [b Hb] : exists b, In b h by case: (h) neh => // b ? _; exists b; left.
  have [Hbcs [k Kb]] := Src b Hb.
  have Kc := news_ends _ _ _ _ Hh B Hb Kb.
  have [g [Hg [Bg Cg]]] := groups_together cs b n k Hbcs Hn Kb Kc.
  have Lb := name_grows _ _ _ neh B Hb.
  have nbc : b <> n by move=> E; subst b; lia.
  have E : g = h by apply: (one_group g h b) => //; apply: (big_two g b n).
  subst g. have := name_grows _ _ _ neh B Cg. lia.
Qed.
Lemma In_out c : In c out <-> (In c cs /\ forall g, In g gs -> big g = true -> ~ In c g) \/ In c news.
Proof.
  have EQ := proj1 (Permutation_count_occ mdec _ _) P c. rewrite !count_occ_app in EQ.
  have IC : In c (List.concat (filter big gs)) -> In c cs.
  { move=> /in_concat [g [/filter_In [Hg _] Hc]]. have [_ [_ [_ S']]] := groups_props _ _ Hg. by have [] := S' c Hc. }
  have C1 : cnt cs c <= 1 by apply: (proj1 (NoDup_count_occ mdec cs)).
  split.
  - move=> /(count_occ_In mdec) H. case: (in_dec mdec c news) => [|Hn]; first by right.
    left. have Z := proj1 (count_occ_not_In mdec _ _) Hn.
    split; first by apply/(count_occ_In mdec); lia.
    move=> g Hg Bg Cg. have : In c (List.concat (filter big gs)).
    { apply/in_concat. exists g. split=> //. by apply/filter_In. }
    move=> /(count_occ_In mdec). lia.
  - case=> [[Hc Hg]|Hn].
    + have : cnt (List.concat (filter big gs)) c = 0.
      { apply/(count_occ_not_In mdec). move=> /in_concat [g [/filter_In [Hg' Bg] Hc']]. exact: (Hg g). }
      move: Hc => /(count_occ_In mdec) Hc H0. apply/(count_occ_In mdec). lia.
    + have Z : cnt cs c = 0 by apply/(count_occ_not_In mdec); apply: news_fresh.
      have Z' : cnt (List.concat (filter big gs)) c = 0.
      { apply/(count_occ_not_In mdec). by move=> /IC; apply: news_fresh. }
      move: Hn => /(count_occ_In mdec) Hc. apply/(count_occ_In mdec). lia.
Qed.
End Done.
