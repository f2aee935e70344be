(** Merging takes a partition of the connections. *)
From Coq Require Import ssreflect ssrbool List String Bool Arith Lia Permutation.
From Verif Require Import Prelude Merge_Model Merge_Spec Merge_Proofs Merge_Proofs2.
Import ListNotations.
Open Scope string_scope. Open Scope list_scope.

Lemma Forall2_perm A B (R : A -> B -> Prop) m m' : Permutation m m' -> forall l, Forall2 R l m ->
  exists l', Permutation l l' /\ Forall2 R l' m'.
Proof.
  elim=> {m m'} [|x m m' P IH|x y m|m m1 m2 P1 IH1 P2 IH2] l F.
  - inversion F; subst. by exists [].
  - inversion F as [|a ? l0 ? H F']; subst. case: (IH _ F') => l' [Q F2]. exists (a :: l').
    split; by constructor.
  - inversion F as [|a ? l0 ? H F']; subst. inversion F' as [|b ? l1 ? H' F2]; subst.
    exists (b :: a :: l1). split; [constructor|by repeat constructor].
  - case: (IH1 _ F) => l1 [Q1 F1]. case: (IH2 _ F1) => l2 [Q2 F2]. exists l2. split=> //.
    exact: perm_trans Q1 Q2.
Qed.
Lemma perm_concat A (l l' : list (list A)) : Permutation l l' -> Permutation (List.concat l) (List.concat l').
Proof.
  elim=> {l l'} [|x l l' P IH|x y l|l l1 l2 P1 IH1 P2 IH2] //=.
  - exact: Permutation_app_head.
  - rewrite !app_assoc. apply: Permutation_app_tail. exact: Permutation_app_comm.
  - exact: perm_trans IH1 IH2.
Qed.
Lemma perm_sub A (a b : list A) : NoDup a -> incl a b -> exists r, Permutation b (a ++ r).
Proof.
  elim: a b => [|x a IH] b N I; first by exists b.
  inversion N as [|? ? NI N']; subst.
  have [b1 [b2 E]] := in_split x b (I x (or_introl eq_refl)). subst b.
  case: (IH (b1 ++ b2) N') => [y Y|r P].
  - have: In y (b1 ++ x :: b2) by apply: I; right. rewrite !in_app_iff /=. case=> [|[E|]]; auto. by subst.
  - exists r. rewrite /=. apply: perm_trans (perm_skip x P). apply: Permutation_sym. exact: Permutation_middle.
Qed.
Lemma sorted_insert x l : sorted l -> sorted (sinsert x l).
Proof.
  elim: l => [|y l IH] //= H. case E: (String.leb x y) => /=; first by split.
  have L: String.leb y x = true.
  { move: E. rewrite /String.leb (String.compare_antisym x y). by case: (String.compare y x). }
  case: l IH H => [|z l] IH H /=; first by split.
  move: H => [H1 H2]. have := IH H2. rewrite /=. case: (String.leb x z) => S; by split.
Qed.
Lemma ssort_sorted l : sorted (ssort l).
Proof. elim: l => [|x l IH] //=. exact: sorted_insert. Qed.

Lemma merge_partition cs out : NoDup cs -> merge cs = Ok out ->
  exists parts, Permutation (List.concat parts) cs /\ Forall2 (fun S d => makes S d /\ forall a b, In a S -> In b S -> linked cs a b) parts out.
Proof.
  move=> N /apply_groups_inv [news [F [A P]]].
  set bigs := filter big (groups (add_connections cs)) in F P.
  have NB: NoDup (List.concat bigs).
  { apply/(NoDup_count_occ mdec) => c. exact: (cnt_le1 cs out news N F P). }
  have IB: incl (List.concat bigs) cs.
  { move=> c /in_concat [g [/filter_In [Hg _] Hc]]. have [_ [_ [_ S']]] := groups_props _ _ Hg. by have [] := S' c Hc. }
  have [rest Q] := perm_sub _ _ _ NB IB.
  have PO: Permutation (rest ++ news) out.
  { apply: (Permutation_app_inv_l (List.concat bigs)). apply: perm_trans P. rewrite app_assoc.
    apply: Permutation_app_tail. exact: Permutation_sym. }
  have F1: Forall2 (fun S d => makes S d /\ forall a b, In a S -> In b S -> linked cs a b) (map (fun c => [c]) rest ++ bigs) (rest ++ news).
  { apply: Forall2_app.
    - elim: (rest) => [|c l IH]; constructor=> //. split; first by left. move=> a b [<-|//] [<-|//]. by constructor.
    - have LK: forall g, In g bigs -> forall a b, In a g -> In b g -> linked cs a b.
      { move=> g /filter_In [Hg _]. by have [_ [_ [? _]]] := groups_props _ _ Hg. }
      elim: F LK => [|g n l m B _ IH] LK; constructor; last by (apply: IH => h Hh; apply: LK; right).
      split; last by (apply: LK; left).
      have {}LK : True by []. have := build_inv _ _ B. move=> [BG [M NM]].
      right. split.
      { case: g B BG {M NM} => [|a [|b g]] //= _ _. lia. }
      split=> //. exists (ssort (map m_name g)). split; first by apply: Permutation_sym; exact: ssort_perm.
      split=> //. exact: ssort_sorted. }
  have [parts [PP F2]] := Forall2_perm _ _ _ _ _ PO _ F1.
  exists parts. split=> //. apply: perm_trans (perm_concat _ _ _ (Permutation_sym PP)) _.
  rewrite concat_app. apply: Permutation_sym. apply: perm_trans Q _.
  apply: perm_trans (Permutation_app_comm _ _) _.
  have -> : List.concat (map (fun c => [c]) rest) = rest by elim: (rest) => [|c l IH] //=; rewrite IH.
  exact: Permutation_refl.
Qed.
