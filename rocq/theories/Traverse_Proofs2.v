(** Proofs about traversals: contexts and exceptions, replacement, frozen ASTs. *)
From Coq Require Import ssreflect ssrbool List Bool Sorted PeanoNat Lia.
From Verif Require Import Prelude Traverse_Model Traverse_Spec Traverse_Proofs.
Import ListNotations.

Definition ends (F : nat -> Prop) (e : option exn) (log : list note) : Prop :=
  match e with
  | None => Forall (fun x => raised x = None) log
  | Some e => exists before x k r, log = before ++ [(x, k, r)] /\ Forall (fun x => raised x = None) before /\
    (r = inr e \/ (e = TypeError /\ (exists y, r = inl (Put y)) /\ F k))
  end.
Lemma ends_app (F G : nat -> Prop) e l l' : Forall (fun x => raised x = None) l -> ends F e l' -> (forall k, F k -> G k) -> ends G e (l ++ l').
Proof.
  move=> Hl. case: e => [e|] /=; last by move=> H _; apply/Forall_app.
  move=> [b [x [k [r [-> [B H]]]]]] FG. exists (l ++ b), x, k, r. rewrite app_assoc. split=> //. split; first by apply/Forall_app.
  move: H => [H|[H1 [H2 H3]]]; [by left|right]. by auto.
Qed.

Section Notes.
Context {S : Type} (act : S -> option node -> S * (change + exn)).

Definition frozen_at (n : node) (d k : nat) : Prop := exists q m, at_ n q = Some (Some m) /\ is_frozen m = true /\ k = d + List.length q.
Definition frozen_go (fz : bool) (l : list slot) (d k : nat) : Prop :=
  (fz = true /\ k = d) \/ exists b c, In (b, Some c) l /\ frozen_at c (d + 1) k.
Definition from_slots (same : option node -> option node -> Prop) (sl : list slot) (d : nat) (x : note) : Prop :=
  exists j p b o y, nth_error sl j = Some (b, o) /\ slot_at o p = Some y /\ same y (fst (fst x)) /\ snd (fst x) = d + List.length p.
Definition from_node (same : option node -> option node -> Prop) (n : node) (d : nat) (x : note) : Prop :=
  exists p y, p <> [] /\ at_ n p = Some y /\ same y (fst (fst x)) /\ snd (fst x) + 1 = d + List.length p.
Lemma from_slots_node R t fz sl d x : from_slots R sl d x -> from_node R (Node t fz sl) d x.
Proof.
  move=> [j [p [b [o [y [N [A [E K]]]]]]]]. exists (j :: p), y. split=> //. rewrite at_slot N. split=> //. split=> //. cbn [List.length]. lia.
Qed.
Lemma from_node_slots R b c l d x : from_node R c (d + 1) x -> from_slots R ((b, Some c) :: l) d x.
Proof. move=> [p [y [N [A [E K]]]]]. exists 0, p, b, (Some c), y. split=> //. split=> //. split=> //. lia. Qed.
Lemma from_slots_tl R y l d x : from_slots R l d x -> from_slots R (y :: l) d x.
Proof. move=> [j [p [b [o H]]]]. by exists (Datatypes.S j), p, b, o. Qed.
Lemma frozen_go_tl fz x l d k : frozen_go fz l d k -> frozen_go fz (x :: l) d k.
Proof. move=> [H|[b [c [I H]]]]; [by left|right]. exists b, c. split=> //. by right. Qed.
Lemma frozen_go_hd fz b c l d k : frozen_at c (d + 1) k -> frozen_go fz ((b, Some c) :: l) d k.
Proof. move=> H. right. exists b, c. split=> //. by left. Qed.
Lemma frozen_go_node t fz sl d k : frozen_go fz sl d k -> frozen_at (Node t fz sl) d k.
Proof.
  move=> [[-> ->]|[b [c [I [q [m [A [B ->]]]]]]]].
  - exists [], (Node t true sl). by rewrite /= Nat.add_0_r.
  - have [j N] := In_nth_error _ _ I. exists (j :: q), m. rewrite at_slot N. split=> //. split=> //. cbn [List.length]. lia.
Qed.

Definition pre_ok (n : node) : Prop := forall s d log, exists n' s' new e,
  preorder (noted act) deeper back n (s, (d, log)) = (n', (s', (d, log ++ new)), e) /\ preorder act id id n s = (n', s', e) /\
  Forall (from_node eq n d) new /\ (proper n -> ends (frozen_at n d) e new).
Lemma pre_noted n : pre_ok n.
Proof.
  elim/node_ind': n => t fz sl H s d log.
  suff [l' [s' [new [e [A [B [C D]]]]]]] : exists l' s' new e,
    pre_go (noted act) deeper back fz sl (s, (d, log)) = (l', (s', (d, log ++ new)), e) /\ pre_go act id id fz sl s = (l', s', e) /\
    Forall (from_slots eq sl d) new /\ (Forall (good_slot proper) sl -> ends (frozen_go fz sl d) e new).
  { exists (Node t fz l'), s', new, e. rewrite !preorder_eq A B. split=> //. split=> //. split.
    - apply: Forall_impl C => x. exact: from_slots_node.
    - move=> /proper_slots /D E. rewrite -(app_nil_l new). apply: (ends_app _ _ _ _ _ _ E) => //. exact: frozen_go_node. }
  elim: H s log => [|[b o] l Ho _ IH] s log.
  { exists [], s, [], None. rewrite app_nil_r. repeat (split; first by []). by move=> _; constructor. }
  rewrite !pre_go_cons. rewrite {1}/noted. case AC: (act s o) => [s1 r].
  have F1 : from_slots eq ((b, o) :: l) d (o, d, r).
  { exists 0, [], b, o, o. split=> //. split; first by case: (o). by rewrite /= Nat.add_0_r. }
  have IH' : forall s2 log0, exists l' s' new e,
    pre_go (noted act) deeper back fz l (s2, (d, log0)) = (l', (s', (d, log0 ++ new)), e) /\ pre_go act id id fz l s2 = (l', s', e) /\
    Forall (from_slots eq ((b, o) :: l) d) new /\ (Forall (good_slot proper) ((b, o) :: l) -> ends (frozen_go fz ((b, o) :: l) d) e new).
  { move=> s2 log0. have [l' [s' [new [e [A [B [C D]]]]]]] := IH s2 log0. exists l', s', new, e. split=> //. split=> //. split.
    - apply: Forall_impl C => x. exact: from_slots_tl.
    - move=> G. inversion G; subst. rewrite -(app_nil_l new). apply: (ends_app _ _ _ _ _ _ (D _)) => // k. exact: frozen_go_tl. }
  clear IH. case: r AC F1 => [[|o']|e] AC F1; last first.
  { exists ((b, o) :: l), s1, [(o, d, inr e)], (Some e). split=> //. split=> //. split; first by constructor.
    move=> _. exists [], o, d, (inr e). split=> //. split=> //. by left. }
  { destruct fz.
    - exists ((b, o) :: l), s1, [(o, d, inl (Put o'))], (Some TypeError). split=> //. split=> //. split; first by constructor.
      move=> _. exists [], o, d, (inl (Put o')). split=> //. split=> //. right. split=> //. split; [by exists o'|by left].
    - have [l' [s' [new [e [A [B [C D]]]]]]] := IH' s1 (log ++ [(o, d, inl (Put o'))]).
      exists ((b, o') :: l'), s', ((o, d, inl (Put o')) :: new), e. rewrite A B. split; first by rewrite -app_assoc.
      split=> //. split; first by constructor. move=> G. apply: (ends_app _ _ _ [_] _ _ (D G)) => //. by constructor. }
  move: Ho F1 IH'. cbn [snd]. destruct o as [c|]; move=> Hc F1 IH'.
  - have [c' [s2 [new1 [e1 [A1 [B1 [C1 D1]]]]]]] := Hc s1 (d + 1) (log ++ [(Some c, d, inl Keep)]).
    rewrite [deeper _]/= A1 /id B1. rewrite [back _]/= Nat.add_sub.
    have C2 : Forall (from_slots eq ((b, Some c) :: l) d) ((Some c, d, inl Keep) :: new1).
    { constructor=> //. apply: Forall_impl C1 => x. exact: from_node_slots. }
    destruct e1 as [e1|].
    + exists ((b, Some c') :: l), s2, ((Some c, d, inl Keep) :: new1), (Some e1). split; first by rewrite -app_assoc.
      split=> //. split=> // G. inversion G as [|? ? G1 G2]; subst. apply: (ends_app _ _ _ [_] _ _ (D1 G1)) => //; first by constructor.
      move=> k. exact: frozen_go_hd.
    + have [l' [s' [new [e [A [B [C D]]]]]]] := IH' s2 ((log ++ [(Some c, d, inl Keep)]) ++ new1).
      exists ((b, Some c') :: l'), s', ((Some c, d, inl Keep) :: new1 ++ new), e. rewrite A. rewrite /id in B. rewrite B.
      split; first by rewrite -!app_assoc. split=> //. split.
      * rewrite app_comm_cons. by apply/Forall_app.
      * move=> G. inversion G as [|? ? G1 G2]; subst. rewrite app_comm_cons. apply: (ends_app _ _ _ _ _ _ (D G)) => //. constructor=> //. exact: D1.
  - destruct b.
    + exists ((true, None) :: l), s1, [(None, d, inl Keep)], (Some OtherException). rewrite /= Nat.add_sub. split=> //. split=> //.
      split; first by constructor. move=> G. inversion G as [|? ? G1 G2]; subst. discriminate G1.
    + have [l' [s' [new [e [A [B [C D]]]]]]] := IH' s1 (log ++ [(None, d, inl Keep)]).
      exists ((false, None) :: l'), s', ((None, d, inl Keep) :: new), e. rewrite A B. split; first by rewrite -app_assoc.
      split=> //. split; first by constructor. move=> G. apply: (ends_app _ _ _ [_] _ _ (D G)) => //. by constructor.
Qed.

Definition post_ok (n : node) : Prop := forall s d log, exists n' s' new e,
  postorder (noted act) deeper back n (s, (d, log)) = (n', (s', (d, log ++ new)), e) /\ postorder act id id n s = (n', s', e) /\
  same_outside (Some n) (Some n') /\
  Forall (from_node same_outside n d) new /\ (proper n -> ends (frozen_at n d) e new).
Lemma same_refl x : same_outside x x.
Proof. by case: x => [[t f sl]|]. Qed.
Lemma post_noted n : post_ok n.
Proof.
  elim/node_ind': n => t fz sl H s d log.
  suff [l' [s' [new [e [A [B [M [C D]]]]]]]] : exists l' s' new e,
    post_go (noted act) deeper back fz sl (s, (d, log)) = (l', (s', (d, log ++ new)), e) /\ post_go act id id fz sl s = (l', s', e) /\
    map fst sl = map fst l' /\
    Forall (from_slots same_outside sl d) new /\ (Forall (good_slot proper) sl -> ends (frozen_go fz sl d) e new).
  { exists (Node t fz l'), s', new, e. rewrite !postorder_eq A B. split=> //. split=> //. split=> //. split.
    - apply: Forall_impl C => x. exact: from_slots_node.
    - move=> /proper_slots /D E. rewrite -(app_nil_l new). apply: (ends_app _ _ _ _ _ _ E) => //. exact: frozen_go_node. }
  elim: H s log => [|[b o] l Ho _ IH] s log.
  { exists [], s, [], None. rewrite app_nil_r. repeat (split; first by []). by move=> _; constructor. }
  rewrite !post_go_cons.
  have IH' : forall s2 log0, exists l' s' new e,
    post_go (noted act) deeper back fz l (s2, (d, log0)) = (l', (s', (d, log0 ++ new)), e) /\ post_go act id id fz l s2 = (l', s', e) /\
    map fst l = map fst l' /\
    Forall (from_slots same_outside ((b, o) :: l) d) new /\ (Forall (good_slot proper) ((b, o) :: l) -> ends (frozen_go fz ((b, o) :: l) d) e new).
  { move=> s2 log0. have [l' [s' [new [e [A [B [M [C D]]]]]]]] := IH s2 log0. exists l', s', new, e. split=> //. split=> //. split=> //. split.
    - apply: Forall_impl C => x. exact: from_slots_tl.
    - move=> G. inversion G; subst. rewrite -(app_nil_l new). apply: (ends_app _ _ _ _ _ _ (D _)) => // k. exact: frozen_go_tl. }
  clear IH.
  (* the part below the slot *)
  have X : exists o' s1 new1 e1,
    match o with
    | None => if b then (o, back (deeper (s, (d, log))), Some OtherException) else (o, (s, (d, log)), None)
    | Some c => let '(c', s1, e) := postorder (noted act) deeper back c (deeper (s, (d, log))) in (Some c', back s1, e)
    end = (o', (s1, (d, log ++ new1)), e1) /\
    match o with
    | None => if b then (o, id (id s), Some OtherException) else (o, s, None)
    | Some c => let '(c', s1, e) := postorder act id id c (id s) in (Some c', id s1, e)
    end = (o', s1, e1) /\ same_outside o o' /\ Forall (from_slots same_outside ((b, o) :: l) d) new1 /\
    (good_slot proper (b, o) -> ends (frozen_go fz ((b, o) :: l) d) e1 new1).
  { move: Ho. cbn [snd]. destruct o as [c|]; move=> Hc.
    - have [c' [s2 [new1 [e1 [A1 [B1 [M1 [C1 D1]]]]]]]] := Hc s (d + 1) log.
      exists (Some c'), s2, new1, e1. rewrite [deeper _]/= A1 /id B1. rewrite [back _]/= Nat.add_sub. split=> //. split=> //. split=> //. split.
      + apply: Forall_impl C1 => x. exact: from_node_slots.
      + move=> G. rewrite -(app_nil_l new1). apply: (ends_app _ _ _ _ _ _ (D1 G)) => // k. exact: frozen_go_hd.
    - destruct b.
      + exists None, s, [], (Some OtherException). rewrite /= Nat.add_sub app_nil_r. repeat (split; first by []). by move=> G; discriminate G.
      + exists None, s, [], None. rewrite app_nil_r. repeat (split; first by []). by move=> _; constructor. }
  move: X => [o' [s1 [new1 [e1 [A1 [B1 [M1 [C1 D1]]]]]]]]. rewrite A1 B1.
  destruct e1 as [e1|].
  { exists ((b, o') :: l), s1, new1, (Some e1). split=> //. split=> //. split=> //. split=> // G. inversion G; subst. exact: D1. }
  cbn [noted]. case AC: (act s1 o') => [s2 r].
  have F1 : Forall (from_slots same_outside ((b, o) :: l) d) (new1 ++ [(o', d, r)]).
  { apply/Forall_app. split=> //. constructor=> //. exists 0, [], b, o, o. split=> //. split; first by case: (o). by rewrite /= Nat.add_0_r. }
  rewrite -app_assoc.
  case: r AC F1 => [[|o2]|e] AC F1; last first.
  { exists ((b, o') :: l), s2, (new1 ++ [(o', d, inr e)]), (Some e). split=> //. split=> //. split=> //. split=> //.
    move=> G. inversion G as [|? ? G1 G2]; subst. exists new1, o', d, (inr e). split=> //. split; first exact: D1. by left. }
  { destruct fz.
    - exists ((b, o') :: l), s2, (new1 ++ [(o', d, inl (Put o2))]), (Some TypeError). split=> //. split=> //. split=> //. split=> //.
      move=> G. inversion G as [|? ? G1 G2]; subst. exists new1, o', d, (inl (Put o2)). split=> //. split; first exact: D1.
      right. split=> //. split; [by exists o2|by left].
    - have [l' [s' [new [e [A [B [M [C D]]]]]]]] := IH' s2 (log ++ new1 ++ [(o', d, inl (Put o2))]).
      exists ((b, o2) :: l'), s', ((new1 ++ [(o', d, inl (Put o2))]) ++ new), e. rewrite A B. split; first by rewrite -!app_assoc.
      split=> //. split; first by rewrite /= M. split; first by apply/Forall_app.
      move=> G. inversion G as [|? ? G1 G2]; subst. apply: (ends_app _ _ _ _ _ _ (D G)) => //. apply/Forall_app. split; [exact: D1|by constructor]. }
  have [l' [s' [new [e [A [B [M [C D]]]]]]]] := IH' s2 (log ++ new1 ++ [(o', d, inl Keep)]).
  exists ((b, o') :: l'), s', ((new1 ++ [(o', d, inl Keep)]) ++ new), e. rewrite A B. split; first by rewrite -!app_assoc.
  split=> //. split; first by rewrite /= M. split; first by apply/Forall_app.
  move=> G. inversion G as [|? ? G1 G2]; subst. apply: (ends_app _ _ _ _ _ _ (D G)) => //. apply/Forall_app. split; [exact: D1|by constructor].
Qed.

Lemma ends_ends_at n e log : ends (frozen_at n 0) e log -> ends_at n e log.
Proof. by case: e. Qed.
Lemma preorder_noted n s n' s' d' log e : preorder (noted act) deeper back n (s, (0, [])) = (n', (s', (d', log)), e) ->
  preorder act id id n s = (n', s', e) /\ d' = 0 /\
  Forall (fun x => exists p, at_ n p = Some (fst (fst x)) /\ List.length p = snd (fst x) + 1) log /\
  (proper n -> ends_at n e log).
Proof.
  move=> E. have [n2 [s2 [new [e2 [A [B [C D]]]]]]] := pre_noted n s 0 []. rewrite E in A. injection A; intros; subst.
  split=> //. split=> //. split; last by move=> P; apply/ends_ends_at/D.
  apply: Forall_impl C => x [p [y [N [A1 [<- K]]]]]. exists p. by rewrite K.
Qed.
Lemma postorder_noted n s n' s' d' log e : postorder (noted act) deeper back n (s, (0, [])) = (n', (s', (d', log)), e) ->
  postorder act id id n s = (n', s', e) /\ d' = 0 /\
  Forall (fun x => exists p y, at_ n p = Some y /\ same_outside y (fst (fst x)) /\ List.length p = snd (fst x) + 1) log /\
  (proper n -> ends_at n e log).
Proof.
  move=> E. have [n2 [s2 [new [e2 [A [B [_ [C D]]]]]]]] := post_noted n s 0 []. rewrite E in A. injection A; intros; subst.
  split=> //. split=> //. split; last by move=> P; apply/ends_ends_at/D.
  apply: Forall_impl C => x [p [y [N [A1 [M K]]]]]. exists p, y. by rewrite K.
Qed.
End Notes.

(** ** Replacement *)
Section Plain.
Variable g : option node -> change.
Definition new_slot (x y : slot) : Prop :=
  fst x = fst y /\
  match g (snd x) with
  | Put o => snd y = o
  | Keep => match snd x with
            | None => snd y = None
            | Some c => exists c', snd y = Some c' /\ preorder (plain g) id id c tt = (c', tt, None)
            end
  end.
Lemma thawed_root t fz sl : thawed (Node t fz sl) -> fz = false.
Proof. move=> T. exact: (T [] (Node t fz sl) eq_refl). Qed.
Lemma thawed_slots t fz sl : thawed (Node t fz sl) -> Forall (fun x : slot => on thawed (snd x)) sl.
Proof.
  move=> P. apply/Forall_forall => [[b [c|]]] I //=. have [i N] := In_nth_error _ _ I. exact: thawed_kid P N.
Qed.
Lemma pre_plain n : proper n -> thawed n -> exists sl', preorder (plain g) id id n tt = (Node (tag_of n) (is_frozen n) sl', tt, None) /\
  Forall2 new_slot (slots_of n) sl'.
Proof.
  elim/node_ind': n => t fz sl H P T. rewrite preorder_eq. have Z := thawed_root _ _ _ T. subst fz.
  have PS := proper_slots _ _ _ P. have TS := thawed_slots _ _ _ T. clear P T. cbn [tag_of is_frozen slots_of].
  suff [sl' [-> F]] : exists sl', pre_go (plain g) id id false sl tt = (sl', tt, None) /\ Forall2 new_slot sl sl' by exists sl'.
  elim: H PS TS => [|[b o] l Ho _ IH] PS TS; first by exists [].
  inversion PS as [|? ? P1 P2]; subst. inversion TS as [|? ? T1 T2]; subst. have [l' [E F]] := IH P2 T2. clear PS TS IH.
  rewrite pre_go_cons /plain -/(plain g) E. cbn [snd] in *. have U : forall y, (b, o, y) = (b, o, y) by [].
  case G: (g o) => [|o'].
  - destruct o as [c|].
    + have [sc [Ec _]] := Ho P1 T1. rewrite /id -/(@id unit) Ec E. exists ((b, Some (Node (tag_of c) (is_frozen c) sc)) :: l'). split=> //.
      constructor=> //. split=> //=. rewrite G. by eexists.
    + move: P1 => /= ->. exists ((false, None) :: l'). split=> //. constructor=> //. split=> //=. by rewrite G.
  - exists ((b, o') :: l'). split=> //. constructor=> //. split=> //=. by rewrite G.
Qed.
Lemma forall2_nth A B (R : A -> B -> Prop) l l' i x : Forall2 R l l' -> nth_error l i = Some x -> exists y, nth_error l' i = Some y /\ R x y.
Proof. move=> F. elim: F i => [|a b l1 l2 H _ IH] [|i] //=; [by move=> [<-]; exists b|exact: IH]. Qed.
Lemma new_slot_fst l l' : Forall2 new_slot l l' -> map fst l = map fst l'.
Proof. elim=> [|x y l1 l2 [E _] _ IH] //=. by rewrite E IH. Qed.
Lemma kept_kid t fz sl i p b c : kept g (Node t fz sl) (i :: p) -> nth_error sl i = Some (b, Some c) -> kept g c p.
Proof. move=> K N q r x E Q A. apply: (K (i :: q) r) => //; [by rewrite E|by rewrite at_slot N]. Qed.
Lemma pre_kept p : forall n n' x, proper n -> thawed n -> preorder (plain g) id id n tt = (n', tt, None) ->
  kept g n p -> at_ n p = Some x -> exists y, at_ n' p = Some y /\ same_outside x y.
Proof.
  elim: p => [|i p IH] n n' x P T E K A.
  - move: A => [<-]. have [sl' [E' F]] := pre_plain n P T. rewrite E in E'. injection E' as ->.
    eexists. split; first by []. case: n P T E K F => t fz sl P T E K F. split=> //. split=> //. exact: new_slot_fst F.
  - have [sl' [E' F]] := pre_plain n P T. rewrite E in E'. injection E' as ->. clear E. case: n P T K F A => t fz sl P T K F A.
    rewrite at_slot. rewrite at_slot in A. cbn [slots_of] in F. case N: (nth_error sl i) A => [[b o]|] // A.
    have [[b' o'] [N' [_ NS]]] := forall2_nth _ _ _ _ _ _ _ F N. rewrite N'. cbn [snd] in *.
    have KO : g o = Keep. { apply: (K [i] p) => //. rewrite at_slot N /=. by case: (o). }
    rewrite KO in NS. destruct o as [c|].
    + move: NS => [c' [-> EC]]. apply: (IH c c' x _ _ EC _ A); [exact: proper_kid P N|exact: thawed_kid T N|exact: kept_kid K N].
    + rewrite NS. exists x. split=> //. exact: same_refl.
Qed.
Lemma pre_put p : forall n n' i x y, proper n -> thawed n -> preorder (plain g) id id n tt = (n', tt, None) ->
  kept g n p -> at_ n (p ++ [i]) = Some x -> g x = Put y -> at_ n' (p ++ [i]) = Some y.
Proof.
  elim: p => [|j p IH] n n' i x y P T E K A G.
  - have [sl' [E' F]] := pre_plain n P T. rewrite E in E'. injection E' as ->. clear E. case: n P T K F A => t fz sl P T K F A.
    rewrite at_slot. rewrite at_slot in A. cbn [slots_of] in F. case N: (nth_error sl i) A => [[b o]|] // A.
    have [[b' o'] [N' [_ NS]]] := forall2_nth _ _ _ _ _ _ _ F N. rewrite N'. cbn [snd] in *.
    have O : o = x by case: (o) A => [c|] /= [].
    rewrite O G in NS. rewrite NS. by case: (y).
  - have [sl' [E' F]] := pre_plain n P T. rewrite E in E'. injection E' as ->. clear E. case: n P T K F A => t fz sl P T K F A.
    rewrite -app_comm_cons at_slot. rewrite -app_comm_cons at_slot in A. cbn [slots_of] in F. case N: (nth_error sl j) A => [[b o]|] // A.
    have [[b' o'] [N' [_ NS]]] := forall2_nth _ _ _ _ _ _ _ F N. rewrite N'. cbn [snd] in *.
    have KO : g o = Keep. { apply: (K [j] p) => //. rewrite at_slot N /=. by case: (o). }
    rewrite KO in NS. destruct o as [c|].
    + move: NS => [c' [-> EC]]. apply: (IH c c' i x y _ _ EC _ A G); [exact: proper_kid P N|exact: thawed_kid T N|exact: kept_kid K N].
    + by case: p A {IH K}.
Qed.
Lemma preorder_replaces n : proper n -> thawed n -> exists n', preorder (plain g) id id n tt = (n', tt, None) /\
  (forall p x, kept g n p -> at_ n p = Some x -> exists y, at_ n' p = Some y /\ same_outside x y) /\
  (forall p i x y, kept g n p -> at_ n (p ++ [i]) = Some x -> g x = Put y -> at_ n' (p ++ [i]) = Some y).
Proof.
  move=> P T. have [sl' [E _]] := pre_plain n P T. eexists. split; first exact: E. split.
  - move=> p x. exact: pre_kept E.
  - move=> p i x y. exact: pre_put E.
Qed.

Hypothesis BT : by_tag g.
Lemma post_plain n : proper n -> thawed n -> postorder (plain g) id id n tt = preorder (plain g) id id n tt.
Proof.
  elim/node_ind': n => t fz sl H P T. rewrite preorder_eq postorder_eq. have Z := thawed_root _ _ _ T. subst fz.
  have PS := proper_slots _ _ _ P. have TS := thawed_slots _ _ _ T. clear P T.
  suff -> : post_go (plain g) id id false sl tt = pre_go (plain g) id id false sl tt by [].
  elim: H PS TS => [|[b o] l Ho _ IH] PS TS //.
  inversion PS as [|? ? P1 P2]; subst. inversion TS as [|? ? T1 T2]; subst. have E := IH P2 T2. clear PS TS IH.
  rewrite pre_go_cons post_go_cons. cbn [snd] in *. destruct o as [c|].
  - have Ec := Ho P1 T1. rewrite [id tt]/id Ec. have [sc [Es F]] := pre_plain c P1 T1. rewrite Es.
    rewrite [id tt]/id. cbn [plain]. have SO : same_outside (Some (Node (tag_of c) (is_frozen c) sc)) (Some c).
    { case: (c) F => t1 f1 s1 F. split=> //. split=> //. symmetry. exact: new_slot_fst F. }
    rewrite /plain -/(plain g) (BT _ _ SO) E. case: (g (Some c)) => [|o'] //. by rewrite Es.
  - move: P1 => /= ->. by rewrite /plain -/(plain g) E.
Qed.
End Plain.

(** ** Frozen ASTs *)
Definition frozen_all (n : node) : Prop := forall p m, at_ n p = Some (Some m) -> is_frozen m = true.
Lemma frozen_slots t fz sl : frozen_all (Node t fz sl) -> fz = true /\ Forall (fun x : slot => on frozen_all (snd x)) sl.
Proof.
  move=> P. split; first exact: (P [] (Node t fz sl) eq_refl). apply/Forall_forall => [[b [c|]]] I //=. have [i N] := In_nth_error _ _ I.
  move=> p m A. apply: (P (i :: p)). by rewrite at_slot N.
Qed.
Lemma pre_frozen S (act : S -> option node -> S * (change + exn)) enter leave n s n' s' e :
  frozen_all n -> preorder act enter leave n s = (n', s', e) -> n' = n.
Proof.
  elim/node_ind': n s n' s' e => t fz sl H s n' s' e FA. rewrite preorder_eq. have [Z FS] := frozen_slots _ _ _ FA. subst fz. clear FA.
  suff G : forall s, fst (fst (pre_go act enter leave true sl s)) = sl.
  { case E: (pre_go _ _ _ _ _ _) (G s) => [[l s1] e1] /= -> [<- _ _] //. }
  clear s n' s' e. elim: H FS => [|[b o] l Ho _ IH] FS s //. inversion FS as [|? ? F1 F2]; subst. rewrite pre_go_cons. cbn [snd] in *.
  case: (act s o) => [s1 [[|o']|e1]] //. destruct o as [c|].
  - case E: (preorder _ _ _ _ _) => [[c' s2] [e2|]]; have -> := Ho _ _ _ _ F1 E => //.
    have := IH F2 (leave s2). by case: (pre_go _ _ _ _ _ _) => [[r s3] e3] /= ->.
  - destruct b => //. have := IH F2 s1. by case: (pre_go _ _ _ _ _ _) => [[r s3] e3] /= ->.
Qed.
Lemma post_frozen S (act : S -> option node -> S * (change + exn)) enter leave n s n' s' e :
  frozen_all n -> postorder act enter leave n s = (n', s', e) -> n' = n.
Proof.
  elim/node_ind': n s n' s' e => t fz sl H s n' s' e FA. rewrite postorder_eq. have [Z FS] := frozen_slots _ _ _ FA. subst fz. clear FA.
  suff G : forall s, fst (fst (post_go act enter leave true sl s)) = sl.
  { case E: (post_go _ _ _ _ _ _) (G s) => [[l s1] e1] /= -> [<- _ _] //. }
  clear s n' s' e. elim: H FS => [|[b o] l Ho _ IH] FS s //. inversion FS as [|? ? F1 F2]; subst. rewrite post_go_cons. cbn [snd] in *.
  have X : fst (fst (match o with
        | None => if b then (o, leave (enter s), Some OtherException) else (o, s, None)
        | Some c => let '(c', s1, e) := postorder act enter leave c (enter s) in (Some c', leave s1, e)
        end)) = o.
  { destruct o as [c|]; last by case: (b). case E: (postorder _ _ _ _ _) => [[c' s2] e2]. by have -> := Ho _ _ _ _ F1 E. }
  case: (match o with Some c => _ | None => _ end) X => [[o1 s1] [e1|]] /= -> //.
  case: (act s1 o) => [s2 [[|o']|e1]] //.
  have := IH F2 s2. by case: (post_go _ _ _ _ _ _) => [[r s3] e3] /= ->.
Qed.
Lemma freeze_frozen n : thawed n -> frozen_all (freeze n).
Proof.
  elim/node_ind': n => t fz sl H T. have Z := thawed_root _ _ _ T. subst fz. have TS := thawed_slots _ _ _ T. clear T.
  move=> [|i p] m; first by move=> [<-].
  cbn [freeze]. rewrite at_slot. rewrite nth_error_map. case N: (nth_error sl i) => [[b o]|] //. cbn [option_map snd fst].
  have I := nth_error_In _ _ N. move/Forall_forall: H => /(_ _ I). move/Forall_forall: TS => /(_ _ I). cbn [snd].
  destruct o as [c|] => /=; [move=> T1 H1; exact: H1|by case: p].
Qed.

Lemma freeze_stays n : is_frozen (freeze n) = true /\ freeze (freeze n) = freeze n.
Proof. by case: n => t [] sl. Qed.
Lemma freeze_shape n p : option_map (option_map (fun m => (tag_of m, map fst (slots_of m)))) (at_ (freeze n) p) =
  option_map (option_map (fun m => (tag_of m, map fst (slots_of m)))) (at_ n p).
Proof.
  elim: p n => [|i p IH] [t [] sl] //.
  - cbn [freeze at_ option_map tag_of slots_of]. by rewrite map_map.
  - cbn [freeze]. rewrite !at_slot nth_error_map. case: (nth_error sl i) => [[b [c|]]|] //=.
Qed.
