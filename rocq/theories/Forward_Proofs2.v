(** Proofs about resolution with forward references: the first pass. *)
From Coq Require Import ssreflect ssrbool List String Bool PeanoNat Wf_nat Lia.
From Verif Require Import Prelude Scope_Model Scope_Spec Scope_Proofs Forward_Model Forward_Spec Forward_Proofs.
Import ListNotations.
Open Scope string_scope. Open Scope list_scope.

(** ** Assignment to children *)
Lemma nth_replace A (l : list A) : forall i x j, nth_error (replace l i x) j =
  if Nat.eqb i j then (match nth_error l i with Some _ => Some x | None => None end) else nth_error l j.
Proof.
  elim: l => [|a l IH] [|i] x [|j] //=; try by case: (Nat.eqb _ _).
Qed.
Lemma replace_length A (l : list A) : forall i x, List.length (replace l i x) = List.length l.
Proof. elim: l => [|a l IH] [|i] x //=. by rewrite IH. Qed.

Lemma set_kid_cell h p i r x : nth_error (set_kid h p i r) x =
  match nth_error h x with
  | Some (Obj c n ks) => Some (Obj c n (if Nat.eqb x p then replace ks i r else ks))
  | o => o
  end.
Proof.
  rewrite /set_kid. case E: (nth_error h p) => [[c n ks|s t]|].
  - rewrite nth_replace E. rewrite (Nat.eqb_sym x p). case: (Nat.eqb_spec p x) => [<-|N]; first by rewrite E.
    by case: (nth_error h x) => [[? ? ?|? ?]|].
  - case: (Nat.eqb_spec x p) => [->|N]; first by rewrite E. by case: (nth_error h x) => [[? ? ?|? ?]|].
  - case: (Nat.eqb_spec x p) => [->|N]; first by rewrite E. by case: (nth_error h x) => [[? ? ?|? ?]|].
Qed.
Lemma set_kid_length h p i r : List.length (set_kid h p i r) = List.length h.
Proof. rewrite /set_kid. case: (nth_error h p) => [[c n ks|s t]|] //. exact: replace_length. Qed.
Lemma set_kid_kids h p i r x : kids (set_kid h p i r) x = if Nat.eqb x p then replace (kids h p) i r else kids h x.
Proof.
  rewrite {1}/kids set_kid_cell. case: (Nat.eqb_spec x p) => [->|N]; rewrite /kids;
    by case: (nth_error h _) => [[? ? ?|? ?]|].
Qed.

(** ** Evolution *)
Definition slotrel (h : heap) (k k' : nat) : Prop := k = k' \/ (is_reff h k = true /\ is_obj h k').
Record evo (h h' : heap) : Prop := {
  ev_len : List.length h' = List.length h;
  ev_cell : forall x, match nth_error h x with
                      | Some (Obj c n ks) => exists ks', nth_error h' x = Some (Obj c n ks') /\ Forall2 (slotrel h) ks ks'
                      | o => nth_error h' x = o
                      end }.
Lemma Forall2_same A (R : A -> A -> Prop) l : (forall x, In x l -> R x x) -> Forall2 R l l.
Proof. elim: l => [|a l IH] H; constructor; [by apply: H; left|by apply: IH => x Hx; apply: H; right]. Qed.
Lemma evo_refl h : evo h h.
Proof.
  split=> // x. case: (nth_error h x) => [[c n ks|s t]|] //. exists ks. split=> //.
  apply: Forall2_same => y _. by left.
Qed.
Section Evo.
  Context {h h' : heap} (E : evo h h').
  Lemma evo_class x : class_of h' x = class_of h x.
  Proof.
    have := ev_cell _ _ E x. rewrite /class_of. case: (nth_error h x) => [[c n ks|s t]|]; last by move=> ->.
    - by move=> [ks' [-> _]].
    - by move=> ->.
  Qed.
  Lemma evo_name x : name_at h' x = name_at h x.
  Proof.
    have := ev_cell _ _ E x. rewrite /name_at. case: (nth_error h x) => [[c n ks|s t]|]; last by move=> ->.
    - by move=> [ks' [-> _]].
    - by move=> ->.
  Qed.
  Lemma evo_reff x : is_reff h' x = is_reff h x.
  Proof.
    have := ev_cell _ _ E x. rewrite /is_reff. case: (nth_error h x) => [[c n ks|s t]|]; last by move=> ->.
    - by move=> [ks' [-> _]].
    - by move=> ->.
  Qed.
  Lemma evo_cell_reff x s t : nth_error h' x = Some (Reff s t) <-> nth_error h x = Some (Reff s t).
  Proof.
    have := ev_cell _ _ E x. case: (nth_error h x) => [[c n ks|s2 t2]|]; last by move=> ->.
    - by move=> [ks' [-> _]].
    - by move=> ->.
  Qed.
  Lemma evo_obj x : is_obj h' x <-> is_obj h x.
  Proof.
    have := ev_cell _ _ E x. rewrite /is_obj. case: (nth_error h x) => [[c n ks|s2 t2]|].
    - move=> [ks' [-> _]]. split=> _; by eauto.
    - move=> ->. split; by move=> [? [? [? ?]]].
    - move=> ->. split; by move=> [? [? [? ?]]].
  Qed.
  Lemma evo_kids x : Forall2 (slotrel h) (kids h x) (kids h' x).
  Proof.
    have := ev_cell _ _ E x. rewrite /kids. case: (nth_error h x) => [[c n ks|s2 t2]|]; try by move=> ->.
    by move=> [ks' [-> F]].
  Qed.
  Lemma evo_has_name n x : has_name h' n x = has_name h n x.
  Proof. by rewrite /has_name evo_name. Qed.
  Lemma evo_clashing x y : clashing h' x y = clashing h x y.
  Proof. by rewrite /clashing !evo_name !evo_class. Qed.
  Lemma evo_distinct l : distinct_names h' l <-> distinct_names h l.
  Proof.
    rewrite /distinct_names. split; elim=> [|a l' F D IH]; constructor=> //;
      (apply: Forall_impl F => b; by rewrite evo_clashing).
  Qed.
  Lemma evo_frep s l : frep h s l -> frep h' s l.
  Proof.
    move=> R n. have [E1 E2] := R n.
    rewrite (filter_ext (has_name h' n) (has_name h n)); first by move=> y; rewrite evo_has_name.
    rewrite E1 E2. split=> //. apply: map_ext => x. by rewrite evo_class.
  Qed.
  Lemma evo_freps ss d : Forall2 (frep h) ss d -> Forall2 (frep h') ss d.
  Proof. elim=> [|s l ss' d' R F IH]; constructor; [exact: evo_frep R|exact: IH]. Qed.
  Lemma evo_freps_back ss d : Forall2 (frep h') ss d -> Forall2 (frep h) ss d.
  Proof.
    elim=> [|s l ss' d' R F IH]; constructor; last exact: IH. move=> n. have [E1 E2] := R n.
    rewrite E1 E2 (filter_ext (has_name h' n) (has_name h n)); first by move=> y; rewrite evo_has_name.
    split=> //. apply: map_ext => x. by rewrite evo_class.
  Qed.
  Lemma evo_mean1 n t l : mean h' [n] t l = mean h [n] t l.
  Proof.
    cbn [mean]. rewrite (filter_ext (has_name h' n) (has_name h n)); first by move=> y; rewrite evo_has_name.
    apply: filter_ext => x. by rewrite evo_class.
  Qed.
  Lemma evo_slot x i k : nth_error (kids h x) i = Some k ->
    exists k', nth_error (kids h' x) i = Some k' /\ slotrel h k k'.
  Proof.
    move: (evo_kids x) => F. elim: F i => [|a b l l' R F IH] [|i] //=; last by exact: IH.
    move=> [<-]. by exists b.
  Qed.
  Lemma evo_slot_back x i k' : nth_error (kids h' x) i = Some k' ->
    exists k, nth_error (kids h x) i = Some k /\ slotrel h k k'.
  Proof.
    move: (evo_kids x) => F. elim: F i => [|a b l l' R F IH] [|i] //=; last by exact: IH.
    move=> [<-]. by exists a.
  Qed.
  Lemma evo_slots_length x : List.length (kids h' x) = List.length (kids h x).
  Proof. elim: (evo_kids x) => [|a b l l' R F IH] //=. by rewrite IH. Qed.
  Lemma evo_valid : (forall p k, In k (kids h p) -> k < List.length h) -> forall p k, In k (kids h' p) -> k < List.length h'.
  Proof.
    move=> V p k HI. have [i N] := In_nth_error _ _ HI. have [k0 [S1 R]] := evo_slot_back _ _ _ N. rewrite (ev_len _ _ E).
    case: R => [<-|[_ O]]; last exact: obj_lt. apply: (V p). exact: nth_error_In S1.
  Qed.
  Lemma evo_declared_same x : kids h' x = kids h x -> declared h' x = declared h x.
  Proof. rewrite /declared => ->. apply: filter_ext => y. by rewrite evo_reff. Qed.
End Evo.
Lemma evo_trans h1 h2 h3 : evo h1 h2 -> evo h2 h3 -> evo h1 h3.
Proof.
  move=> E1 E2. split; first by rewrite (ev_len _ _ E2) (ev_len _ _ E1).
  move=> x. have := ev_cell _ _ E1 x. case N: (nth_error h1 x) => [[c n ks|s t]|].
  - move=> [ks2 [N2 F2]]. have := ev_cell _ _ E2 x. rewrite N2 => [[ks3 [N3 F3]]]. exists ks3. split=> //.
    clear N N2 N3. elim: F2 ks3 F3 => [|a b l l' R F IH] ks3 F3; inversion F3; subst; constructor; last by apply: IH.
    match goal with H : slotrel h2 b ?y |- _ => case: H => [EQ|[B Y]]; first by rewrite -EQ end.
    right. move/(evo_obj E1): Y => Y. rewrite (evo_reff E1) in B. case: R => [EQ|[A O]]; [by rewrite EQ|by []].
  - move=> N2. have := ev_cell _ _ E2 x. by rewrite N2.
  - move=> N2. have := ev_cell _ _ E2 x. by rewrite N2.
Qed.
Lemma set_kid_evo h p i r k : nth_error (kids h p) i = Some k -> is_reff h k = true -> is_obj h r -> evo h (set_kid h p i r).
Proof.
  move=> S1 K O. split; first exact: set_kid_length.
  move=> x. rewrite set_kid_cell. case N: (nth_error h x) => [[c n ks|s t]|] //.
  eexists. split; first by []. case: (Nat.eqb_spec x p) => [X|_]; last by apply: Forall2_same => y _; left.
  subst x. rewrite /kids N in S1. elim: ks i S1 {N} => [|a ks IH] [|i] //=.
  - move=> [->]. constructor; first by right. apply: Forall2_same => y _; by left.
  - move=> S1. constructor; [by left|exact: IH].
Qed.

(** ** Steps *)
Inductive star (R : heap -> heap -> Prop) : heap -> heap -> Prop :=
| star_refl h : star R h h
| star_step a b c : star R a b -> R b c -> star R a c.
Lemma star_trans R a b c : star R a b -> star R b c -> star R a c.
Proof. move=> A B. elim: B A => // x y z _ IH S A. apply: star_step S. exact: IH. Qed.
Lemma star_evo (R : heap -> heap -> Prop) a b : (forall x y, R x y -> evo x y) -> star R a b -> evo a b.
Proof. move=> H. elim=> [h|x y z _ E /H E2]; [exact: evo_refl|exact: evo_trans E E2]. Qed.

Lemma hd_In A (l : list A) x : hd_error l = Some x -> In x l.
Proof. case: l => [|a l] //= [->]. by left. Qed.

Inductive step1 (h0 : heap) : heap -> heap -> Prop :=
| s1 h p l i k s t r : ancestry h0 (p :: l) -> nth_error (kids h0 p) i = Some k ->
    nth_error (kids h p) i = Some k -> nth_error h k = Some (Reff s t) ->
    hd_error (mean h s t (visible h0 (p :: l))) = Some r -> step1 h0 h (set_kid h p i r).
Lemma cell_reff h k s t : nth_error h k = Some (Reff s t) -> is_reff h k = true.
Proof. by rewrite /is_reff => ->. Qed.
Lemma step1_evo h0 a b : step1 h0 a b -> evo a b.
Proof.
  case=> h p l i k s t r _ _ S1 N M. apply: (set_kid_evo _ _ _ _ k) => //; first exact: cell_reff N.
  by have [_ [_ O]] := mean_In _ _ _ _ _ (hd_In _ _ _ M).
Qed.

Lemma foldM_seq S (f : S -> nat -> res S) (P : nat -> S -> Prop) (E : exn -> Prop) n : forall m st, P m st ->
  (forall i st, m <= i < m + n -> P i st -> match f st i with Ok st' => P (Datatypes.S i) st' | Err e => E e end) ->
  match foldM f (seq m n) st with Ok st' => P (m + n) st' | Err e => E e end.
Proof.
  elim: n => [|n IH] m st P0 H; first by rewrite /= Nat.add_0_r.
  cbn [seq foldM]. have : m <= m < m + Datatypes.S n by lia. move=> /(H m st) /(_ P0).
  case: (f st m) => [st'|e] //= P1.
  have := IH (Datatypes.S m) st' P1. rewrite Nat.add_succ_r. apply. move=> i st2 L. apply: H. lia.
Qed.

(** ** Trees *)
Section Tree.
  Variable h0 : heap.
  Hypothesis T : tree h0.

  Definition desc (p x : nat) : Prop := x = p \/ below h0 p x.
  Lemma below_lt p x : below h0 p x -> p < x.
  Proof.
    move=> B. elim: B => {p x} [p k /(tree_order _ T)|p k x /(tree_order _ T) ? _ ?]; lia.
  Qed.
  Lemma desc_le p x : desc p x -> p <= x.
  Proof. case=> [->|/below_lt]; lia. Qed.
  Lemma below_last p x : below h0 p x -> exists q, desc p q /\ In x (kids h0 q).
  Proof.
    move=> B. elim: B => {p x} [p k I|p k x I _ [q [D Q]]]; first by exists p; split; [left|].
    exists q. split=> //. right. case: D => [->|D]; [exact: below_kid|exact: below_trans D].
  Qed.
  Lemma below_snoc p q x : desc p q -> In x (kids h0 q) -> below h0 p x.
  Proof.
    case=> [->|B]; first exact: below_kid. elim: B x => {p q} [p k I|p k y I _ IH] x X.
    - apply: (below_trans _ _ _ _ I). exact: below_kid.
    - apply: (below_trans _ _ _ _ I). exact: IH.
  Qed.
  Lemma parent_unique p q k : In k (kids h0 p) -> In k (kids h0 q) -> p = q.
  Proof.
    move=> X Y. have [i A] := In_nth_error _ _ X. have [j B] := In_nth_error _ _ Y. by case: (tree_parent _ T _ _ _ _ _ A B). Qed.
  Lemma desc_comparable x : forall k k', desc k x -> desc k' x -> desc k k' \/ desc k' k.
  Proof.
    elim/lt_wf_ind: x => x IH k k' [->|D] D'; first by right.
    case: D' => [<-|D']; first by left; right.
    have [q [Q I]] := below_last _ _ D. have [q' [Q' I']] := below_last _ _ D'.
    have E := parent_unique _ _ _ I I'. subst q'. apply: (IH q) => //. by case: (tree_order _ T _ _ I).
  Qed.
  Lemma siblings_disjoint p i j k k' x : nth_error (kids h0 p) i = Some k -> nth_error (kids h0 p) j = Some k' ->
    i <> j -> desc k x -> desc k' x -> False.
  Proof.
    move=> A B N D D'. have NE : k <> k' by move=> E; subst k'; case: (tree_parent _ T _ _ _ _ _ A B).
    have IA := nth_error_In _ _ A. have IB := nth_error_In _ _ B.
    have X : forall a b, In a (kids h0 p) -> In b (kids h0 p) -> a <> b -> desc a b -> False.
    { move=> a b Ia Ib Nab [E|Bl]; first by subst b. have [q [Q I]] := below_last _ _ Bl.
      have E := parent_unique _ _ _ Ib I. subst q. move/desc_le: Q. have := tree_order _ T _ _ Ia. lia. }
    case: (desc_comparable x k k' D D'); [exact: X|apply: X => //]. by move=> E; apply: NE.
  Qed.
  Lemma kid_not_above p k x : In k (kids h0 p) -> desc k x -> x <> p.
  Proof. move=> I /desc_le D E. subst x. have := tree_order _ T _ _ I. lia. Qed.
  Lemma desc_kid p k x : In k (kids h0 p) -> desc k x -> desc p x.
  Proof. move=> I [->|B]; right; [exact: below_kid|exact: below_trans B]. Qed.
  Lemma desc_inv p x : desc p x -> x = p \/ exists i k, nth_error (kids h0 p) i = Some k /\ desc k x.
  Proof.
    case=> [->|B]; first by left. right. case: B => {p x} [p k I|p k x I B];
      have [i N] := In_nth_error _ _ I; exists i, k; split=> //; [by left|by right].
  Qed.
  Lemma root_obj : is_obj h0 0.
  Proof.
    have := tree_root _ T. rewrite /class_of /is_obj. case: (nth_error h0 0) => [[c n ks|? ?]|] //. by eauto.
  Qed.
  Lemma ancestry_lt p l : ancestry h0 (p :: l) -> p < List.length h0.
  Proof.
    move=> A. inversion A; subst; first exact: obj_lt root_obj. by case: (tree_order _ T _ _ H2).
  Qed.
  Lemma ancestry_unique : forall l l' x, ancestry h0 (x :: l) -> ancestry h0 (x :: l') -> l = l'.
  Proof.
    elim=> [|p l IH] l' x A B.
    - inversion A; subst. inversion B; subst => //. exfalso. have := tree_order _ T _ _ H2. lia.
    - inversion A as [|p1 l1 k1 A1 I1]; subst. inversion B as [|p2 l2 k2 A2 I2]; subst.
      + exfalso. have := tree_order _ T _ _ I1. lia.
      + have E := parent_unique _ _ _ I1 I2. subst p2. by rewrite (IH _ _ A1 A2).
  Qed.
  Lemma valid0 p k : In k (kids h0 p) -> k < List.length h0.
  Proof. by move=> /(tree_order _ T) [_ ?]. Qed.

  (** ** The first pass *)
  Definition hard (l : list nat) (s : list string) (t : rtype) : Prop :=
    (forall n, s <> [n]) \/ mean h0 s t (visible h0 l) = [].
  Definition safe (p : nat) (l : list nat) (s : list string) (t : rtype) : Prop :=
    (exists a b, kids h0 p = [a; b] /\ is_reff h0 a = true /\ is_reff h0 b = true) /\ deferrable t = true /\
    exists m n, s = [m; n] /\ forall h, star (step1 h0) h0 h -> forall x, In x (visible h0 (p :: l)) ->
      has_name h0 m x = true -> clean h x.
  Definition bad : Prop :=
    (exists x l, ancestry h0 (x :: l) /\ is_reff h0 x = false /\ ~ distinct_names h0 (declared h0 x)) \/
    (exists x l i k s t, ancestry h0 (x :: l) /\ nth_error (kids h0 x) i = Some k /\
       nth_error h0 k = Some (Reff s t) /\ hard (x :: l) s t /\ ~ safe x l s t).
  Definition bad_exn (e : exn) : Prop :=
    bad /\ (e = ParseError \/ e = AssertionError /\ exists k s t, nth_error h0 k = Some (Reff s t) /\ forall n, s <> [n]).
  Definition done_at (h : heap) (x : nat) (l : list nat) (i : nat) : Prop :=
    forall k s t, nth_error (kids h0 x) i = Some k -> nth_error h0 k = Some (Reff s t) ->
    (exists r, nth_error (kids h x) i = Some r /\ is_obj h0 r) \/ hard (x :: l) s t.
  Definition okay (h : heap) (x : nat) : Prop := forall l, ancestry h0 (x :: l) -> forall i, done_at h x l i.
  Definition tidy_at (x : nat) : Prop := is_reff h0 x = false -> distinct_names h0 (declared h0 x).

  Lemma preorder_spec fuel : forall asm ss p l h last,
    star (step1 h0) h0 h -> ancestry h0 (p :: l) -> (forall x, desc p x -> kids h x = kids h0 x) ->
    Forall2 (frep h0) ss (map (declared h0) (p :: l) ++ [[]]) -> Forall2 (frep h0) asm [assembly_declared h0] ->
    List.length h0 <= fuel + p -> last = p ->
    match preorder fuel asm ss p (h, last) with
    | Ok (h', _) =>
      star (step1 h0) h h' /\ (forall x, ~ desc p x -> kids h' x = kids h x) /\
      (forall x, desc p x -> (x <> p -> tidy_at x) /\ okay h' x)
    | Err e => bad_exn e
    end.
  Proof.
    elim: fuel => [|fuel IH] asm ss p l hs last ST AN FR SS AS FU LP.
    { exfalso. move/ancestry_lt: AN. move: FU => /=. lia. }
    cbn [preorder].
    set P := fun i (st : heap * nat) =>
      star (step1 h0) hs (fst st) /\
      (forall x, ~ desc p x -> kids (fst st) x = kids hs x) /\
      (forall j, i <= j -> nth_error (kids (fst st) p) j = nth_error (kids h0 p) j) /\
      (forall j k x, i <= j -> nth_error (kids h0 p) j = Some k -> desc k x -> kids (fst st) x = kids h0 x) /\
      (forall j, j < i -> done_at (fst st) p l j) /\
      (forall j k x, j < i -> nth_error (kids h0 p) j = Some k -> desc k x -> tidy_at x /\ okay (fst st) x) /\
      ((forall j k, j < i -> nth_error (kids h0 p) j = Some k -> is_reff h0 k = true) -> snd st = p).
    have KP : kids hs p = kids h0 p by apply: FR; left.
    match goal with |- match foldM ?g _ _ with _ => _ end => set f := g end.
    have FS := foldM_seq _ f P bad_exn (List.length (kids (fst (hs, last)) p)) 0 (hs, last).
    suff [P0 PS] : P 0 (hs, last) /\
      forall i st, 0 <= i < 0 + List.length (kids (fst (hs, last)) p) -> P i st ->
        match f st i with Ok st' => P (S i) st' | Err e => bad_exn e end.
    - move: (FS P0 PS) => {FS}. case: (foldM _ _ _) => [[h' last']|e] //. rewrite Nat.add_0_l /= KP.
      move=> [A [B [C [D [Q1 [Q2 _]]]]]]. split; first exact: A. split; first exact: B.
      move=> x /desc_inv [->|[i [k [N Dk]]]].
      + split=> // l' AN'. rewrite (ancestry_unique _ _ _ AN' AN) => i.
        case: (Nat.lt_ge_cases i (List.length (kids h0 p))) => L; first exact: Q1.
        move=> k s t N. exfalso. move/nth_error_None: L. by rewrite N.
      + have L : i < List.length (kids h0 p) by apply/nth_error_Some; rewrite N.
        have [R1 R2] := Q2 i k x L N Dk. by split.
    - move=> {FS}. split.
      { split; first exact: star_refl. split=> //. cbn [fst]. split; first by rewrite KP.
        split.
        - move=> j k x _ N D. apply: FR. apply: desc_kid D. exact: nth_error_In N.
        - split; [lia|]. split=> //. move=> j k x. lia. }
      move=> i [h la] [_ L]. cbn [fst] in L. rewrite KP in L. move=> [A [B [C [D [Q1 [Q2 Q3]]]]]]. cbn [fst snd] in *.
      rewrite /f. have [k N] : exists k, nth_error (kids h0 p) i = Some k.
      { case Z: (nth_error (kids h0 p) i) => [k|]; first by eauto. move/nth_error_None: Z. lia. }
      have NH : nth_error (kids h p) i = Some k by rewrite C.
      rewrite NH. have IK := nth_error_In _ _ N. have LK := valid0 _ _ IK.
      have SH : star (step1 h0) h0 h by exact: star_trans ST A.
      have EV : evo h0 h by exact: star_evo (step1_evo h0) SH.
      have VV := evo_valid EV valid0.
      have SSh := evo_freps EV _ _ SS. have ASh := evo_freps EV _ _ AS.
      have VIS : List.concat (map (declared h0) (p :: l) ++ [[]]) ++ List.concat [assembly_declared h0] = visible h0 (p :: l).
      { rewrite /visible concat_app -flat_map_concat_map /= !app_nil_r. done. }
      case NK: (nth_error h k) => [[c n ks|s t]|].
      + (* an object *)
        have NR : is_reff h0 k = false by rewrite -(evo_reff EV) /is_reff NK.
        have KK : kids h k = kids h0 k by apply: (D i k k) => //; left.
        have DK : declared h k = declared h0 k by exact: evo_declared_same.
        have AK : ancestry h0 (k :: p :: l) by constructor.
        have := enter_spec h ss _ k SSh (VV k). rewrite DK. case: (enter h ss k) => [ss'|e]; cbn [bind].
        * move=> [DN SS'].
          have DN0 : distinct_names h0 (declared h0 k) by apply/(evo_distinct EV).
          have SS0 : Forall2 (frep h0) ss' (map (declared h0) (k :: p :: l) ++ [[]]) by exact: evo_freps_back EV _ _ SS'.
          have := IH asm ss' k (p :: l) h k SH AK _ SS0 AS.
          have FRk : forall x, desc k x -> kids h x = kids h0 x by move=> x; apply: D (le_n _) N.
          have FUk : List.length h0 <= fuel + k by move: (tree_order _ T _ _ IK) FU => /=; lia.
          move=> /(_ FRk FUk eq_refl). case: (preorder _ _ _ _ _) => [[h1 l1]|e] //.
          move=> [S1 [F1 O1]]. split; first exact: star_trans A S1. cbn [fst snd].
          have NDp : ~ desc k p by move=> Dp; have := kid_not_above _ _ _ IK Dp.
          split; [|split; [|split; [|split; [|split]]]].
          -- move=> x Nx. rewrite F1; last exact: B. move=> Dk. apply: Nx. exact: desc_kid Dk.
          -- move=> j Lj. rewrite F1 //. apply: C. lia.
          -- move=> j k' x Lj N' D'. rewrite F1; last by apply: D N' D'; lia.
             move=> Dk. apply: (siblings_disjoint p i j k k' x N N' _ Dk D'). lia.
          -- move=> j Lj. case: (Nat.eq_dec j i) => [->|NE].
             ++ move=> k2 s t N2 R2. exfalso. rewrite N in N2. case: N2 => E2. subst k2.
                move: NR. by rewrite (cell_reff _ _ _ _ R2).
             ++ have Q := Q1 j ltac:(lia). move=> k2 s t N2 R2. rewrite F1 //. exact: Q N2 R2.
          -- move=> j k' x Lj N' D'. case: (Nat.eq_dec j i) => [E|NE].
             ++ subst j. rewrite N in N'. case: N' => E. subst k'. have [X1 X2] := O1 x D'. split=> //.
                case: (Nat.eq_dec x k) => [->|Nx]; last exact: X1. by move=> _.
             ++ have [X1 X2] := Q2 j k' x ltac:(lia) N' D'. split=> //.
                have Fx : kids h1 x = kids h x.
                { apply: F1 => Dk. apply: (siblings_disjoint p i j k k' x N N' _ Dk D'). lia. }
                move=> l' AN' i' k2 s t N2 R2. rewrite Fx. exact: X2 AN' i' k2 s t N2 R2.
          -- move=> ALL. have := ALL i k ltac:(lia) N. by rewrite NR.
        * move=> [-> ND]. split; last by left. left. exists k, (p :: l). split=> //. split=> //.
          move=> DN. apply: ND. by apply/(evo_distinct EV).
      + (* a reference *)
        have NK0 : nth_error h0 k = Some (Reff s t) by apply/(evo_cell_reff EV).
        have KE : kids h0 k = [] by rewrite /kids NK0.
        have DKk : forall x, desc k x -> x = k.
        { move=> x /desc_inv [//|[j [k2 [X _]]]]. rewrite KE in X. by case: j X. }
        have HARD : mean h s t (visible h0 (p :: l)) = [] -> hard (p :: l) s t.
        { move=> M. case: s M {NK NK0} => [|n [|m s]]; try by (left). rewrite (evo_mean1 EV). by right. }
        have BADR : hard (p :: l) s t -> ~ safe p l s t -> bad.
        { move=> H NS. right. exists p, l, i, k, s, t. by []. }
        have RK : is_reff h0 k = true by exact: cell_reff NK0.
        have STEP : forall h1, (forall x, x <> p -> kids h1 x = kids h x) ->
          (forall j, j <> i -> nth_error (kids h1 p) j = nth_error (kids h p) j) ->
          star (step1 h0) h h1 -> done_at h1 p l i -> P (S i) (h1, la).
        { move=> h1 F1 F2 S1 DI. split; first exact: star_trans A S1. cbn [fst snd].
          split; [|split; [|split; [|split; [|split]]]].
          - move=> x Nx. rewrite F1; [by move=> E; apply: Nx; left|]. exact: B.
          - move=> j Lj. rewrite F2; [lia|]. apply: C. lia.
          - move=> j k' x Lj N' D'. rewrite F1; last by apply: D N' D'; lia.
            apply: kid_not_above D'. exact: nth_error_In N'.
          - move=> j Lj. case: (Nat.eq_dec j i) => [->|NE] //.
            move=> k2 s2 t2 N2 R2. rewrite F2 //. apply: (Q1 j) N2 R2. lia.
          - move=> j k' x Lj N' D'. case: (Nat.eq_dec j i) => [E|NE].
            + subst j. rewrite N in N'. case: N' => E. subst k'. move/DKk: D' => ->. split.
              * by rewrite /tidy_at /is_reff NK0.
              * move=> l' _ i' k2 s2 t2. rewrite KE. by case: i'.
            + have [X1 X2] := Q2 j k' x ltac:(lia) N' D'. split=> //.
              have Nx : x <> p by apply: kid_not_above D'; exact: nth_error_In N'.
              move=> l' AN' i' k2 s2 t2 N2 R2. rewrite F1 //. exact: X2 AN' i' k2 s2 t2 N2 R2.
          - move=> ALL. apply: Q3 => j k2 Lj. apply: ALL. lia. }
        have := forward_ref_spec h ss asm _ _ s t SSh ASh. rewrite VIS.
        case FR2: (forward_ref h ss asm s t) => [[r|]|e]; cbn [bind].
        * move=> M. have [_ [_ O]] := mean_In _ _ _ _ _ (hd_In _ _ _ M).
          apply: STEP.
          -- move=> x Nx. rewrite set_kid_kids. by case: (Nat.eqb_spec x p).
          -- move=> j Nj. rewrite set_kid_kids Nat.eqb_refl nth_replace. case: (Nat.eqb_spec i j) => // E. by subst j.
          -- apply: star_step (star_refl _ _) _. exact: (s1 h0 h p l i k s t r).
          -- move=> k2 s2 t2 _ _. left. exists r. rewrite set_kid_kids Nat.eqb_refl nth_replace Nat.eqb_refl NH.
             split=> //. by apply/(evo_obj EV).
        * move=> [M _]. have H := HARD M. have := enter_spec h ss _ la SSh (VV la).
          case: (enter h ss la) => [ss'|e]; cbn [bind].
          -- move=> _. apply: STEP => //; first exact: star_refl.
             move=> k2 s2 t2 N2 R2. right. rewrite N in N2. case: N2 => E. subst k2. rewrite NK0 in R2.
             by case: R2 => <- <-.
          -- move=> [-> ND]. split; last by left. apply: BADR => // [[[a [b [KAB [RA RB]]]] _]]. apply: ND.
             have LA : la = p.
             { apply: Q3 => j k2 _. rewrite KAB. by case: j => [|[|j]] //= ; [move=> [<-]|move=> [<-]|case: j]. }
             subst la. rewrite /declared. have RKh : is_reff h k = true by exact: cell_reff NK.
             have LH : List.length (kids h p) = 2 by rewrite (evo_slots_length EV) KAB.
             move: LH NH. case: (kids h p) => [|x [|y [|? ?]]] //= _.
             case: i {N A B C D Q1 Q2 Q3 L STEP} => [|[|i]] //=.
             ++ move=> [->]. rewrite RKh /=. case: (is_reff h y) => /=; repeat constructor.
             ++ move=> [->]. rewrite RKh /=. case: (is_reff h x) => /=; repeat constructor.
             ++ by case: i.
        * move=> [E1 E2]. split.
          -- apply: BADR; first by case: E2 => [E2|E2]; [left|exact: HARD].
             move=> [_ [DT [m [n [Es CL]]]]]. subst s.
             have [o FO] : exists o, forward_ref h ss asm [m; n] t = Ok o.
             { apply: (forward_ref_clean _ _ _ _ _ _ _ _ SSh ASh DT). rewrite VIS => x Ix.
               rewrite (evo_has_name EV). exact: CL SH x Ix. }
             by rewrite FO in FR2.
          -- case: E1 => [->|[-> E1]]; [by left|right]. split=> //. by exists k, s, t.
      + (* nothing *) exfalso. move/nth_error_None: NK. rewrite (ev_len _ _ EV). lia.
  Qed.
End Tree.
