(** Proofs about testing an address. *)
From Coq Require Import List PeanoNat NArith Bool Lia.
From Verif Require Import GdbMem_Model GdbMem_Spec.
From Verif Require Gdb_Model.
Import ListNotations.
Open Scope N_scope.
Open Scope list_scope.

Ltac tests := repeat match goal with
  | |- context [?a =? ?b] =>
      (replace (a =? b) with true by (symmetry; apply N.eqb_eq; lia)) ||
      (replace (a =? b) with false by (symmetry; apply N.eqb_neq; lia))
  end.

Lemma steps_add n k p b s : steps (n + k) p b s = steps k p b (steps n p b s).
Proof. revert s. induction n; simpl; auto. Qed.
Lemma steps_fixed k p b s : step p b s = s -> steps k p b s = s.
Proof. intros E. induction k; simpl; auto. now rewrite E. Qed.

Lemma load_readable m a : readable m a -> exists v, load m a = Some v.
Proof.
intros R. unfold load, byte, wrap.
destruct (R 0) as (v0 & w0 & E0); [lia|]. rewrite N.add_0_r in E0.
destruct (R 1) as (v1 & w1 & E1); [lia|]. destruct (R 2) as (v2 & w2 & E2); [lia|].
destruct (R 3) as (v3 & w3 & E3); [lia|]. rewrite E0, E1, E2, E3. simpl. eauto.
Qed.
Lemma load_some m a v : load m a = Some v -> readable m a.
Proof.
unfold load, byte, wrap. intros E i L.
destruct (m (a mod 2 ^ 32)) as [[? ?]|] eqn:E0; [|discriminate].
destruct (m ((a + 1) mod 2 ^ 32)) as [[? ?]|] eqn:E1; [|discriminate].
destruct (m ((a + 2) mod 2 ^ 32)) as [[? ?]|] eqn:E2; [|discriminate].
destruct (m ((a + 3) mod 2 ^ 32)) as [[? ?]|] eqn:E3; [|discriminate].
assert (C : i = 0 \/ i = 1 \/ i = 2 \/ i = 3) by lia.
destruct C as [->|[->|[->| ->]]]; rewrite ?N.add_0_r; eauto.
Qed.
Lemma load_unreadable m a : ~ readable m a -> load m a = None.
Proof.
intros R. destruct (load m a) eqn:E; auto. destruct R. eapply load_some; eauto.
Qed.

Lemma may_iff m a : may_write m a = true <-> exists v, m (wrap a) = Some (v, true).
Proof.
unfold may_write. split.
- destruct (m (wrap a)) as [[v w]|]; [|discriminate]. intros ->. eauto.
- intros [v ->]. reflexivity.
Qed.
Lemma store_writable m a v : writable_word m a <-> exists m', store m a v = Some m'.
Proof.
unfold store. split.
- intros W.
  assert (Q : forall i, i < 4 -> may_write m (a + i) = true) by (intros i L; apply may_iff, W, L).
  pose proof (Q 0 ltac:(lia)) as Q0. rewrite N.add_0_r in Q0.
  rewrite Q0, (Q 1), (Q 2), (Q 3) by lia. simpl. eauto.
- intros [m' E]. destruct (may_write m a && may_write m (a + 1) && may_write m (a + 2)
    && may_write m (a + 3)) eqn:B; [|discriminate].
  apply andb_true_iff in B. destruct B as [B B3]. apply andb_true_iff in B.
  destruct B as [B B2]. apply andb_true_iff in B. destruct B as [B0 B1].
  apply may_iff in B0, B1, B2, B3. intros i L.
  assert (C : i = 0 \/ i = 1 \/ i = 2 \/ i = 3) by lia.
  destruct C as [->|[->|[->| ->]]]; rewrite ?N.add_0_r; assumption.
Qed.
Lemma store_unwritable m a v : ~ writable_word m a -> store m a v = None.
Proof.
intros W. destruct (store m a v) eqn:E; auto. destruct W. apply (store_writable m a v). eauto.
Qed.
Lemma writable_readable m a : writable_word m a -> readable m a.
Proof. intros W i L. destruct (W i L) as [v ->]. eauto. Qed.

Lemma low b q : b < 256 -> (b + 256 * q) mod 256 = b.
Proof. intros L. rewrite N.mul_comm, N.mod_add by lia. apply N.mod_small, L. Qed.
Lemma high b q : b < 256 -> (b + 256 * q) / 256 = q.
Proof. intros L. rewrite N.mul_comm, N.div_add by lia. rewrite N.div_small by lia. lia. Qed.

(** Writing back what was read changes nothing. *)
Lemma write_back m a v m' : bytes_only m -> load m a = Some v -> store m a v = Some m' ->
  forall x, m' x = m x.
Proof.
intros B L S x. unfold store in S.
destruct (may_write m a && _ && _ && _) eqn:W; [|discriminate]. injection S as <-.
apply andb_true_iff in W. destruct W as [W W3]. apply andb_true_iff in W.
destruct W as [W W2]. apply andb_true_iff in W. destruct W as [W0 W1].
apply may_iff in W0, W1, W2, W3. destruct W0 as [v0 W0], W1 as [v1 W1], W2 as [v2 W2], W3 as [v3 W3].
unfold load, byte in L. rewrite W0, W1, W2, W3 in L. cbn [option_map fst] in L.
assert (EV : v = v0 + 256 * (v1 + 256 * (v2 + 256 * v3))) by congruence.
clear L. subst v. unfold put.
pose proof (B _ _ _ W0). pose proof (B _ _ _ W1). pose proof (B _ _ _ W2). pose proof (B _ _ _ W3).
rewrite !high by assumption. rewrite !low by assumption. rewrite (N.mod_small v3) by assumption.
destruct (N.eqb_spec x (wrap (a + 3))) as [->|]; auto.
destruct (N.eqb_spec x (wrap (a + 2))) as [->|]; auto.
destruct (N.eqb_spec x (wrap (a + 1))) as [->|]; auto.
destruct (N.eqb_spec x (wrap a)) as [->|]; auto.
Qed.

Lemma steps_S n p b s : steps (S n) p b s = steps n p b (step p b s).
Proof. reflexivity. Qed.
Ltac go := rewrite steps_S; unfold step; cbn [m_status m_cpu m_mem eip];
  unfold check_read, check_write; cbn [code_size size fetch]; tests;
  cbn [execute]; unfold next; cbn [size eip eax ebx ecx addr result].

Ltac handled := unfold handle; cbn [eax]; tests; cbn [eax ebx ecx eip addr result].

Lemma ended n p b s c m r : steps n p b s = Machine c m Left -> result c = r ->
  (forall x, m x = m_mem s x) -> answers p b s r.
Proof. intros E R M. exists n. cbn zeta. rewrite E. auto. Qed.

Lemma read_ok base a x y z r m : readable m a ->
  answers check_read base (enter base a x y z r m) 0.
Proof.
intros R. destruct (load_readable _ _ R) as [v L]. eapply (ended 5).
- unfold enter. do 2 go. go. rewrite L. do 2 go. reflexivity.
- reflexivity.
- reflexivity.
Qed.
Lemma read_bad base a x y z r m : ~ readable m a ->
  answers check_read base (enter base a x y z r m) 1.
Proof.
intros R. apply load_unreadable in R. eapply (ended 6).
- unfold enter. do 2 go. go. rewrite R. go. handled. do 2 go. reflexivity.
- reflexivity.
- reflexivity.
Qed.
Lemma write_good base a x y z r m : bytes_only m -> writable_word m a ->
  answers check_write base (enter base a x y z r m) 0.
Proof.
intros B W. destruct (load_readable _ _ (writable_readable _ _ W)) as [v L].
destruct (proj1 (store_writable m a v) W) as [m' S]. eapply (ended 6).
- unfold enter. do 2 go. go. rewrite L. go. rewrite S. do 2 go. reflexivity.
- reflexivity.
- eapply write_back; eauto.
Qed.
Lemma write_read_only base a x y z r m : readable m a -> ~ writable_word m a ->
  answers check_write base (enter base a x y z r m) 1.
Proof.
intros R W. destruct (load_readable _ _ R) as [v L]. pose proof (store_unwritable m a v W) as S.
eapply (ended 7).
- unfold enter. do 2 go. go. rewrite L. go. rewrite S. go. handled. do 2 go. reflexivity.
- reflexivity.
- reflexivity.
Qed.

Lemma write_stuck base a x y z r m : ~ readable m a -> exists c,
  steps 6 check_write base (enter base a x y z r m) = Machine c m Forgotten /\
  forall n, (n < 6)%nat -> m_status (steps n check_write base (enter base a x y z r m)) <> Left.
Proof.
intros R. pose proof (load_unreadable _ _ R) as L.
assert (S : forall v, store m a v = None).
{ intros v. apply store_unwritable. intros W. apply R, writable_readable, W. }
eexists. split.
- unfold enter. do 2 go. go. rewrite L. go. handled. go. rewrite S. go. handled. reflexivity.
- intros n H.
  assert (C : n = 0%nat \/ n = 1%nat \/ n = 2%nat \/ n = 3%nat \/ n = 4%nat \/ n = 5%nat) by lia.
  unfold enter. destruct C as [->|[->|[->|[->|[->| ->]]]]].
  + discriminate.
  + go. discriminate.
  + do 2 go. discriminate.
  + do 2 go. go. rewrite L. discriminate.
  + do 2 go. go. rewrite L. go. handled. discriminate.
  + do 2 go. go. rewrite L. go. handled. go. rewrite S. discriminate.
Qed.
Lemma write_never base a x y z r m : ~ readable m a ->
  never_answers check_write base (enter base a x y z r m).
Proof.
intros R. destruct (write_stuck base a x y z r m R) as (c & E & B).
assert (A : forall k, m_status (steps (6 + k) check_write base (enter base a x y z r m)) = Forgotten).
{ intros k. rewrite steps_add, E, steps_fixed; reflexivity. }
split.
- intros n. destruct (Nat.lt_ge_cases n 6) as [H|H]; [auto|].
  replace n with (6 + (n - 6))%nat by lia. rewrite A. discriminate.
- exists 6%nat. exact A.
Qed.

(** Answers are unique. *)
Lemma left_fixed p b s : m_status s = Left -> step p b s = s.
Proof. unfold step. now intros ->. Qed.
Lemma answers_unique p b s r r' : answers p b s r -> answers p b s r' -> r = r'.
Proof.
intros (n & L & <- & _) (k & L' & <- & _).
destruct (Nat.le_ge_cases n k) as [H|H].
- replace k with (n + (k - n))%nat by lia. rewrite steps_add, (steps_fixed (k - n)); auto.
  now apply left_fixed.
- replace n with (k + (n - k))%nat by lia. rewrite steps_add, (steps_fixed (n - k)); auto.
  now apply left_fixed.
Qed.

(** The tests of area Gdb. *)
Lemma can_read_iff s a : Gdb_Model.can_read s a = true <-> readable (Gdb_Model.mem s) a.
Proof.
unfold Gdb_Model.can_read, Gdb_Model.at_. rewrite forallb_forall. split.
- intros H i L. assert (I : In i [0; 1; 2; 3]) by (simpl; lia). specialize (H i I).
  destruct (Gdb_Model.mem s ((a + i) mod 2 ^ 32)) as [[v w]|]; [eauto|discriminate].
- intros R i I. assert (L : i < 4) by (simpl in I; lia). destruct (R i L) as (v & w & ->).
  reflexivity.
Qed.
Lemma can_write_iff s a : Gdb_Model.can_write s a = true <-> writable_word (Gdb_Model.mem s) a.
Proof.
unfold Gdb_Model.can_write, Gdb_Model.at_. rewrite forallb_forall. split.
- intros H i L. assert (I : In i [0; 1; 2; 3]) by (simpl; lia). specialize (H i I).
  destruct (Gdb_Model.mem s ((a + i) mod 2 ^ 32)) as [[v w]|]; [|discriminate].
  subst w. eauto.
- intros R i I. assert (L : i < 4) by (simpl in I; lia). destruct (R i L) as (v & ->).
  reflexivity.
Qed.
Lemma delegate_lemma s base a x y z r : bytes_only (Gdb_Model.mem s) ->
  let m := Gdb_Model.mem s in
  answers check_read base (enter base a x y z r m) (if Gdb_Model.can_read s a then 0 else 1) /\
  if Gdb_Model.can_read s a
  then answers check_write base (enter base a x y z r m) (if Gdb_Model.can_write s a then 0 else 1)
  else never_answers check_write base (enter base a x y z r m).
Proof.
intros B m. unfold m. clear m. pose proof (can_read_iff s a) as R. pose proof (can_write_iff s a) as W.
destruct (Gdb_Model.can_read s a).
- split; [apply read_ok; tauto|]. destruct (Gdb_Model.can_write s a).
  + apply write_good; tauto.
  + apply write_read_only; [tauto|]. intros H. apply W in H. discriminate.
- split; [apply read_bad|apply write_never]; intros H; apply R in H; discriminate.
Qed.
