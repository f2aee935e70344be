(** Executions of the start-up protocol: program order, counting, intermediate states. *)
From Coq Require Import List String Ascii Bool NArith Arith Lia.
From Verif Require Import Prelude DecStr Threads_Model Startup_Model Startup_Spec.
Import ListNotations.
Open Scope string_scope. Open Scope list_scope.

(** Thread [k] of the list of members. *)
Definition is_thread (ms : list member) (k : nat) (m : member) : Prop :=
  exists n, k = S n /\ nth_error ms n = Some m.
Definition interface_thread (ms : list member) (k : nat) : Prop :=
  exists m, is_thread ms k m /\ m_fault m = false.
Definition passive_thread (ms : list member) (k : nat) : Prop :=
  exists m, is_thread ms k m /\ m_passive m = true.

Lemma ieq (a b : instr) : {a = b} + {a <> b}.
Proof. repeat decide equality. Defined.

Definition cnt (i : instr) (l : list instr) : nat := count_occ ieq l i.
Lemma cnt_app i a b : cnt i (a ++ b) = cnt i a + cnt i b.
Proof. apply count_occ_app. Qed.
Lemma cnt_cons i a l : cnt i (a :: l) = (if ieq a i then 1 else 0) + cnt i l.
Proof. unfold cnt. simpl. destruct (ieq a i); reflexivity. Qed.
Lemma cnt_in i l : In i l <-> cnt i l >= 1.
Proof. unfold cnt. rewrite (count_occ_In ieq). lia. Qed.
Lemma cnt_nin i l : ~ In i l <-> cnt i l = 0.
Proof. unfold cnt. apply count_occ_not_In. Qed.

Definition executed (k : nat) (tr : list (nat * instr)) : list instr :=
  map snd (filter (fun p => Nat.eqb (fst p) k) tr).
Lemma executed_app k a b : executed k (a ++ b) = executed k a ++ executed k b.
Proof. unfold executed. rewrite filter_app, map_app. reflexivity. Qed.
Lemma executed_in k i tr : In i (executed k tr) <-> In (k, i) tr.
Proof.
  unfold executed. rewrite in_map_iff. split.
  - intros [[k' i'] [E H]]. apply filter_In in H. destruct H as [H1 H2]. simpl in *.
    apply Nat.eqb_eq in H2. subst. exact H1.
  - intros H. exists (k, i). split; [reflexivity|]. apply filter_In. split; [exact H|].
    simpl. apply Nat.eqb_refl.
Qed.

Lemma nth_set_same l k x : k < List.length l -> nth_error (set_nth l k x) k = Some x.
Proof. revert k; induction l as [|y l IH]; intros [|k]; simpl; intros; try lia; auto. apply IH; lia. Qed.
Lemma nth_set_other l k j x : j <> k -> nth_error (set_nth l k x) j = nth_error l j.
Proof.
  revert k j; induction l as [|y l IH]; intros [|k] [|j]; simpl; intros H; try reflexivity; try congruence.
  apply IH; lia.
Qed.
Lemma length_set l k x : List.length (set_nth l k x) = List.length l.
Proof. revert k; induction l as [|y l IH]; intros [|k]; simpl; auto. Qed.

(** ** Steps *)
Inductive reach (ms : list member) : sys -> Prop :=
| reach0 : reach ms (boot ms)
| reachS s k s' : reach ms s -> step ms k s = Some s' -> reach ms s'.

Lemma exec_snoc ms sched k s :
  exec ms (sched ++ [k]) s = match exec ms sched s with Some s => step ms k s | None => None end.
Proof.
  revert s; induction sched as [|j l IH]; intros s; simpl.
  - destruct (step ms k s); reflexivity.
  - destruct (step ms j s); auto.
Qed.
Lemma reachE ms s : reach ms s <-> reachable ms s.
Proof.
  split.
  - induction 1 as [|s k s' R [sched E] S].
    + exists []. reflexivity.
    + exists (sched ++ [k]). rewrite exec_snoc, E. exact S.
  - intros [sched E]. revert s E. induction sched as [|k l IH] using rev_ind; intros s E.
    + simpl in E. injection E as <-. constructor.
    + rewrite exec_snoc in E. destruct (exec ms l (boot ms)) as [s1|] eqn:E1; [|discriminate].
      econstructor; [apply IH; reflexivity|exact E].
Qed.

Lemma effect_rest i s s' : effect i s = Some s' -> s_rest s' = s_rest s /\ s_trace s' = s_trace s.
Proof.
  destruct i as [f|f|x|x|k|k| |k| ]; simpl; try (intros [= <-]; split; reflexivity).
  - intros [= <-]; destruct x; split; reflexivity.
  - destruct (level s x); [discriminate|]. intros [= <-]; destruct x; split; reflexivity.
  - destruct (s_ntfn s); [|discriminate]. intros [= <-]; split; reflexivity.
Qed.


Lemma step_inv ms k s s' : step ms k s = Some s' ->
  exists i r s0, nth_error (s_rest s) k = Some (i :: r) /\ runnable ms s k = true /\
    effect i s = Some s0 /\ s_rest s' = set_nth (s_rest s) k r /\
    s_trace s' = s_trace s ++ [(k, i)] /\
    (forall x, level s' x = level s0 x) /\ s_ntfn s' = s_ntfn s0 /\ s_sc s' = s_sc s0.
Proof.
  unfold step. destruct (nth_error (s_rest s) k) as [[|i r]|] eqn:E; try discriminate.
  destruct (runnable ms s k) eqn:R; try discriminate.
  destruct (effect i s) as [s0|] eqn:F; try discriminate.
  intros [= <-]. destruct (effect_rest _ _ _ F) as [H1 H2].
  exists i, r, s0. simpl. rewrite H1, H2. repeat split; auto.
Qed.

Definition binder (l : list instr) : option nat :=
  fold_left (fun o i => match i with Bind k => Some k | Unbind _ => None | _ => o end) l None.
Lemma binder_snoc l i :
  binder (l ++ [i]) = match i with Bind k => Some k | Unbind _ => None | _ => binder l end.
Proof. unfold binder. rewrite fold_left_app. reflexivity. Qed.

Definition controls (i : instr) : bool :=
  match i with Bind _ | Unbind _ | Await _ => true | _ => false end.

Definition all (tr : list (nat * instr)) : list instr := map snd tr.

Record inv (ms : list member) (s : sys) : Prop := {
  i_len : List.length (s_rest s) = S (List.length ms);
  i_prog : forall k p, nth_error (programs ms) k = Some p ->
    exists r, nth_error (s_rest s) k = Some r /\ p = executed k (s_trace s) ++ r;
  i_sem : forall x, cnt (Up x) (all (s_trace s)) = cnt (Down x) (all (s_trace s)) + level s x;
  i_idx : forall k i, In (k, i) (s_trace s) -> k <= List.length ms
}.

Lemma length_programs ms : List.length (programs ms) = S (List.length ms).
Proof. unfold programs. simpl. rewrite map_length. reflexivity. Qed.

Lemma executed_snoc k j i tr :
  executed k (tr ++ [(j, i)]) = if Nat.eqb j k then executed k tr ++ [i] else executed k tr.
Proof.
  rewrite executed_app. unfold executed at 2. simpl. destruct (Nat.eqb j k); simpl; auto using app_nil_r.
Qed.

Lemma reach_inv ms s : reach ms s -> inv ms s.
Proof.
  induction 1 as [|s k s' R IH S].
  - constructor; simpl.
    + rewrite map_length. reflexivity.
    + intros k p E. exists p. split; [exact E|reflexivity].
    + intros []; reflexivity.
    + intros k i [].
  - destruct IH as [L P C X].
    destruct (step_inv _ _ _ _ S) as (i & r & s0 & N & RU & F & RE & TR & LV & _ & _).
    assert (Hk : k < List.length (s_rest s)) by (apply nth_error_Some; congruence).
    constructor.
    + rewrite RE, length_set. exact L.
    + intros j p E. destruct (P j p E) as [r0 [N0 Ep]]. rewrite RE, TR, executed_snoc.
      destruct (Nat.eqb k j) eqn:Ekj.
      * apply Nat.eqb_eq in Ekj. subst j. rewrite nth_set_same by exact Hk.
        exists r. split; [reflexivity|]. rewrite N in N0. injection N0 as <-.
        rewrite <- app_assoc. exact Ep.
      * apply Nat.eqb_neq in Ekj. rewrite nth_set_other by auto. exists r0. auto.
    + intros x. unfold all. rewrite TR, map_app, !cnt_app. cbn [map snd]. specialize (C x). unfold all in C.
      rewrite LV. rewrite !cnt_cons. change (cnt (Up x) []) with 0. change (cnt (Down x) []) with 0.
      destruct i as [f|f|y|y|q|q| |q| ]; simpl in F;
        try (injection F as <-; destruct x; simpl in *; lia).
      * injection F as <-. destruct x, y; simpl in *; lia.
      * destruct (level s y) eqn:EL; [discriminate|]. injection F as <-.
        destruct x, y; simpl in *; lia.
      * destruct (s_ntfn s); [|discriminate]. injection F as <-. destruct x; simpl in *; lia.
    + intros j i0. rewrite TR, in_app_iff. intros [H|[[= <- <-]|[]]]; [eauto|lia].
Qed.

(** ** Intermediate states *)
Lemma reach_trace ms s l r : reach ms s -> s_trace s = l ++ r ->
  exists s1, reach ms s1 /\ s_trace s1 = l.
Proof.
  intros R. revert l r. induction R as [|s k s' R IH S]; intros l r E.
  - simpl in E. symmetry in E. apply app_eq_nil in E. destruct E as [-> ->].
    exists (boot ms). split; [constructor|reflexivity].
  - destruct (step_inv _ _ _ _ S) as (i & r0 & s0 & N & RU & F & RE & TR & _).
    destruct r as [|q r] using rev_ind.
    + exists s'. split; [econstructor; eauto|]. rewrite E, app_nil_r. reflexivity.
    + rewrite TR, app_assoc in E. apply app_inj_tail in E. destruct E as [E _].
      exact (IH _ _ E).
Qed.
Lemma reach_cons ms s l k i r : reach ms s -> s_trace s = l ++ (k, i) :: r ->
  exists s1 s2, reach ms s1 /\ s_trace s1 = l /\ step ms k s1 = Some s2 /\
    s_trace s2 = l ++ [(k, i)].
Proof.
  intros R. revert l r. induction R as [|s j s' R IH S]; intros l r E.
  - simpl in E. destruct l; discriminate.
  - destruct (step_inv _ _ _ _ S) as (i0 & r0 & s0 & N & RU & F & RE & TR & _).
    destruct r as [|q r] using rev_ind.
    + assert (E2 := E). rewrite TR in E. apply app_inj_tail in E. destruct E as [E [= -> ->]].
      exists s, s'. repeat split; auto.
    + rewrite TR, app_comm_cons, app_assoc in E. apply app_inj_tail in E. destruct E as [E _].
      exact (IH _ _ E).
Qed.
Lemma executed_split k tr x y : executed k tr = x ++ y ->
  exists l r, tr = l ++ r /\ executed k l = x.
Proof.
  revert x. induction tr as [|[j i] tr IH]; intros x E.
  - simpl in E. unfold executed in E. simpl in E. symmetry in E. apply app_eq_nil in E.
    destruct E as [-> _]. exists [], []. split; reflexivity.
  - unfold executed in E. simpl in E. destruct (Nat.eqb j k) eqn:Ej.
    + simpl in E. destruct x as [|i0 x].
      * exists [], ((j, i) :: tr). split; reflexivity.
      * simpl in E. injection E as <- E. destruct (IH x E) as (l & r & -> & El).
        exists ((j, i) :: l), r. split; [reflexivity|]. unfold executed. simpl. rewrite Ej. simpl.
        f_equal. exact El.
    + destruct (IH x E) as (l & r & -> & El).
      exists ((j, i) :: l), r. split; [reflexivity|]. unfold executed. simpl. rewrite Ej. exact El.
Qed.
Lemma reach_executed ms s k x y : reach ms s -> executed k (s_trace s) = x ++ y ->
  exists s1 r, reach ms s1 /\ executed k (s_trace s1) = x /\ s_trace s = s_trace s1 ++ r.
Proof.
  intros R E. destruct (executed_split _ _ _ _ E) as (l & r & E1 & E2).
  destruct (reach_trace _ _ _ _ R E1) as (s1 & R1 & T1). exists s1, r. subst l. auto.
Qed.

(** ** Prefixes of programs *)
Lemma past (A B E R : list instr) x : A ++ B = E ++ R -> In x E -> ~ In x A ->
  exists E', E = A ++ E'.
Proof.
  revert E. induction A as [|a A IH]; intros E H I N.
  - exists E. reflexivity.
  - destruct E as [|e E]; [destruct I|]. simpl in H. injection H as -> H.
    destruct I as [->|I]; [exfalso; apply N; left; reflexivity|].
    destruct (IH E H I) as [E' ->]; [intro; apply N; right; assumption|]. exists E'. reflexivity.
Qed.
(** Either the prefix has not passed [A] or it contains it. *)
Lemma split_prefix (A B E R : list instr) : A ++ B = E ++ R ->
  (exists X, X <> [] /\ A = E ++ X /\ R = X ++ B) \/ (exists E', E = A ++ E' /\ B = E' ++ R).
Proof.
  revert E. induction A as [|a A IH]; intros E H.
  - right. exists E. split; [reflexivity|exact H].
  - destruct E as [|e E].
    + left. exists (a :: A). simpl in *. subst R. repeat split; congruence.
    + simpl in H. injection H as -> H. destruct (IH E H) as [(X & N & -> & ->)|(E' & -> & ->)].
      * left. exists X. repeat split; auto.
      * right. exists E'. split; reflexivity.
Qed.

(** ** Sums over the threads *)
Definition sum (f : nat -> nat) (l : list nat) : nat := fold_right (fun k a => f k + a) 0 l.
Lemma sum_app f a b : sum f (a ++ b) = sum f a + sum f b.
Proof. induction a; simpl; lia. Qed.
Lemma sum_le f g l : (forall k, In k l -> f k <= g k) -> sum f l <= sum g l.
Proof.
  induction l as [|a l IH]; simpl; intros H; [lia|].
  assert (f a <= g a) by (apply H; auto). assert (sum f l <= sum g l) by (apply IH; intros; apply H; auto). lia.
Qed.
Lemma sum_eq f g l : (forall k, In k l -> f k <= g k) -> sum g l <= sum f l ->
  forall k, In k l -> f k = g k.
Proof.
  induction l as [|a l IH]; simpl; intros H S k I; [destruct I|].
  assert (f a <= g a) by (apply H; auto).
  assert (sum f l <= sum g l) by (apply sum_le; intros; apply H; auto).
  destruct I as [<-|I]; [lia|]. apply IH; auto. lia.
Qed.
Lemma sum_lt f g l k : (forall k, In k l -> f k <= g k) -> In k l -> f k < g k -> sum f l < sum g l.
Proof.
  intros H I L. destruct (le_lt_dec (sum g l) (sum f l)) as [G|G]; [|exact G].
  pose proof (sum_eq _ _ _ H G k I). lia.
Qed.
Lemma sum_ext f g l : (forall k, In k l -> f k = g k) -> sum f l = sum g l.
Proof. induction l as [|a l IH]; simpl; intros H; [reflexivity|]. rewrite H, IH; auto. Qed.
Lemma sum_add f g l : sum (fun k => f k + g k) l = sum f l + sum g l.
Proof. induction l as [|a l IH]; simpl; lia. Qed.
Lemma sum_scale f c l : sum (fun k => c * f k) l = c * sum f l.
Proof.
  induction l as [|a l IH]; [simpl; lia|].
  change (c * f a + sum (fun k => c * f k) l = c * (f a + sum f l)). rewrite IH. lia.
Qed.
Lemma sum_map (f : nat -> nat) (h : nat -> nat) l : sum f (map h l) = sum (fun k => f (h k)) l.
Proof. induction l as [|a l IH]; simpl; auto. Qed.

Lemma sum_one a l : NoDup l -> In a l -> sum (fun k => if Nat.eqb a k then 1 else 0) l = 1.
Proof.
  induction 1 as [|b l N ND IH]; simpl; [intros []|]. intros [->|I].
  - rewrite Nat.eqb_refl. rewrite (sum_ext _ (fun _ => 0)).
    + assert (forall l, sum (fun _ => 0) l = 0) as -> by (induction l0; auto). reflexivity.
    + intros k Hk. destruct (Nat.eqb a k) eqn:E; [|reflexivity]. apply Nat.eqb_eq in E. subst. contradiction.
  - destruct (Nat.eqb a b) eqn:E; [apply Nat.eqb_eq in E; subst; contradiction|]. rewrite IH; auto.
Qed.
Definition inb (k : nat) (l : list nat) : bool := existsb (Nat.eqb k) l.
Lemma inbP k l : inb k l = true <-> In k l.
Proof.
  unfold inb. rewrite existsb_exists. split.
  - intros (x & I & E). apply Nat.eqb_eq in E. subst. exact I.
  - intros I. exists k. split; [exact I|apply Nat.eqb_refl].
Qed.
Lemma sum_in P l : NoDup P -> NoDup l -> incl P l ->
  sum (fun k => if inb k P then 1 else 0) l = List.length P.
Proof.
  intros NP NL I. revert I. induction NP as [|a P N NP IH]; intros I.
  - simpl. assert (forall l, sum (fun _ => 0) l = 0) as -> by (induction l0; auto). reflexivity.
  - simpl. rewrite <- IH by (intros x Hx; apply I; right; exact Hx).
    rewrite (sum_ext _ (fun k => (if Nat.eqb a k then 1 else 0) + (if inb k P then 1 else 0))).
    + rewrite sum_add, sum_one; auto. apply I. left; reflexivity.
    + intros k Hk. unfold inb at 1. simpl. rewrite (Nat.eqb_sym a k).
      destruct (Nat.eqb k a) eqn:E; simpl; [|reflexivity].
      apply Nat.eqb_eq in E. subst. destruct (inb a P) eqn:EP; [|reflexivity].
      apply inbP in EP. contradiction.
Qed.

Lemma cnt_all i tr n : (forall k j, In (k, j) tr -> k <= n) ->
  cnt i (all tr) = sum (fun k => cnt i (executed k tr)) (seq 0 (S n)).
Proof.
  induction tr as [|[k j] tr IH] using rev_ind; intros H.
  - unfold all, executed. simpl. generalize (seq 1 n). intros l. rewrite <- (plus_O_n (sum _ l)) at 1.
    change (0 = 0 + sum (fun _ => 0) l).
    assert (forall l, sum (fun _ => 0) l = 0) as -> by (induction l0; auto). reflexivity.
  - unfold all. rewrite map_app, cnt_app. fold (all tr). rewrite IH by (intros; eapply H; apply in_app_iff; eauto).
    rewrite (sum_ext (fun q => cnt i (executed q (tr ++ [(k, j)])))
                     (fun q => cnt i (executed q tr) + (if Nat.eqb k q then 1 else 0) * cnt i [j])).
    + rewrite sum_add. f_equal. simpl (map snd _).
      assert (Hk : In k (seq 0 (S n))).
      { apply in_seq. assert (k <= n) by (eapply H; apply in_app_iff; right; left; reflexivity). lia. }
      rewrite (sum_ext _ (fun q => cnt i [j] * (if Nat.eqb k q then 1 else 0))) by (intros; apply Nat.mul_comm).
      rewrite sum_scale, (sum_one k _ (seq_NoDup _ _) Hk). symmetry. apply Nat.mul_1_r.
    + intros q Hq. rewrite executed_snoc. destruct (Nat.eqb k q); [rewrite cnt_app|]; lia.
Qed.
