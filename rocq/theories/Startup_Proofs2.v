(** The order of initialisation. *)
From Coq Require Import List String Ascii Bool NArith Arith Lia.
From Verif Require Import Prelude DecStr Threads_Model Startup_Model Startup_Spec Startup_Proofs.
Import ListNotations.
Open Scope string_scope. Open Scope list_scope.

(** ** Parts of the control program *)
Definition A0 : list instr := [Begin TlsSetup; End TlsSetup; Begin PreInit; End PreInit].
Definition A1 (ms : list member) : list instr :=
  flat_map (fun m => if m_passive m then [] else [Up Pre]) ms.
Definition A2 (ms : list member) : list instr :=
  flat_map (fun m => if m_fault m || m_passive m then [] else [Down Init]) ms.
Definition blk1 (k : nat) : list instr := [Bind k; Up Pre; Down Init; Unbind k].
Definition A4 : list instr := [Begin PostInit; End PostInit].
Definition A5 (ms : list member) : list instr :=
  flat_map (fun m => if m_fault m then [] else [Up Post]) ms.
Definition blk2 (k : nat) : list instr := [Bind k; Await k; Unbind k].
Definition A7 : list instr := [Begin Control; End Control; Down Init; Return].
Definition C1 (ms : list member) : list instr :=
  A0 ++ A1 ms ++ A2 ms ++ flat_map blk1 (passives ms).

Lemma controlE ms : control_program ms =
  C1 ms ++ A4 ++ A5 ms ++ flat_map blk2 (passives ms) ++ A7.
Proof. unfold control_program, pre_sync, post_sync, C1. rewrite <- !app_assoc. reflexivity. Qed.

Lemma in_ups (b : member -> bool) (x i : instr) ms :
  In i (flat_map (fun m => if b m then [] else [x]) ms) -> i = x.
Proof. rewrite in_flat_map. intros (m & _ & H). destruct (b m); [destruct H|]. destruct H as [->|[]]; reflexivity. Qed.
Lemma in_blk1 i l : In i (flat_map blk1 l) ->
  i = Up Pre \/ i = Down Init \/ exists k, In k l /\ (i = Bind k \/ i = Unbind k).
Proof.
  rewrite in_flat_map. intros (k & I & H). simpl in H.
  destruct H as [<-|[<-|[<-|[<-|[]]]]]; eauto 6.
Qed.
Lemma in_blk2 i l : In i (flat_map blk2 l) ->
  exists k, In k l /\ (i = Bind k \/ i = Unbind k \/ i = Await k).
Proof.
  rewrite in_flat_map. intros (k & I & H). simpl in H.
  destruct H as [<-|[<-|[<-|[]]]]; eauto 6.
Qed.

Ltac prog_in H :=
  unfold C1 in H; repeat (rewrite in_app_iff in H);
  repeat match type of H with _ \/ _ => destruct H as [H|H] end;
  try (apply in_ups in H; try discriminate H);
  try (apply in_blk1 in H; destruct H as [H|[H|(? & ? & [H|H])]]; try discriminate H);
  try (apply in_blk2 in H; destruct H as (? & ? & [H|[H|H]]); try discriminate H);
  try (simpl in H; intuition discriminate).

(** ** Threads *)
Lemma programs_S ms n : nth_error (programs ms) (S n) = option_map member_program (nth_error ms n).
Proof. unfold programs. simpl. apply nth_error_map. Qed.

Lemma thread_prefix ms s k m : reach ms s -> is_thread ms k m ->
  exists r, nth_error (s_rest s) k = Some r /\ member_program m = executed k (s_trace s) ++ r.
Proof.
  intros R (n & -> & N). apply (i_prog _ _ (reach_inv _ _ R)). rewrite programs_S, N. reflexivity.
Qed.
Lemma control_prefix ms s : reach ms s ->
  exists r, nth_error (s_rest s) 0 = Some r /\ control_program ms = executed 0 (s_trace s) ++ r.
Proof. intros R. apply (i_prog _ _ (reach_inv _ _ R)). reflexivity. Qed.

Lemma thread_of ms s k i : reach ms s -> In (k, i) (s_trace s) -> k = 0 \/ exists m, is_thread ms k m.
Proof.
  intros R I. apply (i_idx _ _ (reach_inv _ _ R)) in I. destruct k as [|n]; [left; reflexivity|right].
  destruct (nth_error ms n) as [m|] eqn:E; [exists m, n; auto|]. apply nth_error_None in E. lia.
Qed.

Lemma in_member m i : In i (member_program m) ->
  In i [Down Pre; Begin ThreadTls; End ThreadTls; Begin FaultHandler; Begin InitF; End InitF; Up Init;
        Down Post; Signal; Begin Serve; End Serve; Begin RunF; End RunF; Return].
Proof. destruct m as [[] p []]; simpl; intuition. Qed.

Lemma member_did ms s k m i : reach ms s -> is_thread ms k m -> In (k, i) (s_trace s) -> In i (member_program m).
Proof.
  intros R T I. destruct (thread_prefix _ _ _ _ R T) as (r & _ & ->). apply in_app_iff. left.
  apply executed_in. exact I.
Qed.
Lemma control_did ms s i : reach ms s -> In (0, i) (s_trace s) -> In i (control_program ms).
Proof.
  intros R I. destruct (control_prefix _ _ R) as (r & _ & ->). apply in_app_iff. left.
  apply executed_in. exact I.
Qed.

(** What only the control thread does, and what it never does. *)
Lemma only_control ms s k i : reach ms s -> In (k, i) (s_trace s) ->
  ~ In i [Down Pre; Begin ThreadTls; End ThreadTls; Begin FaultHandler; Begin InitF; End InitF; Up Init;
        Down Post; Signal; Begin Serve; End Serve; Begin RunF; End RunF; Return] -> k = 0.
Proof.
  intros R I N. destruct (thread_of _ _ _ _ R I) as [->|[m T]]; [reflexivity|].
  exfalso. apply N. eapply in_member, member_did; eauto.
Qed.
Lemma never_control ms s i : reach ms s -> In (0, i) (s_trace s) ->
  In i [Down Pre; Up Init; Down Post; Signal] -> False.
Proof.
  intros R I N. apply (control_did _ _ _ R) in I. rewrite controlE in I.
  simpl in N. destruct N as [<-|[<-|[<-|[<-|[]]]]]; prog_in I.
Qed.

(** ** Own order *)
Lemma own_first (p X Y : list instr) ms s k l r i j :
  reach ms s -> nth_error (programs ms) k = Some p -> p = X ++ Y -> In j X -> ~ In i X ->
  s_trace s = l ++ (k, i) :: r -> In (k, j) l.
Proof.
  intros R N -> J I T. destruct (reach_cons _ _ _ _ _ _ R T) as (s1 & s2 & R1 & T1 & S & T2).
  assert (R2 : reach ms s2) by (econstructor; eauto).
  destruct (i_prog _ _ (reach_inv _ _ R2) _ _ N) as (r0 & _ & E).
  rewrite T2, executed_snoc, Nat.eqb_refl in E.
  destruct (past _ _ _ _ i E) as [E' H]; [apply in_app_iff; right; left; reflexivity|exact I|].
  destruct E' as [|e E' _] using rev_ind.
  - rewrite app_nil_r in H. exfalso. apply I. rewrite <- H. apply in_app_iff. right; left; reflexivity.
  - rewrite app_assoc in H. apply app_inj_tail in H. destruct H as [H _].
    apply executed_in. rewrite H. apply in_app_iff. left. exact J.
Qed.

Lemma thread_program ms k m : is_thread ms k m -> nth_error (programs ms) k = Some (member_program m).
Proof. intros (n & -> & N). rewrite programs_S, N. reflexivity. Qed.

(** ** A token taken is a token given *)
Lemma down_up ms s k x : reach ms s -> In (k, Down x) (s_trace s) -> exists j, In (j, Up x) (s_trace s).
Proof.
  intros R I. pose proof (i_sem _ _ (reach_inv _ _ R) x) as E.
  assert (H : In (Down x) (all (s_trace s))) by (apply in_map_iff; exists (k, Down x); auto).
  apply cnt_in in H. assert (G : In (Up x) (all (s_trace s))) by (apply cnt_in; lia).
  apply in_map_iff in G. destruct G as [[j i] [E1 G]]. simpl in E1. subst i. eauto.
Qed.

Lemma pre_done ms s k : reach ms s -> In (k, Down Pre) (s_trace s) ->
  exists E, executed 0 (s_trace s) = A0 ++ E.
Proof.
  intros R I. destruct (down_up _ _ _ _ R I) as [j H].
  assert (j = 0) by (eapply only_control; eauto; simpl; intuition discriminate). subst j.
  destruct (control_prefix _ _ R) as (r & _ & E). rewrite controlE in E. unfold C1 in E.
  rewrite <- !app_assoc in E.
  eapply past; [exact E|apply executed_in; exact H|]. simpl. intuition discriminate.
Qed.
Lemma post_done ms s k : reach ms s -> In (k, Down Post) (s_trace s) ->
  exists E, executed 0 (s_trace s) = (C1 ms ++ A4) ++ E.
Proof.
  intros R I. destruct (down_up _ _ _ _ R I) as [j H].
  assert (j = 0) by (eapply only_control; eauto; simpl; intuition discriminate). subst j.
  destruct (control_prefix _ _ R) as (r & _ & E). rewrite controlE in E.
  rewrite (app_assoc (C1 ms)) in E.
  eapply past; [exact E|apply executed_in; exact H|]. intros G. prog_in G.
Qed.

(** ** Who may run *)
Lemma sc_binder ms s : reach ms s -> s_sc s = binder (executed 0 (s_trace s)).
Proof.
  induction 1 as [|s k s' R IH S]; [reflexivity|].
  destruct (step_inv _ _ _ _ S) as (i & r & s0 & N & RU & F & RE & TR & _ & _ & SC).
  assert (R' : reach ms s') by (econstructor; eauto).
  assert (I : In (k, i) (s_trace s')) by (rewrite TR; apply in_app_iff; right; left; reflexivity).
  rewrite SC, TR, executed_snoc. destruct (Nat.eqb k 0) eqn:E.
  - rewrite binder_snoc. destruct i as [f|f|x|x|q|q| |q| ]; simpl in F; try (injection F as <-; simpl; auto; fail).
    + injection F as <-. destruct x; simpl; auto.
    + destruct (level s x); [discriminate|]. injection F as <-. destruct x; simpl; auto.
    + destruct (s_ntfn s); [|discriminate]. injection F as <-. simpl; auto.
  - rewrite <- IH. apply Nat.eqb_neq in E.
    destruct i as [f|f|x|x|q|q| |q| ]; simpl in F; try (injection F as <-; simpl; auto; fail).
    + injection F as <-. destruct x; simpl; auto.
    + destruct (level s x); [discriminate|]. injection F as <-. destruct x; simpl; auto.
    + exfalso. apply E. eapply only_control; eauto. simpl; intuition discriminate.
    + exfalso. apply E. eapply only_control; eauto. simpl; intuition discriminate.
    + destruct (s_ntfn s); [|discriminate]. injection F as <-. simpl; auto.
Qed.
Lemma binder_in l k : binder l = Some k -> In (Bind k) l.
Proof.
  induction l as [|i l IH] using rev_ind; [discriminate|]. rewrite binder_snoc, in_app_iff.
  destruct i as [f|f|x|x|q|q| |q| ]; auto; try discriminate. intros [= ->]. right; left; reflexivity.
Qed.
Lemma runnable_passive ms s k m : is_thread ms k m -> m_passive m = true -> runnable ms s k = true ->
  s_sc s = Some k.
Proof.
  intros (n & -> & N) P. unfold runnable. rewrite N, P. simpl negb. rewrite orb_false_l.
  intros H. apply eqb_eq in H. exact H.
Qed.
Lemma passive_bound ms s k m i : reach ms s -> is_thread ms k m -> m_passive m = true ->
  In (k, i) (s_trace s) -> In (Bind k) (executed 0 (s_trace s)).
Proof.
  intros R T P I. apply in_split in I. destruct I as (l & r & E).
  destruct (reach_cons _ _ _ _ _ _ R E) as (s1 & s2 & R1 & T1 & S & T2).
  destruct (step_inv _ _ _ _ S) as (i0 & r0 & s0 & N & RU & _).
  pose proof (runnable_passive _ _ _ _ T P RU) as SC. rewrite (sc_binder _ _ R1) in SC.
  apply binder_in in SC. rewrite E, executed_app, <- T1. apply in_app_iff. left. exact SC.
Qed.

(** ** Numbers of threads *)
Definition at_ (ms : list member) (k : nat) : option member := nth_error ms (k - 1).
Lemma sum_members (g : option member -> nat) ms :
  sum (fun k => g (at_ ms k)) (seq 1 (List.length ms)) = fold_right (fun m a => g (Some m) + a) 0 ms.
Proof.
  rewrite <- seq_shift, sum_map. unfold at_.
  rewrite (sum_ext _ (fun k => g (nth_error ms k))) by (intros k _; simpl; rewrite Nat.sub_0_r; reflexivity).
  induction ms as [|m ms IH]; [reflexivity|].
  change (List.length (m :: ms)) with (S (List.length ms)). rewrite <- cons_seq, <- seq_shift. simpl. rewrite sum_map. simpl.
  rewrite IH. reflexivity.
Qed.
Lemma is_thread_at ms k m : is_thread ms k m <-> In k (seq 1 (List.length ms)) /\ at_ ms k = Some m.
Proof.
  unfold at_. split.
  - intros (n & -> & N). simpl. rewrite Nat.sub_0_r. split; [|exact N].
    apply in_seq. assert (n < List.length ms) by (apply nth_error_Some; congruence). lia.
  - intros [I N]. apply in_seq in I. exists (k - 1). split; [lia|exact N].
Qed.

Definition holds (b : member -> bool) (ms : list member) (k : nat) : bool :=
  match at_ ms k with Some m => b m | None => false end.
Definition nholds b ms (k : nat) : nat := if holds b ms k then 1 else 0.
Lemma sum_holds b ms :
  sum (nholds b ms) (seq 1 (List.length ms)) = fold_right (fun m a => (if b m then 1 else 0) + a) 0 ms.
Proof.
  rewrite <- (sum_members (fun o => if match o with Some m => b m | None => false end then 1 else 0)).
  reflexivity.
Qed.
Lemma cnt_ups (b : member -> bool) i ms :
  cnt i (flat_map (fun m => if b m then [] else [i]) ms) =
  sum (nholds (fun m => negb (b m)) ms) (seq 1 (List.length ms)).
Proof.
  rewrite sum_holds. induction ms as [|m ms IH]; [reflexivity|]. simpl flat_map. rewrite cnt_app, IH. simpl.
  destruct (b m); simpl; [reflexivity|]. destruct (ieq i i); [reflexivity|congruence].
Qed.
Lemma cnt_other (b : member -> bool) i j ms : i <> j ->
  cnt i (flat_map (fun m => if b m then [] else [j]) ms) = 0.
Proof. intros N. apply cnt_nin. intros H. apply in_ups in H. auto. Qed.
Lemma cnt_blk1 P x : cnt (match x with true => Up Pre | false => Down Init end) (flat_map blk1 P) = List.length P.
Proof.
  induction P as [|k P IH]; [destruct x; reflexivity|].
  change (flat_map blk1 (k :: P)) with (blk1 k ++ flat_map blk1 P). rewrite cnt_app, IH.
  destruct x; reflexivity.
Qed.

Lemma nd_app_l {A} (a b : list A) : NoDup (a ++ b) -> NoDup a.
Proof.
  induction a as [|x a IH]; simpl; intros H; [constructor|]. inversion H; subst. constructor; auto.
  intros I. apply H2. apply in_app_iff. auto.
Qed.
Lemma map_fst_combine {A B} (l : list A) (l' : list B) : List.length l = List.length l' ->
  map fst (combine l l') = l.
Proof. revert l'. induction l as [|a l IH]; intros [|b l']; simpl; intros; try discriminate; f_equal; auto. Qed.
Lemma nd_filter {A B} (f : A * B -> bool) l : NoDup (map fst l) -> NoDup (map fst (filter f l)).
Proof.
  induction l as [|a l IH]; simpl; intros H; [constructor|]. inversion H as [|? ? N ND]; subst.
  destruct (f a); simpl; auto. constructor; auto. intros I. apply N. apply in_map_iff in I.
  destruct I as (q & E & I). apply filter_In in I. rewrite <- E. apply in_map. tauto.
Qed.
Lemma numbered_keys ms : map fst (numbered ms) = seq 1 (List.length ms).
Proof. unfold numbered. apply map_fst_combine. rewrite seq_length. reflexivity. Qed.
Lemma passives_nodup ms : NoDup (passives ms).
Proof. apply nd_filter. rewrite numbered_keys. apply seq_NoDup. Qed.
Lemma combine_nth {B} (ms : list B) a k m :
  In (k, m) (combine (seq a (List.length ms)) ms) <-> exists n, k = a + n /\ nth_error ms n = Some m.
Proof.
  revert a. induction ms as [|x ms IH]; intros a; simpl.
  - split; [intros []|]. intros ([|n] & _ & H); discriminate.
  - split.
    + intros [[= <- <-]|H]; [exists 0; split; [lia|reflexivity]|].
      apply IH in H. destruct H as (n & -> & N). exists (S n). split; [lia|exact N].
    + intros ([|n] & -> & N); [left; simpl in N; injection N as ->; f_equal; lia|].
      right. apply IH. exists n. split; [lia|exact N].
Qed.
Lemma numbered_in ms k m : In (k, m) (numbered ms) <-> is_thread ms k m.
Proof. unfold numbered. rewrite combine_nth. split; intros (n & E & N); exists n; auto. Qed.
Lemma passives_in ms k : In k (passives ms) <-> passive_thread ms k.
Proof.
  unfold passives, passive_thread. rewrite in_map_iff. split.
  - intros ([k' m] & <- & H). apply filter_In in H. destruct H as [H P]. exists m. split; [|exact P].
    apply numbered_in. exact H.
  - intros (m & T & P). exists (k, m). split; [reflexivity|]. apply filter_In. split; [|exact P].
    apply numbered_in. exact T.
Qed.
Lemma passives_incl ms : incl (passives ms) (seq 1 (List.length ms)).
Proof. intros k H. apply passives_in in H. destruct H as (m & T & _). apply is_thread_at in T. tauto. Qed.

(** ** Totals *)
Lemma total ms s i : reach ms s ->
  cnt i (all (s_trace s)) =
  cnt i (executed 0 (s_trace s)) + sum (fun k => cnt i (executed k (s_trace s))) (seq 1 (List.length ms)).
Proof. intros R. rewrite (cnt_all _ _ (List.length ms)); [reflexivity|apply (i_idx _ _ (reach_inv _ _ R))]. Qed.
Lemma sum_zero l : sum (fun _ => 0) l = 0.
Proof. induction l; auto. Qed.
Lemma total_control ms s i : reach ms s ->
  ~ In i [Down Pre; Begin ThreadTls; End ThreadTls; Begin FaultHandler; Begin InitF; End InitF; Up Init;
        Down Post; Signal; Begin Serve; End Serve; Begin RunF; End RunF; Return] ->
  cnt i (all (s_trace s)) = cnt i (executed 0 (s_trace s)).
Proof.
  intros R N. rewrite (total _ _ _ R). rewrite (sum_ext _ (fun _ => 0)); [rewrite sum_zero; lia|].
  intros k Hk. apply cnt_nin. intros H. apply executed_in in H.
  assert (k = 0) by (eapply only_control; eauto). apply in_seq in Hk. lia.
Qed.
Lemma total_members ms s i : reach ms s -> In i [Down Pre; Up Init; Down Post; Signal] ->
  cnt i (all (s_trace s)) = sum (fun k => cnt i (executed k (s_trace s))) (seq 1 (List.length ms)).
Proof.
  intros R N. rewrite (total _ _ _ R).
  assert (E : cnt i (executed 0 (s_trace s)) = 0); [|lia].
  apply cnt_nin. intros H. apply executed_in in H. eapply never_control; eauto.
Qed.

Lemma executed_le ms s k m i : reach ms s -> is_thread ms k m ->
  cnt i (executed k (s_trace s)) <= cnt i (member_program m).
Proof. intros R T. destruct (thread_prefix _ _ _ _ R T) as (r & _ & ->). rewrite cnt_app. lia. Qed.
Lemma in_seq_thread ms k : In k (seq 1 (List.length ms)) -> exists m, is_thread ms k m /\ at_ ms k = Some m.
Proof.
  intros I. destruct (at_ ms k) as [m|] eqn:E.
  - exists m. split; [|reflexivity]. apply is_thread_at. auto.
  - apply in_seq in I. unfold at_ in E. apply nth_error_None in E. lia.
Qed.

Definition actif (m : member) : bool := negb (m_fault m || m_passive m).
Definition pos (ms : list member) (P1 : list nat) : list instr :=
  A0 ++ A1 ms ++ A2 ms ++ flat_map blk1 P1.
Lemma C1_pos ms : C1 ms = pos ms (passives ms).
Proof. reflexivity. Qed.
Lemma pos_down ms P1 : cnt (Down Init) (pos ms P1) =
  sum (nholds actif ms) (seq 1 (List.length ms)) + List.length P1.
Proof.
  unfold pos. rewrite !cnt_app. change (cnt (Down Init) A0) with 0. unfold A1.
  rewrite (cnt_other _ (Down Init) (Up Pre)) by discriminate. unfold A2. rewrite cnt_ups.
  change (Down Init) with (match false with true => Up Pre | false => Down Init end) at 1.
  rewrite cnt_blk1. reflexivity.
Qed.

(** When the control thread has waited for the threads in [P1] (and all those with a
    scheduling context), these have been initialised. *)
Lemma all_posted ms s P1 P2 E k : reach ms s -> passives ms = P1 ++ P2 ->
  executed 0 (s_trace s) = pos ms P1 ++ E ->
  In k (seq 1 (List.length ms)) -> (holds actif ms k = true \/ In k P1) ->
  In (k, Up Init) (s_trace s).
Proof.
  intros R P X K H.
  destruct (reach_executed _ _ _ _ _ R X) as (s1 & r & R1 & X1 & T1).
  rewrite T1. apply in_app_iff. left. clear s R E X r T1. rename s1 into s.
  apply executed_in, cnt_in.
  set (g := fun k => nholds actif ms k + (if inb k P1 then 1 else 0)).
  assert (NP1 : NoDup P1) by (pose proof (passives_nodup ms) as N; rewrite P in N; exact (nd_app_l _ _ N)).
  assert (IP1 : incl P1 (seq 1 (List.length ms))).
  { intros x Hx. apply passives_incl. rewrite P. apply in_app_iff. auto. }
  assert (F : forall k, In k (seq 1 (List.length ms)) -> cnt (Up Init) (executed k (s_trace s)) <= g k).
  { intros j Hj. destruct (in_seq_thread _ _ Hj) as (m & T & A).
    pose proof (executed_le _ _ _ _ (Up Init) R1 T) as L.
    assert (LE : cnt (Up Init) (member_program m) = if m_fault m then 0 else 1)
      by (destruct m as [[] p []]; reflexivity).
    unfold g, nholds, holds. rewrite A. unfold actif.
    destruct (m_fault m) eqn:MF; simpl; [lia|]. destruct (m_passive m) eqn:MP; simpl; [|lia].
    destruct (inb j P1) eqn:IB; [lia|].
    assert (~ In (Up Init) (executed j (s_trace s))) as Z; [|apply cnt_nin in Z; lia].
    intros Z. apply executed_in in Z. pose proof (passive_bound _ _ _ _ _ R1 T MP Z) as B.
    rewrite X1 in B. assert (In j P1); [|apply inbP in H0; congruence].
    unfold pos in B. prog_in B. injection B as ->. assumption. }
  assert (G : sum g (seq 1 (List.length ms)) <= sum (fun k => cnt (Up Init) (executed k (s_trace s))) (seq 1 (List.length ms))).
  { unfold g. rewrite sum_add, sum_in by (auto using seq_NoDup).
    rewrite <- (pos_down ms P1), <- X1.
    rewrite <- (total_control ms s (Down Init) R1) by (simpl; intuition discriminate).
    rewrite <- (total_members ms s (Up Init) R1) by (simpl; auto).
    pose proof (i_sem _ _ (reach_inv _ _ R1) Init). lia. }
  rewrite (sum_eq _ _ _ F G k K). unfold g, nholds. destruct H as [->|H]; [lia|].
  apply inbP in H. rewrite H. lia.
Qed.

Lemma interface_cases ms k : interface_thread ms k ->
  In k (seq 1 (List.length ms)) /\ (holds actif ms k = true \/ In k (passives ms)).
Proof.
  intros (m & T & F). assert (A := T). apply is_thread_at in A. destruct A as [K A]. split; [exact K|].
  unfold holds, actif. rewrite A, F. simpl. destruct (m_passive m) eqn:P; [right|left; reflexivity].
  apply passives_in. exists m. auto.
Qed.

Lemma all_inited ms s E k : reach ms s -> executed 0 (s_trace s) = C1 ms ++ E -> interface_thread ms k ->
  In (k, Up Init) (s_trace s).
Proof.
  intros R X I. apply interface_cases in I. destruct I as [K H].
  eapply (all_posted ms s (passives ms) []); eauto. rewrite app_nil_r. reflexivity.
Qed.

(** ** The theorems on order *)
Lemma tls_after ms s k i : reach ms s -> k <> 0 -> first s 0 (End PreInit) k i.
Proof.
  intros R K l r T. destruct (reach_cons _ _ _ _ _ _ R T) as (s1 & s2 & R1 & T1 & S & T2).
  assert (R2 : reach ms s2) by (econstructor; eauto).
  assert (I : In (k, i) (s_trace s2)) by (rewrite T2; apply in_app_iff; right; left; reflexivity).
  destruct (thread_of _ _ _ _ R2 I) as [->|[m TH]]; [congruence|].
  assert (D : In (k, Down Pre) (s_trace s2)).
  { destruct (thread_prefix _ _ _ _ R2 TH) as (r0 & _ & E). apply executed_in. apply executed_in in I.
    destruct (executed k (s_trace s2)) as [|a l0]; [destruct I|]. left.
    unfold member_program in E. destruct (m_fault m); injection E as E0 _; symmetry; exact E0. }
  destruct (pre_done _ _ _ R2 D) as [E X].
  assert (G : In (0, End PreInit) (s_trace s2)).
  { apply executed_in. rewrite X. simpl; auto. }
  rewrite T2, in_app_iff in G. destruct G as [G|[[= E1 E2]|[]]]; [exact G|]. congruence.
Qed.

Lemma control_own ms s i j X Y : reach ms s -> control_program ms = X ++ Y -> In j X -> ~ In i X ->
  first s 0 j 0 i.
Proof. intros R E J I l r T. eapply own_first; eauto. reflexivity. Qed.

Lemma init_before_post ms s k : reach ms s -> interface_thread ms k ->
  first s k (End InitF) 0 (Begin PostInit).
Proof.
  intros R I l r T. destruct (reach_cons _ _ _ _ _ _ R T) as (s1 & s2 & R1 & T1 & S & T2).
  assert (R2 : reach ms s2) by (econstructor; eauto).
  destruct (control_prefix _ _ R2) as (r0 & _ & E). rewrite controlE in E.
  destruct (past _ _ _ _ (Begin PostInit) E) as [E' X].
  { apply executed_in. rewrite T2. apply in_app_iff. right; left; reflexivity. }
  { intros G. prog_in G. }
  pose proof (all_inited _ _ _ _ R2 X I) as U. rewrite T2, in_app_iff in U.
  destruct U as [U|[U|[]]]; [|discriminate]. apply in_split in U. destruct U as (l1 & l2 & El).
  destruct I as (m & TH & F).
  assert (In (k, End InitF) l1); [|rewrite El; apply in_app_iff; auto].
  rewrite <- T1 in El. refine (own_first _ _ _ _ _ _ _ _ _ _ R1 (thread_program _ _ _ TH) _ _ _ El).
  - unfold member_program. rewrite F.
    change ([Down Pre; Begin ThreadTls; End ThreadTls; Begin InitF; End InitF; Up Init; Down Post] ++ ?x)
      with ([Down Pre; Begin ThreadTls; End ThreadTls; Begin InitF; End InitF] ++ ([Up Init; Down Post] ++ x)).
    reflexivity.
  - simpl; auto 6.
  - simpl; intuition discriminate.
Qed.

Definition beginnings : list instr :=
  [Down Pre; Begin ThreadTls; End ThreadTls; Begin FaultHandler; Begin InitF; End InitF; Up Init].

Lemma run_after_post ms s k i : reach ms s -> k <> 0 -> ~ In i (Down Post :: beginnings) ->
  first s 0 (End PostInit) k i.
Proof.
  intros R K N l r T. destruct (reach_cons _ _ _ _ _ _ R T) as (s1 & s2 & R1 & T1 & S & T2).
  assert (R2 : reach ms s2) by (econstructor; eauto).
  assert (I : In (k, i) (s_trace s2)) by (rewrite T2; apply in_app_iff; right; left; reflexivity).
  destruct (thread_of _ _ _ _ R2 I) as [->|[m TH]]; [congruence|].
  assert (D : In (k, Down Post) l).
  { pose proof (member_did _ _ _ _ _ R2 TH I) as M.
    assert (F : m_fault m = false).
    { destruct (m_fault m) eqn:F; [|reflexivity]. exfalso. apply N. unfold member_program in M. rewrite F in M.
      simpl in M |- *. intuition. }
    refine (own_first _ _ _ _ _ _ _ _ _ _ R (thread_program _ _ _ TH) _ _ _ T).
    - unfold member_program. rewrite F. reflexivity.
    - simpl; auto 8.
    - intros G. apply N. simpl in G |- *. intuition. }
  rewrite <- T1 in D. destruct (post_done _ _ _ R1 D) as [E X].
  rewrite <- T1. apply executed_in. rewrite X. apply in_app_iff. left. apply in_app_iff. right. simpl; auto.
Qed.

(** Each function is begun and ended at most once by each thread. *)
Lemma control_once ms f : cnt (Begin f) (control_program ms) <= 1 /\ cnt (End f) (control_program ms) <= 1.
Proof.
  rewrite controlE. unfold C1. rewrite !cnt_app.
  assert (Z : forall i, (forall k, i <> Bind k /\ i <> Unbind k /\ i <> Await k) ->
    i <> Up Pre -> i <> Down Init -> i <> Up Post ->
    cnt i (A1 ms) = 0 /\ cnt i (A2 ms) = 0 /\ cnt i (flat_map blk1 (passives ms)) = 0 /\
    cnt i (A5 ms) = 0 /\ cnt i (flat_map blk2 (passives ms)) = 0).
  { intros i B N1 N2 N3. repeat split; apply cnt_nin; intros H.
    - apply in_ups in H. auto. - apply in_ups in H. auto.
    - apply in_blk1 in H. destruct H as [H|[H|(k & _ & [H|H])]]; auto; apply (B k) in H; auto.
    - apply in_ups in H. auto.
    - apply in_blk2 in H. destruct H as (k & _ & [H|[H|H]]); apply (B k) in H; auto. }
  destruct (Z (Begin f)) as (-> & -> & -> & -> & ->); try discriminate; [intros; repeat split; discriminate|].
  destruct (Z (End f)) as (-> & -> & -> & -> & ->); try discriminate; [intros; repeat split; discriminate|].
  destruct f; simpl; split; lia.
Qed.
Lemma member_once m f : cnt (Begin f) (member_program m) <= 1 /\ cnt (End f) (member_program m) <= 1.
Proof. destruct m as [[] p []]; destruct f; simpl; split; lia. Qed.
Lemma once ms s k i l r : reach ms s -> (exists f, i = Begin f \/ i = End f) ->
  s_trace s = l ++ (k, i) :: r -> ~ In (k, i) l /\ ~ In (k, i) r.
Proof.
  intros R F T.
  assert (L : cnt i (executed k (s_trace s)) <= 1).
  { assert (I : In (k, i) (s_trace s)) by (rewrite T; apply in_app_iff; right; left; reflexivity).
    destruct (thread_of _ _ _ _ R I) as [->|[m TH]].
    - destruct (control_prefix _ _ R) as (q & _ & E). destruct F as [f [->| ->]];
      destruct (control_once ms f) as [H1 H2]; rewrite E, cnt_app in H1, H2; lia.
    - pose proof (executed_le _ _ _ _ i R TH). destruct F as [f [->| ->]]; destruct (member_once m f); lia. }
  rewrite T, executed_app, cnt_app in L. change ((k, i) :: r) with ([(k, i)] ++ r) in L.
  rewrite executed_app, cnt_app in L. unfold executed at 2 in L. simpl in L. rewrite Nat.eqb_refl in L.
  simpl in L. destruct (ieq i i) as [_|]; [|congruence].
  split; intros H; apply executed_in, cnt_in in H; lia.
Qed.
