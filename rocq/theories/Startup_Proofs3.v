(** Passive threads, readiness, progress. *)
From Coq Require Import List String Ascii Bool NArith Arith Lia.
From Verif Require Import Prelude DecStr Threads_Model Startup_Model Startup_Spec Startup_Proofs Startup_Proofs2.
Import ListNotations.
Open Scope string_scope. Open Scope list_scope.

(** ** The order in which passive threads start *)
Definition from_ (ms : list member) (P1 : list nat) (p : nat) (P2 : list nat) : list instr :=
  blk1 p ++ flat_map blk1 P2 ++ A4 ++ A5 ms ++ flat_map blk2 (passives ms) ++ A7.
Lemma control_pos ms P1 p P2 : passives ms = P1 ++ p :: P2 ->
  control_program ms = pos ms P1 ++ from_ ms P1 p P2.
Proof.
  intros E. rewrite controlE. unfold C1, pos, from_. rewrite E at 1. rewrite flat_map_app.
  simpl flat_map. rewrite <- !app_assoc. reflexivity.
Qed.
Lemma nd_mid (P1 P2 : list nat) p : NoDup (P1 ++ p :: P2) -> ~ In p P1 /\ ~ In p P2.
Proof. intros N. apply NoDup_remove_2 in N. split; intros H; apply N; apply in_app_iff; auto. Qed.

Lemma past_pos ms s P1 p P2 : reach ms s -> passives ms = P1 ++ p :: P2 ->
  In (Bind p) (executed 0 (s_trace s)) -> exists E, executed 0 (s_trace s) = pos ms P1 ++ E.
Proof.
  intros R P B. destruct (control_prefix _ _ R) as (r & _ & E). rewrite (control_pos _ _ _ _ P) in E.
  eapply past; [exact E|exact B|]. intros G. unfold pos in G. prog_in G. injection G as <-.
  pose proof (passives_nodup ms) as N. rewrite P in N. apply nd_mid in N. tauto.
Qed.

Lemma inited_first ms s k l r : reach ms s -> interface_thread ms k ->
  s_trace s = l ++ r -> In (k, Up Init) l -> In (k, End InitF) l.
Proof.
  intros R (m & TH & F) T U. apply in_split in U. destruct U as (l1 & l2 & El).
  assert (In (k, End InitF) l1); [|rewrite El; apply in_app_iff; auto].
  rewrite El in T. rewrite <- app_assoc in T.
  refine (own_first _ _ _ _ _ _ _ _ _ _ R (thread_program _ _ _ TH) _ _ _ T).
  - unfold member_program. rewrite F.
    change ([Down Pre; Begin ThreadTls; End ThreadTls; Begin InitF; End InitF; Up Init; Down Post] ++ ?x)
      with ([Down Pre; Begin ThreadTls; End ThreadTls; Begin InitF; End InitF] ++ ([Up Init; Down Post] ++ x)).
    reflexivity.
  - simpl; auto 6.
  - simpl; intuition discriminate.
Qed.

Lemma passive_order ms s p q P1 P2 i : reach ms s -> passives ms = P1 ++ q :: P2 ->
  (In p P1 \/ interface_thread ms p /\ ~ passive_thread ms p) -> interface_thread ms p ->
  first s p (End InitF) q i.
Proof.
  intros R P H IP l r T. destruct (reach_cons _ _ _ _ _ _ R T) as (s1 & s2 & R1 & T1 & S & T2).
  assert (PQ : passive_thread ms q) by (apply passives_in; rewrite P; apply in_app_iff; right; left; reflexivity).
  destruct PQ as (m & TQ & MQ).
  destruct (step_inv _ _ _ _ S) as (i0 & r0 & s0 & N & RU & _).
  pose proof (runnable_passive _ _ _ _ TQ MQ RU) as SC. rewrite (sc_binder _ _ R1) in SC.
  apply binder_in in SC. destruct (past_pos _ _ _ _ _ R1 P SC) as [E X].
  destruct (interface_cases _ _ IP) as [K C].
  assert (U : In (p, Up Init) (s_trace s1)).
  { eapply all_posted; eauto. destruct H as [H|[_ H]]; [auto|]. destruct C as [C|C]; [auto|].
    apply passives_in in C. contradiction. }
  rewrite T1 in U. eapply (inited_first ms s p l); eauto.
Qed.

(** ** Readiness *)
Definition bindf (o : option nat) (l : list instr) : option nat :=
  fold_left (fun o i => match i with Bind k => Some k | Unbind _ => None | _ => o end) l o.
Lemma bindf_app o a b : bindf o (a ++ b) = bindf (bindf o a) b.
Proof. apply fold_left_app. Qed.
Lemma bindf_keep o l : (forall i, In i l -> (forall k, i <> Bind k /\ i <> Unbind k)) -> bindf o l = o.
Proof.
  revert o. induction l as [|i l IH]; intros o H; [reflexivity|]. simpl.
  assert (Hi : forall k, i <> Bind k /\ i <> Unbind k) by (apply H; left; reflexivity).
  rewrite IH by (intros; apply H; right; assumption).
  destruct i; try reflexivity; destruct (Hi k); congruence.
Qed.
Lemma bindf_ups (b : member -> bool) x o ms : (forall k, x <> Bind k /\ x <> Unbind k) ->
  bindf o (flat_map (fun m : member => if b m then [] else [x]) ms) = o.
Proof. intros H. apply bindf_keep. intros i I k. apply in_ups in I. subst. apply H. Qed.
Lemma bindf_blk1 P : bindf None (flat_map blk1 P) = None.
Proof. induction P as [|p P IH]; [reflexivity|]. exact IH. Qed.
Lemma bindf_pos ms P1 : bindf None (pos ms P1) = None.
Proof.
  unfold pos. rewrite !bindf_app. change (bindf None A0) with (@None nat). unfold A1, A2.
  rewrite !bindf_ups by (split; discriminate). apply bindf_blk1.
Qed.
Definition D (ms : list member) : list instr := C1 ms ++ A4 ++ A5 ms.
Lemma bindf_D ms : bindf None (D ms) = None.
Proof.
  unfold D. rewrite C1_pos, !bindf_app, bindf_pos. change (bindf None A4) with (@None nat). unfold A5.
  apply bindf_ups. split; discriminate.
Qed.
Definition pos2 (ms : list member) (P1 : list nat) : list instr := D ms ++ flat_map blk2 P1.
Lemma control_D ms : control_program ms = D ms ++ flat_map blk2 (passives ms) ++ A7.
Proof. rewrite controlE. unfold D. rewrite <- !app_assoc. reflexivity. Qed.
Lemma bindf_blk2 P : bindf None (flat_map blk2 P) = None.
Proof. induction P as [|p P IH]; [reflexivity|]. exact IH. Qed.
Lemma bindf_pos2 ms P1 : bindf None (pos2 ms P1) = None.
Proof. unfold pos2. rewrite bindf_app, bindf_D. apply bindf_blk2. Qed.

Lemma blk2_prefix P E r p : flat_map blk2 P ++ A7 = E ++ r -> bindf None E = Some p ->
  exists P1 P2, P = P1 ++ p :: P2 /\
    (E = flat_map blk2 P1 ++ [Bind p] \/ E = flat_map blk2 P1 ++ [Bind p; Await p]).
Proof.
  revert E. induction P as [|q P IH]; intros E H B.
  - simpl in H. exfalso. rewrite bindf_keep in B; [discriminate|].
    intros i I k. assert (G : In i A7) by (rewrite H; apply in_app_iff; auto).
    simpl in G. destruct G as [<-|[<-|[<-|[<-|[]]]]]; split; discriminate.
  - destruct E as [|e1 E]; [discriminate|]. simpl in H. injection H as <- H.
    destruct E as [|e2 E].
    { simpl in B. injection B as <-. exists [], P. auto. }
    simpl in H. injection H as <- H.
    destruct E as [|e3 E].
    { simpl in B. injection B as <-. exists [], P. auto. }
    simpl in H. injection H as <- H. simpl in B.
    destruct (IH E H B) as (P1 & P2 & -> & C). exists (q :: P1), P2. split; [reflexivity|].
    destruct C as [-> | ->]; [left|right]; reflexivity.
Qed.

Lemma signal_pos ms s p m s' : reach ms s -> is_thread ms p m -> m_passive m = true ->
  step ms p s = Some s' -> s_trace s' = s_trace s ++ [(p, Signal)] ->
  exists P1 P2, passives ms = P1 ++ p :: P2 /\
    (executed 0 (s_trace s) = pos2 ms P1 ++ [Bind p] \/
     executed 0 (s_trace s) = pos2 ms P1 ++ [Bind p; Await p]).
Proof.
  intros R T MP S TR.
  assert (R' : reach ms s') by (econstructor; eauto).
  destruct (step_inv _ _ _ _ S) as (i & r & s0 & N & RU & _ & _ & TR' & _).
  pose proof (runnable_passive _ _ _ _ T MP RU) as SC. rewrite (sc_binder _ _ R) in SC.
  assert (NF : m_fault m = false).
  { assert (I : In (p, Signal) (s_trace s')) by (rewrite TR; apply in_app_iff; right; left; reflexivity).
    apply (member_did _ _ _ _ _ R' T) in I. destruct (m_fault m) eqn:F; [|reflexivity]. exfalso.
    unfold member_program in I. rewrite F in I. simpl in I. clear - I. intuition discriminate. }
  assert (DP : In (p, Down Post) (s_trace s)).
  { refine (own_first _ _ _ _ _ _ _ _ _ _ R' (thread_program _ _ _ T) _ _ _ TR).
    - unfold member_program. rewrite NF. reflexivity.
    - simpl; auto 8.
    - simpl; intuition discriminate. }
  destruct (down_up _ _ _ _ R DP) as [j H].
  assert (j = 0) by (apply (only_control ms s j (Up Post) R H); simpl; intuition discriminate). subst j.
  destruct (control_prefix _ _ R) as (r1 & _ & E). rewrite controlE in E. rewrite (app_assoc (C1 ms)) in E.
  destruct (past _ _ _ _ (Up Post) E) as [E1 X]; [apply executed_in; exact H|intros G; prog_in G|].
  rewrite X in E. rewrite <- (app_assoc _ E1) in E. apply app_inv_head in E.
  rewrite X in SC. unfold binder in SC.
  change (bindf None ((C1 ms ++ A4) ++ E1) = Some p) in SC. rewrite bindf_app in SC.
  assert (B0 : bindf None (C1 ms ++ A4) = None) by (rewrite C1_pos, bindf_app, bindf_pos; reflexivity).
  rewrite B0 in SC. destruct (split_prefix _ _ _ _ E) as [(Y & NY & E2 & E3)|(E2 & -> & E3)].
  - exfalso. rewrite bindf_keep in SC; [discriminate|]. intros i0 I k.
    assert (G : In i0 (A5 ms)) by (rewrite E2; apply in_app_iff; auto). apply in_ups in G. subst i0.
    split; discriminate.
  - rewrite bindf_app in SC. unfold A5 in SC. rewrite bindf_ups in SC by (split; discriminate).
    destruct (blk2_prefix _ _ _ _ E3 SC) as (P1 & P2 & P & C). exists P1, P2. split; [exact P|].
    rewrite X. unfold pos2, D. destruct C as [-> | ->]; [left|right]; rewrite <- !app_assoc; reflexivity.
Qed.

Definition sound (ms : list member) : Prop :=
  forall m, In m ms -> (m_fault m = true -> m_passive m = false) /\
                       (m_runs_passive m = true -> m_passive m = true).
Lemma sound_thread ms k m : sound ms -> is_thread ms k m ->
  (m_fault m = true -> m_passive m = false) /\ (m_runs_passive m = true -> m_passive m = true).
Proof. intros W (n & _ & N). apply W. apply nth_error_In in N. exact N. Qed.

Definition at_bind (ms : list member) (s : sys) (p : nat) : Prop :=
  exists P1 P2, passives ms = P1 ++ p :: P2 /\ executed 0 (s_trace s) = pos2 ms P1 ++ [Bind p].
Lemma at_bind_next ms s p r : reach ms s -> at_bind ms s p -> nth_error (s_rest s) 0 = Some r ->
  exists r', r = Await p :: r'.
Proof.
  intros R (P1 & P2 & P & X) N. destruct (control_prefix _ _ R) as (r1 & N1 & E). rewrite N in N1. injection N1 as <-.
  rewrite control_D, P, flat_map_app, X in E. unfold pos2 in E. rewrite <- !app_assoc in E.
  apply app_inv_head in E. apply app_inv_head in E. simpl in E. injection E as <-. eauto.
Qed.
Lemma at_bind_unique ms s p q : at_bind ms s p -> at_bind ms s q -> p = q.
Proof.
  intros (P1 & P2 & P & X) (Q1 & Q2 & Q & Y). rewrite X in Y. apply app_inj_tail in Y. destruct Y as [_ [= ->]]. reflexivity.
Qed.

Record ready (ms : list member) (s : sys) : Prop := {
  k1 : forall p, In (0, Await p) (s_trace s) -> In (p, Signal) (s_trace s);
  k2 : forall p, In (p, Signal) (s_trace s) ->
       In (0, Await p) (s_trace s) \/ (s_ntfn s = true /\ at_bind ms s p);
  k3 : s_ntfn s = true -> exists p, In (p, Signal) (s_trace s) /\ at_bind ms s p
}.

Lemma effect_ntfn i s s' : effect i s = Some s' -> i <> Signal -> (forall k, i <> Await k) -> s_ntfn s' = s_ntfn s.
Proof.
  destruct i as [f|f|x|x|q|q| |q| ]; simpl; intros F N A; try (injection F as <-; reflexivity); try congruence.
  - injection F as <-. destruct x; reflexivity.
  - destruct (level s x); [discriminate|]. injection F as <-. destruct x; reflexivity.
Qed.

Lemma reach_ready ms s : sound ms -> reach ms s -> ready ms s.
Proof.
  intros W. induction 1 as [|s k s' R IH S].
  { constructor; simpl; [intros p []|intros p []|discriminate]. }
  assert (R' : reach ms s') by (econstructor; eauto).
  destruct (step_inv _ _ _ _ S) as (i & r & s0 & N & RU & F & RE & TR & _ & NT & _).
  assert (Ik : In (k, i) (s_trace s')) by (rewrite TR; apply in_app_iff; right; left; reflexivity).
  assert (SUB : forall x, In x (s_trace s) -> In x (s_trace s')) by (intros; rewrite TR; apply in_app_iff; auto).
  destruct (ieq i Signal) as [->|NS].
  { (* a passive thread signals *)
    simpl in F. injection F as <-. simpl in NT.
    destruct (thread_of _ _ _ _ R' Ik) as [->|[m T]].
    { exfalso. eapply never_control; [exact R'|exact Ik|simpl; auto]. }
    assert (MR : m_runs_passive m = true).
    { apply (member_did _ _ _ _ _ R' T) in Ik. destruct (m_runs_passive m) eqn:MR; [reflexivity|]. exfalso.
      unfold member_program in Ik. rewrite MR in Ik. destruct (m_fault m); simpl in Ik; clear - Ik; intuition discriminate. }
    assert (MP := proj2 (sound_thread _ _ _ W T) MR).
    destruct (signal_pos _ _ _ _ _ R T MP S TR) as (P1 & P2 & P & C).
    assert (NK : k <> 0) by (destruct T as (n & -> & _); lia).
    assert (EX : executed 0 (s_trace s') = executed 0 (s_trace s)).
    { rewrite TR, executed_snoc. destruct (Nat.eqb k 0) eqn:E; [apply Nat.eqb_eq in E; congruence|reflexivity]. }
    destruct C as [C|C].
    - assert (AB : at_bind ms s' k) by (exists P1, P2; rewrite EX; auto).
      constructor.
      + intros p I. rewrite TR, in_app_iff in I. destruct I as [I|[I|[]]]; [|congruence]. apply SUB, (k1 _ _ IH), I.
      + intros p I. rewrite TR, in_app_iff in I. destruct I as [I|[[= ->]|[]]].
        * destruct (k2 _ _ IH p I) as [G|[_ (Q1 & Q2 & Q & X)]]; [left; auto|right]. split; [exact NT|].
          exists Q1, Q2. rewrite EX. auto.
        * right. auto.
      + intros _. exists k. auto.
    - exfalso.
      assert (G : In (0, Await k) (s_trace s)).
      { apply executed_in. rewrite C. apply in_app_iff. right. simpl; auto. }
      apply (k1 _ _ IH) in G. pose proof (executed_le _ _ _ _ Signal R' T) as L.
      rewrite TR, executed_snoc, Nat.eqb_refl, cnt_app in L. apply executed_in, cnt_in in G.
      assert (cnt Signal (member_program m) <= 1) by (destruct m as [[] a []]; simpl; lia).
      change (cnt Signal [Signal]) with 1 in L. lia. }
  destruct (ieq i (Await match i with Await q => q | _ => 0 end)) as [EA|NA].
  { (* the control thread has waited *)
    destruct i as [| | | | | | |q| ]; try discriminate. simpl in F.
    destruct (s_ntfn s) eqn:EN; [|discriminate]. injection F as <-. simpl in NT.
    assert (k = 0) by (apply (only_control ms s' k (Await q) R' Ik); simpl; intuition discriminate). subst k.
    destruct (k3 _ _ IH EN) as (p & SP & AB). destruct (at_bind_next _ _ _ _ R AB N) as [r' [= -> ->]].
    constructor.
    - intros p0 I. rewrite TR, in_app_iff in I. destruct I as [I|[[= ->]|[]]]; [apply SUB, (k1 _ _ IH), I|].
      apply SUB. exact SP.
    - intros p0 I. rewrite TR, in_app_iff in I. destruct I as [I|[I|[]]]; [|discriminate].
      destruct (k2 _ _ IH p0 I) as [G|[_ AB0]]; [left; auto|].
      rewrite (at_bind_unique _ _ _ _ AB0 AB). left. exact Ik.
    - intros H. congruence. }
  (* any other step *)
  assert (EN : s_ntfn s' = s_ntfn s).
  { rewrite NT. eapply effect_ntfn; eauto. intros q ->. congruence. }
  assert (AB : forall p, at_bind ms s p -> at_bind ms s' p).
  { intros p H. destruct (Nat.eqb k 0) eqn:EK.
    - apply Nat.eqb_eq in EK. subst k. destruct (at_bind_next _ _ _ _ R H N) as [r' [= -> ->]]. congruence.
    - destruct H as (P1 & P2 & P & X). exists P1, P2. split; [exact P|]. rewrite TR, executed_snoc, EK. exact X. }
  constructor.
  - intros p I. rewrite TR, in_app_iff in I. destruct I as [I|[[= -> ->]|[]]]; [apply SUB, (k1 _ _ IH), I|].
    congruence.
  - intros p I. rewrite TR, in_app_iff in I. destruct I as [I|[[= -> ->]|[]]]; [|congruence].
    rewrite EN. destruct (k2 _ _ IH p I) as [G|[G1 G2]]; auto.
  - rewrite EN. intros H. destruct (k3 _ _ IH H) as (p & G1 & G2). eauto.
Qed.

Lemma ready_first ms s p : sound ms -> reach ms s -> passive_thread ms p -> first s p Signal 0 (Begin Control).
Proof.
  intros W R P l r T. apply passives_in in P.
  assert (A : In (0, Await p) l).
  { refine (control_own ms s (Begin Control) (Await p) (D ms ++ flat_map blk2 (passives ms)) A7 R _ _ _ l r T).
    - rewrite control_D, app_assoc. reflexivity.
    - apply in_app_iff. right. apply in_flat_map. exists p. split; [exact P|]. simpl; auto.
    - intros G. unfold D in G. prog_in G. }
  destruct (reach_trace _ _ _ _ R T) as (s1 & R1 & T1). rewrite <- T1 in A |- *.
  apply (k1 _ _ (reach_ready _ _ W R1)). exact A.
Qed.

(** ** Nobody returns *)
Lemma executed_le_control ms s i : reach ms s -> cnt i (executed 0 (s_trace s)) <= cnt i (control_program ms).
Proof. intros R. destruct (control_prefix _ _ R) as (r & _ & ->). rewrite cnt_app. lia. Qed.

Lemma cnt_blk2 i P : (forall k, i <> Bind k /\ i <> Unbind k /\ i <> Await k) -> cnt i (flat_map blk2 P) = 0.
Proof.
  intros H. apply cnt_nin. intros I. apply in_blk2 in I.
  destruct I as (k & _ & [E|[E|E]]); apply (H k) in E; auto.
Qed.
Lemma pos_up ms P1 : cnt (Up Pre) (pos ms P1) =
  sum (nholds (fun m => negb (m_passive m)) ms) (seq 1 (List.length ms)) + List.length P1.
Proof.
  unfold pos. rewrite !cnt_app. change (cnt (Up Pre) A0) with 0. unfold A2.
  rewrite (cnt_other _ (Up Pre) (Down Init)) by discriminate. unfold A1. rewrite cnt_ups.
  change (Up Pre) with (match true with true => Up Pre | false => Down Init end) at 1.
  rewrite cnt_blk1. simpl. reflexivity.
Qed.
Lemma passives_length ms :
  List.length (passives ms) = sum (nholds m_passive ms) (seq 1 (List.length ms)).
Proof.
  rewrite <- (sum_in (passives ms) (seq 1 (List.length ms)));
    [|apply passives_nodup|apply seq_NoDup|apply passives_incl].
  apply sum_ext. intros k K. destruct (in_seq_thread _ _ K) as (m & T & A).
  unfold nholds, holds. rewrite A. destruct (m_passive m) eqn:P.
  - assert (I : inb k (passives ms) = true); [|rewrite I; reflexivity].
    apply inbP, passives_in. exists m. auto.
  - destruct (inb k (passives ms)) eqn:I; [|reflexivity]. apply inbP, passives_in in I.
    destruct I as (m' & T' & P'). apply is_thread_at in T'. destruct T' as [_ A']. congruence.
Qed.
Lemma control_ups ms : cnt (Up Pre) (control_program ms) = List.length ms.
Proof.
  rewrite controlE, C1_pos, !cnt_app, pos_up, passives_length.
  change (cnt (Up Pre) A4) with 0. change (cnt (Up Pre) A7) with 0. unfold A5.
  rewrite (cnt_other _ (Up Pre) (Up Post)) by discriminate.
  rewrite cnt_blk2 by (intros; repeat split; discriminate).
  rewrite !Nat.add_0_r, <- sum_add.
  rewrite (sum_ext _ (fun _ => 1)).
  - clear. generalize 1 at 2. induction (List.length ms) as [|n IH]; intros a; simpl; [reflexivity|]. rewrite IH. reflexivity.
  - intros k K. destruct (in_seq_thread _ _ K) as (m & T & A). unfold nholds, holds. rewrite A.
    destruct (m_passive m); reflexivity.
Qed.
Lemma control_downs ms : sound ms -> cnt (Down Init) (control_program ms) =
  S (sum (nholds (fun m => negb (m_fault m)) ms) (seq 1 (List.length ms))).
Proof.
  intros W. rewrite controlE, C1_pos, !cnt_app, pos_down, passives_length.
  change (cnt (Down Init) A4) with 0. change (cnt (Down Init) A7) with 1. unfold A5.
  rewrite (cnt_other _ (Down Init) (Up Post)) by discriminate.
  rewrite cnt_blk2 by (intros; repeat split; discriminate).
  rewrite <- sum_add. simpl. rewrite Nat.add_1_r. f_equal. apply sum_ext.
  intros k K. destruct (in_seq_thread _ _ K) as (m & T & A). unfold nholds, holds, actif. rewrite A.
  destruct (sound_thread _ _ _ W T) as [W1 _]. destruct (m_fault m) eqn:F, (m_passive m) eqn:P; try reflexivity.
  specialize (W1 eq_refl). discriminate.
Qed.

Lemma up_init_le ms s : reach ms s ->
  cnt (Up Init) (all (s_trace s)) <= sum (nholds (fun m => negb (m_fault m)) ms) (seq 1 (List.length ms)).
Proof.
  intros R. rewrite (total_members _ _ _ R) by (simpl; auto). apply sum_le. intros k K.
  destruct (in_seq_thread _ _ K) as (m & T & A). unfold nholds, holds. rewrite A.
  pose proof (executed_le _ _ _ _ (Up Init) R T) as L.
  assert (LE : cnt (Up Init) (member_program m) = if m_fault m then 0 else 1) by (destruct m as [[] a []]; reflexivity).
  rewrite LE in L. destruct (m_fault m); simpl; lia.
Qed.

(** Even with a fault handler the control thread does not return. *)
Lemma control_stays ms s : sound ms -> reach ms s -> ~ In (0, Return) (s_trace s).
Proof.
  intros W R I.
  assert (X : In Return (executed 0 (s_trace s))) by (apply executed_in; exact I).
  destruct (control_prefix _ _ R) as (r & _ & E).
  assert (E' : control_program ms = (D ms ++ flat_map blk2 (passives ms) ++ [Begin Control; End Control; Down Init]) ++ [Return]).
  { rewrite control_D. rewrite <- !app_assoc. reflexivity. }
  rewrite E' in E.
  destruct (past _ _ _ _ Return E X) as [F G].
  { intros H. unfold D in H. prog_in H. }
  assert (C : cnt (Down Init) (executed 0 (s_trace s)) >= cnt (Down Init) (control_program ms)).
  { rewrite G, E'. rewrite (cnt_app _ _ F), (cnt_app _ _ [Return]). change (cnt (Down Init) [Return]) with 0. lia. }
  rewrite (control_downs _ W) in C.
  pose proof (i_sem _ _ (reach_inv _ _ R) Init) as S. pose proof (up_init_le _ _ R).
  rewrite (total_control _ _ (Down Init) R) in S by (simpl; intuition discriminate). lia.
Qed.

Lemma twice_post ms s k m : reach ms s -> is_thread ms k m -> cnt (Down Pre) (executed k (s_trace s)) >= 2 ->
  In (k, Down Post) (s_trace s).
Proof.
  intros R T C. destruct (thread_prefix _ _ _ _ R T) as (r & _ & E). apply executed_in.
  unfold member_program in E. destruct (m_fault m).
  - exfalso. assert (L : cnt (Down Pre) [Down Pre; Begin ThreadTls; End ThreadTls; Begin FaultHandler] = 1) by reflexivity.
    rewrite E, cnt_app in L. lia.
  - destruct (split_prefix _ _ _ _ E) as [(X & N & E2 & E3)|(F & -> & E3)].
    + exfalso. assert (L : cnt (Down Pre) [Down Pre; Begin ThreadTls; End ThreadTls; Begin InitF; End InitF; Up Init; Down Post] = 1) by reflexivity.
      rewrite E2, cnt_app in L. lia.
    + apply in_app_iff. left. simpl; auto 8.
Qed.

Lemma nobody_returns ms s k : sound ms -> (forall m, In m ms -> m_fault m = false) -> reach ms s ->
  ~ In (k, Return) (s_trace s).
Proof.
  intros W NF R I. destruct (thread_of _ _ _ _ R I) as [->|[m T]]; [eapply control_stays; eauto|].
  assert (Fm : m_fault m = false).
  { apply NF. destruct T as (n & _ & N). apply nth_error_In in N. exact N. }
  assert (C2 : cnt (Down Pre) (executed k (s_trace s)) >= 2).
  { destruct (thread_prefix _ _ _ _ R T) as (r & _ & E). apply executed_in in I.
    assert (G : member_program m = (removelast (member_program m)) ++ [Return]) by (unfold member_program; rewrite Fm; destruct (m_runs_passive m); reflexivity).
    rewrite G in E. destruct (past _ _ _ _ Return E I) as [F X].
    - unfold member_program. rewrite Fm. destruct (m_runs_passive m); simpl; intuition discriminate.
    - rewrite X, cnt_app. unfold member_program. rewrite Fm. destruct (m_runs_passive m); simpl; lia. }
  destruct (post_done _ _ _ R (twice_post _ _ _ _ R T C2)) as [E X]. rewrite <- app_assoc in X.
  assert (ALL : forall j, In j (seq 1 (List.length ms)) -> 1 <= cnt (Down Pre) (executed j (s_trace s))).
  { intros j J. destruct (in_seq_thread _ _ J) as (mj & Tj & Aj).
    assert (IJ : interface_thread ms j).
    { exists mj. split; [exact Tj|]. apply NF. destruct Tj as (n & _ & N). apply nth_error_In in N. exact N. }
    pose proof (all_inited _ _ _ _ R X IJ) as U. apply cnt_in. destruct (thread_prefix _ _ _ _ R Tj) as (r & _ & Ej).
    apply executed_in in U. destruct (executed j (s_trace s)) as [|a l]; [destruct U|]. left.
    unfold member_program in Ej. destruct (m_fault mj); injection Ej as E0 _; symmetry; exact E0. }
  assert (K : In k (seq 1 (List.length ms))) by (apply is_thread_at in T; tauto).
  pose proof (sum_lt (fun _ => 1) (fun j => cnt (Down Pre) (executed j (s_trace s))) _ k ALL K C2) as L.
  rewrite <- (total_members _ _ (Down Pre) R) in L by (simpl; auto).
  pose proof (i_sem _ _ (reach_inv _ _ R) Pre) as S.
  rewrite (total_control _ _ (Up Pre) R) in S by (simpl; intuition discriminate).
  pose proof (executed_le_control _ _ (Up Pre) R) as U. rewrite control_ups in U.
  assert (forall a n, sum (fun _ => 1) (seq a n) = n) as Z by (intros a n; revert a; induction n; intros; simpl; auto).
  rewrite Z in L. lia.
Qed.
