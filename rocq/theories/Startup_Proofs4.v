(** Progress: the control thread reaches the user's run function. *)
From Coq Require Import List String Ascii Bool NArith Arith Lia.
From Verif Require Import Prelude DecStr Threads_Model Startup_Model Startup_Spec
  Startup_Proofs Startup_Proofs2 Startup_Proofs3.
Import ListNotations.
Open Scope string_scope. Open Scope list_scope.

(** ** A bound on the number of steps *)
Definition left_ (s : sys) : nat := fold_right (fun p a => List.length p + a) 0 (s_rest s).
Lemma left_set l k (i : instr) r : nth_error l k = Some (i :: r) ->
  fold_right (fun p a => List.length p + a) 0 l = S (fold_right (fun p a => List.length p + a) 0 (set_nth l k r)).
Proof.
  revert k. induction l as [|x l IH]; intros [|k] H; try discriminate; simpl in *.
  - injection H as ->. reflexivity.
  - rewrite (IH _ H). lia.
Qed.
Lemma step_left ms k s s' : step ms k s = Some s' -> left_ s = S (left_ s').
Proof.
  intros S. destruct (step_inv _ _ _ _ S) as (i & r & s0 & N & _ & _ & RE & _).
  unfold left_. rewrite RE. apply (left_set _ _ _ _ N).
Qed.
Lemma exec_left ms sched s s' : exec ms sched s = Some s' -> left_ s = List.length sched + left_ s'.
Proof.
  revert s. induction sched as [|k l IH]; intros s; simpl; [intros [= ->]; reflexivity|].
  destruct (step ms k s) as [s1|] eqn:E; [|discriminate]. intros H.
  rewrite (step_left _ _ _ _ E), (IH _ H). reflexivity.
Qed.

(** ** Where the control thread can wait *)
Lemma blk1_split P E i X : flat_map blk1 P = E ++ i :: X ->
  (exists P1 p P2, P = P1 ++ p :: P2 /\ i = Down Init /\ E = flat_map blk1 P1 ++ [Bind p; Up Pre]) \/
  (exists p, i = Bind p \/ i = Up Pre \/ i = Unbind p).
Proof.
  revert E. induction P as [|q P IH]; intros E H.
  - destruct E; discriminate.
  - simpl in H. destruct E as [|e E]; simpl in H; injection H as <- H; [right; exists q; auto|].
    destruct E as [|e E]; simpl in H; injection H as <- H; [right; exists q; auto|].
    destruct E as [|e E]; simpl in H; injection H as <- H.
    { left. exists [], q, P. repeat split; auto. }
    destruct E as [|e E]; simpl in H; injection H as <- H; [right; exists q; auto|].
    destruct (IH E H) as [(P1 & p & P2 & -> & -> & ->)|G]; [left|right; exact G].
    exists (q :: P1), p, P2. repeat split.
Qed.
Lemma blk2_split P E i X : flat_map blk2 P = E ++ i :: X ->
  (exists P1 p P2, P = P1 ++ p :: P2 /\ i = Await p /\ E = flat_map blk2 P1 ++ [Bind p]) \/
  (exists p, i = Bind p \/ i = Unbind p).
Proof.
  revert E. induction P as [|q P IH]; intros E H.
  - destruct E; discriminate.
  - simpl in H. destruct E as [|e E]; simpl in H; injection H as <- H; [right; exists q; auto|].
    destruct E as [|e E]; simpl in H; injection H as <- H.
    { left. exists [], q, P. repeat split; auto. }
    destruct E as [|e E]; simpl in H; injection H as <- H; [right; exists q; auto|].
    destruct (IH E H) as [(P1 & p & P2 & -> & -> & ->)|G]; [left|right; exact G].
    exists (q :: P1), p, P2. repeat split.
Qed.

Definition waits (i : instr) : bool := match i with Down _ | Await _ => true | _ => false end.

Lemma blocked ms s k i r : at_rest ms s -> nth_error (s_rest s) k = Some (i :: r) ->
  runnable ms s k = true ->
  (exists x, i = Down x /\ level s x = 0) \/ (exists p, i = Await p /\ s_ntfn s = false).
Proof.
  intros A N R. specialize (A k). unfold step in A. rewrite N, R in A.
  destruct i as [f|f|x|x|q|q| |q| ]; simpl in A; try discriminate.
  - destruct (level s x) eqn:E; [|discriminate]. left. eauto.
  - destruct (s_ntfn s) eqn:E; [discriminate|]. right. eauto.
Qed.

Lemma sum_lt_ex f g l : sum f l < sum g l -> exists k, In k l /\ f k < g k.
Proof.
  induction l as [|a l IH]; simpl; intros H; [lia|].
  destruct (lt_dec (f a) (g a)) as [L|L]; [eauto|].
  destruct IH as (k & I & L'); [lia|]. eauto.
Qed.

(** A thread that can run, has not been initialised and waits has not started. *)
Lemma not_started ms s k m : reach ms s -> at_rest ms s -> is_thread ms k m -> m_fault m = false ->
  runnable ms s k = true -> ~ In (k, Up Init) (s_trace s) ->
  executed k (s_trace s) = [] /\ level s Pre = 0.
Proof.
  intros R A T F RU NU. destruct (thread_prefix _ _ _ _ R T) as (r & N & E).
  assert (NU' : ~ In (Up Init) (executed k (s_trace s))) by (intros H; apply NU, executed_in, H).
  unfold member_program in E. rewrite F in E.
  remember ((if m_runs_passive m then [Signal; Begin Serve; End Serve] else [Begin RunF; End RunF]) ++ [Down Pre; Return]) as tl.
  simpl in E. clear Heqtl.
  destruct (executed k (s_trace s)) as [|e0 E0]; simpl in E.
  { split; [reflexivity|]. subst r. destruct (blocked _ _ _ _ _ A N RU) as [(x & [= <-] & L)|(p & G & _)]; [exact L|discriminate]. }
  exfalso. injection E as <- E.
  destruct E0 as [|e E0]; simpl in E.
  { subst r. destruct (blocked _ _ _ _ _ A N RU) as [(x & G & _)|(p & G & _)]; discriminate. }
  injection E as <- E.
  destruct E0 as [|e E0]; simpl in E.
  { subst r. destruct (blocked _ _ _ _ _ A N RU) as [(x & G & _)|(p & G & _)]; discriminate. }
  injection E as <- E.
  destruct E0 as [|e E0]; simpl in E.
  { subst r. destruct (blocked _ _ _ _ _ A N RU) as [(x & G & _)|(p & G & _)]; discriminate. }
  injection E as <- E.
  destruct E0 as [|e E0]; simpl in E.
  { subst r. destruct (blocked _ _ _ _ _ A N RU) as [(x & G & _)|(p & G & _)]; discriminate. }
  injection E as <- E.
  destruct E0 as [|e E0]; simpl in E.
  { subst r. destruct (blocked _ _ _ _ _ A N RU) as [(x & G & _)|(p & G & _)]; discriminate. }
  injection E as <- E. apply NU'. simpl; auto 8.
Qed.

(** Before post_init, each thread has taken the first token at most once. *)
Lemma pre_once ms s k m : reach ms s -> ~ In (Up Post) (executed 0 (s_trace s)) -> is_thread ms k m ->
  cnt (Down Pre) (executed k (s_trace s)) <= 1.
Proof.
  intros R NP T. destruct (le_dec (cnt (Down Pre) (executed k (s_trace s))) 1) as [L|L]; [exact L|]. exfalso.
  assert (C : cnt (Down Pre) (executed k (s_trace s)) >= 2) by lia.
  destruct (down_up _ _ _ _ R (twice_post _ _ _ _ R T C)) as [j H].
  assert (j = 0) by (apply (only_control ms s j (Up Post) R H); simpl; intuition discriminate). subst j.
  apply NP, executed_in, H.
Qed.

(** All tokens are there for a thread that has not started. *)
Lemma pre_token ms s k Q : reach ms s -> ~ In (Up Post) (executed 0 (s_trace s)) ->
  In k (seq 1 (List.length ms)) -> NoDup Q -> incl Q (passives ms) ->
  (forall p, In (Bind p) (executed 0 (s_trace s)) -> In p Q) ->
  cnt (Up Pre) (executed 0 (s_trace s)) = sum (nholds (fun m => negb (m_passive m)) ms) (seq 1 (List.length ms)) + List.length Q ->
  holds (fun m => negb (m_passive m)) ms k = true \/ In k Q ->
  executed k (s_trace s) = [] -> level s Pre = 0 -> False.
Proof.
  intros R NP K NQ IQ BQ C H EK L.
  set (h := fun k => nholds (fun m => negb (m_passive m)) ms k + (if inb k Q then 1 else 0)).
  assert (F : forall j, In j (seq 1 (List.length ms)) -> cnt (Down Pre) (executed j (s_trace s)) <= h j).
  { intros j J. destruct (in_seq_thread _ _ J) as (m & T & A).
    pose proof (pre_once _ _ _ _ R NP T) as P1.
    unfold h, nholds, holds. rewrite A. destruct (m_passive m) eqn:MP; simpl; [|lia].
    destruct (inb j Q) eqn:IB; [lia|].
    assert (Z : ~ In (Down Pre) (executed j (s_trace s))); [|apply cnt_nin in Z; lia].
    intros Z. apply executed_in in Z. pose proof (passive_bound _ _ _ _ _ R T MP Z) as B.
    apply BQ, inbP in B. congruence. }
  assert (LT : cnt (Down Pre) (executed k (s_trace s)) < h k).
  { rewrite EK. change (cnt (Down Pre) []) with 0. unfold h, nholds. destruct H as [-> |H]; [lia|].
    apply inbP in H. rewrite H. lia. }
  pose proof (sum_lt _ _ _ _ F K LT) as G.
  unfold h in G. rewrite sum_add, sum_in in G; auto using seq_NoDup.
  - rewrite <- C, <- (total_members ms s (Down Pre) R), <- (total_control ms s (Up Pre) R) in G by (simpl; auto; intuition discriminate).
    pose proof (i_sem _ _ (reach_inv _ _ R) Pre). lia.
  - intros x X. apply passives_incl. apply IQ. exact X.
Qed.

Lemma actif_thread ms k : holds actif ms k = true -> exists m, at_ ms k = Some m /\ m_fault m = false /\ m_passive m = false.
Proof.
  unfold holds, actif. destruct (at_ ms k) as [m|]; [|discriminate]. intros H. exists m.
  destruct (m_fault m), (m_passive m); try discriminate. auto.
Qed.
Lemma active_runnable ms s k m : is_thread ms k m -> m_passive m = false -> runnable ms s k = true.
Proof. intros (n & -> & N) P. unfold runnable. rewrite N, P. reflexivity. Qed.
Lemma bound_runnable ms s k m : is_thread ms k m -> s_sc s = Some k -> runnable ms s k = true.
Proof.
  intros (n & -> & N) P. unfold runnable. rewrite N, P.
  assert (E : eqb (Some (S n)) (Some (S n)) = true) by (apply eqb_eq; reflexivity). rewrite E, orb_true_r. reflexivity.
Qed.

(** ** The three places where the control thread waits *)
Lemma stuck_a ms s E1 X : reach ms s -> at_rest ms s -> A2 ms = E1 ++ Down Init :: X ->
  executed 0 (s_trace s) = A0 ++ A1 ms ++ E1 -> level s Init = 0 -> False.
Proof.
  intros R A EA X0 L.
  assert (D1 : forall i, In i E1 -> i = Down Init).
  { intros i I. assert (G : In i (A2 ms)) by (rewrite EA; apply in_app_iff; auto). apply in_ups in G. exact G. }
  assert (C : cnt (Up Init) (all (s_trace s)) < sum (nholds actif ms) (seq 1 (List.length ms))).
  { pose proof (i_sem _ _ (reach_inv _ _ R) Init) as S.
    rewrite (total_control _ _ (Down Init) R), X0, !cnt_app in S by (simpl; intuition discriminate).
    change (cnt (Down Init) A0) with 0 in S. unfold A1 in S.
    rewrite (cnt_other _ (Down Init) (Up Pre)) in S by discriminate.
    assert (Z : cnt (Down Init) (A2 ms) = sum (nholds actif ms) (seq 1 (List.length ms))) by apply cnt_ups.
    rewrite EA, cnt_app, cnt_cons in Z. destruct (ieq (Down Init) (Down Init)); [|congruence]. lia. }
  rewrite (total_members _ _ (Up Init) R) in C by (simpl; auto).
  destruct (sum_lt_ex _ _ _ C) as (k & K & LT).
  assert (H : holds actif ms k = true) by (unfold nholds in LT; destruct (holds actif ms k); [reflexivity|lia]).
  destruct (actif_thread _ _ H) as (m & AT & F & P).
  assert (T : is_thread ms k m) by (apply is_thread_at; auto).
  destruct (not_started ms s k m R A T F (active_runnable _ _ _ _ T P)) as [EK LP].
  { intros I. apply executed_in, cnt_in in I. unfold nholds in LT. rewrite H in LT. lia. }
  assert (NB : forall i, In i (executed 0 (s_trace s)) -> In i A0 \/ i = Up Pre \/ i = Down Init).
  { intros i I. rewrite X0, !in_app_iff in I. destruct I as [I|[I|I]]; auto. apply in_ups in I. auto. }
  apply (pre_token ms s k []); auto; try (constructor).
  - intros I. apply NB in I. simpl in I. intuition discriminate.
  - intros x [].
  - intros p I. apply NB in I. simpl in I. intuition discriminate.
  - rewrite X0, !cnt_app. change (cnt (Up Pre) A0) with 0. unfold A1. rewrite cnt_ups.
    assert (Z : cnt (Up Pre) E1 = 0); [|simpl; lia]. apply cnt_nin. intros I. apply D1 in I. discriminate.
  - unfold holds. rewrite AT, P. reflexivity.
Qed.

Lemma stuck_c ms s P1 p P2 : sound ms -> reach ms s -> at_rest ms s -> passives ms = P1 ++ p :: P2 ->
  executed 0 (s_trace s) = pos ms P1 ++ [Bind p; Up Pre] -> level s Init = 0 -> False.
Proof.
  intros W R A P X L.
  assert (PP : passive_thread ms p) by (apply passives_in; rewrite P; apply in_app_iff; right; left; reflexivity).
  destruct PP as (m & T & MP). assert (AT := T). apply is_thread_at in AT. destruct AT as [K AT].
  assert (NF : m_fault m = false).
  { destruct (m_fault m) eqn:F; [|reflexivity]. apply (proj1 (sound_thread _ _ _ W T)) in F. congruence. }
  pose proof (passives_nodup ms) as ND. rewrite P in ND. destruct (nd_mid _ _ _ ND) as [N1 N2].
  assert (NP1 : NoDup P1) by (apply nd_app_l in ND; exact ND).
  assert (IP1 : incl P1 (seq 1 (List.length ms))).
  { intros x Hx. apply passives_incl. rewrite P. apply in_app_iff. auto. }
  assert (EQ : sum (nholds actif ms) (seq 1 (List.length ms)) + List.length P1 =
               sum (fun k => cnt (Up Init) (executed k (s_trace s))) (seq 1 (List.length ms))).
  { rewrite <- pos_down. rewrite <- (total_members ms s (Up Init) R) by (simpl; auto).
    pose proof (i_sem _ _ (reach_inv _ _ R) Init) as S.
    rewrite (total_control _ _ (Down Init) R), X, cnt_app in S by (simpl; intuition discriminate).
    change (cnt (Down Init) [Bind p; Up Pre]) with 0 in S. lia. }
  destruct (in_dec ieq (Up Init) (executed p (s_trace s))) as [U|U].
  - set (g := fun k => nholds actif ms k + (if inb k P1 then 1 else 0)).
    assert (G : forall k, In k (seq 1 (List.length ms)) -> g k <= cnt (Up Init) (executed k (s_trace s))).
    { intros k Hk. unfold g, nholds. destruct (holds actif ms k) eqn:HA.
      - assert (I : In (k, Up Init) (s_trace s)) by (eapply all_posted; eauto).
        apply executed_in, cnt_in in I. destruct (inb k P1) eqn:IB; [|lia]. exfalso.
        apply inbP in IB. destruct (actif_thread _ _ HA) as (mk & Ak & _ & Pk).
        assert (In k (passives ms)) as IPk by (rewrite P; apply in_app_iff; auto).
        apply passives_in in IPk. destruct IPk as (mk' & Tk & Pk'). apply is_thread_at in Tk. destruct Tk as [_ Ak']. congruence.
      - destruct (inb k P1) eqn:IB; [|lia]. apply inbP in IB.
        assert (I : In (k, Up Init) (s_trace s)) by (eapply all_posted; eauto).
        apply executed_in, cnt_in in I. lia. }
    assert (GP : g p < cnt (Up Init) (executed p (s_trace s))).
    { apply cnt_in in U. unfold g, nholds, holds. rewrite AT. unfold actif. rewrite MP, orb_true_r. simpl.
      destruct (inb p P1) eqn:IB; [apply inbP in IB; contradiction|lia]. }
    pose proof (sum_lt _ _ _ _ G K GP) as LT. unfold g in LT. rewrite sum_add, sum_in in LT; auto using seq_NoDup. lia.
  - assert (SC : s_sc s = Some p).
    { rewrite (sc_binder _ _ R), X. unfold binder. change (bindf None (pos ms P1 ++ [Bind p; Up Pre]) = Some p).
      rewrite bindf_app. reflexivity. }
    destruct (not_started ms s p m R A T NF (bound_runnable _ _ _ _ T SC)) as [EK LP].
    { intros I. apply U, executed_in, I. }
    apply (pre_token ms s p (P1 ++ [p])); auto.
    + rewrite X. intros I. apply in_app_iff in I. destruct I as [I|I]; [unfold pos in I; prog_in I|simpl in I; intuition discriminate].
    + clear - NP1 N1. induction NP1 as [|a l Na NDl IH]; simpl in *; [repeat constructor; auto|].
      constructor; [|apply IH; tauto]. rewrite in_app_iff. simpl. intuition.
    + rewrite P. intros x I. rewrite in_app_iff in *. simpl in *. intuition.
    + intros q I. rewrite X, in_app_iff in I. rewrite in_app_iff. destruct I as [I|[[= ->]|[I|[]]]]; [left|right; left; reflexivity|discriminate].
      unfold pos in I. prog_in I. injection I as ->. assumption.
    + rewrite X, cnt_app, pos_up, app_length. change (cnt (Up Pre) [Bind p; Up Pre]) with 1. simpl. lia.
    + right. apply in_app_iff. right. left. reflexivity.
Qed.

Lemma ups_post ms : cnt (Up Post) (D ms) = sum (nholds (fun m => negb (m_fault m)) ms) (seq 1 (List.length ms)).
Proof.
  unfold D. rewrite C1_pos, !cnt_app. change (cnt (Up Post) A4) with 0. unfold A5. rewrite cnt_ups.
  assert (Z : cnt (Up Post) (pos ms (passives ms)) = 0); [|lia].
  apply cnt_nin. intros H. unfold pos in H. prog_in H.
Qed.
(** All tokens are there for a thread that waits for post_init. *)
Lemma post_token ms s k m E : reach ms s -> executed 0 (s_trace s) = D ms ++ E -> is_thread ms k m ->
  m_fault m = false -> ~ In (Down Post) (executed k (s_trace s)) -> level s Post = 0 -> False.
Proof.
  intros R X T F N L. assert (AT := T). apply is_thread_at in AT. destruct AT as [K AT].
  assert (G : forall j, In j (seq 1 (List.length ms)) ->
    cnt (Down Post) (executed j (s_trace s)) <= nholds (fun m => negb (m_fault m)) ms j).
  { intros j J. destruct (in_seq_thread _ _ J) as (mj & Tj & Aj). pose proof (executed_le _ _ _ _ (Down Post) R Tj) as LE.
    assert (Q : cnt (Down Post) (member_program mj) = if m_fault mj then 0 else 1) by (destruct mj as [[] a []]; reflexivity).
    unfold nholds, holds. rewrite Aj. rewrite Q in LE. destruct (m_fault mj); simpl; lia. }
  assert (LT : cnt (Down Post) (executed k (s_trace s)) < nholds (fun m => negb (m_fault m)) ms k).
  { apply cnt_nin in N. rewrite N. unfold nholds, holds. rewrite AT, F. simpl. lia. }
  pose proof (sum_lt _ _ _ _ G K LT) as S.
  rewrite <- ups_post, <- (total_members ms s (Down Post) R) in S by (simpl; auto).
  pose proof (i_sem _ _ (reach_inv _ _ R) Post) as I.
  rewrite (total_control _ _ (Up Post) R), X, cnt_app in I by (simpl; intuition discriminate). lia.
Qed.

Lemma after_init ms s k m E : reach ms s -> executed 0 (s_trace s) = C1 ms ++ E -> is_thread ms k m ->
  m_fault m = false -> exists F r, nth_error (s_rest s) k = Some r /\
    executed k (s_trace s) = [Down Pre; Begin ThreadTls; End ThreadTls; Begin InitF; End InitF; Up Init] ++ F /\
    Down Post :: (if m_runs_passive m then [Signal; Begin Serve; End Serve] else [Begin RunF; End RunF]) ++
       [Down Pre; Return] = F ++ r.
Proof.
  intros R X T F. assert (U : In (k, Up Init) (s_trace s)) by (eapply all_inited; eauto; exists m; auto).
  destruct (thread_prefix _ _ _ _ R T) as (r & N & E0). unfold member_program in E0. rewrite F in E0.
  remember ((if m_runs_passive m then [Signal; Begin Serve; End Serve] else [Begin RunF; End RunF]) ++ [Down Pre; Return]) as tl.
  change ([Down Pre; Begin ThreadTls; End ThreadTls; Begin InitF; End InitF; Up Init; Down Post] ++ tl)
    with ([Down Pre; Begin ThreadTls; End ThreadTls; Begin InitF; End InitF] ++ (Up Init :: Down Post :: tl)) in E0.
  apply executed_in in U.
  destruct (past _ _ _ _ (Up Init) E0 U) as [G Y]; [simpl; intuition discriminate|].
  rewrite Y in E0. rewrite <- app_assoc in E0. apply app_inv_head in E0.
  destruct G as [|g G].
  { rewrite Y in U. simpl in U. intuition discriminate. }
  simpl in E0. injection E0 as <- E0. exists G, r. rewrite Y. auto.
Qed.

Lemma stuck_e ms s P1 p P2 : sound ms -> reach ms s -> at_rest ms s -> passives ms = P1 ++ p :: P2 ->
  (forall m, In m ms -> m_passive m = true -> m_runs_passive m = true) ->
  executed 0 (s_trace s) = pos2 ms P1 ++ [Bind p] -> s_ntfn s = false -> False.
Proof.
  intros W R A P RP X L.
  assert (PP : passive_thread ms p) by (apply passives_in; rewrite P; apply in_app_iff; right; left; reflexivity).
  destruct PP as (m & T & MP).
  assert (NF : m_fault m = false).
  { destruct (m_fault m) eqn:F; [|reflexivity]. apply (proj1 (sound_thread _ _ _ W T)) in F. congruence. }
  assert (MR : m_runs_passive m = true).
  { apply RP; [|exact MP]. destruct T as (n & _ & N). apply nth_error_In in N. exact N. }
  pose proof (passives_nodup ms) as ND. rewrite P in ND. destruct (nd_mid _ _ _ ND) as [N1 N2].
  assert (SC : s_sc s = Some p).
  { rewrite (sc_binder _ _ R), X. unfold binder. change (bindf None (pos2 ms P1 ++ [Bind p]) = Some p).
    rewrite bindf_app. reflexivity. }
  pose proof (bound_runnable _ _ _ _ T SC) as RU.
  assert (X1 : executed 0 (s_trace s) = C1 ms ++ (A4 ++ A5 ms ++ flat_map blk2 P1 ++ [Bind p])).
  { rewrite X. unfold pos2, D. rewrite <- !app_assoc. reflexivity. }
  destruct (after_init _ _ _ _ _ R X1 T NF) as (F & r & N & EX & E). rewrite MR in E.
  assert (NS : ~ In (p, Signal) (s_trace s)).
  { intros I. destruct (k2 _ _ (reach_ready _ _ W R) p I) as [G|[G _]]; [|congruence].
    apply executed_in in G. rewrite X in G. apply in_app_iff in G. destruct G as [G|[G|[]]]; [|discriminate].
    unfold pos2, D in G. prog_in G. injection G as ->. contradiction. }
  destruct F as [|f F]; simpl in E.
  - subst r. destruct (blocked _ _ _ _ _ A N RU) as [(x & [= <-] & LV)|(q & G & _)]; [|discriminate].
    refine (post_token ms s p m _ R _ T NF _ LV).
    + rewrite X. unfold pos2. rewrite <- app_assoc. reflexivity.
    + rewrite EX. simpl. intuition discriminate.
  - injection E as <- E. destruct F as [|f F]; simpl in E.
    + subst r. destruct (blocked _ _ _ _ _ A N RU) as [(x & G & _)|(q & G & _)]; discriminate.
    + injection E as <- E. apply NS, executed_in. rewrite EX. simpl; auto 10.
Qed.

(** ** Progress *)
Lemma control_begun ms s : sound ms -> (forall m, In m ms -> m_passive m = true -> m_runs_passive m = true) ->
  reach ms s -> at_rest ms s -> In (0, Begin Control) (s_trace s).
Proof.
  intros W RP R A. destruct (in_dec ieq (Begin Control) (executed 0 (s_trace s))) as [I|I]; [apply executed_in; exact I|].
  exfalso. destruct (control_prefix _ _ R) as (r & N & E).
  destruct r as [|i r].
  { apply I. rewrite app_nil_r in E. rewrite <- E, controlE, !in_app_iff. simpl; auto 10. }
  assert (NW : waits i = true).
  { destruct (blocked _ _ 0 _ _ A N eq_refl) as [(x & -> & _)|(p & -> & _)]; reflexivity. }
  assert (BL := blocked _ _ 0 _ _ A N eq_refl).
  rewrite controlE in E. unfold C1 in E. rewrite <- !app_assoc in E.
  rewrite (app_assoc A0) in E.
  destruct (split_prefix _ _ _ _ E) as [(X & NX & E2 & E3)|(E1 & X1 & E3)].
  { destruct X as [|x X]; [congruence|]. simpl in E3. injection E3 as <- E3.
    assert (G : In i (A0 ++ A1 ms)) by (rewrite E2; apply in_app_iff; right; left; reflexivity).
    apply in_app_iff in G. destruct G as [G|G]; [|apply in_ups in G; subst; discriminate].
    simpl in G. destruct G as [<-|[<-|[<-|[<-|[]]]]]; discriminate. }
  destruct (split_prefix _ _ _ _ E3) as [(X & NX & E4 & E5)|(E4 & X2 & E5)].
  { destruct X as [|x X]; [congruence|]. simpl in E5. injection E5 as <- E5.
    assert (G : In i (A2 ms)) by (rewrite E4; apply in_app_iff; right; left; reflexivity).
    apply in_ups in G. subst i. destruct BL as [(x & [= <-] & LV)|(p & G & _)]; [|discriminate].
    eapply stuck_a; eauto. }
  destruct (split_prefix _ _ _ _ E5) as [(X & NX & E6 & E7)|(E6 & X3 & E7)].
  { destruct X as [|x X]; [congruence|]. simpl in E7. injection E7 as <- E7.
    destruct (blk1_split _ _ _ _ E6) as [(P1 & p & P2 & P & -> & G)|(p & [-> |[-> | ->]])]; try discriminate.
    destruct BL as [(x & [= <-] & LV)|(q & G0 & _)]; [|discriminate].
    eapply stuck_c; eauto. rewrite X1, X2, G. unfold pos. rewrite <- !app_assoc. reflexivity. }
  rewrite (app_assoc A4) in E7.
  destruct (split_prefix _ _ _ _ E7) as [(X & NX & E8 & E9)|(E8 & X4 & E9)].
  { destruct X as [|x X]; [congruence|]. simpl in E9. injection E9 as <- E9.
    assert (G : In i (A4 ++ A5 ms)) by (rewrite E8; apply in_app_iff; right; left; reflexivity).
    apply in_app_iff in G. destruct G as [G|G]; [|apply in_ups in G; subst; discriminate].
    simpl in G. destruct G as [<-|[<-|[]]]; discriminate. }
  destruct (split_prefix _ _ _ _ E9) as [(X & NX & E10 & E11)|(E10 & X5 & E11)].
  { destruct X as [|x X]; [congruence|]. simpl in E11. injection E11 as <- E11.
    destruct (blk2_split _ _ _ _ E10) as [(P1 & p & P2 & P & -> & G)|(p & [-> | ->])]; try discriminate.
    destruct BL as [(x & G0 & _)|(q & [= <-] & LV)]; [discriminate|].
    eapply stuck_e; eauto. rewrite X1, X2, X3, X4, G. unfold pos2, D, C1. rewrite <- !app_assoc. reflexivity. }
  destruct E10 as [|e E10].
  { simpl in E11. injection E11 as <- _. discriminate. }
  simpl in E11. injection E11 as <- E11. apply I. rewrite X1, X2, X3, X4, X5, !in_app_iff. simpl; auto 10.
Qed.

(** The interface threads get to their run functions too. *)
Lemma runs_begun ms s k m : sound ms -> (forall m, In m ms -> m_passive m = true -> m_runs_passive m = true) ->
  reach ms s -> at_rest ms s -> is_thread ms k m -> m_fault m = false -> m_passive m = false ->
  In (k, Begin RunF) (s_trace s).
Proof.
  intros W RP R A T NF NP. pose proof (control_begun _ _ W RP R A) as B.
  destruct (control_prefix _ _ R) as (r0 & N0 & E0). rewrite control_D in E0. rewrite app_assoc in E0.
  apply executed_in in B.
  destruct (past _ _ _ _ _ E0 B) as [G X]; [intros H; unfold D in H; prog_in H|].
  assert (X1 : executed 0 (s_trace s) = C1 ms ++ (A4 ++ A5 ms ++ flat_map blk2 (passives ms) ++ G)).
  { rewrite X. unfold D. rewrite <- !app_assoc. reflexivity. }
  destruct (after_init _ _ _ _ _ R X1 T NF) as (F & r & N & EX & E).
  assert (MR : m_runs_passive m = false).
  { destruct (m_runs_passive m) eqn:MR; [|reflexivity]. apply (proj2 (sound_thread _ _ _ W T)) in MR. congruence. }
  rewrite MR in E. pose proof (active_runnable _ s _ _ T NP) as RU.
  destruct F as [|f F]; simpl in E.
  - exfalso. subst r. destruct (blocked _ _ _ _ _ A N RU) as [(x & [= <-] & LV)|(q & H & _)]; [|discriminate].
    refine (post_token ms s k m _ R _ T NF _ LV).
    + rewrite X, <- app_assoc. reflexivity.
    + rewrite EX. simpl. intuition discriminate.
  - injection E as <- E. destruct F as [|f F]; simpl in E.
    + exfalso. subst r. destruct (blocked _ _ _ _ _ A N RU) as [(x & H & _)|(q & H & _)]; discriminate.
    + injection E as <- E. apply executed_in. rewrite EX. simpl; auto 10.
Qed.

(** ** The threads of a component *)
Lemma members_in rt fh pas me ts m : In m (members rt fh pas me ts) ->
  exists n t, nth_error ts n = Some t /\
    m = mk_member (fh && Nat.eqb (S n) (List.length ts)) (is_passive rt pas t)
          (rt && memb (prefix_of me t) (map t_name (filter (is_passive rt pas) ts))).
Proof.
  unfold members. rewrite in_map_iff. intros ([n t] & <- & I). apply combine_nth in I.
  destruct I as (n' & -> & N). exists n', t. auto.
Qed.
