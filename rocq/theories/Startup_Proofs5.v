(** The threads of a component instance. *)
From Coq Require Import List String Ascii Bool NArith Arith Lia Sorted.
From Verif Require Import Prelude DecStr Threads_Model Threads_Spec Threads_Proofs Startup_Model Startup_Spec
  Startup_Proofs Startup_Proofs2 Startup_Proofs3 Startup_Proofs4.
Import ListNotations.
Open Scope string_scope. Open Scope list_scope.

Lemma nth_members rt fh pas me ts n t : nth_error ts n = Some t ->
  nth_error (members rt fh pas me ts) n =
  Some (mk_member (fh && Nat.eqb (S n) (List.length ts)) (is_passive rt pas t)
          (rt && memb (prefix_of me t) (map t_name (filter (is_passive rt pas) ts)))).
Proof.
  intros N. unfold members. rewrite nth_error_map.
  assert (G : nth_error (combine (seq 0 (List.length ts)) ts) n = Some (n, t)).
  { clear -N. change n with (0 + n) at 2. revert n N. generalize 0. induction ts as [|x ts IH]; intros a [|n] N; try discriminate; simpl in *.
    - injection N as ->. rewrite Nat.add_0_r. reflexivity.
    - rewrite (IH (S a) n N). do 2 f_equal. lia. }
  rewrite G. reflexivity.
Qed.

Lemma tl_threads u : tl (threads_of u) =
  flat_map (conn_threads (u_sizes u) (u_size u) (u_name u)) (u_conns u) ++
  (if u_fault_handlers u then [new_thread (fault_name (u_name u)) None 0 (u_size u)] else []).
Proof. reflexivity. Qed.

Lemma thread_names u t i : In t (tl (threads_of u)) -> t_iface t = Some i ->
  t_name t = iface_thread_name (u_name u) i (t_index t).
Proof.
  rewrite tl_threads, in_app_iff. intros [I|I] F.
  - apply in_flat_map in I. destruct I as (c & _ & I). unfold conn_threads in I. apply in_app_iff in I.
    assert (G : forall n l, In t (flat_map (end_threads (u_sizes u) (u_size u) (u_name u) n) l) ->
      t_name t = iface_thread_name (u_name u) i (t_index t)).
    { intros n l H. apply in_flat_map in H. destruct H as (e & _ & H). unfold end_threads in H.
      destruct (String.eqb (fst e) (u_name u)); [|destruct H]. apply in_map_iff in H.
      destruct H as (x & <- & _). simpl in *. injection F as ->. reflexivity. }
    destruct I as [I|I]; eauto.
  - destruct (u_fault_handlers u); [|destruct I]. destruct I as [<-|[]]. discriminate.
Qed.

Lemma length_sanitize s : String.length (sanitize s) = String.length s.
Proof. induction s as [|c s IH]; simpl; auto. Qed.
Lemma app_same_length (a b c d : string) : (a ++ c = b ++ d)%string -> String.length a = String.length b -> a = b /\ c = d.
Proof.
  revert b. induction a as [|x a IH]; intros [|y b] E L; try discriminate; simpl in *.
  - auto.
  - injection E as -> E. injection L as L. destruct (IH b E L) as [-> ->]. auto.
Qed.
Lemma sanitize_plain s : plain_name s -> sanitize s = s.
Proof.
  intros P. induction s as [|c s IH]; [reflexivity|]. simpl. rewrite IH by (intros x X; apply P; right; exact X).
  f_equal. destruct (P c) as [H|[H|[H|H]]]; [left; reflexivity| | | |]; unfold alnum.
  - destruct H as [H1 H2]. apply N.leb_le in H1, H2. rewrite H1, H2. reflexivity.
  - destruct H as [H1 H2]. apply N.leb_le in H1, H2. rewrite H1, H2. rewrite orb_true_r. reflexivity.
  - destruct H as [H1 H2]. apply N.leb_le in H1, H2. rewrite H1, H2. rewrite orb_true_r. reflexivity.
  - subst c. reflexivity.
Qed.

Lemma is_passive_spec rt pas t : is_passive rt pas t = true <->
  rt = true /\ exists i, t_iface t = Some i /\ pas i = true.
Proof.
  unfold is_passive. destruct rt; simpl; [|split; [discriminate|intros [[=] _]]].
  destruct (t_iface t) as [i|]; split.
  - eauto. - intros (_ & j & [= ->] & H). exact H.
  - discriminate. - intros (_ & j & H & _). discriminate.
Qed.

Lemma program_sound u : sound (program u).
Proof.
  intros m I. unfold program, component in I. fold (threads_of u) in I.
  apply members_in in I. destruct I as (n & t & N & ->). cbn [m_fault m_passive m_runs_passive]. split.
  - intros F. apply andb_true_iff in F. destruct F as [FH L]. apply Nat.eqb_eq in L.
    destruct (is_passive (u_realtime u) (u_passive u) t) eqn:P; [|reflexivity]. exfalso.
    apply is_passive_spec in P. destruct P as (_ & i & F & _).
    rewrite tl_threads in N, L. rewrite FH in *. rewrite app_length in L. simpl in L.
    rewrite nth_error_app2 in N by lia. replace (n - _) with 0 in N by lia. simpl in N. injection N as <-. discriminate.
  - intros F. apply andb_true_iff in F. destruct F as [RT M]. apply memb_In in M.
    apply in_map_iff in M. destruct M as (t' & E & I). apply filter_In in I. destruct I as [I P].
    apply is_passive_spec in P. destruct P as (_ & i' & F' & P).
    rewrite (thread_names _ _ _ I F') in E. unfold prefix_of in E.
    destruct (t_iface t) as [i|] eqn:F.
    + unfold iface_thread_name in E. apply app_same_length in E; [|apply length_sanitize].
      destruct E as [ES E].
      assert (E2 : iface_thread_name (u_name u) i' (t_index t') = iface_thread_name (u_name u) i (t_index t))
        by (unfold iface_thread_name; rewrite E; reflexivity).
      apply iface_name_inj in E2. destruct E2 as [-> _]. apply is_passive_spec. eauto.
    + unfold iface_thread_name in E. destruct (sanitize (u_name u)); discriminate.
Qed.

Lemma program_signals u : plain_name (u_name u) ->
  forall m, In m (program u) -> m_passive m = true -> m_runs_passive m = true.
Proof.
  intros PL m I P. unfold program, component in I. fold (threads_of u) in I.
  apply members_in in I. destruct I as (n & t & N & ->). cbn [m_fault m_passive m_runs_passive] in *.
  assert (P' := P). apply is_passive_spec in P'. destruct P' as (RT & i & F & Q). rewrite RT in P |- *. simpl.
  apply memb_In, in_map_iff. exists t. split.
  - apply nth_error_In in N. rewrite (thread_names _ _ _ N F). unfold prefix_of, iface_thread_name.
    rewrite F, (sanitize_plain _ PL). reflexivity.
  - apply filter_In. split; [apply nth_error_In in N; exact N|exact P].
Qed.

Lemma serves_thread u k i : serves u k i ->
  exists m, is_thread (program u) k m /\ m_fault m = false /\
            (m_passive m = true <-> passive u i).
Proof.
  intros (t & N & F). destruct k as [|n].
  { simpl in N. injection N as <-. discriminate. }
  assert (N' : nth_error (tl (threads_of u)) n = Some t) by exact N.
  pose proof (nth_members (u_realtime u) (u_fault_handlers u) (u_passive u) (u_name u) _ _ _ N') as G.
  eexists. split; [exists n; split; [reflexivity|exact G]|]. cbn [m_fault m_passive m_runs_passive]. split.
  - apply andb_false_iff. destruct (u_fault_handlers u) eqn:FH; [right|left; reflexivity].
    apply Nat.eqb_neq. intros L. rewrite tl_threads, FH in N', L. rewrite app_length in L. simpl in L.
    rewrite nth_error_app2 in N' by lia. replace (n - _) with 0 in N' by lia. simpl in N'. injection N' as <-. discriminate.
  - rewrite is_passive_spec. unfold passive. split.
    + intros (H & j & Fj & Q). rewrite F in Fj. injection Fj as <-. auto.
    + intros (H & Q). eauto.
Qed.
Lemma serves_pos u k i : serves u k i -> k <> 0.
Proof. intros S. destruct (serves_thread _ _ _ S) as (m & (n & -> & _) & _). lia. Qed.

Lemma no_fault u : u_fault_handlers u = false -> forall m, In m (program u) -> m_fault m = false.
Proof.
  intros FH m I. unfold program, component in I. fold (threads_of u) in I.
  apply members_in in I. destruct I as (n & t & _ & ->). simpl. rewrite FH. reflexivity.
Qed.

(** ** Order of the passive threads *)
Lemma sorted_filter f n (ms : list member) : StronglySorted lt (map fst (filter f (combine (seq n (List.length ms)) ms))) /\
  forall x, In x (map fst (filter f (combine (seq n (List.length ms)) ms))) -> n <= x.
Proof.
  revert n. induction ms as [|m ms IH]; intros n; simpl; [split; [constructor|intros x []]|].
  destruct (IH (S n)) as [S1 S2]. destruct (f (n, m)); simpl.
  - split.
    + constructor; [exact S1|]. apply Forall_forall. intros x X. apply S2 in X. lia.
    + intros x [<-|X]; [lia|]. apply S2 in X. lia.
  - split; [exact S1|]. intros x X. apply S2 in X. lia.
Qed.
Lemma passives_split ms p q : In p (passives ms) -> In q (passives ms) -> p < q ->
  exists P1 P2, passives ms = P1 ++ q :: P2 /\ In p P1.
Proof.
  intros P Q L. destruct (in_split _ _ Q) as (P1 & P2 & E). exists P1, P2. split; [exact E|].
  rewrite E, in_app_iff in P. destruct P as [P|[P|P]]; [exact P|lia|exfalso].
  destruct (sorted_filter (fun x => m_passive (snd x)) 1 ms) as [S _].
  change (StronglySorted lt (passives ms)) in S. rewrite E in S. clear -S P L.
  induction P1 as [|a P1 IH]; simpl in S; inversion S as [|? ? S1 F]; subst; auto.
  rewrite Forall_forall in F. apply F in P. lia.
Qed.

(** ** Statements for component instances *)
Lemma pre_init_first u s k i : reachable (program u) s -> k <> 0 ->
  first s 0 (End TlsSetup) k i /\ first s 0 (End PreInit) k i.
Proof.
  intros R K. apply reachE in R. split; [|eapply tls_after; eauto].
  intros l r T. pose proof (tls_after _ _ _ i R K l r T) as H.
  apply in_split in H. destruct H as (l1 & l2 & E).
  assert (G : In (0, End TlsSetup) l1); [|rewrite E; apply in_app_iff; auto].
  assert (T' : s_trace s = l1 ++ (0, End PreInit) :: (l2 ++ (k, i) :: r)).
  { rewrite T, E, <- app_assoc. reflexivity. }
  refine (control_own (program u) s (End PreInit) (End TlsSetup) [Begin TlsSetup; End TlsSetup; Begin PreInit] _ R _ _ _ _ _ T').
  - unfold control_program. simpl. reflexivity.
  - simpl; auto. - simpl; intuition discriminate.
Qed.

Lemma post_init_last u s k i : reachable (program u) s -> serves u k i ->
  first s k (End InitF) 0 (Begin PostInit).
Proof.
  intros R S. apply reachE in R. destruct (serves_thread _ _ _ S) as (m & T & F & _).
  eapply init_before_post; eauto. exists m. auto.
Qed.

Lemma run_last u s k : reachable (program u) s ->
  first s 0 (End PostInit) k (Begin RunF) /\ first s 0 (End PostInit) k (Begin Serve) /\
  first s 0 (End PostInit) k (Begin Control).
Proof.
  intros R. apply reachE in R. destruct k as [|k].
  - assert (Z : forall f, f <> TlsSetup -> f <> PreInit -> f <> PostInit -> first s 0 (End PostInit) 0 (Begin f)).
    { intros f N1 N2 N3. refine (control_own (program u) s _ _ (C1 (program u) ++ A4) (A5 (program u) ++ flat_map blk2 (passives (program u)) ++ A7) R _ _ _).
      - rewrite controlE, <- !app_assoc. reflexivity.
      - apply in_app_iff. right. simpl; auto.
      - intros H. prog_in H; simpl in H; intuition congruence. }
    repeat split; apply Z; discriminate.
  - repeat split; eapply run_after_post; eauto; simpl; intuition discriminate.
Qed.

Lemma passive_ready u s k i : reachable (program u) s -> serves u k i -> passive u i ->
  first s k Signal 0 (Begin Control).
Proof.
  intros R S P. apply reachE in R. destruct (serves_thread _ _ _ S) as (m & T & F & Q).
  eapply ready_first; eauto using program_sound. exists m. split; [exact T|]. apply Q. exact P.
Qed.

Lemma one_by_one u s p i q j a : reachable (program u) s -> serves u p i -> serves u q j -> passive u j ->
  (passive u i -> p < q) -> first s p (End InitF) q a.
Proof.
  intros R SP SQ PJ H. apply reachE in R.
  destruct (serves_thread _ _ _ SP) as (mp & Tp & Fp & Qp).
  destruct (serves_thread _ _ _ SQ) as (mq & Tq & Fq & Qq).
  assert (IQ : In q (passives (program u))) by (apply passives_in; exists mq; split; [exact Tq|apply Qq, PJ]).
  assert (IP : interface_thread (program u) p) by (exists mp; auto).
  destruct (m_passive mp) eqn:MP.
  - assert (Pp : In p (passives (program u))) by (apply passives_in; exists mp; auto).
    destruct (passives_split _ _ _ Pp IQ) as (P1 & P2 & E & I); [apply H, Qp; reflexivity|].
    eapply passive_order; eauto.
  - destruct (in_split _ _ IQ) as (P1 & P2 & E). eapply passive_order; eauto. right. split; [exact IP|].
    intros (m & T & M). destruct Tp as (n & -> & N). destruct T as (n' & [= <-] & N'). congruence.
Qed.

Lemma done_once u s k i l r : reachable (program u) s -> (exists f, i = Begin f \/ i = End f) ->
  s_trace s = l ++ (k, i) :: r -> ~ In (k, i) l /\ ~ In (k, i) r.
Proof. intros R. apply reachE in R. apply (once _ _ _ _ _ _ R). Qed.

Lemma bounded u sched s : exec (program u) sched (boot (program u)) = Some s ->
  List.length sched <= fold_right (fun p a => List.length p + a) 0 (programs (program u)).
Proof. intros E. apply exec_left in E. unfold left_ at 1 in E. cbn [boot s_rest] in E. rewrite E. apply Nat.le_add_r. Qed.

Lemma reaches_run u s : plain_name (u_name u) -> reachable (program u) s -> at_rest (program u) s ->
  did s 0 (Begin Control) /\
  (forall k i, serves u k i -> ~ passive u i -> did s k (Begin RunF)) /\
  (forall k i, serves u k i -> passive u i -> did s k Signal).
Proof.
  intros PL R A. assert (RR := R). apply reachE in R. pose proof (program_signals _ PL) as SG.
  pose proof (program_sound u) as W.
  assert (B := control_begun _ _ W SG R A). repeat split; [exact B| |].
  - intros k i S P. destruct (serves_thread _ _ _ S) as (m & T & F & Q). eapply runs_begun; eauto.
    destruct (m_passive m) eqn:M; [|reflexivity]. exfalso. apply P, Q. reflexivity.
  - intros k i S P. apply in_split in B. destruct B as (l & r & E).
    unfold did. rewrite E. apply in_app_iff. left. apply (passive_ready _ _ _ _ RR S P _ _ E).
Qed.

Lemma stays u s k : u_fault_handlers u = false -> reachable (program u) s -> ~ did s k Return.
Proof. intros F R. apply reachE in R. exact (nobody_returns (program u) s k (program_sound u) (no_fault u F) R). Qed.
Lemma stays_control u s : reachable (program u) s -> ~ did s 0 Return.
Proof. intros R. apply reachE in R. apply control_stays with (ms := program u); auto using program_sound. Qed.

(** ** Counterexamples *)
Lemma rest_check ms s : (forallb (fun k => match step ms k s with None => true | _ => false end)
   (seq 0 (List.length (s_rest s)))) = true -> at_rest ms s.
Proof.
  intros H k. destruct (le_lt_dec (List.length (s_rest s)) k) as [L|L].
  - unfold step. apply nth_error_None in L. rewrite L. reflexivity.
  - rewrite forallb_forall in H. specialize (H k). destruct (step ms k s); [|reflexivity].
    discriminate H. apply in_seq. lia.
Qed.

Definition c_server : tconn := mk_tconn 0 1 [("c", "out")] [("s", "in")].
Definition u_fault : setup := mk_setup false true (fun _ => false) [c_server] "s" [] 4096.
Definition c_nested : tconn := mk_tconn 0 1 [("c", "out")] [("a.s", "in")].
Definition u_nested : setup := mk_setup true false (fun _ => true) [c_nested] "a.s" [] 4096.

Lemma fault_handler_cex : exists u s, reachable (program u) s /\ at_rest (program u) s /\
  did s 1 Return /\ ~ did s 2 (Begin FaultHandler).
Proof.
  exists u_fault.
  pose (sched := repeat 0 6 ++ repeat 1 6 ++ repeat 0 4 ++ repeat 1 5 ++ repeat 0 2).
  destruct (exec (program u_fault) sched (boot (program u_fault))) as [s|] eqn:E; [|vm_compute in E; discriminate].
  exists s. split; [exists sched; exact E|]. vm_compute in E. injection E as <-. split; [apply rest_check; reflexivity|].
  split; unfold did; simpl; [auto 30|]. intuition discriminate.
Qed.
Lemma nested_cex : exists u s k i, reachable (program u) s /\ at_rest (program u) s /\
  serves u k i /\ passive u i /\ ~ did s 0 (Begin Control).
Proof.
  exists u_nested.
  pose (sched := repeat 0 6 ++ repeat 1 6 ++ repeat 0 6 ++ repeat 1 3).
  destruct (exec (program u_nested) sched (boot (program u_nested))) as [s|] eqn:E; [|vm_compute in E; discriminate].
  exists s, 1, "in". split; [exists sched; exact E|]. vm_compute in E. injection E as <-.
  split; [apply rest_check; reflexivity|]. split; [|split; [split; reflexivity|]].
  - eexists. split; [reflexivity|reflexivity].
  - unfold did; simpl; intuition discriminate.
Qed.
