(** C61: a component starts up in order.  pre_init runs before any interface thread does
    anything; post_init runs when every interface has been initialised; no run function
    is called before post_init has ended; the control thread's run function is called
    when the passive interfaces are ready to serve; and every execution gets there. *)
From Coq Require Import List String Ascii Bool NArith Arith.
From Verif Require Import Prelude DecStr Threads_Model Startup_Model Startup_Spec Startup_Proofs5.
Import ListNotations.
Open Scope string_scope. Open Scope list_scope.

(** Whatever a thread other than the control thread does, it does after the thread-local
    storage has been set up and after pre_init has ended. *)
Theorem C61_pre_init_first u s k i : reachable (program u) s -> k <> 0 ->
  first s 0 (End TlsSetup) k i /\ first s 0 (End PreInit) k i.
Proof. exact (pre_init_first u s k i). Qed.
Print Assumptions C61_pre_init_first.

(** post_init begins after the initialisation function of every interface has ended. *)
Theorem C61_post_init_last u s k i : reachable (program u) s -> serves u k i ->
  first s k (End InitF) 0 (Begin PostInit).
Proof. exact (post_init_last u s k i). Qed.
Print Assumptions C61_post_init_last.

(** The run functions, of interfaces and of the component, begin after post_init has ended. *)
Theorem C61_run_last u s k : reachable (program u) s ->
  first s 0 (End PostInit) k (Begin RunF) /\ first s 0 (End PostInit) k (Begin Serve) /\
  first s 0 (End PostInit) k (Begin Control).
Proof. exact (run_last u s k). Qed.
Print Assumptions C61_run_last.

(** The component's run function begins after every passive interface has said it is ready. *)
Theorem C61_passive_ready u s k i : reachable (program u) s -> serves u k i -> passive u i ->
  first s k Signal 0 (Begin Control).
Proof. exact (passive_ready u s k i). Qed.
Print Assumptions C61_passive_ready.

(** A passive thread does nothing before the threads that have a scheduling context and
    the passive threads before it have been initialised: passive threads are initialised
    one at a time. *)
Theorem C61_one_by_one u s p i q j a : reachable (program u) s -> serves u p i -> serves u q j ->
  passive u j -> (passive u i -> p < q) -> first s p (End InitF) q a.
Proof. exact (one_by_one u s p i q j a). Qed.
Print Assumptions C61_one_by_one.

(** No thread begins or ends a function twice. *)
Theorem C61_once u s k i l r : reachable (program u) s -> (exists f, i = Begin f \/ i = End f) ->
  s_trace s = l ++ (k, i) :: r -> ~ In (k, i) l /\ ~ In (k, i) r.
Proof. exact (done_once u s k i l r). Qed.
Print Assumptions C61_once.

(** No execution goes on for ever: its steps are the instructions of the threads. *)
Theorem C61_bounded u sched s : exec (program u) sched (boot (program u)) = Some s ->
  List.length sched <= fold_right (fun p a => List.length p + a) 0 (programs (program u)).
Proof. exact (bounded u sched s). Qed.
Print Assumptions C61_bounded.

(** For an instance at the top level: when no thread can go on, the component's run function
    has been called, so has that of every interface with a scheduling context, and the
    passive interfaces are ready.  Missing: instances inside compound components. *)
Theorem C61_reaches_run_partial u s : plain_name (u_name u) ->
  reachable (program u) s -> at_rest (program u) s ->
  did s 0 (Begin Control) /\
  (forall k i, serves u k i -> ~ passive u i -> did s k (Begin RunF)) /\
  (forall k i, serves u k i -> passive u i -> did s k Signal).
Proof. exact (reaches_run u s). Qed.
Print Assumptions C61_reaches_run_partial.

(** An instance inside a compound component (name with a dot) with a passive interface: the
    control thread waits for ever for a signal that is never sent. *)
Theorem C61_reaches_run_refuted : exists u s k i, reachable (program u) s /\
  at_rest (program u) s /\ serves u k i /\ passive u i /\ ~ did s 0 (Begin Control).
Proof. exact nested_cex. Qed.
Print Assumptions C61_reaches_run_refuted.

(** Without fault handlers no thread returns from its entry function (which would reach
    code marked unreachable).  Missing: with fault handlers. *)
Theorem C61_stays_partial u s k : u_fault_handlers u = false -> reachable (program u) s ->
  ~ did s k Return.
Proof. exact (stays u s k). Qed.
Print Assumptions C61_stays_partial.

(** The control thread never does. *)
Theorem C61_control_stays u s : reachable (program u) s -> ~ did s 0 Return.
Proof. exact (stays_control u s). Qed.
Print Assumptions C61_control_stays.

(** With fault handlers an interface thread whose run function has ended can take the
    token meant for the fault handler: it returns, and the fault handler never starts. *)
Theorem C61_stays_refuted : exists u s, reachable (program u) s /\ at_rest (program u) s /\
  did s 1 Return /\ ~ did s 2 (Begin FaultHandler).
Proof. exact fault_handler_cex. Qed.
Print Assumptions C61_stays_refuted.

(** A component with three interfaces, the second and third passive, one of them served by
    two threads, under the mixed-criticality kernel; a complete execution of it. *)
Definition ex_setup : setup :=
  mk_setup true false (fun i => negb (String.eqb i "ev"))
    [mk_tconn 0 1 [("c", "o")] [("s", "ev")]; mk_tconn 0 2 [("c", "p")] [("s", "rpc")];
     mk_tconn 1 0 [("s", "out")] [("d", "q")]] "s" [] 4096.
Definition ex_schedule : list nat :=
  repeat 0 5 ++ repeat 1 6 ++ repeat 0 3 ++ repeat 2 6 ++ repeat 0 4 ++ repeat 3 6 ++ repeat 0 4 ++
  repeat 4 6 ++ repeat 0 8 ++ repeat 1 3 ++ [0] ++ repeat 2 4 ++ repeat 0 3 ++ repeat 3 2 ++ repeat 0 3 ++ repeat 4 2 ++
  repeat 0 4.
Example C61_ex_threads : plain_name (u_name ex_setup) /\
  serves ex_setup 1 "ev" /\ serves ex_setup 2 "rpc" /\ serves ex_setup 3 "rpc" /\ serves ex_setup 4 "out" /\
  ~ passive ex_setup "ev" /\ passive ex_setup "rpc" /\ passive ex_setup "out".
Proof.
  repeat split; try (eexists; split; reflexivity).
  - intros c [<-|[]]. right; right; left. split; discriminate.
  - intros [_ H]. discriminate.
Qed.
Example C61_ex_run : exists s, exec (program ex_setup) ex_schedule (boot (program ex_setup)) = Some s /\
  did s 0 (Begin PostInit) /\ did s 1 (Begin RunF) /\ did s 2 (Begin Serve) /\ did s 0 (Begin Control) /\
  did s 2 Signal.
Proof. eexists. split; [vm_compute; reflexivity|]. unfold did; cbn -[In]. repeat split; simpl; tauto. Qed.
(** At rest too. *)
Example C61_ex_rest : exists s sched, exec (program ex_setup) (ex_schedule ++ sched) (boot (program ex_setup)) = Some s /\
  forallb (fun k => match step (program ex_setup) k s with None => true | _ => false end) [0; 1; 2; 3; 4] = true.
Proof. eexists; exists []. split; vm_compute; reflexivity. Qed.
