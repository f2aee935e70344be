From Coq Require Import String Ascii List Bool NArith ZArith Lia.
From Verif Require Import Gdb_Model Gdb_Spec GdbStop_Model GdbStop_Spec GdbStop_Proofs.
Import ListNotations.
Open Scope N_scope.

Example sample : st :=
  mk_st (fun _ => None) (fun t => if t =? 7 then [4096; 2; 3; 4; 5; 6; 7; 8; 9; 10; 11; 12] else repeat 0 12)
    [None; None; None; None] (fun _ => [None; None; None; None]) (fun _ => true) (fun _ => false)
    3 0 false stop_none 0 0 [0] (repeat 0 12) [].

(** * C73: when a thread stops, GDB is told which cause it has, once

    The debugger then works on that thread, whose instruction pointer is put back to a software
    breakpoint; nothing else changes. *)
Theorem C73_report t ip c n s : ip < 2 ^ 32 -> (c = SoftwareBreak -> 0 < ip) -> List.length (regs s t) = 12%nat ->
  exists s', stop (debug_message t ip c n) s = Done s' /\
    out s' = out s ++ frame (report c) /\ tcb s' = t /\ pc s' = stopped_at c ip /\ same_machine s s' /\
    (c = SoftwareBreak -> register (regs s' t) "eip" = ip - 1) /\
    (forall u r, u <> t \/ c <> SoftwareBreak \/ r <> "eip"%string -> register (regs s' u) r = register (regs s u) r).
Proof. exact (stop_reported t ip c n s). Qed.
Print Assumptions C73_report.
Example report_case : List.length (regs sample 7) = 12%nat /\
  match stop (debug_message 7 4096 (Watchpoint 48879) 0) sample with
  | Done s => out s = frame (bytes "T05thread:01;watch:0000beef;")
  | Crash _ => False
  end /\
  match stop (debug_message 7 4096 SoftwareBreak 0) sample with
  | Done s => out s = frame (bytes "T05thread:01;swbreak:;") /\ register (regs s 7) "eip" = 4095 /\ register (regs s 7) "esp" = 2
  | Crash _ => False
  end.
Proof. vm_compute. repeat split. Qed.

(** A thread that stops by another fault (a page fault, for instance, whose message has four
    words) is reported as stopped without cause. *)
Theorem C73_other_fault t args s : (List.length args <= 4)%nat ->
  exists s', stop (mk_message t OtherFault args) s = Done s' /\
    out s' = out s ++ frame (bytes "T05thread:01;") /\ tcb s' = t /\ pc s' = nth 0 args 0 /\
    stopped s' = stop_none /\ step_mode s' = false /\ regs s' = regs s /\ same_machine s s'.
Proof. exact (other_stop t args s). Qed.
Print Assumptions C73_other_fault.

(** Asked again, the server gives the same answer, *)
Theorem C73_again_partial t ip c n s s' : (forall a, c <> Watchpoint a) -> stop (debug_message t ip c n) s = Done s' ->
  exists s'', handle_command (bytes "?") s' = Done s'' /\ only_sends (report c) s' s''.
Proof. exact (query_repeats t ip c n s s'). Qed.
Print Assumptions C73_again_partial.
Example again_case : match stop (debug_message 7 4096 Breakpoint 0) sample with Done s => tcb s = 7 | Crash _ => False end.
Proof. reflexivity. Qed.
(** but for a watchpoint, which it no longer mentions. *)
Theorem C73_again_refuted : exists s s' s'', stop (debug_message 7 4096 (Watchpoint 48879) 0) s = Done s' /\
  handle_command (bytes "?") s' = Done s'' /\ only_sends (report Stepped) s' s''.
Proof. exists sample. do 2 eexists. split; [vm_compute; reflexivity|]. split; [vm_compute; reflexivity|reflexivity]. Qed.
Print Assumptions C73_again_refuted.
(** The message of a user exception (a division by zero, for instance) has five words and is
    written beyond the array that takes it. *)
Theorem C73_exception_refuted : forall t ip sp flags number code s,
  stop (mk_message t UserException [ip; sp; flags; number; code]) s = Crash OutOfBounds.
Proof. reflexivity. Qed.
Print Assumptions C73_exception_refuted.

(** * C74: a step is one instruction, and continuing is not stepping

    In a session with one thread, whatever is done while it is stopped, as long as a stepped
    thread stops because of the step. *)
Theorem C74_session_partial t es s ns s' : Forall (fun e => stays (e_commands e)) es ->
  consistent Continue es -> step_mode s = false -> stepping s t = false ->
  session t es s = Done (ns, s') -> ns = map (fun e => asked (e_then e)) es.
Proof. exact (session_runs t es Continue s ns s'). Qed.
Print Assumptions C74_session_partial.
Example session_case :
  let es := [mk_event 4096 Breakpoint 0 [bytes "g"; bytes "Z1,2000,1"] Step; mk_event 4098 Stepped 0 [] Step;
             mk_event 4100 Stepped 0 [bytes "?"] Continue; mk_event 8192 Breakpoint 1 [bytes "z1,2000,1"] Continue] in
  consistent Continue es /\ Forall (fun e => stays (e_commands e)) es /\
  match session 7 es sample with Done (ns, _) => ns = [Some 1; Some 1; None; None] | Crash _ => False end.
Proof.
  cbv zeta. split; [|split].
  - cbn; repeat split; intro H; try reflexivity; discriminate H.
  - repeat (apply Forall_cons || apply Forall_nil); cbn;
      (split; [intros [x [r [E I]]]; injection E as <- _; vm_compute in I; intuition discriminate|intros r E; discriminate E]).
  - vm_compute; reflexivity.
Qed.

(** One round on its own, for a step that is expected and a thread not stepped before [c]. *)
Theorem C74_round_partial t ip c n cs r s o s' :
  stays cs -> round (debug_message t ip c n) cs r s = Done (o, s') ->
  (c = Stepped -> step_mode s = true) -> (r = Continue -> c = Stepped \/ stepping s t = false) ->
  o = asked r /\ step_mode s' = (match r with Step => true | Continue => false end) /\
  stepping s' t = (match r with Step => true | Continue => false end).
Proof. exact (round_step t ip c n cs r s o s'). Qed.
Print Assumptions C74_round_partial.
Example round_case : match round (debug_message 7 4096 Breakpoint 0) [] Continue sample with Done (o, _) => o = None | Crash _ => False end.
Proof. vm_compute. reflexivity. Qed.

(** The same after another fault. *)
Theorem C74_other_fault_partial t args cs r s o s' : (List.length args <= 4)%nat ->
  stays cs -> round (mk_message t OtherFault args) cs r s = Done (o, s') ->
  (r = Continue -> stepping s t = false) ->
  o = asked r /\ stepping s' t = (match r with Step => true | Continue => false end).
Proof. exact (other_round t args cs r s o s'). Qed.
Print Assumptions C74_other_fault_partial.
Example other_fault_case :
  match round (mk_message 7 OtherFault [4096; 48; 0; 4]) [bytes "g"] Step sample with
  | Done (o, _) => o = Some 1 | Crash _ => False end.
Proof. vm_compute. reflexivity. Qed.

(** A stepped thread that hits a breakpoint is not let run freely by [c]: it stops after one
    instruction, and [c] then asks for as many steps as the number of its address. *)
Theorem C74_breakpoint_refuted : exists es s ns s', step_mode s = false /\ stepping s 7 = false /\
  map e_then es = [Step; Continue; Continue] /\ map e_cause es = [Breakpoint; Breakpoint; Stepped] /\
  session 7 es s = Done (ns, s') /\ ns = [Some 1; Some 1; Some 4098].
Proof.
  exists [mk_event 4096 Breakpoint 0 [] Step; mk_event 4097 Breakpoint 1 [] Continue; mk_event 4098 Stepped 0 [] Continue], sample.
  do 2 eexists. split; [reflexivity|]. split; [reflexivity|]. split; [reflexivity|]. split; [reflexivity|].
  split; [vm_compute; reflexivity|reflexivity].
Qed.
Print Assumptions C74_breakpoint_refuted.
