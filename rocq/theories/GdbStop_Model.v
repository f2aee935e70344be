(** How the GDB server learns that a thread has stopped and lets it go on
    (camkes/templates/seL4GDB-to.template.c, gdb_handle_fault in
    libsel4camkes/src/sel4_arch/ia32/gdb_server/gdb.c). *)
From Coq Require Import String Ascii List Bool NArith.
From Verif Require Import Gdb_Model.
Import ListNotations.
Open Scope N_scope.

(** A fault message: the badge is the capability of the thread (seL4GDB-from.template.c:20-26), the
    label says which kind of fault, the message registers follow. *)
Inductive kind := DebugException | UserException | OtherFault.
Record message := mk_message { f_tcb : N; f_kind : kind; f_args : list N }.
(** seL4_DataBreakpoint is 0, seL4_InstructionBreakpoint 1 *)
Definition single_step : N := 2.
Definition software_break : N := 3.
Definition arg (i : nat) (m : message) : N := nth i (f_args m) 0.

Definition set_stopped r a s := mk_st (mem s) (regs s) (table s) (kslots s) (accepts s) (stepping s) (tcb s) (pc s) (step_mode s) r a (posted s) (junk s) (uninit s) (out s).
Definition set_tcb t s := mk_st (mem s) (regs s) (table s) (kslots s) (accepts s) (stepping s) t (pc s) (step_mode s) (stopped s) (watch_addr s) (posted s) (junk s) (uninit s) (out s).

(** seL4GDB-to.template.c:40-80 [find_stop_reason] and its use in line 108 *)
Definition find_stop_reason (m : message) (s : st) : st :=
  match f_kind m with
  | DebugException =>
      if arg 1 m =? 0 then set_stopped stop_watch (arg 2 m) s
      else if arg 1 m =? 1 then set_stopped stop_hw_break (watch_addr s) s
      else if (arg 1 m =? single_step) && step_mode s then set_stopped stop_step (watch_addr s) s
      else if arg 1 m =? software_break then
        let p := (pc s + (2 ^ 32 - 1)) mod 2 ^ 32 in
        set_stopped stop_sw_break (watch_addr s) (delegate_write_register (tcb s) p 0 (set_pc p s))
      else set_stopped stop_none (watch_addr s) s
  | _ => set_stopped stop_none (watch_addr s) s
  end.

(** gdb.c:146-176 [gdb_handle_fault] *)
Definition gdb_handle_fault (s : st) : st :=
  match stopped s with
  | stop_watch => send (bytes "T05thread:01;watch:" ++ hex8 (watch_addr s) ++ bytes ";") s
  | stop_hw_break => say "T05thread:01;hwbreak:;" s
  | stop_step => say "T05thread:01;" s
  | stop_sw_break => say "T05thread:01;swbreak:;" s
  | stop_none => say "T05thread:01;" s
  end.

(** seL4GDB-to.template.c:95-112: [args] has four elements.  Simplified: elements the message does
    not fill are zero. *)
Definition stop (m : message) (s : st) : run st :=
  if Nat.ltb 4 (List.length (f_args m)) then Crash OutOfBounds
  else
    let s := set_pc (arg 0 m) (set_tcb (f_tcb m) s) in
    let s := find_stop_reason m s in
    Done (gdb_handle_fault (set_step_mode false s)).

(** seL4GDB-to.template.c:117-138: the message registers of the reply *)
Definition reply (s : st) : list N :=
  match stopped s, step_mode s with
  | stop_step, false => [0]
  | stop_none, _ => [pc s]
  | _, _ => []
  end.

(** The kernel's treatment of the reply (handleFaultReply): after a single step, the number of
    instructions to be stepped next (one if not given, none to end stepping); after a user
    exception, the instruction pointer; otherwise it is ignored.  A thread that is not single
    stepped runs freely; [None] says so. *)
Definition restart (m : message) (s : st) : option N * st :=
  match f_kind m with
  | DebugException =>
      if arg 1 m =? single_step then
        let n := match reply s with [] => 1 | n :: _ => n end in
        (if n =? 0 then None else Some n, delegate_single_step (tcb s) (negb (n =? 0)) s)
      else (if stepping s (tcb s) then Some 1 else None, s)
  | UserException =>
      (if stepping s (tcb s) then Some 1 else None,
       match reply s with [] => s | p :: _ => delegate_write_register (tcb s) p 0 s end)
  | OtherFault => (if stepping s (tcb s) then Some 1 else None, s)
  end.
