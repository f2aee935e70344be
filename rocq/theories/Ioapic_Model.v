(** Model of camkes/templates/seL4IOAPICHardwareInterrupt.template.c: the thread that
    waits for the interrupt and any number of threads of the component that call _poll,
    _wait and _reg_callback, as a transition system.

    Simplifications.
    - Every read or write of a shared variable and every atomic builtin is one step, in
      program order (callback_args is not volatile in the code, so a compiler may do
      worse).
    - The kernel: an interrupt that fires signals the notification and is then masked
      until seL4_IRQHandler_Ack; a notification remembers one signal; seL4_Wait takes it
      or blocks.
    - A registration is a number, fresh for every call of _reg_callback; callback and
      argument of registration r are both written r.  What a callback does is done by some
      other thread of the component.
    - The loop counter is below the maximum of int, and so is the number of sleepers.
    - assert is on: a failed assertion stops the component. *)
From Coq Require Import List Bool PeanoNat.
Import ListNotations.

(** :37 *)
Definition MAX_CALLBACKS : nat := 10.

(** Program points of <interface>__run, :62-92; [h] is the local handled, [r] the local
    callback. *)
Inductive rpc :=
| RWait                             (* :65 *)
| RRead (i : nat) (h : bool)        (* :69-70 *)
| RClear (i r : nat) (h : bool)     (* :72 *)
| RCall (i r : nat) (h : bool)      (* :73 *)
| RSet (h : bool)                   (* :80 *)
| RCheck                            (* :84, not handled *)
| RWake.                            (* :85 *)

(** Program points of the other threads: _poll (:97-99) is one step; _wait (:101-105 with
    SLEEP, :48-55); _reg_callback (:107-128). *)
Inductive upc :=
| UIdle
| UPoll                             (* :102 *)
| UInc                              (* :50 *)
| UAssert1                          (* :51 *)
| USleep                            (* :52 *)
| UAssert2                          (* :53 *)
| UDec                              (* :54 *)
| UTry (i r : nat)                  (* :109-110 *)
| UArg (i r : nat)                  (* :111 *)
| UAck (r : nat).                   (* :112-123 *)

(** How the acknowledgement goes: accepted; refused, and the error handler asks to give up;
    refused, and it asks to go on as if nothing had happened
    (libsel4camkes/include/camkes/error.h:151-181). *)
Inductive ack := Accepted | Failed | FailedIgnored.

(** What has happened so far (not part of the code; read by the specification). *)
Inductive ev :=
| Fired                     (* the interrupt signals the notification *)
| Delivered                 (* the delivery thread received it *)
| Marked (h : bool)         (* event_pending is set; h: a callback was called *)
| Polled                    (* _poll returned 1 *)
| Waited                    (* _wait returned *)
| Busy (r i : nat)          (* registration r found slot i taken *)
| Published (r : nat)       (* registration r put its callback in a slot *)
| Acked                     (* the interrupt is acknowledged *)
| Returned (r : nat) (ok : bool)    (* registration r returned 0, or -1 *)
| Invoked (r : nat) (a : option nat).      (* the callback of r is called with the argument of a *)

Record st := mk {
  armed : bool;             (* the interrupt is not masked *)
  notif : bool;             (* notification, :23-24 *)
  callbacks : nat -> option nat;    (* :39 *)
  callback_args : nat -> option nat;  (* :40; None is the initial NULL *)
  event_pending : bool;     (* :41 *)
  sleepers : nat;           (* :42 *)
  lock : bool;              (* lock, :31 *)
  run : rpc;
  users : nat -> upc;
  aborted : bool;           (* an assertion failed *)
  fresh : nat;
  log : list ev }.          (* newest first *)

Definition init : st :=
  mk true false (fun _ => None) (fun _ => None) false 0 false RWait (fun _ => UIdle) false 0 [].

Definition upd {A} (f : nat -> A) (u : nat) (x : A) : nat -> A := fun v => if Nat.eqb v u then x else f v.

Definition with_armed (s : st) b := mk b s.(notif) s.(callbacks) s.(callback_args) s.(event_pending) s.(sleepers) s.(lock) s.(run) s.(users) s.(aborted) s.(fresh) s.(log).
Definition with_notif (s : st) b := mk s.(armed) b s.(callbacks) s.(callback_args) s.(event_pending) s.(sleepers) s.(lock) s.(run) s.(users) s.(aborted) s.(fresh) s.(log).
Definition with_callback (s : st) i c := mk s.(armed) s.(notif) (upd s.(callbacks) i c) s.(callback_args) s.(event_pending) s.(sleepers) s.(lock) s.(run) s.(users) s.(aborted) s.(fresh) s.(log).
Definition with_arg (s : st) i a := mk s.(armed) s.(notif) s.(callbacks) (upd s.(callback_args) i a) s.(event_pending) s.(sleepers) s.(lock) s.(run) s.(users) s.(aborted) s.(fresh) s.(log).
Definition with_pending (s : st) b := mk s.(armed) s.(notif) s.(callbacks) s.(callback_args) b s.(sleepers) s.(lock) s.(run) s.(users) s.(aborted) s.(fresh) s.(log).
Definition with_sleepers (s : st) n := mk s.(armed) s.(notif) s.(callbacks) s.(callback_args) s.(event_pending) n s.(lock) s.(run) s.(users) s.(aborted) s.(fresh) s.(log).
Definition with_lock (s : st) b := mk s.(armed) s.(notif) s.(callbacks) s.(callback_args) s.(event_pending) s.(sleepers) b s.(run) s.(users) s.(aborted) s.(fresh) s.(log).
Definition at_run (s : st) r := mk s.(armed) s.(notif) s.(callbacks) s.(callback_args) s.(event_pending) s.(sleepers) s.(lock) r s.(users) s.(aborted) s.(fresh) s.(log).
Definition at_user (s : st) u x := mk s.(armed) s.(notif) s.(callbacks) s.(callback_args) s.(event_pending) s.(sleepers) s.(lock) s.(run) (upd s.(users) u x) s.(aborted) s.(fresh) s.(log).
Definition abort (s : st) := mk s.(armed) s.(notif) s.(callbacks) s.(callback_args) s.(event_pending) s.(sleepers) s.(lock) s.(run) s.(users) true s.(fresh) s.(log).
Definition with_fresh (s : st) n := mk s.(armed) s.(notif) s.(callbacks) s.(callback_args) s.(event_pending) s.(sleepers) s.(lock) s.(run) s.(users) s.(aborted) n s.(log).
Definition logs (s : st) e := mk s.(armed) s.(notif) s.(callbacks) s.(callback_args) s.(event_pending) s.(sleepers) s.(lock) s.(run) s.(users) s.(aborted) s.(fresh) (e :: s.(log)).

Inductive act :=
| Fire                               (* the device *)
| ARun                               (* one step of the delivery thread *)
| APoll (u : nat) | AWait (u : nat) | AReg (u : nat)     (* thread u begins a call *)
| AUser (u : nat) (k : ack).         (* one step of a call; k: how an acknowledgement goes *)

(** After slot [i], :69 *)
Definition next (i : nat) (h : bool) : rpc := if Nat.ltb (S i) MAX_CALLBACKS then RRead (S i) h else RSet h.

(** One step of __run, :62-92 *)
Definition step_run (s : st) : option st :=
  match s.(run) with
  | RWait => if s.(notif) then Some (logs (at_run (with_notif s false) (RRead 0 false)) Delivered) else None
  | RRead i h => match s.(callbacks) i with
                 | Some r => Some (at_run s (RClear i r h))
                 | None => Some (at_run s (next i h))
                 end
  | RClear i r h => Some (at_run (with_callback s i None) (RCall i r h))
  | RCall i r h => Some (logs (at_run s (next i true))
                           (Invoked r (s.(callback_args) i)))
  | RSet h => Some (logs (at_run (with_pending s true) (if h then RWait else RCheck)) (Marked h))
  | RCheck => Some (at_run s (if Nat.ltb 0 s.(sleepers) then RWake else RWait))
  | RWake => Some (at_run (with_lock s true) RWait)
  end.

(** One step of thread [u] inside a call. *)
Definition step_user (s : st) (u : nat) (k : ack) : option st :=
  match s.(users) u with
  | UIdle => None
  | UPoll => if s.(event_pending) then Some (logs (at_user (with_pending s false) u UIdle) Waited)
             else Some (at_user s u UInc)
  | UInc => Some (at_user (with_sleepers s (S s.(sleepers))) u UAssert1)
  | UAssert1 => if Nat.ltb 0 s.(sleepers) then Some (at_user s u USleep) else Some (abort s)
  | USleep => if s.(lock) then Some (at_user (with_lock s false) u UAssert2) else None
  | UAssert2 => if Nat.ltb 0 s.(sleepers) then Some (at_user s u UDec) else Some (abort s)
  | UDec => Some (at_user (with_sleepers s (Nat.pred s.(sleepers))) u UPoll)
  | UTry i r =>
    match s.(callbacks) i with
    | None => Some (logs (at_user (with_callback s i (Some r)) u (UArg i r)) (Published r))
    | Some _ => let s' := logs s (Busy r i) in
                if Nat.ltb (S i) MAX_CALLBACKS then Some (at_user s' u (UTry (S i) r))
                else Some (logs (at_user s' u UIdle) (Returned r false))
    end
  | UArg i r => Some (at_user (with_arg s i (Some r)) u (UAck r))
  | UAck r =>
    match k with
    | Accepted => Some (logs (logs (at_user (with_armed s true) u UIdle) Acked) (Returned r true))
    | Failed => Some (logs (at_user s u UIdle) (Returned r false))
    | FailedIgnored => Some (logs (at_user s u UIdle) (Returned r true))
    end
  end.

Definition begin (s : st) (u : nat) (x : upc) : option st :=
  match s.(users) u with UIdle => Some (at_user s u x) | _ => None end.

Definition step (s : st) (a : act) : option st :=
  if s.(aborted) then None else
  match a with
  | Fire => if s.(armed) then Some (logs (with_notif (with_armed s false) true) Fired) else None
  | ARun => step_run s
  | APoll u => match s.(users) u with
               | UIdle => if s.(event_pending) then Some (logs (with_pending s false) Polled) else Some s
               | _ => None
               end
  | AWait u => begin s u UPoll
  | AReg u => begin (with_fresh s (S s.(fresh))) u (UTry 0 s.(fresh))
  | AUser u k => step_user s u k
  end.

Fixpoint exec (s : st) (l : list act) : option st :=
  match l with
  | [] => Some s
  | a :: l => match step s a with Some s => exec s l | None => None end
  end.
