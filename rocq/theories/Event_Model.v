(** Model of the receiving side of the event connectors,
    camkes/templates/seL4Notification-to.template.c and (same structure)
    camkes/templates/seL4NotificationQueue-to.template.c, as a transition system with
    one delivery thread and any number of user threads.

    Simplifications.
    - The synchronisation primitives come from libsel4sync, which is not in /repo:
      sync_bin_sem_bare_{wait,post} is a lock that one thread holds at a time and whose
      acquisition may fail; sync_sem_bare_{wait,trywait,post} is a counting semaphore
      whose counter goes below zero when threads block, post on a negative counter
      sends one wake-up.  Each call is atomic except that blocking takes two steps.
    - Reads and writes of shared variables are single steps, as they are under the lock.
    - A callback is a number, fresh for every call of reg_callback.  What a callback does
      (it may call poll, wait or reg_callback) is done by some other user thread. *)
From Coq Require Import ZArith List Bool PeanoNat.
Import ListNotations.
Open Scope Z_scope.

(** limits.h *)
Definition INT_MAX : Z := 2147483647.
Definition INT_MIN : Z := - 2147483648.

(** Program points of <interface>__run, seL4Notification-to.template.c:66-106. *)
Inductive rpc :=
| RWait                       (* :68 *)
| RLock                       (* :70 *)
| RRead                       (* :78 *)
| RClear (c : option nat)     (* :79, c is the local cb *)
| RCheck                      (* :91, no callback *)
| RPost                       (* :92 *)
| RUnlock (c : option nat)    (* :96 *)
| RInvoke (c : option nat).   (* :99-104 *)

(** How a reg_callback call ends. *)
Inductive outcome := OInvoke | ORegistered | ORefused.

(** Program points of a user thread: _poll (:112-114) is one step, _wait (:116-130),
    _reg_callback (:132-168). *)
Inductive upc :=
| UIdle
| UBlocked                          (* in _wait, after the decrement *)
| UPoll1 (i : nat)                  (* :137 *)
| ULock (i : nat)                   (* :142 *)
| UPoll2 (i : nat)                  (* :147 *)
| UCheck (i : nat)                  (* :156 *)
| USet (i : nat)                    (* :164-165 *)
| UUnlock (i : nat) (o : outcome)   (* :151, :158, :166 *)
| UInvoke (i : nat).                (* :138, :153 *)

Inductive thread := Run | User (u : nat).

(** What has happened so far (not part of the code; read by the specification). *)
Inductive ev :=
| Delivered               (* seL4_Wait returned *)
| Dropped                 (* the event was dropped: no lock or counter at INT_MAX *)
| Posted                  (* the event was passed to the handoff semaphore *)
| Taken (i : nat)         (* the event was paired with the registered callback i *)
| Polled                  (* _poll returned 1 *)
| Waited                  (* _wait returned with an event *)
| Claimed (i : nat)       (* reg_callback consumed a pending event for callback i *)
| Registered (i : nat)    (* reg_callback put i in the slot *)
| Refused (i : nat)       (* reg_callback returned -1 *)
| Invoked (i : nat).      (* callback i is called *)

Record st := mk {
  notif : bool;             (* the notification is signalled *)
  hv : Z;                   (* handoff_value *)
  wakeups : nat;            (* wake-ups sent on handoff, not yet received *)
  slot : option nat;        (* callback *)
  holder : option thread;   (* of the lock *)
  run : rpc;
  users : nat -> upc;
  blocked : list nat;       (* users blocked in _wait *)
  fresh : nat;
  log : list ev }.          (* newest first *)

Definition init : st := mk false 0 0 None None RWait (fun _ => UIdle) [] 0 [].

Definition upd (f : nat -> upc) (u : nat) (x : upc) : nat -> upc := fun v => if Nat.eqb v u then x else f v.
Definition at_run (s : st) (r : rpc) : st :=
  mk s.(notif) s.(hv) s.(wakeups) s.(slot) s.(holder) r s.(users) s.(blocked) s.(fresh) s.(log).
Definition at_user (s : st) (u : nat) (x : upc) : st :=
  mk s.(notif) s.(hv) s.(wakeups) s.(slot) s.(holder) s.(run) (upd s.(users) u x) s.(blocked) s.(fresh) s.(log).
Definition logs (s : st) (e : ev) : st :=
  mk s.(notif) s.(hv) s.(wakeups) s.(slot) s.(holder) s.(run) s.(users) s.(blocked) s.(fresh) (e :: s.(log)).
Definition with_hv (s : st) (z : Z) : st :=
  mk s.(notif) z s.(wakeups) s.(slot) s.(holder) s.(run) s.(users) s.(blocked) s.(fresh) s.(log).
Definition with_wakeups (s : st) (n : nat) : st :=
  mk s.(notif) s.(hv) n s.(slot) s.(holder) s.(run) s.(users) s.(blocked) s.(fresh) s.(log).
Definition with_slot (s : st) (c : option nat) : st :=
  mk s.(notif) s.(hv) s.(wakeups) c s.(holder) s.(run) s.(users) s.(blocked) s.(fresh) s.(log).
Definition with_holder (s : st) (h : option thread) : st :=
  mk s.(notif) s.(hv) s.(wakeups) s.(slot) h s.(run) s.(users) s.(blocked) s.(fresh) s.(log).
Definition with_blocked (s : st) (l : list nat) : st :=
  mk s.(notif) s.(hv) s.(wakeups) s.(slot) s.(holder) s.(run) s.(users) l s.(fresh) s.(log).
Definition with_fresh (s : st) (n : nat) : st :=
  mk s.(notif) s.(hv) s.(wakeups) s.(slot) s.(holder) s.(run) s.(users) s.(blocked) n s.(log).
Definition with_notif (s : st) (b : bool) : st :=
  mk b s.(hv) s.(wakeups) s.(slot) s.(holder) s.(run) s.(users) s.(blocked) s.(fresh) s.(log).

Inductive act :=
| Signal                                   (* the sender signals *)
| ARun (lock_fails : bool)                 (* one step of the delivery thread *)
| APoll (u : nat) | AWait (u : nat) | AReg (u : nat)       (* user u starts an operation *)
| AUser (u : nat) (lock_fails : bool).     (* one step of a running operation *)

(** One step of __run. *)
Definition step_run (s : st) (lock_fails : bool) : option st :=
  match s.(run) with
  | RWait => if s.(notif) then Some (logs (at_run (with_notif s false) RLock) Delivered) else None
  | RLock =>
    if lock_fails then Some (logs (at_run s RWait) Dropped)                  (* :70-75 *)
    else match s.(holder) with
         | None => Some (at_run (with_holder s (Some Run)) RRead)
         | Some _ => None end
  | RRead => Some (at_run s (RClear s.(slot)))
  | RClear (Some i) => Some (logs (at_run (with_slot s None) (RUnlock (Some i))) (Taken i))
  | RClear None => Some (at_run (with_slot s None) RCheck)
  | RCheck => if s.(hv) =? INT_MAX then Some (logs (at_run s (RUnlock None)) Dropped)
              else Some (at_run s RPost)
  | RPost =>
    let s' := logs (at_run (with_hv s (s.(hv) + 1)) (RUnlock None)) Posted in
    Some (if s.(hv) <? 0 then with_wakeups s' (S s.(wakeups)) else s')
  | RUnlock c => Some (at_run (with_holder s None) (RInvoke c))
  | RInvoke (Some i) => Some (logs (at_run s RWait) (Invoked i))
  | RInvoke None => Some (at_run s RWait)
  end.

(** poll (:108-110): sync_sem_bare_trywait succeeds iff the counter is positive. *)
Definition pending (s : st) : bool := 0 <? s.(hv).
Definition take (s : st) : st := with_hv s (s.(hv) - 1).

(** One step of user [u] inside an operation. *)
Definition step_user (s : st) (u : nat) (lock_fails : bool) : option st :=
  match s.(users) u with
  | UIdle => None
  | UBlocked =>
    match s.(wakeups) with
    | O => None
    | S n => Some (logs (with_blocked (with_wakeups (at_user s u UIdle) n) (remove Nat.eq_dec u s.(blocked))) Waited)
    end
  | UPoll1 i => if pending s then Some (logs (at_user (take s) u (UInvoke i)) (Claimed i))
                else Some (at_user s u (ULock i))
  | ULock i => if lock_fails then Some (logs (at_user s u UIdle) (Refused i))
               else match s.(holder) with
                    | None => Some (at_user (with_holder s (Some (User u))) u (UPoll2 i))
                    | Some _ => None end
  | UPoll2 i => if pending s then Some (logs (at_user (take s) u (UUnlock i OInvoke)) (Claimed i))
                else Some (at_user s u (UCheck i))
  | UCheck i => match s.(slot) with
                | Some _ => Some (logs (at_user s u (UUnlock i ORefused)) (Refused i))
                | None => Some (at_user s u (USet i)) end
  | USet i => Some (logs (at_user (with_slot s (Some i)) u (UUnlock i ORegistered)) (Registered i))
  | UUnlock i o => Some (at_user (with_holder s None) u (match o with OInvoke => UInvoke i | _ => UIdle end))
  | UInvoke i => Some (logs (at_user s u UIdle) (Invoked i))
  end.

Definition is_idle (x : upc) : bool := match x with UIdle => true | _ => false end.

Definition step (s : st) (a : act) : option st :=
  match a with
  | Signal => Some (with_notif s true)
  | ARun b => step_run s b
  | APoll u =>
    if is_idle (s.(users) u)
    then if pending s then Some (logs (take s) Polled) else Some s else None
  | AWait u =>
    if is_idle (s.(users) u) then
      if s.(hv) =? INT_MIN then Some s                                       (* :120-129 *)
      else if pending s then Some (logs (take s) Waited)
      else Some (with_blocked (at_user (with_hv s (s.(hv) - 1)) u UBlocked) (u :: s.(blocked)))
    else None
  | AReg u =>
    if is_idle (s.(users) u) then Some (with_fresh (at_user s u (UPoll1 s.(fresh))) (S s.(fresh))) else None
  | AUser u b => step_user s u b
  end.

(** All executions: any sequence of steps of any threads. *)
Fixpoint exec (s : st) (l : list act) : option st :=
  match l with
  | [] => Some s
  | a :: l => match step s a with Some s => exec s l | None => None end
  end.
