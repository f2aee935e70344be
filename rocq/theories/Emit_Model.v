(** Model of the sending side of the event connectors,
    camkes/templates/seL4NotificationQueue-from.template.c and
    camkes/templates/seL4Notification-from.template.c, for a connection with any number
    of to ends and any number of emit calls running at the same time, together with the
    place where the receiving side takes an event
    (seL4NotificationQueue-to.template.c:58, seL4Notification-to.template.c:68).  What the
    receiving side does with an event afterwards is in Event_Model.v.

    Simplifications.
    - sync_sem_bare_{post,wait} come from libsel4sync, which is not in /repo: post fails
      when the counter is at INT_MAX, otherwise adds one and sends a wake-up if the counter
      was negative; wait fails at INT_MIN, otherwise subtracts one and blocks until a
      wake-up if the counter was not positive.  Each is one step, except that blocking
      takes two.
    - The C file of the queue's from end cannot be generated: it passes the undefined name
      [interface] to make_error_handler (line 18), see DESIGN.md.  The model is of the
      code that results when it is replaced by me.interface.name, as in the to end. *)
From Coq Require Import ZArith List Bool PeanoNat.
Import ListNotations.
Open Scope Z_scope.

(** limits.h *)
Definition INT_MAX : Z := 2147483647.
Definition INT_MIN : Z := - 2147483648.

(** Where a call of <interface>_emit_underlying is: the loop over the to ends is
    unrolled by the template, so the program point is the index of the next one. *)
Inductive epc := NotStarted | At (j : nat) | Returned | GaveUp (j : nat).

(** What the error handler asks for, libsel4camkes/include/camkes/error.h:151-181. *)
Inductive action := Discard | Ignore | Abort.

(** What has happened so far (not part of the code; read by the specification). *)
Inductive ev :=
| Reached (i j : nat)     (* emit i posted to end j *)
| Failed (i j : nat)      (* emit i could not post to end j *)
| Got (j : nat).          (* the delivery thread of end j received an event *)

Inductive act :=
| Start (i : nat)                (* call number i begins *)
| Emit (i : nat) (a : action)    (* its next step; a is what the handler would answer *)
| Recv (j : nat).                (* a step of the delivery thread of end j *)

Definition upd {A} (f : nat -> A) (k : nat) (x : A) : nat -> A := fun n => if Nat.eqb n k then x else f n.

(** * seL4NotificationQueue *)
Record qst := mkq {
  value : nat -> Z;         (* counter_<j>: shared with the to end, *value there *)
  wakes : nat -> nat;       (* wake-ups sent on ep_<j> and not yet received *)
  asleep : nat -> bool;     (* the delivery thread of end j is blocked in wait *)
  calls : nat -> epc;
  log : list ev }.          (* newest first *)

Definition qinit : qst := mkq (fun _ => 0) (fun _ => O) (fun _ => false) (fun _ => NotStarted) [].

(** One iteration of seL4NotificationQueue-from.template.c:35-46 for end [j]. *)
Definition post (s : qst) (i j : nat) (a : action) : qst :=
  if value s j =? INT_MAX
  then mkq (value s) (wakes s) (asleep s)
         (upd (calls s) i (match a with Ignore => At (S j) | _ => GaveUp j end)) (Failed i j :: log s)
  else mkq (upd (value s) j (value s j + 1))
         (if value s j <? 0 then upd (wakes s) j (S (wakes s j)) else wakes s)
         (asleep s) (upd (calls s) i (At (S j))) (Reached i j :: log s).

(** sync_sem_bare_wait in seL4NotificationQueue-to.template.c:55-66.  On failure the
    error handler's answer (start again, or go on as if there were an event) is the former. *)
Definition qrecv (s : qst) (j : nat) : option qst :=
  if asleep s j then
    match wakes s j with
    | O => None
    | S n => Some (mkq (value s) (upd (wakes s) j n) (upd (asleep s) j false) (calls s) (Got j :: log s))
    end
  else if value s j =? INT_MIN then Some s
  else if 0 <? value s j
  then Some (mkq (upd (value s) j (value s j - 1)) (wakes s) (asleep s) (calls s) (Got j :: log s))
  else Some (mkq (upd (value s) j (value s j - 1)) (wakes s) (upd (asleep s) j true) (calls s) (log s)).

(** A connection with [n] to ends *)
Definition qstep (n : nat) (s : qst) (a : act) : option qst :=
  match a with
  | Start i => match calls s i with
               | NotStarted => Some (mkq (value s) (wakes s) (asleep s) (upd (calls s) i (At 0)) (log s))
               | _ => None end
  | Emit i h => match calls s i with
                | At j => if Nat.ltb j n then Some (post s i j h)
                          else Some (mkq (value s) (wakes s) (asleep s) (upd (calls s) i Returned) (log s))
                | _ => None end
  | Recv j => if Nat.ltb j n then qrecv s j else None
  end.
Fixpoint qexec (n : nat) (s : qst) (l : list act) : option qst :=
  match l with
  | [] => Some s
  | a :: l => match qstep n s a with Some s => qexec n s l | None => None end
  end.

(** * seL4Notification *)
Record nst := mkn {
  flag : nat -> bool;       (* notification_<j> is signalled *)
  ncalls : nat -> epc;
  nlog : list ev }.
Definition ninit : nst := mkn (fun _ => false) (fun _ => NotStarted) [].

(** seL4Notification-from.template.c:16-20, and seL4_Wait in
    seL4Notification-to.template.c:68 *)
Definition nstep (n : nat) (s : nst) (a : act) : option nst :=
  match a with
  | Start i => match ncalls s i with
               | NotStarted => Some (mkn (flag s) (upd (ncalls s) i (At 0)) (nlog s))
               | _ => None end
  | Emit i _ => match ncalls s i with
                | At j => if Nat.ltb j n
                          then Some (mkn (upd (flag s) j true) (upd (ncalls s) i (At (S j))) (Reached i j :: nlog s))
                          else Some (mkn (flag s) (upd (ncalls s) i Returned) (nlog s))
                | _ => None end
  | Recv j => if Nat.ltb j n && flag s j
              then Some (mkn (upd (flag s) j false) (ncalls s) (Got j :: nlog s)) else None
  end.
Fixpoint nexec (n : nat) (s : nst) (l : list act) : option nst :=
  match l with
  | [] => Some s
  | a :: l => match nstep n s a with Some s => nexec n s l | None => None end
  end.
