(** Specification of the IOAPIC interrupt connector in terms of what has happened. *)
From Coq Require Import List Bool PeanoNat.
From Verif Require Import Ioapic_Model.
Import ListNotations.

Definition reachable (s : st) : Prop := exists l, exec init l = Some s.

Definition cnt (p : ev -> bool) (l : list ev) : nat := List.length (filter p l).
Definition is_fired e := match e with Fired => true | _ => false end.
Definition is_delivered e := match e with Delivered => true | _ => false end.
Definition is_marked e := match e with Marked _ => true | _ => false end.
Definition is_polled e := match e with Polled => true | _ => false end.
Definition is_waited e := match e with Waited => true | _ => false end.
Definition is_acked e := match e with Acked => true | _ => false end.
Definition is_published e := match e with Published _ => true | _ => false end.
Definition published r e := match e with Published q => Nat.eqb r q | _ => false end.
Definition invoked r e := match e with Invoked q _ => Nat.eqb r q | _ => false end.
Definition is_invoked e := match e with Invoked _ _ => true | _ => false end.

(** Whether a callback was called for the last event. *)
Fixpoint last_called (l : list ev) : bool :=
  match l with [] => false | Marked h :: _ => h | _ :: l => last_called l end.

(** The call begins a registration. *)
Definition registers (a : act) : bool := match a with AReg _ => true | _ => false end.
(** The step begins a call. *)
Definition begins (a : act) : bool := match a with AReg _ | APoll _ | AWait _ => true | _ => false end.

(** The thread is in _wait and asleep, or on its way to be with the count of sleepers
    already raised. *)
Definition sleeping (x : upc) : Prop := x = UAssert1 \/ x = USleep.
(** The thread is in _wait and will look for an event before it sleeps (again). *)
Definition looking (x : upc) : Prop := x = UAssert2 \/ x = UDec \/ x = UPoll.

(** Nobody writes an argument while the delivery thread is between taking the callback
    of that slot and reading the argument, nor is the delivery thread quick enough to find
    the callback of a registration that has not written its argument yet. *)
Definition calm_arguments (s : st) (a : act) : Prop :=
  match a with
  | ARun => forall i h u r, run s = RRead i h -> users s u <> UArg i r
  | AUser u _ => forall i h q r, run s = RCall i q h -> users s u <> UTry i r
  | _ => True
  end.
(** No event is marked while a thread has found none and is not counted as a sleeper yet. *)
Definition calm_waits (s : st) (a : act) : Prop :=
  match a with
  | ARun => forall h u, run s = RSet h -> users s u <> UInc
  | _ => True
  end.
(** An execution all of whose steps are such. *)
Fixpoint calm (c : st -> act -> Prop) (s : st) (l : list act) : Prop :=
  match l with
  | [] => True
  | a :: l => c s a /\ match step s a with Some s' => calm c s' l | None => False end
  end.

(** There was an event that no call of _poll or _wait has taken. *)
Fixpoint untaken (l : list ev) : bool :=
  match l with [] => false | Marked _ :: _ => true | (Polled | Waited) :: _ => false | _ :: l => untaken l end.
(** The thread is in _reg_callback. *)
Definition registering (x : upc) : Prop := match x with UTry _ _ | UArg _ _ | UAck _ => True | _ => False end.

(** The step wakes a thread that sleeps in _wait. *)
Definition wakes_one (s : st) (a : act) : bool :=
  match a with
  | AUser u _ => match users s u with USleep => true | _ => false end
  | _ => false
  end.
(** How many such steps an execution has. *)
Fixpoint wakes (s : st) (l : list act) : nat :=
  match l with
  | [] => 0
  | a :: l => match step s a with Some s' => (if wakes_one s a then 1 else 0) + wakes s' l | None => 0 end
  end.
