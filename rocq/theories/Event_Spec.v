(** Specification of the event connector in terms of what has happened. *)
From Coq Require Import ZArith List Bool PeanoNat.
From Verif Require Import Event_Model.
Import ListNotations.

Definition reachable (s : st) : Prop := exists l, exec init l = Some s.

Definition cnt (p : ev -> bool) (l : list ev) : nat := List.length (filter p l).
Definition is_delivered e := match e with Delivered => true | _ => false end.
Definition is_dropped e := match e with Dropped => true | _ => false end.
Definition is_posted e := match e with Posted => true | _ => false end.
Definition is_taken e := match e with Taken _ => true | _ => false end.
Definition is_polled e := match e with Polled => true | _ => false end.
Definition is_waited e := match e with Waited => true | _ => false end.
Definition is_claimed e := match e with Claimed _ => true | _ => false end.
Definition registered i e := match e with Registered j => Nat.eqb i j | _ => false end.
Definition taken i e := match e with Taken j => Nat.eqb i j | _ => false end.
Definition claimed i e := match e with Claimed j => Nat.eqb i j | _ => false end.
Definition refused i e := match e with Refused j => Nat.eqb i j | _ => false end.
Definition invoked i e := match e with Invoked j => Nat.eqb i j | _ => false end.

(** The delivery thread holds an event it has not disposed of yet. *)
Definition in_hand (r : rpc) : nat :=
  match r with RLock | RRead | RClear _ | RCheck | RPost => 1 | _ => 0 end.
(** Callback [i] is about to be called by some thread. *)
Definition about_to_call (s : st) (i : nat) : Prop :=
  run s = RUnlock (Some i) \/ run s = RInvoke (Some i) \/
  exists u, users s u = UUnlock i OInvoke \/ users s u = UInvoke i.
(** Some thread is still in reg_callback for [i], without a decision. *)
Definition undecided (s : st) (i : nat) : Prop :=
  exists u, users s u = UPoll1 i \/ users s u = ULock i \/ users s u = UPoll2 i \/
            users s u = UCheck i \/ users s u = USet i.
(** The thread holds the lock according to its program point. *)
Definition in_critical (s : st) (t : thread) : Prop :=
  match t with
  | Run => match run s with RRead | RClear _ | RCheck | RPost | RUnlock _ => True | _ => False end
  | User u => match users s u with UPoll2 _ | UCheck _ | USet _ | UUnlock _ _ => True | _ => False end
  end.
(** One step of thread [t], with no failure of the lock. *)
Definition own_step (t : thread) : act := match t with Run => ARun false | User u => AUser u false end.
