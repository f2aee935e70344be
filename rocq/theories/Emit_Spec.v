(** Specification of emitting events, in terms of what has happened. *)
From Coq Require Import ZArith List Bool PeanoNat.
From Verif Require Import Emit_Model.
Import ListNotations.

Definition ev_dec : forall a b : ev, {a = b} + {a <> b}.
Proof. decide equality; apply Nat.eq_dec. Defined.
(** How often [e] has happened *)
Definition times (e : ev) (l : list ev) : nat := count_occ ev_dec l e.
(** How many emits have reached end [j] *)
Definition arrivals (j : nat) (l : list ev) : nat :=
  List.length (filter (fun e => match e with Reached _ k => Nat.eqb k j | _ => false end) l).

Definition qreachable (n : nat) (s : qst) : Prop := exists l, qexec n qinit l = Some s.
Definition nreachable (n : nat) (s : nst) : Prop := exists l, nexec n ninit l = Some s.

(** [emitted l i k]: emit [i] has tried the ends before [k], each once, and no other. *)
Definition emitted (l : list ev) (i k : nat) : Prop :=
  forall j, (times (Reached i j) l + times (Failed i j) l = if Nat.ltb j k then 1 else 0)%nat.

(** An emit has reached [j] since the last time an event was received there. *)
Definition news (l : list ev) (j : nat) : Prop :=
  exists new i old, l = new ++ Reached i j :: old /\ ~ In (Got j) new.
