(** What is expected of access to IO ports. *)
From Coq Require Import NArith List Bool.
From Verif Require Import Prelude IoPort_Model.
Import ListNotations.
Open Scope N_scope.

(** Interfaces with ports that exist *)
Definition sensible (attrs : list (N * N)) : Prop := Forall (fun '(s, e) => s <= e < 65536) attrs.
(** No port in two of them *)
Definition disjoint (attrs : list (N * N)) : Prop :=
  forall i j s e s' e', nth_error attrs i = Some (s, e) -> nth_error attrs j = Some (s', e') -> i <> j -> e < s' \/ e' < s.

(** What happens if the kernel refuses: the answer of the handler of interface [i] decides. *)
Definition refused {D} (handler : nat -> answer) (i : nat) (ignored : N) (d : D) : outcome D :=
  match handler i with
  | Discard => Returned 0 d [i]
  | Ignore => Returned ignored d [i]
  | Halt | Abort => Stopped d [i]
  end.
(** Width of an access in bytes and the values that fit *)
Definition width (z : iosize) : N := match z with IOSIZE_8 => 1 | IOSIZE_16 => 2 | IOSIZE_32 => 4 end.
Definition limit (z : iosize) : N := match z with IOSIZE_8 => 256 | IOSIZE_16 => 65536 | IOSIZE_32 => 4294967296 end.

(** The device after a call *)
Definition after {D} (o : outcome D) : D := match o with Stopped d _ | Returned _ d _ => d end.
