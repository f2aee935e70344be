(** What the claims about the serial line mean. *)
From Coq Require Import List NArith.
From Verif Require Import Prelude Uart_Model.
Import ListNotations.
Open Scope N_scope.
Open Scope list_scope.

(** [lines text w]: [w] is [text] with a carriage return before each line feed. *)
Inductive lines : list N -> list N -> Prop :=
  | l_nil : lines [] []
  | l_feed : forall text w, lines text w -> lines (10 :: text) (13 :: 10 :: w)
  | l_other : forall c text w, c <> 10 -> lines text w -> lines (c :: text) (c :: w).

(** Nothing waits to be transmitted, and nothing has been lost. *)
Definition idle (u : uart) : Prop := u_tx u = [] /\ u_lost u = [].

(** What has been sent or waits to be *)
Definition sent (u : uart) : list N := u_wire u ++ u_tx u.

(** The device never stops transmitting. *)
Definition live (speed : nat -> nat) : Prop := forall n, exists m, (n <= m)%nat /\ (0 < speed m)%nat.
