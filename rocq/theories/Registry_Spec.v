(** What users of the interface registry rely on, said of the history of calls. *)
From Coq Require Import NArith ZArith List Bool.
From Verif Require Import Prelude Registry_Model.
Import ListNotations.
Open Scope N_scope.

Definition history := list (op * Z).

(** How often an instance is registered under a type: accepted registrations minus
    unregistrations, never below zero. *)
Definition count1 (ty i : N) (n : nat) (e : op * Z) : nat :=
  match e with
  | (ORegister _ _ t j _, z) => if (t =? ty) && (j =? i) && (z =? 0)%Z then Datatypes.S n else n
  | (OUnregister t j, z) => if (t =? ty) && (j =? i) && (z =? 0)%Z then Nat.pred n else n
  end.
Definition times (h : history) (ty i : N) : nat := fold_left (count1 ty i) h 0%nat.

Definition registered (h : history) (ty i : N) : Prop := times h ty i <> 0%nat.

(** The type has been used: some registration under it was accepted. *)
Definition used (h : history) (ty : N) : Prop :=
  exists m1 m2 i p, In (ORegister m1 m2 ty i p, 0%Z) h.

(** What a handler answers for a match (platsupport). *)
Definition match_found : Z := 1%Z.
(** A handler that recognises exactly one instance. *)
Definition looking_for (i : N) (j : N) : Z := if j =? i then match_found else 0%Z.
(** Only the null interface has NULL instances. *)
Definition proper (ty i : N) : Prop := i <> 0 \/ ty = 0.
