(** Specification of testing an address. *)
From Coq Require Import List NArith.
From Verif Require Import GdbMem_Model.
Open Scope N_scope.

(** The word at an address can be read, or written. *)
Definition readable (m : memory) (a : N) : Prop :=
  forall i, i < 4 -> exists v w, m ((a + i) mod 2 ^ 32) = Some (v, w).
Definition writable_word (m : memory) (a : N) : Prop :=
  forall i, i < 4 -> exists v, m ((a + i) mod 2 ^ 32) = Some (v, true).
(** Memory holds bytes. *)
Definition bytes_only (m : memory) : Prop := forall x v w, m x = Some (v, w) -> v < 256.

(** The call comes to its end with this result, memory being as before. *)
Definition answers (p : list instruction) (base : N) (s : machine) (r : N) : Prop :=
  exists n, let s' := steps n p base s in
    m_status s' = Left /\ result (m_cpu s') = r /\ forall x, m_mem s' x = m_mem s x.
(** It never does, however long one waits, and no one will wake it. *)
Definition never_answers (p : list instruction) (base : N) (s : machine) : Prop :=
  (forall n, m_status (steps n p base s) <> Left) /\
  exists n, forall k, m_status (steps (n + k) p base s) = Forgotten.
