(** What users of the virtqueue buffer allocator rely on, said of the history of calls. *)
From Coq Require Import NArith List Bool.
From Verif Require Import Prelude VqAlloc_Model.
Import ListNotations.
Open Scope N_scope.

(** Buffers handed out and not freed since, after a history. *)
Definition live1 (l : list N) (e : op * ret) : list N :=
  match e with
  | (OAlloc _, RBuf (Some p)) => p :: l
  | (OFree p, _) => remove N.eq_dec p l
  | _ => l
  end.
Definition live (h : list (op * ret)) : list N := fold_left live1 h [].

(** The user frees only buffers they hold. *)
Definition disciplined (h : list (op * ret)) : Prop :=
  forall h1 p r h2, h = h1 ++ (OFree p, r) :: h2 -> In p (live h1).

(** A pool the allocator can be set up on: it lies in the address space, sizes are
    unsigned, and buffer numbers are non-negative ints. *)
Definition usable (pool len block : N) : Prop :=
  0 < block /\ block < 2 ^ 32 /\ len < 2 ^ 32 /\ pool + len <= 2 ^ 64 /\
  len / block <= 2 ^ 31.

(** Two blocks of the given size do not overlap. *)
Definition disjoint (block p q : N) : Prop := p + block <= q \/ q + block <= p.

(** The room for the rings of a queue of the given length: the available ring with a
    16-bit number per entry, the used ring with an element per entry, and the descriptor
    table. *)
Definition rings (z : ring_sizes) (qlen : N) : N :=
  (sz_avail z + qlen * 2) + (sz_used z + qlen * sz_elem z) + qlen * sz_desc z.
