(** Model of libsel4camkes/src/allocator.c: the capability allocator of a component.

    Simplifications.
    - Object types, capability pointers, sizes and attribute sets are natural numbers (N);
      attribute sets are bit masks, as in the code.
    - The memory allocation inside camkes_provide succeeds or fails as told by the caller
      of the model (field mem of OProvide).
    - Calls do not overlap: the code has no lock.
    - assert is on (a failed assertion stops the component). *)
From Coq Require Import NArith List Bool.
From Verif Require Import Prelude.
Import ListNotations.
Open Scope N_scope.

(** allocator.c:16-24 *)
Record node := Node { n_type : N; n_size : N; n_ptr : N; n_used : bool; n_attr : N }.

(** allocator.c:25, the linked list, first node first *)
Definition state := list node.

(** seL4_CapNull *)
Definition cap_null : N := 0.

(** A call made by the component. *)
Inductive op :=
| OProvide (mem : bool) (type ptr size attributes : N)
| OAlloc (type size flags : N)
| OFree (ptr : N).

(** What a call returns.  RFail is the -1 of camkes_provide. *)
Inductive ret := ROk | RFail | RCap (p : N).

(** allocator.c:27-42 *)
Definition camkes_provide (mem : bool) (type ptr size attributes : N) (s : state) : state * ret :=
  if mem then (Node type size ptr false attributes :: s, ROk) else (s, RFail).

(** allocator.c:47-48 *)
Definition suits (type size flags : N) (n : node) : bool :=
  (n_type n =? type) && negb (n_used n) && (N.land (n_attr n) flags =? flags) &&
  ((size =? 0) || (size =? n_size n)).

Definition set_used (b : bool) (n : node) : node :=
  Node (n_type n) (n_size n) (n_ptr n) b (n_attr n).

(** allocator.c:44-54 *)
Fixpoint camkes_alloc (type size flags : N) (s : state) : state * N :=
  match s with
  | [] => ([], cap_null)
  | n :: s' =>
      if suits type size flags n then (set_used true n :: s', n_ptr n)
      else let (s2, p) := camkes_alloc type size flags s' in (n :: s2, p)
  end.

(** allocator.c:56-66 *)
Fixpoint camkes_free (ptr : N) (s : state) : res state :=
  match s with
  | [] => Err AssertionError
  | n :: s' =>
      if n_ptr n =? ptr then
        if n_used n then Ok (set_used false n :: s') else Err AssertionError
      else s2 <- camkes_free ptr s' ;; Ok (n :: s2)
  end.

Definition step (s : state) (o : op) : res (state * ret) :=
  match o with
  | OProvide mem t p z a => Ok (camkes_provide mem t p z a s)
  | OAlloc t z f => let (s', p) := camkes_alloc t z f s in Ok (s', RCap p)
  | OFree p => s' <- camkes_free p s ;; Ok (s', ROk)
  end.

(** A component's calls in order, starting with nothing provided (allocator.c:25), and
    what each returned. *)
Fixpoint run_from (s : state) (l : list op) : res (state * list (op * ret)) :=
  match l with
  | [] => Ok (s, [])
  | o :: l' =>
      '(s1, r) <- step s o ;;
      '(s2, h) <- run_from s1 l' ;;
      Ok (s2, (o, r) :: h)
  end.

Definition run (l : list op) : res (state * list (op * ret)) := run_from [] l.
