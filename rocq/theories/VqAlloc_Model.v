(** Model of the buffer allocator of virtqueues and message queues:
    libsel4camkes/src/virtqueue_common.c:18-76 and libsel4camkes/src/virtqueue.c:15-55.

    Simplifications.
    - Pointers are 64-bit numbers (N).  unsigned is 32 bits wide; sizes and offsets wrap
      where the C code wraps.  Indices into the free list are natural numbers: the code
      only compares, stores and increments them (below free_list_size).
    - The allocator's own memory is always available (ps_calloc succeeds).
    - Reading the free list out of bounds and dividing by zero are errors (Err).
    - The sizes of the ring structures come from a library outside /repo and are
      parameters (record ring_sizes). *)
From Coq Require Import NArith List Bool.
From Verif Require Import Prelude.
Import ListNotations.
Open Scope N_scope.

Definition two32 : N := 4294967296.
Definition two31 : N := 2147483648.
Definition two64 : N := 18446744073709551616.

(** virtqueue_common.h:14-21 (len is not used after initialisation) *)
Record vq := Vq { vq_buffer : N; vq_block : N; vq_size : nat; vq_free : list nat; vq_head : nat }.

(** virtqueue_common.c:18-48, init_vq_allocator *)
Definition init_vq_allocator (pool len block : N) : res vq :=
  if block =? 0 then Err OtherException
  else let n := N.to_nat (len / block) in
       Ok (Vq pool (block mod two32) n (map Datatypes.S (seq 0 n)) 0).

(** Sizes of vq_vring_avail_t, vq_vring_used_t, struct vq_vring_used_elem and
    vq_vring_desc_t. *)
Record ring_sizes := Sizes { sz_avail : N; sz_used : N; sz_elem : N; sz_desc : N }.

(** virtqueue_common.c:58-66: the three rings lie at the start of the shared buffer *)
Definition rings_len (z : ring_sizes) (qlen : N) : N :=
  sz_avail z + 2 * qlen + (sz_used z + sz_elem z * qlen) + sz_desc z * qlen.

(** virtqueue_common.c:50-76, camkes_virtqueue_driver_init_common (the part that sets up
    the allocator).  usable_len is unsigned, so it wraps. *)
Definition driver_init (z : ring_sizes) (buffer qlen buffer_size block : N) : res vq :=
  let start := (buffer + rings_len z qlen) mod two64 in
  let usable := ((buffer_size + two64 - rings_len z qlen mod two64) mod two64) mod two32 in
  init_vq_allocator start usable block.

(** virtqueue.c:15-34, camkes_virtqueue_buffer_alloc; None is the return value -1 *)
Definition buffer_alloc (a : vq) (size : N) : res (vq * option N) :=
  if vq_block a <? size then Ok (a, None)
  else if Nat.eqb (vq_head a) (vq_size a) then Ok (a, None)
  else match nth_error (vq_free a) (vq_head a) with
       | None => Err IndexError
       | Some h => Ok (Vq (vq_buffer a) (vq_block a) (vq_size a) (vq_free a) h,
                       Some ((vq_buffer a + (vq_block a * N.of_nat (vq_head a)) mod two32) mod two64))
       end.

Fixpoint set_nth (l : list nat) (i : nat) (x : nat) : list nat :=
  match l, i with
  | [], _ => []
  | _ :: l', O => x :: l'
  | y :: l', Datatypes.S i' => y :: set_nth l' i' x
  end.

(** virtqueue.c:45, (int) ((buffer - allocator->buffer) / block_size); None if negative *)
Definition buffer_index (a : vq) (p : N) : option nat :=
  let i := (((p + two64 - vq_buffer a) mod two64) / vq_block a) mod two32 in
  if i <? two31 then Some (N.to_nat i) else None.

(** virtqueue.c:36-55, camkes_virtqueue_buffer_free *)
Definition buffer_free (a : vq) (p : N) : vq :=
  match buffer_index a p with
  | None => a
  | Some i =>
      if Nat.leb (vq_size a) i then a
      else Vq (vq_buffer a) (vq_block a) (vq_size a) (set_nth (vq_free a) i (vq_head a)) i
  end.

(** Calls of the component and what they return. *)
Inductive op := OAlloc (size : N) | OFree (p : N).
Inductive ret := RBuf (p : option N) | RVoid.

Definition step (a : vq) (o : op) : res (vq * ret) :=
  match o with
  | OAlloc z => '(a', p) <- buffer_alloc a z ;; Ok (a', RBuf p)
  | OFree p => Ok (buffer_free a p, RVoid)
  end.

Fixpoint run (a : vq) (l : list op) : res (vq * list (op * ret)) :=
  match l with
  | [] => Ok (a, [])
  | o :: l' =>
      '(a1, r) <- step a o ;;
      '(a2, h) <- run a1 l' ;;
      Ok (a2, (o, r) :: h)
  end.
