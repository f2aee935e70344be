(** C39: the virtqueue buffer allocator. *)
From Coq Require Import NArith List Bool.
From Verif Require Import Prelude VqAlloc_Model VqAlloc_Spec VqAlloc_Proofs.
Import ListNotations.
Open Scope N_scope.

(** A buffer handed out has room for the request, lies in the pool and overlaps no live
    buffer. *)
Theorem C39_inside_and_disjoint pool len block a0 l a h h1 z p h2 :
  usable pool len block ->
  init_vq_allocator pool len block = Ok a0 -> run a0 l = Ok (a, h) -> disciplined h ->
  h = h1 ++ (OAlloc z, RBuf (Some p)) :: h2 ->
  z <= block /\ pool <= p /\ p + block <= pool + len /\
  (forall q, In q (live h1) -> disjoint block p q).
Proof. exact (fun U => alloc_fresh pool len block U a0 l a h h1 z p h2). Qed.
Print Assumptions C39_inside_and_disjoint.

(** An allocation fails exactly when too much is asked for or all buffers of the pool
    are live. *)
Theorem C39_fails_iff pool len block a0 l a h h1 z p h2 :
  usable pool len block ->
  init_vq_allocator pool len block = Ok a0 -> run a0 l = Ok (a, h) -> disciplined h ->
  h = h1 ++ (OAlloc z, RBuf p) :: h2 ->
  (p = None <-> block < z \/ List.length (live h1) = N.to_nat (len / block)).
Proof. exact (fun U => alloc_fails_iff pool len block U a0 l a h h1 z p h2). Qed.
Print Assumptions C39_fails_iff.

(** A freed buffer is available again: it is the next one handed out. *)
Theorem C39_freed_available pool len block a0 l a h p z :
  usable pool len block ->
  init_vq_allocator pool len block = Ok a0 -> run a0 l = Ok (a, h) -> disciplined h ->
  In p (live h) -> z <= block ->
  exists a', run a0 (l ++ [OFree p; OAlloc z]) =
    Ok (a', h ++ [(OFree p, RVoid); (OAlloc z, RBuf (Some p))]).
Proof. exact (fun U => freed_next pool len block U a0 l a h p z). Qed.
Print Assumptions C39_freed_available.

(** No call reads outside the free list, and initialisation succeeds. *)
Theorem C39_never_stuck pool len block :
  usable pool len block ->
  (exists a0, init_vq_allocator pool len block = Ok a0) /\
  forall a0 l a h o, init_vq_allocator pool len block = Ok a0 ->
    run a0 l = Ok (a, h) -> disciplined h ->
    exists a' r, run a0 (l ++ [o]) = Ok (a', h ++ [(o, r)]).
Proof.
  exact (fun U => conj
    (match inv_init pool len block U with ex_intro _ a0 (conj E _) => ex_intro _ a0 E end)
    (fun a0 l a h o => never_stuck pool len block U a0 l a h o)).
Qed.
Print Assumptions C39_never_stuck.

(** The pool of a driver is the part of the shared buffer behind the rings, so buffers
    lie inside the shared buffer and do not overlap the rings. *)
Theorem C39_driver_pool z buffer qlen bs block :
  rings z qlen <= bs -> bs < 2 ^ 32 -> buffer + bs < 2 ^ 64 -> 0 < block -> block < 2 ^ 32 ->
  (bs - rings z qlen) / block <= 2 ^ 31 ->
  driver_init z buffer qlen bs block =
    init_vq_allocator (buffer + rings z qlen) (bs - rings z qlen) block /\
  usable (buffer + rings z qlen) (bs - rings z qlen) block.
Proof. exact (driver_pool z buffer qlen bs block). Qed.
Print Assumptions C39_driver_pool.

(** A concrete case: three blocks of 128 bytes in a pool of 400. *)
Example C39_example :
  usable 4096 400 128 /\
  match init_vq_allocator 4096 400 128 with
  | Ok a0 =>
      match run a0 [OAlloc 10; OAlloc 128; OAlloc 129; OAlloc 1; OAlloc 1; OFree 4224; OAlloc 5] with
      | Ok (_, h) =>
          map snd h = [RBuf (Some 4096); RBuf (Some 4224); RBuf None; RBuf (Some 4352);
                       RBuf None; RVoid; RBuf (Some 4224)] /\
          live h = [4224; 4352; 4096]
      | Err _ => False
      end
  | Err _ => False
  end.
Proof. vm_compute. repeat split; congruence. Qed.

(** Finding: the length of the pool is not checked; when the rings do not fit in the
    shared buffer, buffers beyond its end are handed out. *)
Theorem C39_small_buffer_refuted : exists z buffer qlen bs block a0 p a1,
  driver_init z buffer qlen bs block = Ok a0 /\ rings z qlen > bs /\
  buffer_alloc a0 block = Ok (a1, Some p) /\ p > buffer + bs.
Proof. exact small_pool. Qed.
Print Assumptions C39_small_buffer_refuted.

(** Finding: a second free of the same buffer is accepted and hands it out twice. *)
Theorem C39_double_free_refuted : exists a0 l a h p,
  init_vq_allocator 4096 256 128 = Ok a0 /\ run a0 l = Ok (a, h) /\
  h = [(OAlloc 1, RBuf (Some p)); (OFree p, RVoid); (OFree p, RVoid);
       (OAlloc 1, RBuf (Some p)); (OAlloc 1, RBuf (Some p))].
Proof. exact double_free. Qed.
Print Assumptions C39_double_free_refuted.
