(** The properties of the DMA allocator: C36 (disjoint, aligned, inside the pool), C37
    (defragmentation), C38 (cacheability), C53 (no spurious failure). *)
From Coq Require Import ZArith List Bool.
From Verif Require Import Prelude Dma_Model Dma_Spec Dma_Proofs4 Dma_Proofs5.
Import ListNotations.
Open Scope Z_scope.

(** At any time every byte given to the allocator is either in exactly one free region or
    in exactly one live block, and no other byte is in any. *)
Theorem C36_partition : forall A E, arch_ok A -> forall w, reachable A E w ->
  exists free, free_list (dma w) free /\
    forall b, (cover free b + cover (live_pieces A w) b)%nat = cover (pools w) b /\ (cover (pools w) b <= 1)%nat.
Proof. exact partition_lemma. Qed.
Print Assumptions C36_partition.

(** A block that is handed out is aligned, inside the pool, disjoint from all live blocks,
    and physically contiguous. *)
Theorem C36_alloc : forall A E, arch_ok A -> forall w fuel size align cached s' q,
  reachable A E w -> size_ok A size -> align_ok align ->
  camkes_dma_alloc A E fuel (dma w) size align cached = Ok (s', q) -> q <> 0 ->
  (align = 0 \/ (align | q)) /\
  (forall b, q <= b < q + size -> pool_byte w b /\ cover (live_pieces A w) b = 0%nat) /\
  contiguous E q size.
Proof. exact alloc_lemma. Qed.
Print Assumptions C36_alloc.

(** Allocation terminates and no assertion fails. *)
Theorem C36_alloc_total : forall A E, arch_ok A -> forall w size align cached,
  reachable A E w -> size_ok A size -> align_ok align ->
  exists n, forall fuel, (n <= fuel)%nat -> exists s' q, camkes_dma_alloc A E fuel (dma w) size align cached = Ok (s', q).
Proof. exact alloc_total. Qed.
Print Assumptions C36_alloc_total.

Theorem C36_free_total : forall A E, arch_ok A -> forall w ptr size,
  reachable A E w -> In (ptr, size) (live w) -> exists s', camkes_dma_free A E (dma w) ptr size = Ok s'.
Proof. exact free_total. Qed.
Print Assumptions C36_free_total.

(** The size a block takes in [live_pieces]. *)
Theorem C36_block_size : forall A size, arch_ok A -> size_ok A size -> real_size A size = block_size A size.
Proof. exact block_size_lemma. Qed.
Print Assumptions C36_block_size.

(** Giving memory to the allocator succeeds exactly for a power of two as page size, not
    smaller than a region header and its alignment, and a pool aligned to it. *)
Theorem C36_init : forall A s pool sz page cached, arch_ok A -> 0 < page ->
  match camkes_dma_init A s pool sz page cached with
  | Ok (Some _) => SZ A < page /\ AL A <= page /\ power_of_2 page /\ pool <> 0 /\ (page | pool)
  | Ok None => ~ (SZ A < page /\ AL A <= page /\ power_of_2 page /\ pool <> 0 /\ (page | pool))
  | Err _ => False
  end.
Proof. exact init_lemma. Qed.
Print Assumptions C36_init.

Example C36_example : arch_ok A64 /\ reachable A64 (E_id true) (demo5 true) /\
  live (demo5 true) = [(12288, 1000); (16056, 200)].
Proof. split; [exact A64_ok|]. split; [exact (demo5_ok true)|vm_compute; reflexivity]. Qed.

(** FINDING: a size close to the largest size_t is rounded up to 0 and trips an assertion
    instead of being refused. *)
Theorem C36_huge_size_refuted : exists w, reachable A64 (E_id true) w /\
  camkes_dma_alloc A64 (E_id true) 20 (dma w) (2 ^ 64 - 1) 0 true = Err AssertionError.
Proof. exact overflow_lemma. Qed.
Print Assumptions C36_huge_size_refuted.

(** FINDING: an alignment that is not a power of two is accepted, and gives a block that
    cannot be freed. *)
Theorem C36_odd_alignment_refuted : exists w s' q, reachable A64 (E_id true) w /\
  camkes_dma_alloc A64 (E_id true) 400 (dma w) 100 12 true = Ok (s', q) /\ q <> 0 /\
  camkes_dma_free A64 (E_id true) s' q 100 = Err AssertionError.
Proof. exact odd_align_lemma. Qed.
Print Assumptions C36_odd_alignment_refuted.

(** Defragmentation terminates, trips no assertion, keeps the free bytes and their
    cacheability, leaves no two regions that could be one, and every resulting region is
    physically contiguous. *)
Theorem C37_defrag : forall A E, arch_ok A -> forall w, reachable A E w -> head (dma w) <> 0 ->
  exists n, forall fuel, (n <= fuel)%nat -> exists s', defrag E fuel (dma w) = Ok s' /\
    (exists free', free_list s' free') /\
    forall free free', free_list (dma w) free -> free_list s' free' ->
      (forall b c, cover_flag c free' b = cover_flag c free b) /\
      (forall r1 r2, In r1 free' -> In r2 free' -> ~ mergeable E r1 r2) /\
      (forall r, In r free' -> contiguous E (fst (fst r)) (snd (fst r))).
Proof. exact defrag_lemma. Qed.
Print Assumptions C37_defrag.

Example C37_example : reachable A64 (E_id true) (demo1 true) /\ head (dma (demo1 true)) = 12288 /\
  match defrag (E_id true) 20 (dma (demo1 true)) with
  | Ok s => chain (mem s) (head s) [8192] /\ nsize (mem s 8192) = 8192
  | Err _ => False
  end.
Proof. split; [exact (demo1_ok true)|]. split; vm_compute; [reflexivity|repeat split; congruence]. Qed.

(** FINDING: the region that remains after the first part of a region was handed out keeps
    whatever cached flag happens to lie in memory: an uncached allocation is served from
    cached memory. *)
Theorem C38_refuted : exists w s' q, reachable A64 (E_id true) w /\
  camkes_dma_alloc A64 (E_id true) 20 (dma w) 100 0 false = Ok (s', q) /\ q <> 0 /\ fcached (E_id true) q = Some true.
Proof. exact stale_flag_lemma. Qed.
Print Assumptions C38_refuted.

(** It holds as long as no memory contains a flag that disagrees with its frame. *)
Theorem C38_partial : forall A E, arch_ok A -> forall w fuel size align cached s' q,
  reachable_tidy A E w -> size_ok A size -> align_ok align ->
  camkes_dma_alloc A E fuel (dma w) size align cached = Ok (s', q) -> q <> 0 ->
  forall b, q <= b < q + size -> fcached E b = Some cached.
Proof. exact cached_lemma. Qed.
Print Assumptions C38_partial.

Example C38_example : reachable_tidy A64 (E_id false) (demo2 false) /\
  match camkes_dma_alloc A64 (E_id false) 20 (dma (demo2 false)) 100 64 false with Ok (_, q) => q = 16128 | Err _ => False end.
Proof. split; [exact demo2_tidy|vm_compute; reflexivity]. Qed.

(** FINDING: an allocation fails although a free region has room for it at an aligned
    address, with enough left over to keep as a region. *)
Theorem C53_refuted : exists w s' p n q, reachable A64 (E_id true) w /\
  camkes_dma_alloc A64 (E_id true) 20 (dma w) 4056 16 true = Ok (s', 0) /\
  (exists free, free_list s' free /\ In (p, n, true) free) /\
  p <= q /\ (16 | q) /\ q + block_size A64 4056 + SZ A64 <= p + n.
Proof. exact incomplete_lemma. Qed.
Print Assumptions C53_refuted.

(** Without an alignment requirement, an allocation fails only if every free region of the
    cacheability asked for is too small, or too large by less than a region header. *)
Theorem C53_unaligned_partial : forall A E, arch_ok A -> forall w fuel size align cached s',
  reachable A E w -> size_ok A size -> 0 <= align <= AL A ->
  camkes_dma_alloc A E fuel (dma w) size align cached = Ok (s', 0) ->
  forall free, free_list s' free -> forall p n, In (p, n, cached) free ->
  n <> block_size A size /\ n < block_size A size + SZ A.
Proof. exact complete_block. Qed.
Print Assumptions C53_unaligned_partial.

Example C53_example : reachable A64 (E_id true) (demo1 true) /\
  match camkes_dma_alloc A64 (E_id true) 20 (dma (demo1 true)) 8190 0 true with Ok (_, q) => q = 8192 | Err _ => False end /\
  match camkes_dma_alloc A64 (E_id true) 20 (dma (demo1 true)) 8180 8 true with Ok (_, q) => q = 0 | Err _ => False end.
Proof. split; [exact (demo1_ok true)|]. split; vm_compute; reflexivity. Qed.
