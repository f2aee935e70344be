(** Specification of the DMA allocator. *)
From Coq Require Import ZArith List Bool.
From Verif Require Import Prelude Dma_Model.
Import ListNotations.
Open Scope Z_scope.

(** A piece of memory: start, size, cached flag. *)
Definition piece : Type := Z * Z * bool.
Definition covers (r : piece) (b : Z) : bool := let '(a, n, _) := r in (a <=? b) && (b <? a + n).
Definition flag (r : piece) : bool := snd r.
(** How many pieces contain byte [b]. *)
Definition cover (l : list piece) (b : Z) : nat := List.length (filter (fun r => covers r b) l).
Definition cover_flag (c : bool) (l : list piece) (b : Z) : nat :=
  List.length (filter (fun r => covers r b && Bool.eqb (flag r) c) l).

(** The addresses of the nodes of the free list, from [a] on. *)
Fixpoint chain (m : Z -> node) (a : Z) (l : list Z) : Prop :=
  match l with
  | [] => a = 0
  | x :: l => a = x /\ x <> 0 /\ chain m (nnext (m x)) l
  end.
Definition piece_at (m : Z -> node) (x : Z) : piece := (x, nsize (m x), ncached (m x)).
(** [l] is the free list of [s]. *)
Definition free_list (s : st) (l : list piece) : Prop :=
  exists xs, chain (mem s) (head s) xs /\ l = map (piece_at (mem s)) xs.

Definition power_of_2 (z : Z) : Prop := exists k, 0 <= k /\ z = 2 ^ k.
(** sizeof and alignof of a structure: dma.c asserts that the alignment is a power of 2. *)
Definition arch_ok (A : arch) : Prop :=
  0 < AL A /\ 0 < SZ A /\ (AL A | SZ A) /\ power_of_2 (AL A) /\ SZ A + AL A < MODULUS A.

(** The world: allocator state, live allocations (start, requested size), memory given
    to the allocator. *)
Record world := mk_world { dma : st; live : list (Z * Z); pools : list piece }.
Definition live_pieces (A : arch) (w : world) : list piece := map (fun r => (fst r, real_size A (snd r), true)) (live w).
Definition pool_byte (w : world) (b : Z) : Prop := cover (pools w) b = 1%nat.

(** Bytes [a, a+n) are contiguous in physical memory. *)
Definition contiguous (E : env) (a n : Z) : Prop := forall k, 0 <= k < n -> phys E (a + k) = phys E a + k.

Definition size_ok (A : arch) (size : Z) : Prop := 0 <= size /\ size + AL A < MODULUS A.
Definition align_ok (align : Z) : Prop := align = 0 \/ power_of_2 align.

(** The size a block takes: at least that of a region header, rounded up to a multiple of
    its alignment. *)
Definition block_size (A : arch) (size : Z) : Z := AL A * ((Z.max size (SZ A) + AL A - 1) / AL A).

Fixpoint drop_first (x : Z * Z) (l : list (Z * Z)) : list (Z * Z) :=
  match l with
  | [] => []
  | y :: l => if (fst x =? fst y) && (snd x =? snd y) then l else y :: drop_first x l
  end.

(** Use of the allocator: memory is given to it in page sized chunks, pages are
    physically contiguous and have a frame descriptor; blocks are freed with the size they
    were allocated with. *)
Inductive use (A : arch) (E : env) : world -> world -> Prop :=
| U_init w pool n page cached s' :
    0 < pool -> 0 <= n -> size_ok A page ->
    (forall b, pool <= b < pool + n * page -> cover (pools w) b = 0%nat /\ fcached E b = Some cached /\
       4096 <= phys E b /\ phys E b mod 4096 = b mod 4096) ->
    (forall i, 0 <= i < n -> contiguous E (pool + i * page) page) ->
    camkes_dma_init A (dma w) pool (n * page) page cached = Ok (Some s') ->
    use A E w (mk_world s' (live w) ((pool, n * page, cached) :: pools w))
| U_alloc w fuel size align cached s' q :
    size_ok A size -> align_ok align ->
    camkes_dma_alloc A E fuel (dma w) size align cached = Ok (s', q) ->
    use A E w (mk_world s' (if q =? 0 then live w else (q, size) :: live w) (pools w))
| U_free w ptr size s' :
    In (ptr, size) (live w) ->
    camkes_dma_free A E (dma w) ptr size = Ok s' ->
    use A E w (mk_world s' (drop_first (ptr, size) (live w)) (pools w)).

(** The holder of a block writes into it. *)
Inductive scribble (A : arch) : world -> world -> Prop :=
| U_write w a n :
    cover (live_pieces A w) a = 1%nat ->
    scribble A w (mk_world (mk_st (write (mem (dma w)) a n) (head (dma w))) (live w) (pools w)).

Inductive reachable (A : arch) (E : env) : world -> Prop :=
| R_start m : reachable A E (mk_world (mk_st m 0) [] [])
| R_use w w' : reachable A E w -> use A E w w' -> reachable A E w'
| R_scribble w w' : reachable A E w -> scribble A w w' -> reachable A E w'.

(** No memory holds, at the place where a region_t would keep its cached flag, a value that
    disagrees with how its frame is mapped. *)
Definition tidy (E : env) (w : world) : Prop :=
  forall a c, fcached E a = Some c -> ncached (mem (dma w) a) = c.
Inductive reachable_tidy (A : arch) (E : env) : world -> Prop :=
| T_start m : tidy E (mk_world (mk_st m 0) [] []) -> reachable_tidy A E (mk_world (mk_st m 0) [] [])
| T_use w w' : reachable_tidy A E w -> use A E w w' -> reachable_tidy A E w'
| T_scribble w w' : reachable_tidy A E w -> scribble A w w' -> tidy E w' -> reachable_tidy A E w'.

(** Two free pieces that could be one. *)
Definition mergeable (E : env) (r s : piece) : Prop :=
  let '(a, n, c) := r in let '(b, _, d) := s in a + n = b /\ phys E a + n = phys E b /\ c = d.

(** A 64-bit machine; identity mapped memory with frames mapped as [c]; memory full of zeros. *)
Definition A64 : arch := mk_arch 24 8 (2 ^ 64).
Definition E_id (c : bool) : env := mk_env (fun v => v) (fun _ => Some c).
Definition zeros : Z -> node := fun _ => mk_node false 0 0 0.

Definition do_init (A : arch) (w : world) (pool n page : Z) (c : bool) : world :=
  match camkes_dma_init A (dma w) pool (n * page) page c with
  | Ok (Some s) => mk_world s (live w) ((pool, n * page, c) :: pools w)
  | _ => w
  end.
Definition do_alloc (A : arch) (E : env) (fuel : nat) (w : world) (size align : Z) (c : bool) : world :=
  match camkes_dma_alloc A E fuel (dma w) size align c with
  | Ok (s, q) => mk_world s (if q =? 0 then live w else (q, size) :: live w) (pools w)
  | _ => w
  end.
Definition do_free (A : arch) (E : env) (w : world) (ptr size : Z) : world :=
  match camkes_dma_free A E (dma w) ptr size with
  | Ok s => mk_world s (drop_first (ptr, size) (live w)) (pools w)
  | _ => w
  end.

(** Two pages of memory; three blocks allocated, the first freed. *)
Definition demo1 (c : bool) : world := do_init A64 (mk_world (mk_st zeros 0) [] []) 8192 2 4096 c.
Definition demo2 (c : bool) : world := do_alloc A64 (E_id c) 20 (demo1 c) 100 64 c.
Definition demo3 (c : bool) : world := do_alloc A64 (E_id c) 20 (demo2 c) 200 0 c.
Definition demo4 (c : bool) : world := do_alloc A64 (E_id c) 20 (demo3 c) 1000 4096 c.
Definition demo5 (c : bool) : world := do_free A64 (E_id c) (demo4 c) 16256 100.
(** One page. *)
Definition page1 (c : bool) : world := do_init A64 (mk_world (mk_st zeros 0) [] []) 8192 1 4096 c.
Definition page2 (c : bool) : world := do_alloc A64 (E_id c) 20 (page1 c) 100 4096 c.
