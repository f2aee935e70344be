(** Model of the DMA allocator, libsel4camkes/src/dma.c.

    The free list lives in a heap of nodes addressed by their virtual address, with NULL
    being 0.  Simplifications: an access to a node touches that node only (the theorems
    show that nodes do not overlap and are at least sizeof(region_t) long); addresses do
    not wrap around; statistics and the DEBUG_DMA consistency check are left out. *)
From Coq Require Import ZArith List Bool.
From Verif Require Import Prelude.
Import ListNotations.
Open Scope Z_scope.

(** sizeof(region_t), alignof(region_t), number of values of size_t. *)
Record arch := mk_arch { SZ : Z; AL : Z; MODULUS : Z }.
(** What the frame descriptors and the kernel know about an address: the physical address
    (camkes_dma_get_paddr, dma.c:563-589, for an address that has a frame descriptor) and
    whether its frame is mapped cached (get_frame_desc(ptr)->cached, None: no
    descriptor, dma.c:388-404). *)
Record env := mk_env { phys : Z -> Z; fcached : Z -> option bool }.

(** region_t (dma.c:56-82) *)
Record node := mk_node { ncached : bool; nsize : Z; nnext : Z; nupper : Z }.
Record st := mk_st { mem : Z -> node; head : Z }.

Definition write (m : Z -> node) (a : Z) (n : node) : Z -> node := fun b => if b =? a then n else m b.
Definition set_mem (s : st) (a : Z) (n : node) : st := mk_st (write s.(mem) a n) s.(head).
Definition set_size (s : st) (a z : Z) : st :=
  let n := s.(mem) a in set_mem s a (mk_node n.(ncached) z n.(nnext) n.(nupper)).
Definition set_next (s : st) (a b : Z) : st :=
  let n := s.(mem) a in set_mem s a (mk_node n.(ncached) n.(nsize) b n.(nupper)).
Definition set_upper (s : st) (a z : Z) : st :=
  let n := s.(mem) a in set_mem s a (mk_node n.(ncached) n.(nsize) n.(nnext) z).
Definition set_head (s : st) (a : Z) : st := mk_st s.(mem) a.

Definition assert (b : bool) : res unit := if b then Ok tt else Err AssertionError.

(** save_paddr (dma.c:84-90) *)
Definition save_paddr (s : st) (r paddr : Z) : st := set_upper s r (Z.shiftr paddr 12).
(** try_extract_paddr (dma.c:92-102) *)
Definition try_extract_paddr (s : st) (r : Z) : Z :=
  let paddr := (s.(mem) r).(nupper) in
  if paddr =? 0 then paddr else Z.lor (Z.shiftl paddr 12) (Z.land r (Z.ones 12)).
(** calculate_paddr_for_new_region (dma.c:109-120) *)
Definition calculate_paddr_for_new_region (s : st) (r p offset : Z) : res st :=
  _ <- assert (offset <=? (s.(mem) p).(nsize)) ;;
  let base := try_extract_paddr s p in
  Ok (save_paddr s r (if base =? 0 then 0 else base + offset)).
(** extract_paddr (dma.c:123-138) *)
Definition extract_paddr (E : env) (s : st) (r : Z) : res (st * Z) :=
  let paddr := try_extract_paddr s r in
  if paddr =? 0 then
    let paddr := E.(phys) r in
    _ <- assert (negb (paddr =? 0)) ;;
    let s := save_paddr s r paddr in
    let paddr := try_extract_paddr s r in
    _ <- assert (negb (paddr =? 0)) ;;
    Ok (s, paddr)
  else Ok (s, paddr).

(** prepend_node, remove_node, replace_node, shrink_node, grow_node (dma.c:141-196) *)
Definition prepend_node (s : st) (n : Z) : st := set_head (set_next s n s.(head)) n.
Definition remove_node (s : st) (previous n : Z) : st :=
  if previous =? 0 then set_head s (s.(mem) n).(nnext) else set_next s previous (s.(mem) n).(nnext).
Definition replace_node (s : st) (previous old new : Z) : st :=
  let s := set_next s new (s.(mem) old).(nnext) in
  if previous =? 0 then set_head s new else set_next s previous new.
Definition shrink_node (s : st) (n by_ : Z) : res st :=
  _ <- assert ((0 <? by_) && (by_ <? (s.(mem) n).(nsize))) ;;
  Ok (set_size s n ((s.(mem) n).(nsize) - by_)).
Definition grow_node (s : st) (n by_ : Z) : res st :=
  _ <- assert (0 <? by_) ;;
  Ok (set_size s n ((s.(mem) n).(nsize) + by_)).

(** Inner loop of defrag (dma.c:327-383) for the outer node [p]: the new [p] to continue
    from if a coalescing took place. *)
Fixpoint defrag_inner (E : env) (fuel : nat) (s : st) (pprev p vs ve ps pe : Z) (pc : bool) (qprev q : Z)
    : res (st * option Z) :=
  match fuel with
  | O => Err OutOfFuel
  | S fuel =>
    if q =? p then Ok (s, None) else
    ' (s, qps) <- extract_paddr E s q ;;
    let qn := s.(mem) q in
    let qve := q + qn.(nsize) in
    let qpe := qps + qn.(nsize) in
    _ <- assert (negb (pprev =? 0)) ;;
    if (vs =? qve) && (ps =? qpe) && Bool.eqb pc qn.(ncached) then
      s <- grow_node s q (s.(mem) p).(nsize) ;;
      let s := remove_node s pprev p in
      Ok (s, Some (if qprev =? 0 then s.(head) else qprev))
    else if (ve =? q) && (pe =? qps) && Bool.eqb pc qn.(ncached) then
      s <- grow_node s p (s.(mem) q).(nsize) ;;
      let s := remove_node s qprev q in
      Ok (s, Some pprev)
    else defrag_inner E fuel s pprev p vs ve ps pe pc q (s.(mem) q).(nnext)
  end.
(** Outer loop (dma.c:316-384); [fuel'] for the inner loops. *)
Fixpoint defrag_outer (E : env) (fuel fuel' : nat) (s : st) (pprev p : Z) : res st :=
  match fuel with
  | O => Err OutOfFuel
  | S fuel =>
    if p =? 0 then Ok s else
    ' (s, ps) <- extract_paddr E s p ;;
    let pn := s.(mem) p in
    ' (s, moved) <- defrag_inner E fuel' s pprev p p (p + pn.(nsize)) ps (ps + pn.(nsize)) pn.(ncached) 0 s.(head) ;;
    let p := match moved with None => p | Some p => p end in
    defrag_outer E fuel fuel' s p (s.(mem) p).(nnext)
  end.
(** defrag (dma.c:307-386) *)
Definition defrag (E : env) (fuel : nat) (s : st) : res st :=
  _ <- assert (negb (s.(head) =? 0)) ;;
  defrag_outer E fuel fuel s 0 s.(head).

(** ROUND_UP and ROUND_DOWN of libutils (not in /repo), in size_t. *)
Definition round_up (A : arch) (n b : Z) : Z := (if n mod b =? 0 then n else n + (b - n mod b)) mod A.(MODULUS).
Definition round_down (n b : Z) : Z := n - n mod b.

(** The size an allocation really takes (dma.c:760-775 and, when it is freed, 414-425). *)
Definition real_size (A : arch) (size : Z) : Z :=
  let size := if size <? A.(SZ) then A.(SZ) else size in
  if size mod A.(AL) =? 0 then size else round_up A size A.(AL).

(** Loop of try_alloc_from_free_region (dma.c:632-683): the first admissible place. *)
Fixpoint find_place (A : arch) (fuel : nat) (size align p p_end q : Z) : res (option Z) :=
  match fuel with
  | O => Err OutOfFuel
  | S fuel =>
    if (q =? p) || (p + A.(SZ) <=? q) then
      let rest := p_end - (q + size) in
      if negb (rest =? 0) && (rest <? A.(SZ)) then find_place A fuel size align p p_end (q - align)
      else Ok (Some q)
    else Ok None
  end.
(** try_alloc_from_free_region (dma.c:603-687) *)
Definition try_alloc_from_free_region (A : arch) (s : st) (size align prev p : Z) : res (st * Z) :=
  _ <- assert (A.(SZ) <=? size) ;;
  _ <- assert (size mod A.(AL) =? 0) ;;
  _ <- assert (A.(AL) <=? align) ;;
  let psize := (s.(mem) p).(nsize) in
  let p_end := p + psize in
  place <- find_place A (Z.to_nat psize + 2) size align p p_end (round_down (p_end - size) align) ;;
  match place with
  | None => Ok (s, 0)
  | Some q =>
    s <- (if p =? q then
            if psize =? size then Ok (remove_node s prev p)                      (* case 1 *)
            else
              let r := p + size in
              let s := set_size s r (psize - size) in
              s <- calculate_paddr_for_new_region s r p size ;;
              Ok (replace_node s prev p r)                                       (* case 2 *)
          else if p_end - (q + size) =? 0 then shrink_node s p size              (* case 3 *)
          else
            let new_p_size := q - p in
            let r := q + size in
            let offset := new_p_size + size in
            let s := set_size s r (psize - offset) in
            s <- calculate_paddr_for_new_region s r p offset ;;
            let s := set_size s p new_p_size in
            Ok (prepend_node s r)) ;;                                            (* case 4 *)
    Ok (s, q)
  end.
(** try_alloc_from_free_list (dma.c:690-712) *)
Fixpoint try_alloc_from_free_list (A : arch) (fuel : nat) (s : st) (size align : Z) (cached : bool) (prev p : Z)
    : res (st * Z) :=
  match fuel with
  | O => Err OutOfFuel
  | S fuel =>
    if p =? 0 then Ok (s, 0) else
    let n := s.(mem) p in
    if (n.(nsize) <? size) || negb (Bool.eqb n.(ncached) cached)
    then try_alloc_from_free_list A fuel s size align cached p n.(nnext)
    else
      ' (s', q) <- try_alloc_from_free_region A s size align prev p ;;
      if q =? 0 then try_alloc_from_free_list A fuel s' size align cached p (s'.(mem) p).(nnext)
      else Ok (s', q)
  end.
(** camkes_dma_alloc (dma.c:714-807) *)
Definition camkes_dma_alloc (A : arch) (E : env) (fuel : nat) (s : st) (size align : Z) (cached : bool) : res (st * Z) :=
  if s.(head) =? 0 then Ok (s, 0) else
  let align := if align =? 0 then 1 else align in
  let align := if align <? A.(AL) then A.(AL) else align in
  let size := real_size A size in
  ' (s, p) <- try_alloc_from_free_list A fuel s size align cached 0 s.(head) ;;
  if (p =? 0) && (A.(SZ) <? size) then
    s <- defrag E fuel s ;;
    try_alloc_from_free_list A fuel s size align cached 0 s.(head)
  else Ok (s, p).

(** free_region (dma.c:406-450) *)
Definition free_region (A : arch) (s : st) (ptr size : Z) (cached : bool) : res st :=
  let size := real_size A size in
  _ <- assert (ptr mod A.(AL) =? 0) ;;
  Ok (prepend_node (set_mem s ptr (mk_node cached size (s.(mem) ptr).(nnext) 0)) ptr).
(** camkes_dma_free (dma.c:809-831) *)
Definition camkes_dma_free (A : arch) (E : env) (s : st) (ptr size : Z) : res st :=
  if ptr =? 0 then Ok s else
  match E.(fcached) ptr with
  | None => Ok s
  | Some cached => free_region A s ptr size cached
  end.

(** camkes_dma_init (dma.c:452-561) with a page size: the loop at dma.c:493-508, for the
    first [n] pages. *)
Fixpoint init_pages (A : arch) (n : nat) (s : st) (base page_size : Z) (cached : bool) : res st :=
  match n with
  | O => Ok s
  | S n =>
    _ <- assert (base mod A.(AL) =? 0) ;;
    s <- free_region A s base page_size cached ;;
    init_pages A n s (base + page_size) page_size cached
  end.
Definition is_pow2 (z : Z) : bool := (0 <? z) && (Z.land z (z - 1) =? 0).
(** Returns [None] for -1. *)
Definition camkes_dma_init (A : arch) (s : st) (pool pool_sz page_size : Z) (cached : bool) : res (option st) :=
  if (page_size <=? A.(SZ)) || negb (pool mod page_size =? 0) then Ok None
  else if (pool =? 0) || negb (pool mod A.(AL) =? 0) then Ok None
  else if negb (is_pow2 page_size) || (page_size <? A.(AL)) then Ok None
  else
    s <- init_pages A (Z.to_nat ((pool_sz + page_size - 1) / page_size)) s pool page_size cached ;;
    Ok (Some s).
