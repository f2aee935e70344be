(** Pointers into dataports (camkes/templates/component.common.c:921-966,
    seL4SharedData.template.c:48-64, seL4DMASharedData.template.c:61-77,
    seL4HardwareMMIO.template.c:60-91) and their cache maintenance
    (libsel4camkes/src/arch/arm/dataport.c:28-67).

    Machine words are integers between 0 and [2^w], [w] being 32 or 64. *)
From Coq Require Import List ZArith Bool Lia.
From Verif Require Import Prelude.
Import ListNotations.
Open Scope Z_scope.

(** The three connector templates that generate a dataport; for hardware, is the size of
    the dataport written as a number ([Buf(n)]) or as [sizeof] of a type
    (macros.dataport_size, macros.py:323-328)? *)
Inductive kind := Shared | Hardware (number : bool).

(** A dataport of a component.  [d_id] is the position of the connection in the
    composition; an optional dataport that is not connected has no functions
    (component.common.c:922-927). *)
Record port := mk_port { d_kind : kind; d_base : Z; d_size : Z; d_id : Z; d_linked : bool }.

(** dataport_ptr_t (dataport.h:29-32): a 32-bit id and an [off_t], 64 bits, signed. *)
Record dptr := mk_dptr { x_id : Z; x_off : Z }.

Section Width.
Context (w : Z).

(** Arithmetic of uintptr_t. *)
Definition wrap_word (x : Z) : Z := x mod 2 ^ w.
(** (off_t) of an uintptr_t *)
Definition to_off (x : Z) : Z :=
  if (w =? 64) && (2 ^ 63 <=? x) then x - 2 ^ 64 else x.
(** (uintptr_t) of an off_t *)
Definition of_off (x : Z) : Z := x mod 2 ^ w.

(** [off < SIZE] (seL4HardwareMMIO.template.c:63): a number is a signed constant, [sizeof]
    an unsigned one, which on 64 bits makes the comparison unsigned. *)
Definition off_below (number : bool) (off size : Z) : bool :=
  if (w =? 64) && negb number then off mod 2 ^ 64 <? size else off <? size.

(** NAME_wrap_ptr: seL4SharedData.template.c:48-56, seL4DMASharedData.template.c:61-69,
    seL4HardwareMMIO.template.c:60-70 *)
Definition wrap_port (d : port) (ptr : Z) : option dptr :=
  match d_kind d with
  | Shared =>
      if (ptr <? d_base d) || (wrap_word (d_base d + d_size d) <=? ptr) then None
      else Some (mk_dptr (d_id d) (to_off (wrap_word (ptr - d_base d))))
  | Hardware number =>
      let off := to_off (wrap_word (ptr - d_base d)) in
      if off_below number off (d_size d) then Some (mk_dptr (d_id d) off) else None
  end.

(** NAME_unwrap_ptr: seL4SharedData.template.c:58-64 and the same in the others; 0 is NULL *)
Definition unwrap_port (d : port) (p : dptr) : Z :=
  if x_id p =? d_id d then wrap_word (d_base d + of_off (x_off p)) else 0.

(** dataport_wrap_ptr (component.common.c:929-941) *)
Fixpoint wrap_ptr (ds : list port) (ptr : Z) : dptr :=
  match ds with
  | [] => mk_dptr (-1) 0
  | d :: ds =>
      if d_linked d then
        match wrap_port d ptr with Some p => p | None => wrap_ptr ds ptr end
      else wrap_ptr ds ptr
  end.

(** dataport_unwrap_ptr (component.common.c:951-966) *)
Fixpoint unwrap_ptr (ds : list port) (p : dptr) : Z :=
  match ds with
  | [] => 0
  | d :: ds =>
      if d_linked d then
        let ptr := unwrap_port d p in
        if negb (ptr =? 0) then ptr else unwrap_ptr ds p
      else unwrap_ptr ds p
  end.

(** NAME_translate_paddr (seL4HardwareMMIO.template.c:85-91); [hi] is the number the
    template computes, [paddr + size], without wrapping. *)
Definition translate_paddr (base lo hi paddr size : Z) : Z :=
  if (lo <=? paddr) && (wrap_word (paddr + size) <=? hi) then wrap_word (base + (paddr - lo)) else 0.
End Width.

(** dataport_frame_t (dataport.h:34-39) without the physical address. *)
Record frame := mk_frame { f_cap : Z; f_size : Z; f_vaddr : Z }.

(** A cache operation on part of a frame, as passed to seL4_ARM_Page_*_Data. *)
Record cacheop := mk_cacheop { c_cap : Z; c_start : Z; c_end : Z }.

Inductive outcome :=
| Done (calls : list cacheop)      (* returns 0 after these system calls *)
| Refused                          (* returns -1, no system call *)
| Overrun.                         (* reads beyond the array of frames *)

(** The loop of camkes_dataport_arch_flush_cache (arm/dataport.c:48-59); [frames] are those
    from curr_frame on.  System calls succeed.  [top]: ROUND_UP(current + 1, page), capped. *)
Fixpoint flush_loop (page cur fin : Z) (frames : list frame) (acc : list cacheop) : outcome :=
  if fin <=? cur then Done acc
  else match frames with
  | [] => Overrun
  | f :: frames =>
      let top := Z.min ((cur + 1 + page - 1) / page * page) fin in
      flush_loop page top fin frames
        (acc ++ [mk_cacheop (f_cap f) (cur mod page) ((top - 1) mod page)])
  end.

(** The search for the first frame of the dataport (arm/dataport.c:41-46, 61-64). *)
Fixpoint find_region (start : Z) (frames : list frame) : option (list frame) :=
  match frames with
  | [] => None
  | f :: rest => if f_vaddr f =? start then Some (f :: rest) else find_region start rest
  end.

(** arm/dataport.c:28-67; arithmetic of size_t does not wrap once the range is accepted. *)
Definition flush_cache (frames : list frame) (off size start dsize : Z) : outcome :=
  if (dsize <=? off) || (dsize <? size) || (dsize - size <? off) then Refused
  else match find_region start frames with
  | None => Done []
  | Some [] => Done []
  | Some (f :: rest) =>
      flush_loop (f_size f) off (off + size) (skipn (Z.to_nat (off / f_size f)) (f :: rest)) []
  end.
