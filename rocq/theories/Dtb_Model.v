(** Model of the reading of a device-tree node by the templates:
    parse_dtb_node_interrupts (camkes/templates/macros.py:690-834),
    parse_dtb_node_reg (camkes/templates/dtb-query-common.template.c:7-46) and the mapping of
    the registers (camkes/templates/seL4DTBHardware-to.template.c:48-92). *)
From Coq Require Import String List Bool Arith NArith ZArith.
From Verif Require Import Prelude Pages_Model.
Import ListNotations.
Open Scope list_scope.

(** A value of a property: a number, or something else (a reference). *)
Inductive cell := CInt (z : Z) | COther.

(** The descriptor {'irq': .., 'trigger': ..}. *)
Record descriptor := mk_descr { d_irq : cell; d_trigger : Z }.

(** The two properties of the node that are read. *)
Record inode := mk_inode { interrupts : option (list cell);
                           interrupts_extended : option (list cell) }.

Definition get {A} (l : list A) (i : nat) : res A :=
  match nth_error l i with Some x => Ok x | None => Err IndexError end.

(** [max_num_interrupts]: [None] is -1. *)
Definition too_many (max : option nat) (n : nat) : bool :=
  match max with Some m => Nat.ltb m n | None => false end.

(** Python's [x + 32] and [x < 4]: a reference is a string, so both are TypeErrors. *)
Definition plus32 (c : cell) : res cell :=
  match c with CInt z => Ok (CInt (z + 32)) | COther => Err TypeError end.
Definition less4 (c : cell) : res bool :=
  match c with CInt z => Ok (z <? 4)%Z | COther => Err TypeError end.

(** macros.py:731-745, one round of the ARM loop. *)
Definition arm_step (ext : bool) (l : list cell) (i : nat) : res descriptor :=
  let o := if ext then 1%nat else 0%nat in
  trigger <- get l (i * 3 + 2 + o) ;;
  irq <- get l (i * 3 + 1 + o) ;;
  spi <- get l (i * 3 + 0 + o) ;;
  irq <- match spi with CInt 0 => plus32 irq | _ => Ok irq end ;;
  t <- less4 trigger ;;
  Ok (mk_descr irq (if t then 1%Z else 0%Z)).

(** macros.py:717-746.  Too many interrupts: [raise TemplateError(..) % (..)] applies the
    operator to the exception object, which is a TypeError. *)
Definition parse_arm (ext : bool) (l : list cell) (max : option nat) : res (list descriptor) :=
  let n := if ext then Nat.div (List.length l) 4 else Nat.div (List.length l) 3 in
  if too_many max n then Err TypeError
  else mapM (arm_step ext l) (seq 0 n).

(** macros.py:784-792 [parse_int]. *)
Definition parse_int (l : list cell) (i : nat) : res Z :=
  c <- get l i ;; match c with CInt z => Ok z | COther => Err TemplateError end.

(** macros.py:782-832, one round of the generic loop; [cells] is 1 or 3.  The type is only
    looked at on ARM, which never gets here. *)
Definition generic_step (l : list cell) (cells : nat) (i : nat) : res descriptor :=
  if Nat.eqb cells 3 then
    irq <- parse_int l (i * 3 + 1) ;;
    flags <- parse_int l (i * 3 + 2) ;;
    _ <- parse_int l (i * 3 + 0) ;;
    Ok (mk_descr (CInt irq) (if (Z.land flags 3 =? 0)%Z then 0%Z else 1%Z))
  else
    irq <- parse_int l i ;;
    Ok (mk_descr (CInt irq) 1%Z).

(** macros.py:748-834. *)
Definition parse_generic (ext : bool) (l : list cell) (max : option nat) : res (list descriptor) :=
  let go l :=
    let cells := if Nat.ltb (List.length l) 3 then 1%nat else 3%nat in
    if negb (Nat.eqb (Nat.modulo (List.length l) cells) 0) then Err TemplateError
    else let n := Nat.div (List.length l) cells in
         if too_many max n then Err TemplateError
         else mapM (generic_step l cells) (seq 0 n) in
  if ext then if Nat.ltb 1 (List.length l) then go (tl l) else Ok []
  else go l.

(** macros.py:690-834 [parse_dtb_node_interrupts]. *)
Definition parse_interrupts (arm : bool) (n : inode) (max : option nat) : res (list descriptor) :=
  let parse := if arm then parse_arm else parse_generic in
  match interrupts n with
  | Some l => parse false l max
  | None =>
      match interrupts_extended n with
      | None => Ok []
      | Some l => parse true l max
      end
  end.

(** * Registers *)
Open Scope N_scope.

(** dtb-query-common.template.c:26-37: [n] cells from [base], most significant first. *)
Definition combine_cells (regs : list N) (base n : nat) : res N :=
  foldM (fun acc j => c <- get regs (base + (n - 1 - j))%nat ;;
                      Ok (acc + N.shiftl c (N.of_nat (j * 32)))) (seq 0 n) 0.

(** dtb-query-common.template.c:7-46 [parse_dtb_node_reg]; [a] and [s] are the node's
    address and size cell counts, [p0] the smallest page size. *)
Definition parse_reg (p0 : N) (regs : option (list N)) (a s : nat) : res (list (N * N)) :=
  match regs with
  | None => Ok []
  | Some regs =>
      if Nat.eqb s 0 then Err TemplateError
      else
        mapM (fun i =>
          paddr <- combine_cells regs (i * (a + s)) a ;;
          size <- combine_cells regs (i * (a + s) + a) s ;;
          Ok (align_page_address p0 paddr, size))
        (seq 0 (Nat.div (List.length regs) (a + s)))
  end.

(** seL4DTBHardware-to.template.c:52-72: the frames of one region.  No page size: the
    logarithm of zero is a ValueError. *)
Definition map_region (p0 : N) (sizes : list N) (name : string) (r : N * N) : res (list frame) :=
  size <- next_page_multiple p0 (snd r) ;;
  let page := get_page_size sizes size in
  if page =? 0 then Err ValueError
  else shared_frames sizes name size (Some page) (Some (fst r)).

(** All regions of a node, [names] numbers the variables. *)
Definition map_registers (p0 : N) (sizes : list N) (name : nat -> string)
  (regs : option (list N)) (a s : nat) : res (list (list frame)) :=
  l <- parse_reg p0 regs a s ;;
  mapM (fun ir => map_region p0 sizes (name (fst ir)) (snd ir))
       (List.combine (seq 0 (List.length l)) l).
