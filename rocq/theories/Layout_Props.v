(** C85: thread stacks, IPC buffers and filled frames are mapped where they are
    used, with unmapped pages around them.
    C86: a dataport has the access rights that were asked for. *)
From Coq Require Import List String Ascii Bool NArith.
From Verif Require Import Prelude Layout_Model Layout_Spec Layout_Proofs.
Import ListNotations.
Open Scope string_scope.
Open Scope list_scope.
Open Scope N_scope.

(** C85.  For a stack size that is a multiple of the page size, all of the [size]
    bytes below the initial stack pointer can be read and written, the page above
    faults, and the symbol that holds the stack ends with that page.  Missing: sizes
    that are not multiples, see [C85_unaligned_refuted]. *)
Theorem C85_stack_partial : forall symbol label n,
  let size := 4096 * n in
  let m := register_stack_symbol symbol size label in
  let sp := thread_sp size in
  (forall x, sp - size <= x < sp -> read_write m x) /\
  (forall x, sp <= x < sp + 4096 -> faults m x) /\
  thread_stack size = sp + 4096.
Proof. exact stack_usable. Qed.
Print Assumptions C85_stack_partial.

Example C85_stack_ex :
  let m := register_stack_symbol "_camkes_stack_a_0_control" 8192 "a" in
  thread_sp 8192 = 12288 /\
  at_offset m 12287 =
    ByteOf (mk_cap (mk_frame "stack__camkes_stack_a_0_control_1_a_obj" None) true true false) 4095 /\
  at_offset m 12288 = Nothing.
Proof. vm_compute. repeat split. Qed.

(** C85.  Whatever the size, the page below the lowest byte of the stack faults, so
    that a stack that grows too far is noticed. *)
Theorem C85_guard_below : forall symbol label size x,
  thread_sp size - size - 4096 <= x < thread_sp size - size ->
  faults (register_stack_symbol symbol size label) x.
Proof. exact guard_below. Qed.
Print Assumptions C85_guard_below.

Example C85_guard_below_ex :
  thread_sp 16384 - 16384 - 4096 <= 4095 < thread_sp 16384 - 16384.
Proof. vm_compute. split; [discriminate|reflexivity]. Qed.

(** C85 is false in general: the manual says that a size that is not a multiple of
    the page size is rounded up (docs/index.md:2139-2142).  It is rounded down: the
    initial stack pointer is inside the upper unmapped page, so the first use of the
    stack faults, and the last page of the symbol is ordinary memory. *)
Theorem C85_unaligned_refuted : forall symbol label size,
  size mod 4096 <> 0 ->
  let m := register_stack_symbol symbol size label in
  let sp := thread_sp size in
  (forall x, sp - size mod 4096 <= x < sp -> faults m x) /\
  (let top := thread_stack size - 4096 in
   sp < top + 4096 /\ forall x, top <= x < top + 4096 -> at_offset m x = Image).
Proof.
  exact (fun symbol label size H =>
    conj (stack_unaligned symbol label size H) (stack_unaligned_above symbol label size H)).
Qed.
Print Assumptions C85_unaligned_refuted.

Example C85_unaligned_ex :
  10000 mod 4096 <> 0 /\
  faults (register_stack_symbol "s" 10000 "a") (thread_sp 10000 - 8).
Proof. vm_compute. split; [discriminate|reflexivity]. Qed.

(** C85.  No two bytes of stacks of one component are backed by the same memory: if
    two addresses are, they are the same address of the same stack. *)
Theorem C85_stack_memory : forall symbol symbol' label size size' x y,
  same_memory (register_stack_symbol symbol size label)
              (register_stack_symbol symbol' size' label) x y ->
  symbol = symbol' /\ x = y.
Proof. exact stack_memory. Qed.
Print Assumptions C85_stack_memory.

Example C85_stack_memory_ex :
  same_memory (register_stack_symbol "s" 8192 "a") (register_stack_symbol "s" 8192 "a") 5000 5000.
Proof. eexists _, _, _, _. repeat split; reflexivity. Qed.

(** C85.  The IPC buffer of a thread is at the address given to its TCB: each of its
    bytes is the byte of the frame given to the TCB, readable and writable, and the
    pages below and above fault. *)
Theorem C85_ipc : forall f,
  let m := register_ipc_symbol f in
  (forall k, k < 4096 -> at_offset m (thread_addr + k) = ByteOf (mk_cap f true true false) k) /\
  (forall x, x < thread_addr -> faults m x) /\
  (forall x, thread_addr + 4096 <= x < ipc_buffer -> faults m x) /\
  ipc_buffer = thread_addr + 4096 + 4096.
Proof. exact ipc_usable. Qed.
Print Assumptions C85_ipc.

Example C85_ipc_ex :
  at_offset (register_ipc_symbol (mk_frame "frame" None)) 4100 =
  ByteOf (mk_cap (mk_frame "frame" None) true true false) 4.
Proof. reflexivity. Qed.

(** C85.  A symbol filled from a source, of a whole number of pages, holds at each
    address the byte of the source at the same offset, and cannot be written. *)
Theorem C85_fill : forall symbol source label n memory x,
  x < 4096 * n ->
  let m := register_fill_frame symbol source (4096 * n) label in
  contents memory m x = Some (memory source x) /\ read_only m x.
Proof. exact fill_contents. Qed.
Print Assumptions C85_fill.

(** C85.  Different bytes of it are different memory. *)
Theorem C85_fill_memory : forall symbol source size label x y,
  let m := register_fill_frame symbol source size label in
  same_memory m m x y -> x = y.
Proof. exact fill_memory. Qed.
Print Assumptions C85_fill_memory.

(** C85.  The device tree given to a component: the symbol is large enough for the
    device tree behind a header of up to one page, its size is what is checked at
    compile time, and all of it is there. *)
Theorem C85_dtb : forall dtb_size label memory x,
  x < dtb_size + 4096 ->
  x < dtb_bytes dtb_size /\
  contents memory (register_dtb dtb_size label) x =
    Some (memory "CDL_FrameFill_BootInfo CDL_FrameFill_BootInfo_FDT" x) /\
  read_only (register_dtb dtb_size label) x.
Proof. exact dtb_all. Qed.
Print Assumptions C85_dtb.

Example C85_dtb_ex :
  dtb_bytes 5000 = 12288 /\
  contents (fun _ a => a mod 251) (register_dtb 5000 "a") 9000 = Some (9000 mod 251).
Proof. vm_compute. split; reflexivity. Qed.

(** C86.  With any of the letters R, W and X written in this order, the mapping has
    exactly these rights; without the attribute it has all of them.  Missing: other
    orders, see [C86_order_refuted], and the empty string, see
    [C86_empty_refuted]. *)
Theorem C86_rights_partial : forall r w x : bool,
  r || w || x = true ->
  dataport_rights (Some ((if r then "R" else "") ++ (if w then "W" else "") ++
                         (if x then "X" else ""))%string) = Ok (r, w, x).
Proof. exact rights_letters. Qed.
Print Assumptions C86_rights_partial.
Theorem C86_default : dataport_rights None = Ok (true, true, true).
Proof. exact rights_default. Qed.
Print Assumptions C86_default.

Example C86_rights_ex : dataport_rights (Some "RX") = Ok (true, false, true).
Proof. reflexivity. Qed.

(** C86.  Whatever non-empty string is accepted, a right is given exactly if its
    letter is in the string. *)
Theorem C86_only : forall s r w x,
  s <> "" -> dataport_rights (Some s) = Ok (r, w, x) ->
  (r = true <-> occurs "R" s) /\ (w = true <-> occurs "W" s) /\ (x = true <-> occurs "X" s).
Proof. exact rights_only. Qed.
Print Assumptions C86_only.

Example C86_only_ex : dataport_rights (Some "WP") = Ok (false, true, false).
Proof. reflexivity. Qed.

(** C86.  A string with another letter is refused. *)
Theorem C86_refused : forall s c,
  occurs c s -> c <> "R"%char -> c <> "W"%char -> c <> "X"%char -> c <> "P"%char ->
  c <> ascii_of_nat 10 ->
  dataport_rights (Some s) = Err TemplateError.
Proof. exact rights_refused. Qed.
Print Assumptions C86_refused.

Example C86_refused_ex : occurs "r" "Wr" /\ dataport_rights (Some "Wr") = Err TemplateError.
Proof. split; [|reflexivity]. apply occurs_later, occurs_here. Qed.

(** C86 is false in general.  The manual asks for a string containing the letters,
    without saying in which order: "WR" is refused.  A string of the documented
    letters is refused unless they are in order and not repeated. *)
Theorem C86_order_refuted :
  (exists s, documented s /\ dataport_rights (Some s) = Err TemplateError) /\
  (forall s, documented s ->
     dataport_rights (Some s) = Err TemplateError \/ s = "" \/
     exists r w x : bool, s = ((if r then "R" else "") ++ (if w then "W" else "") ++
                               (if x then "X" else ""))%string).
Proof. exact rights_order. Qed.
Print Assumptions C86_order_refuted.

(** C86 is false in general: a user who asks for no rights gets all of them. *)
Theorem C86_empty_refuted :
  documented "" /\ dataport_rights (Some "") = Ok (true, true, true).
Proof. exact (conj (no_letter _) eq_refl). Qed.
Print Assumptions C86_empty_refuted.

(** C86 is false in general: a string that ends with a newline is accepted. *)
Theorem C86_newline_refuted :
  dataport_rights (Some ("R" ++ newline)%string) = Ok (true, false, false).
Proof. exact eq_refl. Qed.
Print Assumptions C86_newline_refuted.
