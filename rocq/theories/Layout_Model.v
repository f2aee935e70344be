(** Model of the placement of thread stacks, IPC buffers and filled frames in the
    address space of a component, and of the access rights of dataports:
    camkes/templates/macros.py, camkes/runner/Context.py and
    camkes/templates/component.common.c. *)
From Coq Require Import List String Ascii Bool NArith.
From Verif Require Import Prelude DecStr.
Import ListNotations.
Open Scope string_scope.
Open Scope list_scope.
Open Scope N_scope.

(** PAGE_SIZE (macros.py:263); PAGE_SIZE_4K in the generated C is the same
    number. *)
Definition page : N := 4096.

(** ROUND_UP (macros.py:343-346), and ROUND_UP_UNSAFE of the C library used by
    the text of thread_stack (the library is not part of the repository; the macro
    is taken to do the same). *)
Definition round_up (x y : N) : N := (x + y - 1) / y * y.

(** thread_stack (macros.py:42-47): number of bytes of the array declared. *)
Definition thread_stack (size : N) : N := round_up size page + page * 2.

(** ipc_buffer (macros.py:50-54): number of bytes of the array declared. *)
Definition ipc_buffer : N := page * 3.

(** Thread.sp (macros.py:291): offset of the initial stack pointer from the
    symbol. *)
Definition thread_sp (stack_size : N) : N := stack_size + page.
(** Thread.addr (macros.py:292) and ipc_buffer_address (macros.py:57-58): offset of
    the IPC buffer from its symbol. *)
Definition thread_addr : N := page.

(** A frame object.  The allocator returns the same object when it is asked twice
    for one name (that function is modelled in Context_Model.v), so a frame is its
    name here.  [f_fill] is the fill string [dest_offset len source
    source_offset], kept as its fields. *)
Record fill := mk_fill { fl_at : N; fl_len : N; fl_source : string; fl_from : N }.
Record frame := mk_frame { f_name : string; f_fill : option fill }.

(** A capability to a frame with its rights: [Cap(frame, read, write, grant)]. *)
Record cap := mk_cap { c_frame : frame; c_read : bool; c_write : bool; c_grant : bool }.

(** The arguments of add_symbol_with_caps (a method of the capDL library): sizes
    and capabilities, the latter [None] for pages to be left unmapped. *)
Definition mapping := (list N * list (option cap))%type.

(** range(n) *)
Definition range (n : N) : list N := map N.of_nat (seq 0 (N.to_nat n)).

(** [digits = len(str(number_frames - 1))] (Context.py:557, 581).  For no frames
    the number is not used. *)
Definition digits (n : N) : nat := String.length (dec (n - 1)).

(** register_stack_symbol (Context.py:573-589) *)
Definition stack_frame (symbol label : string) (n i : N) : frame :=
  mk_frame ("stack_" ++ symbol ++ "_" ++ decpad (digits n) i ++ "_" ++ label ++ "_obj")%string
           None.
Definition register_stack_symbol (symbol : string) (size : N) (label : string) : mapping :=
  let number_frames := size / page in
  let frames := map (stack_frame symbol label number_frames) (range number_frames) in
  (repeat page (N.to_nat (number_frames + 2)),
   [None] ++ map (fun f => Some (mk_cap f true true false)) frames ++ [None]).

(** register_ipc_symbol (Context.py:592-603) *)
Definition register_ipc_symbol (f : frame) : mapping :=
  (repeat page 3, [None; Some (mk_cap f true true false); None]).

(** register_fill_frame (Context.py:548-570); the static_assert it returns, that
    the symbol has this size, is left to the C compiler. *)
Definition fill_frame (symbol source : string) (size : N) (label : string) (n i : N) : frame :=
  mk_frame (symbol ++ "_" ++ label ++ "_" ++ decpad (digits n) i ++ "_obj")%string
           (Some (mk_fill 0 (if page <=? size - i * page then page else size - i * page)
                          source (i * page))).
Definition register_fill_frame (symbol source : string) (size : N) (label : string) : mapping :=
  let number_frames := size / page in
  let frames := map (fill_frame symbol source size label number_frames) (range number_frames) in
  (repeat page (N.to_nat number_frames),
   map (fun f => Some (mk_cap f true false false)) frames).

(** The symbol holding the device tree (component.common.c:141-150): its size,
    which is also the size given to register_fill_frame. *)
Definition dtb_bytes (dtb_size : N) : N := round_up dtb_size 4096 + 4096.
Definition register_dtb (dtb_size : N) (label : string) : mapping :=
  register_fill_frame "dtb_symbol" "CDL_FrameFill_BootInfo CDL_FrameFill_BootInfo_FDT"
                      (dtb_bytes dtb_size) label.

(** [re.match('^R?W?X?P?$', perm)] (macros.py:142): each letter at most once and in
    this order, and [$] also matches before a newline that ends the string. *)
Definition opt_char (c : ascii) (s : string) : string :=
  match s with
  | String d s' => if Ascii.eqb c d then s' else s
  | EmptyString => s
  end.
Definition newline : string := String (ascii_of_nat 10) EmptyString.
Definition perm_match (s : string) : bool :=
  let rest := opt_char "P" (opt_char "X" (opt_char "W" (opt_char "R" s))) in
  String.eqb rest "" || String.eqb rest newline.

(** get_perm (macros.py:137-145); [perm] is the value of the attribute
    [<interface>_access] of the instance, if it has one.  [not perm] holds of a
    missing value and of the empty string. *)
Definition get_perm (perm : option string) : res string :=
  match perm with
  | None | Some EmptyString => Ok "RWXP"
  | Some p => if perm_match p then Ok p else Err TemplateError
  end.

(** ['R' in perm] and so on: the rights of the mapping (Context.py:501-503). *)
Fixpoint has_char (c : ascii) (s : string) : bool :=
  match s with
  | EmptyString => false
  | String d s => Ascii.eqb c d || has_char c s
  end.
Definition mapping_rights (perm : string) : bool * bool * bool :=
  (has_char "R" perm, has_char "W" perm, has_char "X" perm).

(** seL4SharedData.template.c:40-46 and seL4DMASharedData.template.c:26-34: the
    rights of the mapping of a dataport. *)
Definition dataport_rights (perm : option string) : res (bool * bool * bool) :=
  p <- get_perm perm ;; Ok (mapping_rights p).
