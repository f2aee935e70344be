(** What a component knows about itself: what users rely on. *)
From Coq Require Import List String Bool NArith ZArith.
From Verif Require Import Prelude Threads_Model Layout_Model Layout_Spec FaultMap_Model FaultMap_Spec Posix_Model
  Ident_Model.
Import ListNotations.
Open Scope Z_scope.

(** ** Where things are *)
(** A variable occupies addresses from the first to below the second number. *)
Definition extent := (Z * Z)%type.
Definition apart (a b : extent) : Prop := snd a <= fst b \/ snd b <= fst a.
(** The program image (its sections follow each other), the DMA pool, and the stack and the IPC buffer of
    each thread do not overlap.  In particular the linker's symbol for the end of the image is not above
    the stacks. *)
Definition variables (L : layout) (ts : list thread) : list extent :=
  flat_map (fun t => [(l_var L (t_stack_symbol t), l_var L (t_stack_symbol t) + stack_bytes t);
                      (l_var L (t_ipc_symbol t), l_var L (t_ipc_symbol t) + ipc_bytes)]) ts.
Definition placed (L : layout) (pool : Z) (ts : list thread) : Prop :=
  l_start L <= l_etext L <= l_preinit L /\ l_preinit L <= l_edata L <= l_bss L /\ l_bss L <= l_end L /\
  ForallOrdPairs apart ((l_start L, l_end L) :: (l_dma L, l_dma L + pool) :: variables L ts).

(** ** What a table says *)
(** All regions of the table that hold an address allow the same kinds of access (read, write, execute),
    and there is such a region. *)
Definition says (table : list vma) (a : Z) (rights : bool * bool * bool) : Prop :=
  (exists v, In v table /\ v_start v <= a < v_end v) /\
  (forall v, In v table -> v_start v <= a < v_end v -> (v_read v, v_write v, v_execute v) = rights).
Definition read_and_write : bool * bool * bool := (true, true, false).
Definition no_access : bool * bool * bool := (false, false, false).
(** The table is true of a variable at [base] with [bytes] bytes whose memory is given by a mapping: it
    says of each byte what an access to it does. *)
Definition true_of (table : list vma) (base bytes : Z) (m : mapping) : Prop :=
  forall x, 0 <= Z.of_N x < bytes ->
    (faults m x /\ says table (base + Z.of_N x) no_access) \/
    (read_write m x /\ says table (base + Z.of_N x) read_and_write).

(** The mapping of the stack and of the IPC buffer of a thread: the calls at component.common.c:453 and
    458, whose meaning is that of C85 *)
Definition stack_mapping (label : string) (t : thread) : mapping :=
  register_stack_symbol (t_stack_symbol t) (t_stack_size t) label.
Definition whole_pages (t : thread) : Prop := (t_stack_size t mod 4096 = 0)%N.

(** ** Faults *)
(** A thread of a system with [w]-bit addresses: code, its stack and its IPC buffer do not overlap and end
    below the last address. *)
Definition seated (w : Z) (L : layout) (t : thread) : Prop :=
  0 < l_start L < l_align12 L /\ l_align12 L < 2 ^ w /\
  0 <= l_var L (t_stack_symbol t) /\ l_var L (t_stack_symbol t) + stack_bytes t < 2 ^ w /\
  0 <= l_var L (t_ipc_symbol t) /\ l_var L (t_ipc_symbol t) + ipc_bytes < 2 ^ w /\
  ForallOrdPairs apart [(l_start L, l_align12 L); (l_var L (t_stack_symbol t), l_var L (t_stack_symbol t) + stack_bytes t);
    (l_var L (t_ipc_symbol t), l_var L (t_ipc_symbol t) + ipc_bytes)].
(** The regions of the picture that hold an address have this name, and there is exactly one. *)
Definition shown_as (address : Z) (order : list region) (name : string) : Prop :=
  exists before r after, order = before ++ r :: after /\ within address r /\ r_name r = name /\
    Forall (fun q => ~ within address q) (before ++ after).

(** ** Threads *)
(** The capabilities to the TCBs of these threads are in different slots (C29). *)
Definition distinct_slots (slot : string -> nat) (ts : list thread) : Prop :=
  forall t u, In t ts -> In u ts -> tcb slot t = tcb slot u -> t_name t = t_name u.
