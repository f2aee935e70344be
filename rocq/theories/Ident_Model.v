(** What a component knows about itself: the table of its memory, the memory maps it prints for
    faults, and the identities of its threads (camkes/templates/component.common.c:429-690 and
    925-1089).

    Addresses are integers.  Where the linker puts things is a parameter.  The text of the generated
    C program is left out: the switches and tables in it are lists and functions here. *)
From Coq Require Import List String Bool NArith ZArith.
From Verif Require Import Prelude Threads_Model Layout_Model FaultMap_Model Posix_Model.
Import ListNotations.
Open Scope string_scope. Open Scope list_scope. Open Scope Z_scope.

(** The symbols of the linker (component.common.c:619-622 and 970-976), the variable of the DMA pool
    (173), and the addresses of the other variables by name. *)
Record layout := mk_layout { l_start : Z; l_etext : Z; l_preinit : Z; l_edata : Z; l_bss : Z; l_end : Z;
  l_align12 : Z; l_dma : Z; l_var : string -> Z }.

(** PAGE_SIZE_4K *)
Definition P : Z := 4096.
(** [sizeof] of the stack and the IPC buffer of a thread: the arrays declared at
    component.common.c:452 and 456 *)
Definition stack_bytes (t : thread) : Z := Z.of_N (thread_stack (t_stack_size t)).
Definition ipc_bytes : Z := Z.of_N ipc_buffer.

(** ** The table of the memory regions *)
(** struct camkes_vma with all its fields (vma.h:14-40) *)
Record entry := mk_entry { e_vma : vma; e_cached : bool; e_name : string }.

(** component.common.c:1022-1078 *)
Definition thread_vmas (L : layout) (t : thread) : list entry :=
  let s := l_var L (t_stack_symbol t) in
  let i := l_var L (t_ipc_symbol t) in
  let n := stack_bytes t in
  [ mk_entry (mk_vma s (s + P) false false false) true ("guard page below " ++ t_name t ++ " thread's stack");
    mk_entry (mk_vma (s + P) (s + n - P) true true false) true (t_name t ++ " thread's stack");
    mk_entry (mk_vma (s + n - P) (s + n) false false false) true ("guard page above " ++ t_name t ++ " thread's stack");
    mk_entry (mk_vma i (i + P) false false false) true ("guard page below " ++ t_name t ++ " thread's IPC buffer");
    mk_entry (mk_vma (i + P) (i + P * 2) true true false) true (t_name t ++ " thread's IPC buffer");
    mk_entry (mk_vma (i + P * 2) (i + P * 3) false false false) true
      ("guard page above " ++ t_name t ++ " thread's IPC buffer") ]%string.
(** component.common.c:979-1079 [camkes_vmas]; [dma_pool] is the number of bytes of the pool *)
Definition camkes_vmas (L : layout) (dma_pool : Z) (ts : list thread) : list entry :=
  [ mk_entry (mk_vma (l_start L) (l_etext L) true false true) true ".text";
    mk_entry (mk_vma (l_etext L) (l_preinit L) true false false) true ".rodata";
    mk_entry (mk_vma (l_preinit L) (l_edata L) true true false) true ".data";
    mk_entry (mk_vma (l_bss L) (l_end L) true true false) true ".bss";
    mk_entry (mk_vma (l_dma L) (l_dma L + dma_pool) true true false) false "DMA pool" ] ++
  flat_map (thread_vmas L) ts.
(** component.common.c:159-182: is the memory of the pool mapped as cached memory?  [conf] is the
    attribute dma_pool_cached. *)
Definition dma_pool_cache (conf : option bool) : bool := match conf with Some b => b | None => false end.

(** ** Faults *)
(** The map for a thread (component.common.c:646-677) *)
Definition memory_map (L : layout) (t : thread) : list region :=
  let s := l_var L (t_stack_symbol t) in
  let i := l_var L (t_ipc_symbol t) in
  let n := stack_bytes t in
  [ mk_region (l_start L) (l_align12 L - 1) "code and data";
    mk_region s (s + P - 1) "guard page";
    mk_region (s + P) (s + n - P - 1) "stack";
    mk_region (s + n - P) (s + n - 1) "guard page";
    mk_region i (i + P - 1) "guard page";
    mk_region (i + P) (i + ipc_bytes - P - 1) "IPC buffer";
    mk_region (i + ipc_bytes - P) (i + ipc_bytes - 1) "guard page";
    mk_region 0 0 "" ].

Section Slots.
  (** [alloc('%s_tcb' % t.name, seL4_TCBObject)]: the slot of the capability to the TCB (that one name
      always is one slot, and different names are different slots, is C29) *)
  Context (slot : string -> nat).
  Definition tcb (t : thread) : nat := slot (t_name t ++ "_tcb")%string.

  (** component.common.c:492-502: every thread but the last has a capability to the fault endpoint
      with this badge. *)
  Fixpoint fault_badges (ts : list thread) : list (thread * option nat) :=
    match ts with
    | [] => []
    | [t] => [(t, None)]
    | t :: ts => (t, Some (tcb t)) :: fault_badges ts
    end.
  (** The switch of the fault handler (component.common.c:641-686) *)
  Definition faulted (L : layout) (ts : list thread) (badge : nat) : string * option (list region) :=
    match find (fun t => Nat.eqb (tcb t) badge) ts with
    | Some t => (t_name t, Some (memory_map L t))
    | None => ("<unknown>", None)
    end.

  (** ** Threads *)
  (** component.common.c:504-519: the dictionary of names, filled thread by thread; [last] is the
      number of the last thread *)
  Definition short_name (fault_handlers : bool) (n i : nat) (t : thread) : string :=
    if Nat.eqb i 0 then "control"
    else if fault_handlers && Nat.eqb (S i) n then "fault_handler"
    else match t_iface t with Some f => f | None => "" end.
  Definition thread_names (fault_handlers : bool) (ts : list thread) : dict nat string :=
    fold_left (fun d p => dset d (tcb (snd p)) (short_name fault_handlers (List.length ts) (fst p) (snd p)))
              (combine (seq 0 (List.length ts)) ts) [].
  (** component.common.c:537-544 [get_thread_name] *)
  Definition get_thread_name (fault_handlers : bool) (ts : list thread) (id : nat) : string :=
    match dget (thread_names fault_handlers ts) id with Some s => s | None => "(unknown)" end.

  (** What camkes_tls_init stores for a thread: the memory of its thread-local variables (an index
      into tls_regions; [None]: the one that was made for the control thread when the program
      started), the address of its IPC buffer (component.common.c:580; for the control thread 553), its
      TCB, its number, and whether its scheduling context is recorded. *)
  Record tls := mk_tls { x_region : option nat; x_ipc : Z; x_tcb : nat; x_index : nat; x_sc : bool }.
  (** One case of the switch (component.common.c:566-590); jinja2's [loop.index] counts from one. *)
  Definition tls_case (L : layout) (realtime : bool) (control : nat) (i : nat) (t : thread) : tls :=
    mk_tls (if Nat.eqb (tcb t) control then None else Some (S i - 2)%nat)
           (l_var L (t_ipc_symbol t) + P) (tcb t) (S i) (realtime && Nat.eqb i 0).
  (** component.common.c:564-606 [camkes_tls_init]; two cases with one label do not compile *)
  Definition camkes_tls_init (L : layout) (realtime : bool) (ts : list thread) (id : nat) : res tls :=
    match ts with
    | [] => Err AssertionError
    | control :: _ =>
        match find (fun p => Nat.eqb (tcb (snd p)) id) (combine (seq 0 (List.length ts)) ts) with
        | Some (i, t) => Ok (tls_case L realtime (tcb control) i t)
        | None => Err AssertionError
        end
    end.
  (** The number of elements of tls_regions (component.common.c:560, 827) *)
  Definition tls_regions (ts : list thread) : nat := (List.length ts - 1)%nat.
End Slots.

(** sys_exit.c:33-36 [camkes_sys_gettid], sys_thread.c:18-24 [camkes_sys_set_tid_address] *)
Definition gettid (x : tls) : nat := x_index x.

(** ** Processes *)
(** component.common.c:1083-1089 [camkes_pid]: the loop over the instances, which ends with the first
    that is [me]; [None]: the variable is not defined *)
Fixpoint pid_from (index : nat) (instances : list string) (me : string) : option nat :=
  match instances with
  | [] => None
  | i :: is => if String.eqb i me then Some (index + 2)%nat else pid_from (S index) is me
  end.
(** sys_exit.c:38-41 [camkes_sys_getpid] *)
Definition getpid (instances : list string) (me : string) : option nat := pid_from 0 instances me.
(** sys_exit.c:43-49 [camkes_sys_getppid] *)
Definition getppid : nat := 1.
