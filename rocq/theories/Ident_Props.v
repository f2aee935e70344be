(** What a component knows about itself: C110 (its memory) and C111 (its threads). *)
From Coq Require Import List String Bool NArith ZArith Lia Permutation Sorted.
From Verif Require Import Prelude Threads_Model Threads_Spec Layout_Model Layout_Spec FaultMap_Model FaultMap_Spec
  Posix_Model Ident_Model Ident_Spec Ident_Proofs Ident_Proofs2 Ident_Proofs3.
Import ListNotations.
Open Scope string_scope. Open Scope list_scope. Open Scope Z_scope.

(** An instance with an interface thread and a fault handler, and a place for everything. *)
Definition some_conns : list tconn := [mk_tconn 0 1 [("b", "q")] [("a", "p")]].
Definition some_threads : list thread := threads some_conns "a" [("p_stack_size", 8192%N)] 4096 true.
Definition some_place (name : string) : Z :=
  if String.eqb name "_camkes_stack_a_0_control" then 0x20000
  else if String.eqb name "_camkes_ipc_buffer_a_0_control" then 0x23000
  else if String.eqb name "_camkes_stack_a_p_0000" then 0x26000
  else if String.eqb name "_camkes_ipc_buffer_a_p_0000" then 0x2a000
  else if String.eqb name "_camkes_stack_a_0_fault_handler" then 0x2d000 else 0x30000.
Definition some_layout : layout :=
  mk_layout 0x10000 0x12000 0x13000 0x14000 0x14000 0x1f000 0x1f000 0x50000 some_place.
(** The capabilities to the TCBs are in slots 3, 4 and 5. *)
Definition some_slot (name : string) : nat :=
  if String.eqb name "a_0_control_tcb" then 3 else if String.eqb name "a_p_0000_tcb" then 4 else 5.

Example threads_case : map t_name some_threads = ["a_0_control"; "a_p_0000"; "a_0_fault_handler"] /\
  Forall whole_pages some_threads /\ connected_once "a" some_conns.
Proof.
  split; [reflexivity|]. split; [repeat constructor|]. unfold connected_once. repeat constructor. intros [].
Qed.
Example placed_case : placed some_layout 0x4000 some_threads.
Proof.
  unfold placed. repeat (split; [vm_compute; intuition discriminate|]).
  match goal with |- ForallOrdPairs _ ?l => let v := eval vm_compute in l in change l with v end.
  repeat first [apply FOP_nil | apply FOP_cons | apply Forall_nil | apply Forall_cons];
    unfold apart; cbn [fst snd]; lia.
Qed.
Example seated_case : Forall (seated 32 some_layout) some_threads.
Proof.
  repeat first [apply Forall_nil | apply Forall_cons]; unfold seated;
    repeat (split; [vm_compute; intuition discriminate|]);
    match goal with |- ForallOrdPairs _ ?l => let v := eval vm_compute in l in change l with v end;
    repeat first [apply FOP_nil | apply FOP_cons | apply Forall_nil | apply Forall_cons];
    unfold apart; cbn [fst snd]; lia.
Qed.
Example slots_case : distinct_slots some_slot some_threads.
Proof. intros t u [<-|[<-|[<-|[]]]] [<-|[<-|[<-|[]]]]; cbn; (reflexivity || discriminate). Qed.

(** ** C110: the table of memory regions *)
(** The table is true of the stacks: of a byte that can be used it says so, and of the bytes around a
    stack, where an access faults, it says that there is nothing.  Partial: the stack has a whole number
    of pages, and nothing overlaps in the address space. *)
Theorem C110_stack_partial : forall L pool ts label t, placed L pool ts -> In t ts -> whole_pages t ->
  true_of (map e_vma (camkes_vmas L pool ts)) (l_var L (t_stack_symbol t)) (stack_bytes t) (stack_mapping label t).
Proof. exact stack_true. Qed.
Print Assumptions C110_stack_partial.
(** And of the IPC buffers. *)
Theorem C110_ipc_partial : forall L pool ts t f, placed L pool ts -> In t ts ->
  true_of (map e_vma (camkes_vmas L pool ts)) (l_var L (t_ipc_symbol t)) ipc_bytes (register_ipc_symbol f).
Proof. exact ipc_true. Qed.
Print Assumptions C110_ipc_partial.
Example table_case : map (fun e => (e_name e, v_start (e_vma e))) (skipn 11 (camkes_vmas some_layout 0x4000 some_threads)) =
  [ ("guard page below a_p_0000 thread's stack", 0x26000); ("a_p_0000 thread's stack", 0x27000);
    ("guard page above a_p_0000 thread's stack", 0x29000);
    ("guard page below a_p_0000 thread's IPC buffer", 0x2a000); ("a_p_0000 thread's IPC buffer", 0x2b000);
    ("guard page above a_p_0000 thread's IPC buffer", 0x2c000);
    ("guard page below a_0_fault_handler thread's stack", 0x2d000); ("a_0_fault_handler thread's stack", 0x2e000);
    ("guard page above a_0_fault_handler thread's stack", 0x2f000);
    ("guard page below a_0_fault_handler thread's IPC buffer", 0x30000);
    ("a_0_fault_handler thread's IPC buffer", 0x31000);
    ("guard page above a_0_fault_handler thread's IPC buffer", 0x32000) ].
Proof. reflexivity. Qed.

(** Of the program image it says that instructions can be read and executed, constants can be read, and
    variables, zero-initialised variables and the DMA pool can be read and written. *)
Theorem C110_image_partial : forall L pool ts a, placed L pool ts ->
  let table := map e_vma (camkes_vmas L pool ts) in
  (l_start L <= a < l_etext L -> says table a (true, false, true)) /\
  (l_etext L <= a < l_preinit L -> says table a (true, false, false)) /\
  (l_preinit L <= a < l_edata L \/ l_bss L <= a < l_end L -> says table a read_and_write) /\
  (l_dma L <= a < l_dma L + pool -> says table a read_and_write).
Proof. exact image_says. Qed.
Print Assumptions C110_image_partial.
(** Of other addresses it says nothing (dataports, for example, are not in the table). *)
Theorem C110_elsewhere : forall L pool ts a,
  l_start L <= l_etext L <= l_preinit L -> l_preinit L <= l_edata L <= l_bss L -> l_bss L <= l_end L ->
  Forall (fun e : extent => ~ (fst e <= a < snd e)) ((l_start L, l_end L) :: (l_dma L, l_dma L + pool) :: variables L ts) ->
  forall v, In v (map e_vma (camkes_vmas L pool ts)) -> ~ (v_start v <= a < v_end v).
Proof. exact elsewhere. Qed.
Print Assumptions C110_elsewhere.
Example image_case : map (fun a => map e_name (filter (fun e => (v_start (e_vma e) <=? a) && (a <? v_end (e_vma e)))
      (camkes_vmas some_layout 0x4000 some_threads))) [0x10000; 0x12000; 0x13fff; 0x1efff; 0x1f000; 0x53fff; 0x54000] =
  [[".text"]; [".rodata"]; [".data"]; [".bss"]; []; ["DMA pool"]; []].
Proof. reflexivity. Qed.

(** Therefore a program that asks about memory is not told that a byte outside a stack is memory ... *)
Theorem C110_lock_partial : forall table base bytes m w page addr len x, true_of table base bytes m ->
  0 <= Z.of_N x < bytes ->
  mlock w page table addr len = Zero -> addr <= base + Z.of_N x < addr + len -> read_write m x.
Proof. exact lock_true. Qed.
Print Assumptions C110_lock_partial.
Theorem C110_mincore_partial : forall table base bytes m w page addr len vec stored x, true_of table base bytes m ->
  0 <= Z.of_N x < bytes -> 0 < page -> 0 <= len ->
  mincore w page table addr len vec = (Zero, stored) -> addr <= base + Z.of_N x < addr + len -> read_write m x.
Proof. exact mincore_true. Qed.
Print Assumptions C110_mincore_partial.
(** ... and a thread can lock its stack (but not its last page: see C80). *)
Theorem C110_stack_locks_partial : forall L pool ts t w addr len, placed L pool ts -> In t ts -> whole_pages t ->
  let s := l_var L (t_stack_symbol t) in
  0 <= s -> s + stack_bytes t <= 2 ^ w -> addr mod 4096 = 0 -> 0 <= len ->
  s + 4096 <= addr -> addr + len < s + 4096 + Z.of_N (t_stack_size t) ->
  mlock w 4096 (map e_vma (camkes_vmas L pool ts)) addr len = Zero.
Proof. exact stack_locks. Qed.
Print Assumptions C110_stack_locks_partial.
Example locks_case :
  mlock 32 4096 (map e_vma (camkes_vmas some_layout 0x4000 some_threads)) 0x27000 0x1000 = Zero /\
  mlock 32 4096 (map e_vma (camkes_vmas some_layout 0x4000 some_threads)) 0x26000 0x2000 = ENOMEM.
Proof. split; reflexivity. Qed.

(** It is not true of a stack whose size is not a whole number of pages: the table says that the stack
    can be used up to the initial stack pointer, but its last bytes are not mapped. *)
Theorem C110_unaligned_refuted : forall L pool ts label t x, placed L pool ts -> In t ts -> ~ whole_pages t ->
  (thread_sp (t_stack_size t) - t_stack_size t mod 4096 <= x < thread_sp (t_stack_size t))%N ->
  faults (stack_mapping label t) x /\
  says (map e_vma (camkes_vmas L pool ts)) (l_var L (t_stack_symbol t) + Z.of_N x) read_and_write.
Proof. exact unaligned_wrong. Qed.
Print Assumptions C110_unaligned_refuted.
Example unaligned_case : let t := new_thread "a_0_control" None 0 2000 in
  placed some_layout 0x4000 [t] /\ ~ whole_pages t /\
  (thread_sp (t_stack_size t) - t_stack_size t mod 4096 <= 5000 < thread_sp (t_stack_size t))%N.
Proof.
  cbn zeta. split; [|split; [discriminate|split; [discriminate|reflexivity]]].
  unfold placed. repeat (split; [vm_compute; intuition discriminate|]).
  match goal with |- ForallOrdPairs _ ?l => let v := eval vm_compute in l in change l with v end.
  repeat first [apply FOP_nil | apply FOP_cons | apply Forall_nil | apply Forall_cons];
    unfold apart; cbn [fst snd]; lia.
Qed.
(** The stacks are put behind the zero-initialised data (linker.lds:46-57).  If the linker's symbol for
    the end of the program is behind them, the table also says that the stacks, with the pages around
    them, are such data, and it says so first: a program can lock a page that is not there. *)
Theorem C110_end_refuted : forall w L pool ts label t,
  l_start L <= l_etext L <= l_preinit L -> l_preinit L <= l_edata L <= l_bss L ->
  let s := l_var L (t_stack_symbol t) in
  0 <= s -> s + 4096 < 2 ^ w -> s mod 4096 = 0 -> l_bss L <= s -> s + 4096 < l_end L -> In t ts ->
  (forall x, (x < 4096)%N -> faults (stack_mapping label t) x) /\
  mlock w 4096 (map e_vma (camkes_vmas L pool ts)) s 4096 = Zero.
Proof. exact end_wrong. Qed.
Print Assumptions C110_end_refuted.
Example end_case : let L := mk_layout 0x10000 0x12000 0x13000 0x14000 0x14000 0x60000 0x1f000 0x50000 some_place in
  mlock 32 4096 (map e_vma (camkes_vmas L 0x4000 some_threads)) 0x26000 4096 = Zero.
Proof. reflexivity. Qed.

(** The DMA pool can be read and written.  But the table always says that it is not cached, also when it
    was configured to be. *)
Theorem C110_pool_partial : forall L pool ts e a, placed L pool ts -> In e (camkes_vmas L pool ts) ->
  l_dma L <= a < l_dma L + pool -> v_start (e_vma e) <= a < v_end (e_vma e) ->
  e_cached e = false /\ v_read (e_vma e) = true /\ v_write (e_vma e) = true /\ v_execute (e_vma e) = false.
Proof. exact dma_uncached. Qed.
Print Assumptions C110_pool_partial.
(** Everything else is said to be cached, as it is. *)
Theorem C110_cached : forall L pool ts e, In e (camkes_vmas L pool ts) ->
  e_cached e = true \/ v_start (e_vma e) = l_dma L /\ v_end (e_vma e) = l_dma L + pool /\ e_name e = "DMA pool"%string.
Proof. exact cached_unless_pool. Qed.
Print Assumptions C110_cached.
Theorem C110_cached_refuted : exists L pool ts e a, placed L pool ts /\ In e (camkes_vmas L pool ts) /\
  l_dma L <= a < l_dma L + pool /\ v_start (e_vma e) <= a < v_end (e_vma e) /\
  e_cached e <> dma_pool_cache (Some true).
Proof.
  exists some_layout, 0x4000, some_threads. eexists. exists 0x50000. split; [exact placed_case|].
  split; [do 4 right; left; reflexivity|]. cbn. repeat split; (lia || discriminate).
Qed.
Print Assumptions C110_cached_refuted.

(** ** C111: threads *)
(** Every thread finds what it needs: its number is its position from one on, its capability to its TCB
    is the one it was started with, the IPC buffer is the one of its TCB, and thread-local variables are
    in the memory made at the start of the program (the first thread) or in one of the areas. *)
Theorem C111_own : forall cs inst conf dflt d, connected_once inst cs -> forall slot,
  let ts := threads cs inst conf dflt d in distinct_slots slot ts ->
  forall L realtime i t, nth_error ts i = Some t ->
  exists x, camkes_tls_init slot L realtime ts (tcb slot t) = Ok x /\ gettid x = S i /\ x_tcb x = tcb slot t /\
    x_ipc x = l_var L (t_ipc_symbol t) + Z.of_N thread_addr /\
    (x_region x = None <-> i = 0%nat) /\ (forall k, x_region x = Some k -> (k < tls_regions ts)%nat).
Proof. exact own_tls. Qed.
Print Assumptions C111_own.
(** No two threads share any of it. *)
Theorem C111_distinct : forall cs inst conf dflt d, connected_once inst cs -> forall slot,
  let ts := threads cs inst conf dflt d in distinct_slots slot ts ->
  forall L realtime i j t u x y, nth_error ts i = Some t -> nth_error ts j = Some u -> i <> j ->
  camkes_tls_init slot L realtime ts (tcb slot t) = Ok x -> camkes_tls_init slot L realtime ts (tcb slot u) = Ok y ->
  gettid x <> gettid y /\ x_tcb x <> x_tcb y /\ x_region x <> x_region y.
Proof. exact distinct_tls. Qed.
Print Assumptions C111_distinct.
Example own_case : map (fun t => match camkes_tls_init some_slot some_layout false some_threads (tcb some_slot t) with
                                 | Ok x => (gettid x, x_region x, x_ipc x) | Err _ => (0%nat, None, 0) end) some_threads =
  [(1%nat, None, 0x24000); (2%nat, Some 0%nat, 0x2b000); (3%nat, Some 1%nat, 0x31000)].
Proof. reflexivity. Qed.
(** With scheduling contexts only the first thread knows its own. *)
Theorem C111_scheduling_context : forall cs inst conf dflt d, connected_once inst cs -> forall slot,
  let ts := threads cs inst conf dflt d in distinct_slots slot ts ->
  forall L realtime i t x, nth_error ts i = Some t -> camkes_tls_init slot L realtime ts (tcb slot t) = Ok x ->
  (x_sc x = true <-> realtime = true /\ i = 0%nat).
Proof. exact sc_recorded. Qed.
Print Assumptions C111_scheduling_context.
(** A number that is none of the threads stops the component. *)
Theorem C111_invalid : forall cs inst conf dflt d slot, let ts := threads cs inst conf dflt d in
  forall L realtime id, (forall t, In t ts -> tcb slot t <> id) ->
  camkes_tls_init slot L realtime ts id = Err AssertionError.
Proof. exact tls_unknown. Qed.
Print Assumptions C111_invalid.

(** The name of a thread: that of its interface, or what it does. *)
Theorem C111_name : forall cs inst conf dflt d, connected_once inst cs -> forall slot,
  let ts := threads cs inst conf dflt d in distinct_slots slot ts ->
  forall i t, nth_error ts i = Some t ->
  get_thread_name slot d ts (tcb slot t) =
    match t_iface t with Some f => f | None => if Nat.eqb i 0 then "control" else "fault_handler" end.
Proof. exact named. Qed.
Print Assumptions C111_name.
Theorem C111_no_name : forall cs inst conf dflt d slot, let ts := threads cs inst conf dflt d in
  forall id, (forall t, In t ts -> tcb slot t <> id) -> get_thread_name slot d ts id = "(unknown)".
Proof. exact unnamed. Qed.
Print Assumptions C111_no_name.
Example name_case : map (fun t => get_thread_name some_slot true some_threads (tcb some_slot t)) some_threads =
  ["control"; "p"; "fault_handler"] /\ get_thread_name some_slot true some_threads 9 = "(unknown)".
Proof. split; reflexivity. Qed.

(** Faults.  The fault of a thread, other than the last, is reported with the name of this thread and
    with its memory map: its badge is that of no other thread. *)
Theorem C111_fault : forall cs inst conf dflt d, connected_once inst cs -> forall slot,
  let ts := threads cs inst conf dflt d in distinct_slots slot ts ->
  forall L i t, nth_error ts i = Some t -> (S i < List.length ts)%nat ->
  exists b, In (t, Some b) (fault_badges slot ts) /\ faulted slot L ts b = (t_name t, Some (memory_map L t)) /\
    forall u c, In (u, Some c) (fault_badges slot ts) -> c = b -> u = t.
Proof. exact attributed. Qed.
Print Assumptions C111_fault.
(** The last is the fault handler itself. *)
Theorem C111_handler : forall cs inst conf dflt slot t, connected_once inst cs ->
  In (t, None) (fault_badges slot (threads cs inst conf dflt true)) -> t_name t = fault_name inst.
Proof. exact handler_alone. Qed.
Print Assumptions C111_handler.
Theorem C111_unknown_fault : forall slot ts L b, (forall t, In t ts -> b <> tcb slot t) ->
  faulted slot L ts b = ("<unknown>", None).
Proof. exact unknown_fault. Qed.
Print Assumptions C111_unknown_fault.
Example fault_case : map (fun p => (t_name (fst p), snd p)) (fault_badges some_slot some_threads) =
    [("a_0_control", Some 3%nat); ("a_p_0000", Some 4%nat); ("a_0_fault_handler", None)] /\
  fst (faulted some_slot some_layout some_threads 4) = "a_p_0000".
Proof. split; reflexivity. Qed.

(** Where a fault is shown.  A picture is drawn for an address in the stack of the thread or in the pages
    around it.  The one region in it that holds the address is called a guard page if the address is not
    mapped, and the stack if it is.  Partial: as for C110, and the stack is not empty. *)
Theorem C111_stack_shown_partial : forall w L label t x, 0 < w -> seated w L t -> whole_pages t ->
  t_stack_size t <> 0%N -> 0 <= Z.of_N x < stack_bytes t ->
  let a := l_var L (t_stack_symbol t) + Z.of_N x in
  exists rs order ls, terminated rs [] (memory_map L t) /\ show_fault_location w (memory_map L t) a = Ok ls /\
    Permutation order rs /\ StronglySorted higher order /\ picture a None order ls /\
    (faults (stack_mapping label t) x /\ shown_as a order "guard page" \/
     read_write (stack_mapping label t) x /\ shown_as a order "stack").
Proof. exact shown_stack. Qed.
Print Assumptions C111_stack_shown_partial.
Theorem C111_ipc_shown_partial : forall w L f t x, 0 < w -> seated w L t -> t_stack_size t <> 0%N ->
  0 <= Z.of_N x < ipc_bytes ->
  let a := l_var L (t_ipc_symbol t) + Z.of_N x in
  exists rs order ls, terminated rs [] (memory_map L t) /\ show_fault_location w (memory_map L t) a = Ok ls /\
    Permutation order rs /\ StronglySorted higher order /\ picture a None order ls /\
    (faults (register_ipc_symbol f) x /\ shown_as a order "guard page" \/
     read_write (register_ipc_symbol f) x /\ shown_as a order "IPC buffer").
Proof. exact shown_ipc. Qed.
Print Assumptions C111_ipc_shown_partial.
Example shown_case : show_fault_location 32 (memory_map some_layout (new_thread "a_p_0000" None 0 8192)) 0x26ff8 =
  Ok [ Bound 0x2cfff; Name "guard page"; Bound 0x2c000; Name "IPC buffer"; Bound 0x2b000; Name "guard page";
       Bound 0x2a000; Name "guard page"; Bound 0x29000; Name "stack"; Bound 0x27000; Name "guard page";
       FaultAt 0x26ff8; Bound 0x26000; Undescribed; Bound 0x1efff; Name "code and data"; Bound 0x10000 ].
Proof. reflexivity. Qed.
(** For a thread without a stack the fault handler fails an assertion instead. *)
Theorem C111_no_stack_refuted : forall w L t a, 0 < l_start L -> 0 <= l_var L (t_stack_symbol t) ->
  0 <= l_var L (t_ipc_symbol t) -> t_stack_size t = 0%N ->
  show_fault_location w (memory_map L t) a = Err AssertionError.
Proof. exact no_stack_asserts. Qed.
Print Assumptions C111_no_stack_refuted.
Example no_stack_case : t_stack_size (new_thread "a_0_control" None 0 0) = 0%N.
Proof. reflexivity. Qed.

(** Processes: each instance has one number, different instances have different ones, and none has that
    of the process that started them. *)
Theorem C111_pid : forall instances, (forall me, In me instances -> exists p, getpid instances me = Some p) /\
  (forall a b p, getpid instances a = Some p -> getpid instances b = Some p -> a = b) /\
  (forall a p, getpid instances a = Some p -> p <> getppid /\ (2 <= p)%nat).
Proof.
  exact (fun instances => conj (fun me => pid_total instances me 0) (conj (pids_distinct instances)
    (fun a p H => conj (fun E : p = 1%nat => Nat.lt_irrefl 1 (eq_ind p (fun n => (2 <= n)%nat) (pids_from_two _ _ _ H) 1%nat E)) (pids_from_two _ _ _ H)))).
Qed.
Print Assumptions C111_pid.
Example pid_case : map (getpid ["a"; "b"; "c"]) ["a"; "c"; "d"] = [Some 2%nat; Some 4%nat; None].
Proof. reflexivity. Qed.
