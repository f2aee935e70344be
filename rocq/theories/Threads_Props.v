(** C27: the thread list of an instance. *)
From Coq Require Import List String NArith.
From Verif Require Import Prelude DecStr Chars Threads_Model Threads_Spec Threads_Proofs.
Import ListNotations.
Open Scope string_scope. Open Scope list_scope.

(** The control thread is first, and only first; its name is that of the instance with
    every character but letters and digits replaced. *)
Theorem C27_control_first : forall cs inst conf dflt d m, mangled inst m ->
  exists t rest, threads cs inst conf dflt d = t :: rest /\ t_name t = (m ++ "_0_control")%string /\
    t_iface t = None /\
    t_stack_size t = match dget conf "_stack_size" with Some k => k | None => dflt end /\
    forall u, In u rest -> t_name u <> t_name t.
Proof. exact threads_control_first. Qed.
Print Assumptions C27_control_first.

(** The names of all threads, and those of the symbols of their stacks and buffers. *)
Theorem C27_names : forall cs inst conf dflt d t m, In t (threads cs inst conf dflt d) -> mangled inst m ->
  (match t_iface t with
   | None => t_index t = 0%N /\ (t_name t = m ++ "_0_control" \/ t_name t = m ++ "_0_fault_handler")
   | Some i => exists digits, undec digits = Some (t_index t) /\
       String.length digits = Nat.max 4 (String.length (dec (t_index t))) /\
       t_name t = m ++ "_" ++ i ++ "_" ++ digits
   end /\
   t_stack_symbol t = "_camkes_stack_" ++ t_name t /\ t_ipc_symbol t = "_camkes_ipc_buffer_" ++ t_name t)%string.
Proof. exact threads_named. Qed.
Print Assumptions C27_names.
Theorem C27_every_name : forall inst, exists m, mangled inst m /\ forall m', mangled inst m' -> m' = m.
Proof. exact every_name. Qed.
Print Assumptions C27_every_name.

(** Every connected interface is served by exactly the declared number of threads, any
    other name by none. *)
Theorem C27_thread_counts : forall cs inst conf dflt d i, connected_once inst cs ->
  (forall n, In (i, n) (ifaces_of inst cs) -> serving (threads cs inst conf dflt d) i = N.to_nat n) /\
  (~ In i (map fst (ifaces_of inst cs)) -> serving (threads cs inst conf dflt d) i = 0%nat).
Proof. exact threads_serving. Qed.
Print Assumptions C27_thread_counts.

(** They are numbered from 0 and have the configured stack size. *)
Theorem C27_thread_indices : forall cs inst conf dflt d i, connected_once inst cs ->
  forall n, In (i, n) (ifaces_of inst cs) -> forall x, (x < n)%N ->
  exists t, In t (threads cs inst conf dflt d) /\ t_iface t = Some i /\ t_index t = x /\
    t_stack_size t = match dget conf (i ++ "_stack_size")%string with Some k => k | None => dflt end.
Proof. exact threads_iface. Qed.
Print Assumptions C27_thread_indices.

(** Names, stack symbols and IPC buffer symbols are pairwise distinct. *)
Theorem C27_names_distinct : forall cs inst conf dflt d, connected_once inst cs ->
  NoDup (map t_name (threads cs inst conf dflt d)).
Proof. exact threads_names. Qed.
Print Assumptions C27_names_distinct.
Theorem C27_symbols_distinct : forall cs inst conf dflt d, connected_once inst cs ->
  NoDup (map t_stack_symbol (threads cs inst conf dflt d)) /\
  NoDup (map t_ipc_symbol (threads cs inst conf dflt d)) /\
  forall t u, In t (threads cs inst conf dflt d) -> In u (threads cs inst conf dflt d) ->
    t_stack_symbol t <> t_ipc_symbol u.
Proof. exact threads_stack_ipc. Qed.
Print Assumptions C27_symbols_distinct.

(** The fault handler thread is present exactly when enabled, and is last. *)
Theorem C27_fault_handler : forall cs inst conf dflt m, mangled inst m ->
  exists front t, threads cs inst conf dflt true = front ++ [t] /\ threads cs inst conf dflt false = front /\
    t_name t = (m ++ "_0_fault_handler")%string /\ t_iface t = None /\ t_stack_size t = dflt /\
    forall u, In u front -> t_name u <> t_name t.
Proof. exact threads_fault_handler. Qed.
Print Assumptions C27_fault_handler.

Definition ex_cs := [mk_tconn 0 2 [("cli", "out")] [("g.srv", "in")];
                     mk_tconn 1 1 [("g.srv", "ev")] [("cli", "got")]].
Example C27_example :
  connected_once "g.srv" ex_cs /\
  map t_name (threads ex_cs "g.srv" [("in_stack_size", 8192%N)] 4096 true) =
    ["g_srv_0_control"; "g_srv_in_0000"; "g_srv_in_0001"; "g_srv_ev_0000"; "g_srv_0_fault_handler"].
Proof. split; [repeat constructor; simpl; intuition discriminate|reflexivity]. Qed.
