(** Model of [threads] (camkes/templates/macros.py:266-320). *)
From Coq Require Import List String Ascii Bool NArith.
From Verif Require Import Prelude DecStr.
Import ListNotations.
Open Scope string_scope. Open Scope list_scope.

(** A connection as far as [threads] reads it: the thread counts of its connector type
    and (instance name, interface name) of its ends.  [end.instance == instance]
    (structural comparison of AST nodes) is modelled by equality of instance names,
    which identify instances (C02). *)
Record tconn := mk_tconn { tc_from_threads : N; tc_to_threads : N;
  tc_from : list (string * string); tc_to : list (string * string) }.

(** class Thread (macros.py:284-293); [sp] and [addr] are functions of the other fields. *)
Record thread := mk_thread { t_name : string; t_iface : option string; t_index : N;
  t_stack_symbol : string; t_ipc_symbol : string; t_stack_size : N }.
Definition new_thread (name : string) (iface : option string) (i : N) (stack : N) : thread :=
  mk_thread name iface i ("_camkes_stack_" ++ name)%string
    ("_camkes_ipc_buffer_" ++ name)%string stack.

(** [re.sub(r'[^A-Za-z0-9]', '_', s)] (macros.py:295) *)
Definition alnum (c : ascii) : bool :=
  let n := N_of_ascii c in
  ((48 <=? n) && (n <=? 57) || (65 <=? n) && (n <=? 90) || (97 <=? n) && (n <=? 122))%N.
Fixpoint sanitize (s : string) : string :=
  match s with
  | EmptyString => EmptyString
  | String c s => String (if alnum c then c else "_"%char) (sanitize s)
  end.

(** macros.py:297-298, 303-304, 317-318 *)
Definition control_name (inst : string) : string := (sanitize inst ++ "_0_control")%string.
Definition fault_name (inst : string) : string := (sanitize inst ++ "_0_fault_handler")%string.
Definition iface_thread_name (inst iface : string) (x : N) : string :=
  (sanitize inst ++ "_" ++ iface ++ "_" ++ decpad 4 x)%string.

(** [configuration.get('%s_stack_size' % k, default)]; the configuration of the instance
    is a dictionary of sizes. *)
Definition stack_size (conf : dict string N) (dflt : N) (k : string) : N :=
  match dget conf (k ++ "_stack_size")%string with Some n => n | None => dflt end.

(** The loop over one side of a connection (macros.py:301-308, 309-316). *)
Definition end_threads (conf : dict string N) (dflt : N) (inst : string) (n : N)
  (e : string * string) : list thread :=
  if String.eqb (fst e) inst then
    map (fun x => new_thread (iface_thread_name inst (snd e) x) (Some (snd e)) x
                    (stack_size conf dflt (snd e)))
        (map N.of_nat (seq 0 (N.to_nat n)))
  else [].
Definition conn_threads conf dflt inst (c : tconn) : list thread :=
  flat_map (end_threads conf dflt inst (tc_from_threads c)) (tc_from c) ++
  flat_map (end_threads conf dflt inst (tc_to_threads c)) (tc_to c).
(** macros.py:266-320; ['_stack_size'] is the key of the control thread. *)
Definition threads (cs : list tconn) (inst : string) (conf : dict string N) (dflt : N)
  (debug_fault_handlers : bool) : list thread :=
  new_thread (control_name inst) None 0 (stack_size conf dflt "") ::
  flat_map (conn_threads conf dflt inst) cs ++
  (if debug_fault_handlers then [new_thread (fault_name inst) None 0 dflt] else []).
