(** Vocabulary for the statements about the start-up of a component. *)
From Coq Require Import List String Ascii Bool NArith Arith.
From Verif Require Import Prelude DecStr Threads_Model Startup_Model.
Import ListNotations.
Open Scope string_scope. Open Scope list_scope.

(** A component instance: the kernel configuration, the option debug_fault_handlers, the
    interfaces configured as passive, the connections, its name, its stack sizes. *)
Record setup := mk_setup {
  u_realtime : bool; u_fault_handlers : bool; u_passive : string -> bool;
  u_conns : list tconn; u_name : string; u_sizes : dict string N; u_size : N }.
Definition threads_of (u : setup) : list thread :=
  threads (u_conns u) (u_name u) (u_sizes u) (u_size u) (u_fault_handlers u).
Definition program (u : setup) : list member :=
  component (u_realtime u) (u_fault_handlers u) (u_passive u) (u_conns u) (u_name u)
    (u_sizes u) (u_size u).

(** A state that some schedule leads to. *)
Definition reachable (ms : list member) (s : sys) : Prop :=
  exists sched, exec ms sched (boot ms) = Some s.

(** No thread can make a step. *)
Definition at_rest (ms : list member) (s : sys) : Prop := forall k, step ms k s = None.

(** Thread number [k] serves interface [i]; 0 is the control thread. *)
Definition serves (u : setup) (k : nat) (i : string) : Prop :=
  exists t, nth_error (threads_of u) k = Some t /\ t_iface t = Some i.
Definition passive (u : setup) (i : string) : Prop :=
  u_realtime u = true /\ u_passive u i = true.

(** Thread [k] did [i]. *)
Definition did (s : sys) (k : nat) (i : instr) : Prop := In (k, i) (s_trace s).

(** Whenever thread [k2] did [i2], thread [k1] had done [i1]. *)
Definition first (s : sys) (k1 : nat) (i1 : instr) (k2 : nat) (i2 : instr) : Prop :=
  forall l r, s_trace s = l ++ (k2, i2) :: r -> In (k1, i1) l.

(** Names of letters, digits and underscores: instances at the top level of the assembly,
    as opposed to those inside compound components, whose names contain a dot. *)
Definition plain_name (s : string) : Prop :=
  forall c, In c (list_ascii_of_string s) ->
    (48 <= N_of_ascii c <= 57)%N \/ (65 <= N_of_ascii c <= 90)%N \/
    (97 <= N_of_ascii c <= 122)%N \/ c = "_"%char.
