(** What the build generates and links, without reference to how the lists are computed. *)
From Coq Require Import List String Ascii Bool NArith.
From Verif Require Import Prelude DecStr Chars Build_Model.
From Verif Require Runner_Model.
Import ListNotations.
Open Scope string_scope. Open Scope list_scope.

(** Names are made of letters, digits, underscores and dots. *)
Definition word (s : string) : Prop := forall c, In c (list_ascii_of_string s) -> In c letters_digits \/ c = "_"%char \/ c = "."%char.
Definition no_underscore (s : string) : Prop := ~ In "_"%char (list_ascii_of_string s).
Definition ends (c : conn) : list cend := c_from c ++ c_to c.

(** A system as it comes from the earlier stages: the names of instances and of connections are unique, an interface of an
    instance is connected once. *)
Record legal (s : sys) : Prop := {
  l_insts : NoDup (map i_name (s_insts s));
  l_conns : NoDup (map c_name (s_conns s));
  l_once : NoDup (map (fun e => (e_inst e, e_iface e)) (flat_map ends (s_conns s)));
  l_inst_names : forall i, In i (s_insts s) -> word (i_name i);
  l_conn_names : forall c, In c (s_conns s) -> word (c_name c) /\ word (k_name (c_type c));
  l_ifaces : forall c e, In c (s_conns s) -> In e (ends c) -> word (e_iface e) }.

(** The instance is built from sources. *)
Definition built (s : sys) (i : inst) : Prop := In i (s_insts s) /\ i_hardware i = false.

(** The sources, or the headers, that are generated for an item *)
Definition generated (gs : list gen) (it : string) (source : bool) : list (string * string) :=
  map (fun g => (g_out g, g_template g)) (filter (fun g => eqb (g_item g) it && Bool.eqb (g_source g) source) gs).

Definition outputs (gs : list gen) : list string := map g_out gs.

(** A connection for direct calls *)
Definition direct (c : conn) : Prop := k_name (c_type c) = "seL4DirectCall".

(** The names that are joined for direct calls can be told apart. *)
Record clear (s : sys) : Prop := {
  d_target : forall c c' e e' m m', In c (s_conns s) -> In c' (s_conns s) -> direct c -> direct c' -> In e (ends c) -> In e' (ends c') ->
    In m (e_methods e) -> In m' (e_methods e') -> (c_name c ++ "_" ++ m = c_name c' ++ "_" ++ m')%string -> c_name c = c_name c' /\ m = m';
  d_iface : forall c c' e e', In c (s_conns s) -> In c' (s_conns s) -> direct c -> direct c' -> In e (c_to c) -> In e' (c_to c') ->
    (e_inst e ++ "_" ++ e_iface e = e_inst e' ++ "_" ++ e_iface e')%string -> e_inst e = e_inst e' /\ e_iface e = e_iface e' }.

(** What objcopy needs besides: the symbols of an instance can be told apart, no symbol is the entry point, and the ends of a
    connection for direct calls are at different instances. *)
Record proper (s : sys) : Prop := {
  p_symbol : forall c c' e e' m m', In c (s_conns s) -> In c' (s_conns s) -> direct c -> direct c' -> In e (ends c) -> In e' (ends c') ->
    e_inst e = e_inst e' -> In m (e_methods e) -> In m' (e_methods e') ->
    (e_iface e ++ "_" ++ m = e_iface e' ++ "_" ++ m')%string -> e_iface e = e_iface e' /\ m = m';
  p_start : forall c e m, In c (s_conns s) -> direct c -> In e (ends c) -> In m (e_methods e) ->
    (e_iface e ++ "_" ++ m <> "_camkes_start")%string /\ (c_name c ++ "_" ++ m <> "_camkes_start")%string;
  p_methods : forall c e, In c (s_conns s) -> direct c -> In e (ends c) -> NoDup (e_methods e);
  p_apart : forall c, In c (s_conns s) -> direct c -> NoDup (map e_inst (ends c)) }.

(** The symbols of the binaries: every name is there once, and no name of the user begins as those for direct calls do. *)
Definition tables_ok (s : sys) (tables : inst -> list sym) : Prop := forall i, built s i ->
  NoDup (map y_name (tables i)) /\
  (forall y, In y (tables i) -> y_name y <> "" /\ forall n, y_name y <> ("camkes connection " ++ n)%string).

(** The system as the runner sees it *)
Definition runner_inst (i : inst) : Runner_Model.inst := Runner_Model.mk_inst (i_name i) (i_hardware i) (i_space i).
Definition runner_end (s : sys) (e : cend) : Runner_Model.inst :=
  match find (fun i => eqb (i_name i) (e_inst e)) (s_insts s) with Some i => runner_inst i | None => Runner_Model.mk_inst (e_inst e) false "" end.
Definition runner_conn (s : sys) (c : conn) : Runner_Model.conn :=
  Runner_Model.mk_conn (c_name c) (map (runner_end s) (c_to c)) (map (runner_end s) (c_from c)).
Definition assembly_of (s : sys) : Runner_Model.asm := Runner_Model.mk_asm (map runner_inst (s_insts s)) (map (runner_conn s) (s_conns s)).
