(** Model of the generated build description (camkes/templates/camkes-gen.cmake): the files that are generated for
    every instance, the binaries of address spaces, and the renaming of symbols for direct calls.
    Left out: flags, libraries, dependencies, the capDL steps and the theories.  Instances are known by their names,
    which are unique; [id] of an instance and its name are not told apart. *)
From Coq Require Import List String Ascii Bool NArith.
From Verif Require Import Prelude DecStr.
Import ListNotations.
Open Scope string_scope. Open Scope list_scope.

Record inst := mk_inst { i_name : string; i_type : string; i_hardware : bool; i_space : string;
  i_env : string;                 (* the setting environment in lower case, c by default *)
  i_single : bool; i_debug : bool; i_simple : bool; i_rump : bool;
  i_sources : list string; i_headers : list string }.    (* paths in COMPONENT_TEMPLATE_SOURCES and _HEADERS of the type *)
(** The end of a connection: instance, interface and the methods of the interface if it is a procedure *)
Record cend := mk_cend { e_inst : string; e_iface : string; e_methods : list string }.
(** The properties of the target CAmkESConnector_NAME; what is not set is empty. *)
Record ctype := mk_ctype { k_name : string; k_from : string; k_from_header : string; k_to : string; k_to_header : string; k_cakeml_to : string }.
Record conn := mk_conn { c_name : string; c_type : ctype; c_from : list cend; c_to : list cend }.
Record sys := mk_sys { s_insts : list inst; s_conns : list conn }.

(** ** Generated files *)
(** camkes-gen.cmake:65-99 [CAmkESGen]: output, item, template; is the output one of the sources of the binary? *)
Record gen := mk_gen { g_out : string; g_item : string; g_template : string; g_source : bool }.

(** get_filename_component(... NAME) *)
Fixpoint basename (s : string) : string :=
  match s with
  | EmptyString => EmptyString
  | String c r => if Ascii.eqb c "/" then basename r
                  else if existsb (Ascii.eqb "/") (list_ascii_of_string r) then basename r else s
  end.

Fixpoint enumerate_from {A} (n : N) (l : list A) : list (N * A) :=
  match l with [] => [] | x :: l => (n, x) :: enumerate_from (N.succ n) l end.
Definition enumerate {A} (l : list A) : list (N * A) := enumerate_from 0%N l.

(** 243, 259: the name of the file for an end *)
Definition unique_name (c : conn) (id : N) (e : cend) : string := (e_iface e ++ "_" ++ k_name (c_type c) ++ "_" ++ dec id)%string.
Definition item (c : conn) (side : string) (id : N) : string := ("connector/" ++ c_name c ++ "/" ++ side ++ "/" ++ dec id)%string.
Definition dir (bin : string) (i : inst) : string := (bin ++ "/" ++ i_name i)%string.
Definition header (bin : string) (i : inst) (c : conn) (side : string) (id : N) (e : cend) (template : string) : list gen :=
  if eqb template "" then [] else
  [mk_gen (dir bin i ++ "/include/" ++ unique_name c id e ++ ".h")%string (item c side id) template false].
(** 242-257 *)
Definition from_files (bin : string) (i : inst) (c : conn) : list gen :=
  flat_map (fun '(id, e) =>
    if eqb (e_inst e) (i_name i) then
      mk_gen (dir bin i ++ "/" ++ unique_name c id e ++ ".c")%string (item c "from" id) (k_from (c_type c)) true ::
      header bin i c "from" id e (k_from_header (c_type c))
    else []) (enumerate (c_from c)).
(** 258-284 *)
Definition to_files (bin : string) (i : inst) (c : conn) : list gen :=
  flat_map (fun '(id, e) =>
    if eqb (e_inst e) (i_name i) then
      if eqb (i_env i) "cakeml" then
        if eqb (k_cakeml_to (c_type c)) "" then
          [mk_gen (dir bin i ++ "/" ++ unique_name c id e ++ ".c")%string (item c "to" id) (k_to (c_type c)) true]
        else [mk_gen (dir bin i ++ "/connectorScript.sml")%string (item c "to" id) (k_cakeml_to (c_type c)) true]
      else
        mk_gen (dir bin i ++ "/" ++ unique_name c id e ++ ".c")%string (item c "to" id) (k_to (c_type c)) true ::
        header bin i c "to" id e (k_to_header (c_type c))
    else []) (enumerate (c_to c)).
(** 212-238, 286-315; the environment at 225-234 *)
Definition component_file (bin : string) (i : inst) (name template : string) (source : bool) : gen :=
  mk_gen (dir bin i ++ "/" ++ name)%string ("component/" ++ i_name i)%string template source.
Definition environment_files (bin : string) (i : inst) : res (list gen) :=
  if eqb (i_env i) "c" then Ok [component_file bin i "camkes.environment.c" "component.environment.c" true]
  else if eqb (i_env i) "cakeml" then
    Ok [component_file bin i "camkesStartScript.sml" "component.environment.start.cakeml" true;
        component_file bin i "camkesConstants.sml" "camkesConstants.sml" true;
        component_file bin i "camkesEndScript.sml" "component.environment.end.cakeml" true]
  else Err TemplateError.
Definition instance_files (bin : string) (conns : list conn) (i : inst) : res (list gen) :=
  env <- environment_files bin i ;;
  Ok ([component_file bin i "camkes.c" "component.common.c" true;
       component_file bin i ("include/camkes-component-" ++ i_name i ++ ".h")%string "component.template.h" false] ++ env ++
      [component_file bin i "linker.lds" "linker.lds" false] ++
      flat_map (fun c => from_files bin i c ++ to_files bin i c) conns ++
      map (fun t => component_file bin i (basename t) t true) (i_sources i) ++
      map (fun t => component_file bin i ("include/" ++ basename t)%string t false) (i_headers i) ++
      (if i_single i then
         [component_file bin i "seL4SingleThreadedComponent.template.c" "seL4SingleThreadedComponent.template.c" true;
          component_file bin i "include/seL4SingleThreadedComponent.template.h" "seL4SingleThreadedComponent.template.h" true] else []) ++
      (if i_debug i then [component_file bin i "camkes.debug.c" "component.debug.c" true] else []) ++
      (if i_simple i then [component_file bin i "camkes.simple.c" "component.simple.c" true] else []) ++
      (if i_rump i then [component_file bin i "camkes.rumprun.c" "component.rumprun.c" true] else [])).
(** 217, 251, 277, 298, 304, 317-322: the headers that camkes.h includes, in order *)
Definition header_name (i : inst) (c : conn) (id : N) (e : cend) (template : string) : list string :=
  if eqb template "" then [] else [(unique_name c id e ++ ".h")%string].
Definition conn_includes (i : inst) (c : conn) : list string :=
  flat_map (fun '(id, e) => if eqb (e_inst e) (i_name i) then header_name i c id e (k_from_header (c_type c)) else []) (enumerate (c_from c)) ++
  flat_map (fun '(id, e) => if eqb (e_inst e) (i_name i) then if eqb (i_env i) "cakeml" then [] else header_name i c id e (k_to_header (c_type c)) else [])
    (enumerate (c_to c)).
Definition includes (conns : list conn) (i : inst) : list string :=
  ("camkes-component-" ++ i_name i ++ ".h")%string :: flat_map (conn_includes i) conns ++ map basename (i_headers i) ++
  (if i_single i then ["seL4SingleThreadedComponent.template.h"] else []).

Definition software (s : sys) : list inst := filter (fun i => negb (i_hardware i)) (s_insts s).
(** 179 and the loop from 184 *)
Definition files (bin : string) (s : sys) : res (list gen) :=
  gs <- mapM (instance_files bin (s_conns s)) (software s) ;;
  Ok (mk_gen (bin ++ "/graph.dot")%string "assembly/" "graph.dot" false :: List.concat gs).

(** ** Binaries *)
(** 48, 480-518: the groups, their binaries and the instances that are linked into them.  The groups are a set; the order is
    the one of the instances. *)
Definition groups (s : sys) : list string := nodup string_dec (map i_space (software s)).
Definition group_bin (g : string) : string := (g ++ "_group_bin")%string.
Definition members (s : sys) (g : string) : list inst := filter (fun i => eqb (group_bin g) (group_bin (i_space i))) (software s).
Definition linked (s : sys) (g : string) : bool := Nat.ltb 1 (List.length (members s g)).    (* or else copied *)
(** 378-389: is the binary of the instance left relocatable? *)
Definition relocatable (s : sys) (i : inst) : bool :=
  existsb (fun j => negb (eqb (i_name i) (i_name j)) && eqb (i_space j) (i_space i)) (if i_hardware i then [] else s_insts s).

(** 397-453: options for objcopy, as pairs for --redefine-sym and names for --keep-global-symbol *)
Definition symbol (e : cend) (m : string) : string := (e_iface e ++ "_" ++ m)%string.
Definition target (c : conn) (m : string) : string := ("camkes connection " ++ c_name c ++ "_" ++ m)%string.
Definition end_args (c : conn) (e : cend) : list (string * string) := map (fun m => (symbol e m, target c m)) (e_methods e).
Definition at_inst (i : inst) (e : cend) : bool := eqb (e_inst e) (i_name i).
Definition list_key (i : inst) (e : cend) : string := (i_name i ++ "_" ++ e_iface e)%string.
(** 439-450, with the set [instancelist] *)
Definition to_step (i : inst) (c : conn) (s : list string * list (string * string)) (e : cend) : list string * list (string * string) :=
  let (seen, args) := s in
  if at_inst i e then
    if memb (list_key i e) seen then (seen, args) else (list_key i e :: seen, args ++ end_args c e)
  else (seen, args).
Record args := mk_args { a_redefine : list (string * string); a_keep : list string }.
Definition conn_step (i : inst) (s : list string * args) (c : conn) : list string * args :=
  let (seen, a) := s in
  if eqb (k_name (c_type c)) "seL4DirectCall" then
    let (seen, ts) := fold_left (to_step i c) (c_to c) (seen, []) in
    (seen, mk_args (a_redefine a ++ flat_map (end_args c) (filter (at_inst i) (c_from c)) ++ ts) (a_keep a ++ map snd ts))
  else (seen, a).
Definition start_arg (i : inst) : string * string := ("_camkes_start", ("camkes " ++ i_name i ++ " _camkes_start")%string).
Definition inst_args (conns : list conn) (seen : list string) (i : inst) : list string * args :=
  fold_left (conn_step i) conns (seen, mk_args [start_arg i] [""]).
Fixpoint copy_args (conns : list conn) (seen : list string) (is : list inst) : list (inst * args) :=
  match is with
  | [] => []
  | i :: is => let (seen, a) := inst_args conns seen i in (i, a) :: copy_args conns seen is
  end.

(** objcopy of the GNU binutils: a symbol that is renamed twice, or two that get the same name, are errors; symbols that are
    defined and not kept global become local. *)
Inductive binding := Undefined | Local | Global.
Record sym := mk_sym { y_name : string; y_defined : bool }.
Record csym := mk_csym { y_old : string; y_new : string; y_binding : binding }.
Fixpoint nodupb (l : list string) : bool := match l with [] => true | x :: l => negb (memb x l) && nodupb l end.
Definition objcopy (a : args) (t : list sym) : res (list csym) :=
  if nodupb (map fst (a_redefine a)) && nodupb (map snd (a_redefine a)) then
    Ok (map (fun y =>
      let n := match dget (a_redefine a) (y_name y) with Some n => n | None => y_name y end in
      mk_csym (y_name y) n (if y_defined y then if memb n (a_keep a) then Global else Local else Undefined)) t)
  else Err OtherException.
(** The copies of all binaries.  [tables] are the symbols of the binaries. *)
Definition copies (s : sys) (tables : inst -> list sym) : res (list (inst * list csym)) :=
  mapM (fun '(i, a) => t <- objcopy a (tables i) ;; Ok (i, t)) (copy_args (s_conns s) [] (software s)).
(** Linking the binary of a group: the definitions for a name *)
Definition definitions (cs : list (inst * list csym)) (g n : string) : list (string * string) :=
  flat_map (fun '(i, t) => if eqb (group_bin g) (group_bin (i_space i)) then
    map (fun y => (i_name i, y_old y)) (filter (fun y => match y_binding y with Global => eqb (y_new y) n | _ => false end) t) else []) cs.
