(** Model of the definitions of the generated theory Arch_Spec (camkes/templates/arch-definitions.thy): the
    architecture of an assembly as the constants of an Isabelle theory that refer to each other by name.
    Left out: the proofs, and the lemmas except for the constants that the last one mentions; locations and
    everything of the AST that the template does not read.  Types of attributes are names. *)
From Coq Require Import List String Ascii Bool NArith.
From Verif Require Import Prelude Isabelle_Model Refine_Model.
Import ListNotations.
Open Scope string_scope. Open Scope list_scope.

(** ** What the template reads *)
Record param := mk_param { pa_name : string; pa_dir : string; pa_type : string; pa_array : bool }.
Record method := mk_method { me_name : string; me_ret : option string; me_params : list param }.
Record proc := mk_proc { pr_name : string; pr_methods : list method }.
(** Interfaces are their name, whether they are optional, and their type. *)
Record comp := mk_comp { co_name : string; co_control : bool; co_hardware : bool;
  co_uses : list (string * bool * proc); co_provides : list (string * proc);
  co_dataports : list (string * string); co_emits : list (string * string); co_consumes : list (string * bool * string);
  co_attributes : list (string * string);
  co_exports : list string }.    (* the destinations of the exports of the composition, if it has one *)
Record connector := mk_connector { k_name : string; k_from_hardware : bool; k_to_hardware : bool; k_from_type : string;
  k_spec : option string }.      (* the default of the attribute isabelle_connector_spec *)
Record conn := mk_conn { cn_name : string; cn_type : connector; cn_from : list (string * string); cn_to : list (string * string) }.
Record assembly := mk_assembly { as_name : option string; as_composition : option string; as_configuration : option string;
  as_instances : list (string * comp); as_connections : list conn; as_groups : dict string string;
  as_settings : option (list (string * string * string)); as_extra : list (string * string * string) }.

(** Comparison of AST objects (base.py:118-141) *)
Definition proc_dec (a b : proc) : {a = b} + {a <> b}.
Proof. repeat decide equality. Defined.
Definition comp_dec (a b : comp) : {a = b} + {a <> b}.
Proof. repeat (apply proc_dec || decide equality). Defined.
Definition connector_dec (a b : connector) : {a = b} + {a <> b}.
Proof. repeat decide equality. Defined.
(** Context.py:195 [uniq] *)
Definition add_new {A} (dec : forall a b : A, {a = b} + {a <> b}) (ys : list A) (z : A) : list A :=
  if in_dec dec z ys then ys else ys ++ [z].
Definition uniq {A} (dec : forall a b : A, {a = b} + {a <> b}) (xs : list A) : list A := fold_left (add_new dec) xs [].

(** ** Constants of the theory *)
Inductive prim := Integer | UnsignedInteger | Real | Boolean | char_ | Character | String_.
Inductive adl_type := Primitive (p : prim) | CType (s : string) | SizedArray (p : prim).
Inductive direction := InParameter | OutParameter | InOutParameter.
Inductive interface := DataportInterface | EventInterface | RPCInterface.
(** Interfaces that have to be connected are InterfaceRequired. *)
Record component := mk_component { c_control : bool; c_hardware : bool;
  c_requires : list (string * (bool * string)); c_provides : list (string * string);
  c_dataports : list (string * string); c_emits : list (string * string); c_consumes : list (string * (bool * string));
  c_attributes : list (string * adl_type) }.
Inductive value :=
| VConnector (hardware : bool) (i : option interface)
| VConnectorSpec (text : string)
| VProcedure (methods : list (option adl_type * string * list (adl_type * direction * string)))
| VEvent (n : nat)
| VDataport (s : string)
| VComponent (c : component)
| VSame (name : string)
| VConnection (type : string) (from to : list (string * string))
| VComposition (components connections groups : list (string * string))
| VConfiguration (settings : option (list (string * string * string)))
| VAssembly (composition configuration : string) (extra : list (string * string * string)).

(** arch-definitions.thy:30-48 [camkes_type] *)
Definition prim_of (t : string) : option prim :=
  if String.eqb t "int" then Some Integer
  else if String.eqb t "unsigned int" then Some UnsignedInteger
  else if String.eqb t "real" then Some Real
  else if String.eqb t "char" then Some char_
  else if String.eqb t "character" then Some Character
  else if String.eqb t "boolean" then Some Boolean
  else if String.eqb t "string" then Some String_
  else None.
Definition camkes_type (t : string) : adl_type := match prim_of t with Some p => Primitive p | None => CType t end.
(** arch-definitions.thy:50-72 [param_type] *)
Definition param_type (p : param) : res adl_type :=
  if pa_array p then
    match prim_of (pa_type p) with
    | Some String_ | None => Err TemplateError
    | Some q => Ok (SizedArray q)
    end
  else Ok (camkes_type (pa_type p)).
(** arch-definitions.thy:145-153 *)
Definition direction_of (d : string) : res direction :=
  if String.eqb d "in" || String.eqb d "refin" then Ok InParameter
  else if String.eqb d "out" then Ok OutParameter
  else if String.eqb d "inout" then Ok InOutParameter
  else Err AssertionError.

(** arch-definitions.thy:92-118 *)
Definition connector_def (k : connector) : res (string * value) :=
  n <- isabelle_adl_ident "connector" (k_name k) ;;
  Ok (n, match k_spec k with
         | Some s => VConnectorSpec s
         | None => VConnector (k_from_hardware k || k_to_hardware k)
             (if String.eqb (k_from_type k) "Dataport" then Some DataportInterface
              else if String.eqb (k_from_type k) "Event" then Some EventInterface
              else if String.eqb (k_from_type k) "Procedure" then Some RPCInterface else None)
         end).
(** arch-definitions.thy:128-162 *)
Definition param_def (p : param) : res (adl_type * direction * string) :=
  t <- param_type p ;; d <- direction_of (pa_dir p) ;; Ok (t, d, pa_name p).
Definition method_def (m : method) : res (option adl_type * string * list (adl_type * direction * string)) :=
  ps <- mapM param_def (me_params m) ;; Ok (option_map camkes_type (me_ret m), me_name m, ps).
Definition procedure_def (p : proc) : res (string * value) :=
  n <- isabelle_adl_ident "procedure" (pr_name p) ;;
  ms <- mapM method_def (pr_methods p) ;; Ok (n, VProcedure ms).
(** arch-definitions.thy:164-173 *)
Definition event_def (x : nat * string) : res (string * value) :=
  n <- isabelle_adl_ident "event" (snd x) ;; Ok (n, VEvent (fst x)).
(** arch-definitions.thy:175-185 *)
Definition dataport_def (t : string) : res (string * value) :=
  n <- isabelle_dataport t ;; Ok (n, VDataport t).

(** objects.py:705-709 [interface_is_exported], for a name.  For dataports and events the template passes
    the interface itself, which is equal to no name. *)
Definition interface_is_exported (c : comp) (i : string) : bool := memb i (co_exports c).
(** arch-definitions.thy:187-262.  What is exported becomes a comment. *)
Definition component_def (c : comp) : res (string * value) :=
  n <- isabelle_adl_ident "instance" (co_name c) ;;
  requires <- mapM (fun '(i, optional, p) => r <- isabelle_adl_ident "procedure" (pr_name p) ;; Ok (i, (negb optional, r)))
    (filter (fun x => negb (interface_is_exported c (fst (fst x)))) (co_uses c)) ;;
  provides <- mapM (fun '(i, p) => r <- isabelle_adl_ident "procedure" (pr_name p) ;; Ok (i, r))
    (filter (fun x => negb (interface_is_exported c (fst x))) (co_provides c)) ;;
  dataports <- mapM (fun '(i, t) => r <- isabelle_dataport t ;; Ok (i, r)) (co_dataports c) ;;
  emits <- mapM (fun '(i, t) => r <- isabelle_adl_ident "event" t ;; Ok (i, r)) (co_emits c) ;;
  consumes <- mapM (fun '(i, optional, t) => r <- isabelle_adl_ident "event" t ;; Ok (i, (negb optional, r))) (co_consumes c) ;;
  Ok (n, VComponent (mk_component (co_control c) (co_hardware c) requires provides dataports emits consumes
    (map (fun '(a, t) => (a, camkes_type t)) (co_attributes c)))).
(** arch-definitions.thy:264-272 *)
Definition instance_def (i : string * comp) : res (string * value) :=
  n <- isabelle_adl_ident "component" (fst i) ;; r <- isabelle_adl_ident "instance" (co_name (snd i)) ;; Ok (n, VSame r).
(** arch-definitions.thy:274-294 *)
Definition connection_def (c : conn) : res (string * value) :=
  n <- isabelle_adl_ident "connection" (cn_name c) ;; k <- isabelle_adl_ident "connector" (k_name (cn_type c)) ;;
  Ok (n, VConnection k (cn_from c) (cn_to c)).

(** arch-definitions.thy:74-90 *)
Definition name_or (n : option string) (dflt : string) : string := match n with Some n => n | None => dflt end.
Definition assembly_name (a : assembly) : string := name_or (as_name a) "assembly'".
Definition composition_name (a : assembly) : string := name_or (as_composition a) "composition'".
Definition configuration_name (a : assembly) : string := name_or (as_configuration a) "configuration'".
(** arch-definitions.thy:296-315 *)
Definition composition_def (a : assembly) : res (string * value) :=
  is <- mapM (fun i => r <- isabelle_adl_ident "component" (fst i) ;; Ok (fst i, r)) (as_instances a) ;;
  cs <- mapM (fun c => r <- isabelle_adl_ident "connection" (cn_name c) ;; Ok (cn_name c, r)) (as_connections a) ;;
  Ok (composition_name a, VComposition is cs (arch_group_labels (as_groups a))).

(** The types whose constants are defined *)
Definition connectors (a : assembly) : list connector := uniq connector_dec (map cn_type (as_connections a)).
Definition procedures (a : assembly) : list proc :=
  uniq proc_dec (flat_map (fun i => map snd (co_uses (snd i)) ++ map snd (co_provides (snd i))) (as_instances a)).
Definition events (a : assembly) : list string :=
  uniq string_dec (flat_map (fun i => map snd (co_emits (snd i)) ++ map snd (co_consumes (snd i))) (as_instances a)).
Definition dataports (a : assembly) : list string :=
  uniq string_dec (flat_map (fun i => map snd (co_dataports (snd i))) (as_instances a)).
Definition components (a : assembly) : list comp := uniq comp_dec (map snd (as_instances a)).

(** The definitions in order: arch-definitions.thy:92-315 and 394-430 *)
Definition arch_theory (a : assembly) : res (list (string * value)) :=
  ks <- mapM connector_def (connectors a) ;;
  ps <- mapM procedure_def (procedures a) ;;
  es <- mapM event_def (combine (seq 0 (List.length (events a))) (events a)) ;;
  ds <- mapM dataport_def (dataports a) ;;
  cs <- mapM component_def (components a) ;;
  is <- mapM instance_def (as_instances a) ;;
  ns <- mapM connection_def (as_connections a) ;;
  c <- composition_def a ;;
  Ok (ks ++ ps ++ es ++ ds ++ cs ++ is ++ ns ++
      [c; (configuration_name a, VConfiguration (as_settings a));
       (assembly_name a, VAssembly (composition_name a) (configuration_name a) (as_extra a))]).

(** arch-definitions.thy:431-438: the constants that the proof of the last lemma is about *)
Definition last_lemma (a : assembly) : list string := ["assembly'"; assembly_name a].
