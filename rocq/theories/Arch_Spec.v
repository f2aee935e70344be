(** What the generated description of an architecture has to say. *)
From Coq Require Import List String Ascii Bool NArith Permutation.
From Verif Require Import Prelude DecStr Isabelle_Spec Arch_Model.
Import ListNotations.
Open Scope string_scope. Open Scope list_scope.

(** ** A theory that can be read: constants before their use *)
(** The constants that a definition mentions *)
Definition mentions (v : value) : list string :=
  match v with
  | VConnector _ _ | VConnectorSpec _ | VProcedure _ | VEvent _ | VDataport _ | VConfiguration _ => []
  | VComponent c => map (fun x => snd (snd x)) (c_requires c) ++ map snd (c_provides c) ++ map snd (c_dataports c) ++
      map snd (c_emits c) ++ map (fun x => snd (snd x)) (c_consumes c)
  | VSame n => [n]
  | VConnection k _ _ => [k]
  | VComposition is cs _ => map snd is ++ map snd cs
  | VAssembly c f _ => [c; f]
  end.
Fixpoint in_order (defined : list string) (th : list (string * value)) : Prop :=
  match th with
  | [] => True
  | (x, v) :: th => incl (mentions v) defined /\ in_order (x :: defined) th
  end.

(** ** What the constants say, against the specification *)
Definition primitive_names : list string := ["int"; "unsigned int"; "real"; "char"; "character"; "boolean"; "string"].
Definition prim_name (p : prim) : string :=
  match p with
  | Integer => "int" | UnsignedInteger => "unsigned int" | Real => "real" | char_ => "char" | Character => "character"
  | Boolean => "boolean" | String_ => "string"
  end.
(** A type of the theory stands for a type of the language, or an array of it. *)
Definition stands_for (t : adl_type) (name : string) (array : bool) : Prop :=
  match t with
  | Primitive p => name = prim_name p /\ array = false
  | CType s => name = s /\ array = false /\ ~ In s primitive_names
  | SizedArray p => name = prim_name p /\ array = true
  end.
Definition direction_words (d : direction) : list string :=
  match d with InParameter => ["in"; "refin"] | OutParameter => ["out"] | InOutParameter => ["inout"] end.
Definition describes_param (p : param) (x : adl_type * direction * string) : Prop :=
  let '(t, d, n) := x in n = pa_name p /\ stands_for t (pa_type p) (pa_array p) /\ In (pa_dir p) (direction_words d).
Definition describes_method (m : method) (x : option adl_type * string * list (adl_type * direction * string)) : Prop :=
  let '(r, n, ps) := x in n = me_name m /\
  match r, me_ret m with Some t, Some s => stands_for t s false | None, None => True | _, _ => False end /\
  Forall2 describes_param (me_params m) ps.
Definition describes_procedure (p : proc) (v : value) : Prop :=
  exists ms, v = VProcedure ms /\ Forall2 describes_method (pr_methods p) ms.
Definition interface_word (i : option interface) : string -> Prop := fun w =>
  match i with
  | Some DataportInterface => w = "Dataport" | Some EventInterface => w = "Event" | Some RPCInterface => w = "Procedure"
  | None => ~ In w ["Dataport"; "Event"; "Procedure"]
  end.
Definition describes_connector (k : connector) (v : value) : Prop :=
  match v with
  | VConnectorSpec s => k_spec k = Some s
  | VConnector hw i => k_spec k = None /\ (hw = true <-> k_from_hardware k = true \/ k_to_hardware k = true) /\
      interface_word i (k_from_type k)
  | _ => False
  end.
(** The procedures that a component uses or provides itself, and not through a component inside it *)
Definition own_uses (c : comp) := filter (fun x => negb (existsb (String.eqb (fst (fst x))) (co_exports c))) (co_uses c).
Definition own_provides (c : comp) := filter (fun x => negb (existsb (String.eqb (fst x)) (co_exports c))) (co_provides c).

Section Theory.
(** The constants, and the type of event for each number *)
Variable th : dict string value.
Variable es : list string.
Definition describes_event (t r : string) : Prop := exists n, dget th r = Some (VEvent n) /\ nth_error es n = Some t.
Definition describes_component (c : comp) (d : component) : Prop :=
  c_control d = co_control c /\ c_hardware d = co_hardware c /\
  Forall2 (fun '(i, optional, p) '(j, (required, r)) => j = i /\ required = negb optional /\
    exists v, dget th r = Some v /\ describes_procedure p v) (own_uses c) (c_requires d) /\
  Forall2 (fun '(i, p) '(j, r) => j = i /\ exists v, dget th r = Some v /\ describes_procedure p v) (own_provides c) (c_provides d) /\
  Forall2 (fun '(i, t) '(j, r) => j = i /\ dget th r = Some (VDataport t)) (co_dataports c) (c_dataports d) /\
  Forall2 (fun '(i, t) '(j, r) => j = i /\ describes_event t r) (co_emits c) (c_emits d) /\
  Forall2 (fun '(i, optional, t) '(j, (required, r)) => j = i /\ required = negb optional /\ describes_event t r)
    (co_consumes c) (c_consumes d) /\
  Forall2 (fun '(i, t) '(j, u) => j = i /\ stands_for u t false) (co_attributes c) (c_attributes d).
Definition describes_assembly (a : assembly) (name : string) : Prop :=
  exists c f is cs gs, dget th name = Some (VAssembly c f (as_extra a)) /\
    dget th f = Some (VConfiguration (as_settings a)) /\
    dget th c = Some (VComposition is cs gs) /\
    Permutation gs (as_groups a) /\
    Forall2 (fun '(n, t) '(m, r) => m = n /\ exists r' d, dget th r = Some (VSame r') /\
      dget th r' = Some (VComponent d) /\ describes_component t d) (as_instances a) is /\
    Forall2 (fun n '(m, r) => m = cn_name n /\ exists k v, dget th r = Some (VConnection k (cn_from n) (cn_to n)) /\
      dget th k = Some v /\ describes_connector (cn_type n) v) (as_connections a) cs.
End Theory.

(** ** Assemblies that the earlier stages let through *)
Definition all_procs (a : assembly) : list proc :=
  flat_map (fun i => map snd (co_uses (snd i)) ++ map snd (co_provides (snd i))) (as_instances a).
Definition all_events (a : assembly) : list string :=
  flat_map (fun i => map snd (co_emits (snd i)) ++ map snd (co_consumes (snd i))) (as_instances a).
Definition all_dataports (a : assembly) : list string := flat_map (fun i => map snd (co_dataports (snd i))) (as_instances a).
Definition by_name {A} (name : A -> string) (l : list A) : Prop := forall x y, In x l -> In y l -> name x = name y -> x = y.

(** Names are made of identifiers; a name is the name of one thing. *)
Record named (a : assembly) : Prop := mk_named {
  nm_names : Forall hierarchical (map fst (as_instances a) ++ map cn_name (as_connections a) ++
    map (fun c => k_name (cn_type c)) (as_connections a) ++ map (fun i => co_name (snd i)) (as_instances a) ++
    map pr_name (all_procs a) ++ all_events a);
  nm_dataports : Forall dataport_type (all_dataports a);
  nm_instances : NoDup (map fst (as_instances a));
  nm_connections : NoDup (map cn_name (as_connections a));
  nm_connectors : by_name k_name (map cn_type (as_connections a));
  nm_components : by_name co_name (map snd (as_instances a));
  nm_procedures : by_name pr_name (all_procs a);
  (* no dataport type is called Buf_4096 next to a buffer of 4096 bytes *)
  nm_buffers : forall n, In (sized_buffer n) (all_dataports a) -> ~ In ("Buf_" ++ dec n)%string (all_dataports a) }.
(** The names of the assembly, its composition and its configuration are none of the names that the template makes. *)
Definition own_names (a : assembly) : Prop :=
  let l := [assembly_name a; composition_name a; configuration_name a] in
  NoDup l /\ forall n k s, In n l -> In k named_kinds -> n <> (k ++ "__" ++ s)%string.
(** What the template can print *)
Definition printable (a : assembly) : Prop := forall p m x, In p (all_procs a) -> In m (pr_methods p) -> In x (me_params m) ->
  In (pa_dir x) ["in"; "refin"; "out"; "inout"] /\
  (pa_array x = true -> In (pa_type x) ["int"; "unsigned int"; "real"; "char"; "character"; "boolean"]).

(** Every interface is in at most one connection, and in one if it has to be (checked when the AST is frozen). *)
Definition ends (a : assembly) : list (string * string) := flat_map (fun c => cn_from c ++ cn_to c) (as_connections a).
Definition connected (a : assembly) : Prop :=
  NoDup (ends a) /\
  forall n c i p, In (n, c) (as_instances a) -> In (i, false, p) (own_uses c) -> In (n, i) (ends a).
(** The interfaces that a description lists, and those of a component that are its own *)
Definition listed (d : component) : list string := map fst (c_requires d) ++ map fst (c_provides d) ++ map fst (c_dataports d) ++
  map fst (c_emits d) ++ map fst (c_consumes d).
Definition interfaces (c : comp) : list string := map (fun x => fst (fst x)) (own_uses c) ++ map fst (own_provides c) ++
  map fst (co_dataports c) ++ map fst (co_emits c) ++ map (fun x => fst (fst x)) (co_consumes c).
(** Connections end at interfaces of instances, and not at those that stand for an interface further inside. *)
Definition ends_exist (a : assembly) : Prop := forall n i, In (n, i) (ends a) -> exists c, In (n, c) (as_instances a) /\ In i (interfaces c).

(** ** A small system *)
Definition greet : proc := mk_proc "Greet" [mk_method "hello" (Some "int")
  [mk_param "who" "refin" "string" false; mk_param "n" "inout" "int" true; mk_param "t" "out" "time_t" false]].
Definition client : comp := mk_comp "Client" true false [("p", false, greet); ("q", true, greet)] [] [("d", "Buf(4096)")] [("e", "Tick")] []
  [("speed", "unsigned int")] [].
Definition server : comp := mk_comp "Server" false false [] [("p", greet)] [("d", "Buf(4096)"); ("x", "Ring")] [] [("e", true, "Tick"); ("f", false, "Tock")] [] ["x"].
Definition rpc : connector := mk_connector "seL4RPCCall" false false "Procedure" None.
Definition shm : connector := mk_connector "seL4SharedData" false false "Dataport" None.
Definition small (name composition : option string) : assembly := mk_assembly name composition None
  [("c1", client); ("s.one", server)] [mk_conn "r" rpc [("c1", "p")] [("s.one", "p")]; mk_conn "s.m" shm [("c1", "d")] [("s.one", "d")]]
  [("r", "g"); ("c1", "g")] (Some [("c1", "speed", "3")]) [("c1", "Read", "s.one")].
(** Nothing runs in it. *)
Definition idle : assembly := mk_assembly None None None [("s", server)] [] [] None [].
(** A procedure with an array of a C type *)
Definition sums : comp := mk_comp "Sums" true false [] [("p", mk_proc "Sum" [mk_method "sum" None [mk_param "xs" "in" "uint8_t" true]])] [] [] [] [] [].
Definition unprintable : assembly := mk_assembly None None None [("a", sums)] [] [] None [].
