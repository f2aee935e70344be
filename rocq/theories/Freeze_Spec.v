(** What freezing is expected to guarantee. *)
From Coq Require Import List Bool String ZArith.
From Verif Require Import Prelude Freeze_Model.
Import ListNotations.
Open Scope string_scope.
Open Scope list_scope.

(** ** Compositions *)

(** The (instance, interface) pairs connected by a list of connections, in
    order. *)
Definition used_ends (conns : list connection)
  : list (option instance * interface) :=
  flat_map (fun c => map (fun e => (ce_inst e, ce_if e)) (cn_from c) ++
                     map (fun e => (ce_inst e, ce_if e)) (cn_to c)) conns.

(** Consumes, dataport and uses interfaces not marked "maybe". *)
Definition required (inf : interface) : Prop :=
  (if_kind inf = Consumes \/ if_kind inf = Dataport \/ if_kind inf = Uses) /\
  if_optional inf = false.

(** Interfaces a compound component merely passes on. *)
Definition passed_on (i : instance) (inf : interface) : Prop :=
  exists ds, ci_exports i = Some ds /\ In inf ds.

Definition ends_exist (insts : list instance) (conns : list connection)
  : Prop :=
  forall o inf, In (o, inf) (used_ends conns) ->
  exists i, o = Some i /\ In i insts /\ In inf (ci_ifs i).

Definition well_connected (insts : list instance) (conns : list connection)
  : Prop :=
  ends_exist insts conns /\
  NoDup (used_ends conns) /\
  forall i inf, In i insts -> In inf (ci_ifs i) -> required inf ->
    In (Some i, inf) (used_ends conns) \/ passed_on i inf.

(** ** Connections *)

(** Hardware flag of the component an end belongs to. *)
Definition end_is_hw (c : connection) (e : cend) (h : bool) : Prop :=
  match ce_inst e with
  | Some i => ci_hw i = h
  | None => cn_enclosing c = Some h
  end.

Definition from_side (ct : option ckind) (k : ikind) : Prop :=
  (k = Emits \/ k = Uses \/ k = Dataport) /\
  (ct = Some CEvent -> k = Emits) /\
  (ct = Some CProcedure -> k = Uses) /\
  (ct = Some CDataport -> k = Dataport).
Definition to_side (ct : option ckind) (k : ikind) : Prop :=
  (k = Consumes \/ k = Provides \/ k = Dataport) /\
  (ct = Some CEvent -> k = Consumes) /\
  (ct = Some CProcedure -> k = Provides) /\
  (ct = Some CDataport -> k = Dataport).

(** The connector declares an attribute "disable_interface_type_checking"
    with a true default. *)
Definition check_is_off (ct : connector) : Prop :=
  exists attrs, ct_attrs ct = Some attrs /\
    dget attrs "disable_interface_type_checking" = Some true.

Definition well_typed_connection (c : connection) : Prop :=
  cn_from c <> [] /\ cn_to c <> [] /\
  (ct_from_multiple (cn_type c) = false -> exists e, cn_from c = [e]) /\
  (ct_to_multiple (cn_type c) = false -> exists e, cn_to c = [e]) /\
  (check_is_off (cn_type c) \/
   forall e e', In e (cn_from c ++ cn_to c) -> In e' (cn_from c ++ cn_to c) ->
     if_type (ce_if e) = if_type (ce_if e')) /\
  (forall e, In e (cn_from c) ->
     from_side (ct_from (cn_type c)) (if_kind (ce_if e)) /\
     end_is_hw c e (ct_from_hw (cn_type c))) /\
  (forall e, In e (cn_to c) ->
     to_side (ct_to (cn_type c)) (if_kind (ce_if e)) /\
     end_is_hw c e (ct_to_hw (cn_type c))).

(** ** Configurations *)

(** The value of attribute [a] of instance [i] in an accepted configuration:
    the setting if there is one, else the declared default. *)
Definition is_set {V} (settings : list (string * string * V))
    (i a : string) (v : V) : Prop := In (i, a, v) settings.
Definition has_default {V} (insts : list (string * list (string * option V)))
    (i a : string) (v : V) : Prop :=
  exists attrs, In (i, attrs) insts /\ In (a, Some v) attrs.

(** ** Values *)

(** A value belongs to a declared type. *)
Definition name_holds (s : string) (v : value) : Prop :=
  match v with
  | VInt _ => s = "int" \/ s = "uint64_t" \/ s = "int64_t"
  | VFloat _ => s = "double" \/ s = "float"
  | VStr _ => s = "string"
  | VList _ => s = "list"
  | VDict _ => s = "dict"
  | VTuple _ | VOther => False
  end.

Inductive typed : attr -> value -> Prop :=
| typed_single n ty dflt v : typed1 ty v -> typed (Attr n ty false dflt) v
| typed_array n ty dflt l : Forall (typed1 ty) l ->
    typed (Attr n ty true dflt) (VList l)
with typed1 : atype -> value -> Prop :=
| typed_name s v : name_holds s v -> typed1 (ATName s) v
| typed_struct attrs d :
    (forall x, In x attrs ->
       exists w, dget d (attr_name x) = Some w /\ typed x w) ->
    typed1 (ATStruct attrs) (VDict d).

(** Values the specification language can write: no tuples or foreign
    objects. *)
Inductive plain : value -> Prop :=
| pl_int z : plain (VInt z)
| pl_float q : plain (VFloat q)
| pl_str s : plain (VStr s)
| pl_list l : Forall plain l -> plain (VList l)
| pl_dict d : Forall (fun kv => plain (snd kv)) d -> plain (VDict d).

Inductive plain_attr : attr -> Prop :=
| pa_attr n ty arr dflt :
    (forall v, dflt = Some v -> plain v) -> plain_type ty ->
    plain_attr (Attr n ty arr dflt)
with plain_type : atype -> Prop :=
| pt_name s : plain_type (ATName s)
| pt_struct l : (forall x, In x l -> plain_attr x) ->
    NoDup (map attr_name l) -> plain_type (ATStruct l).

(** [v'] is [v] with the missing fields of structs replaced by their defaults, everywhere,
    and nothing else changed. *)
Inductive completed : attr -> value -> value -> Prop :=
| cp_single n ty dflt v v' : completed1 ty v v' ->
    completed (Attr n ty false dflt) v v'
| cp_list n ty dflt l l' : Forall2 (completed1 ty) l l' ->
    completed (Attr n ty true dflt) (VList l) (VList l')
with completed1 : atype -> value -> value -> Prop :=
| cp_name s v : completed1 (ATName s) v v
| cp_struct attrs d d' :
    (forall x, In x attrs -> exists w w',
       (dget d (attr_name x) = Some w \/
        dget d (attr_name x) = None /\ attr_default x = Some w) /\
       dget d' (attr_name x) = Some w' /\ completed x w w') ->
    (forall k, ~ In k (map attr_name attrs) -> dget d' k = dget d k) ->
    completed1 (ATStruct attrs) (VDict d) (VDict d').

(** The value of attribute [a] of instance [i] in a configuration. *)
Definition value_at {V} (m : dict string (dict string V)) (i a : string)
  : option V :=
  match dget m i with Some d => dget d a | None => None end.

(** The values a C program can hold in an attribute of that type. *)
Definition in_range (type : string) (v : value) : Prop :=
  match v with
  | VInt z => type = "uint64_t" -> (0 <= z < 2 ^ 64)%Z
  | _ => True
  end.

(** ** Names *)

(** The keywords of C11 (ISO/IEC 9899:2011, 6.4.1). *)
Definition c11_keywords : list string :=
  ["auto"; "break"; "case"; "char"; "const"; "continue"; "default"; "do";
   "double"; "else"; "enum"; "extern"; "float"; "for"; "goto"; "if"; "inline";
   "int"; "long"; "register"; "restrict"; "return"; "short"; "signed";
   "sizeof"; "static"; "struct"; "switch"; "typedef"; "union"; "unsigned";
   "void"; "volatile"; "while"; "_Alignas"; "_Alignof"; "_Atomic"; "_Bool";
   "_Complex"; "_Generic"; "_Imaginary"; "_Noreturn"; "_Static_assert";
   "_Thread_local"].

(** The list of forbidden names in the code (C keywords, including common compiler
    extensions). *)
Definition usable (name : string) : Prop := ~ In name c_keywords.

Definition good_method (m : string * list string) : Prop :=
  usable (fst m) /\ NoDup (snd m) /\ forall p, In p (snd m) -> usable p.
Definition good_procedure (p : procedure_names) : Prop :=
  (forall m, In m (pr_methods p) -> good_method m) /\
  (forall a, In a (pr_attrs p) -> usable a) /\
  NoDup (map fst (pr_methods p) ++ pr_attrs p).
Definition good_component (c : component_names) : Prop :=
  ~ (co_control c = true /\ co_hardware c = true) /\
  (co_hardware c = true -> co_mutexes c = [] /\ co_semaphores c = []) /\
  (forall a, In a (co_attrs c) -> usable a) /\
  NoDup (co_attrs c ++ co_interfaces c ++ co_mutexes c ++
         co_semaphores c ++ co_binary_semaphores c ++ co_others c).

(** ** A small system for the examples *)
Definition ex_out := Interface Uses "out" (TProcedure 7) false.
Definition ex_ev := Interface Consumes "ev" (TName "Tick") true.
Definition ex_in := Interface Provides "inp" (TProcedure 7) false.
Definition ex_client := Instance "client" "0" false [ex_out; ex_ev] None 1.
Definition ex_server := Instance "server" "0" false [ex_in] None 2.
Definition ex_rpc := Connector (Some CProcedure) (Some CProcedure) false false
  false false (Some []).
Definition ex_conn := Connection ex_rpc [CEnd (Some ex_client) ex_out]
  [CEnd (Some ex_server) ex_in] None.
