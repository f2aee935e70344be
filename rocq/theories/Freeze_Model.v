(** The checks made while a parsed specification is frozen:
    Composition.freeze, Connection.freeze, Configuration.freeze,
    Assembly.freeze and types_compatible of camkes/ast/objects.py.
    Only what decides acceptance and the resulting configuration is modelled;
    error messages, logging and the conversion of lists to tuples are not.
    Exceptions: [ASTError] is a diagnosed rejection, anything else a crash
    ([OtherException] stands for Python's AttributeError). *)
From Coq Require Import List Bool String ZArith.
From Verif Require Import Prelude.
Import ListNotations.
Open Scope string_scope.
Open Scope list_scope.

(** ** Interfaces, instances, connections *)

(** The five subclasses of Interface (objects.py:716-778). *)
Inductive ikind := Emits | Uses | Dataport | Consumes | Provides.

(** The type of an interface: a procedure (identified by a number standing for
    its structure) or a string (events and dataports). *)
Inductive iftype := TProcedure (p : N) | TName (s : string).

(** [if_optional] is meaningless for emits and provides, which have no such
    field. *)
Record interface := Interface {
  if_kind : ikind; if_name : string; if_type : iftype; if_optional : bool }.

(** What the checks look at in an instance.  [ci_ifs] is the chain of
    consumes, dataports, emits, provides and uses of its type; [ci_exports] the
    destinations of the exports of its type's composition, if it has one;
    [ci_rest] stands for all the other fields compared by ASTObject.__eq__.
    Python's structural equality is Coq's equality of these records. *)
Record instance := Instance {
  ci_name : string; ci_addr : string; ci_hw : bool; ci_ifs : list interface;
  ci_exports : option (list interface); ci_rest : N }.

Definition ikind_eq_dec (a b : ikind) : {a = b} + {a <> b}.
Proof. decide equality. Defined.
Definition iftype_eq_dec (a b : iftype) : {a = b} + {a <> b}.
Proof. decide equality; auto using string_dec, N.eq_dec. Defined.
Definition interface_eq_dec (a b : interface) : {a = b} + {a <> b}.
Proof.
  decide equality;
  auto using string_dec, Bool.bool_dec, ikind_eq_dec, iftype_eq_dec.
Defined.
Definition instance_eq_dec (a b : instance) : {a = b} + {a <> b}.
Proof.
  decide equality; auto using string_dec, Bool.bool_dec, N.eq_dec.
  - decide equality. apply list_eq_dec, interface_eq_dec.
  - apply list_eq_dec, interface_eq_dec.
Defined.

(** A connection end (objects.py:958-1003); the instance is None for an end
    that is an interface of the enclosing component. *)
Record cend := CEnd { ce_inst : option instance; ce_if : interface }.

Definition pair_eq_dec (a b : option instance * interface)
  : {a = b} + {a <> b}.
Proof.
  decide equality; [apply interface_eq_dec|].
  decide equality. apply instance_eq_dec.
Defined.
Definition end_pair (e : cend) : option instance * interface :=
  (ce_inst e, ce_if e).
Definition pin (p : option instance * interface)
    (l : list (option instance * interface)) : bool :=
  if in_dec pair_eq_dec p l then true else false.

(** Connectors (objects.py:797-841).  [ct_attrs] maps attribute names to the
    truth value of the default; None is a connector built without an attribute
    list. *)
Inductive ckind := CEvent | CProcedure | CDataport.
Record connector := Connector {
  ct_from : option ckind; ct_to : option ckind;
  ct_from_multiple : bool; ct_to_multiple : bool;
  ct_from_hw : bool; ct_to_hw : bool;
  ct_attrs : option (list (string * bool)) }.

(** [cn_enclosing] is the hardware flag of the component whose composition
    contains the connection, None if it is in an assembly. *)
Record connection := Connection {
  cn_type : connector; cn_from : list cend; cn_to : list cend;
  cn_enclosing : option bool }.

(** ** Composition.freeze (objects.py:269-313)

    The checks, made only for the composition of an assembly. *)
Definition all_interfaces (insts : list instance)
  : list (option instance * interface) :=
  flat_map (fun i => map (fun inf => (Some i, inf)) (ci_ifs i)) insts.

(** Lines 281-293: one end moves from unconnected to connected. *)
Definition connect_end (st : list (option instance * interface) *
                             list (option instance * interface)) (e : cend)
  : res (list (option instance * interface) *
         list (option instance * interface)) :=
  let (unconnected, connected) := st in
  if pin (end_pair e) connected then Err ASTError
  else if pin (end_pair e) unconnected then
    Ok (remove pair_eq_dec (end_pair e) unconnected,
        end_pair e :: connected)
  else Err AssertionError.

(** Lines 294-297: interfaces that have to be connected. *)
Definition mandatory (inf : interface) : bool :=
  match if_kind inf with
  | Emits | Provides => false
  | _ => negb (if_optional inf)
  end.
(** Lines 303-306: virtual interfaces of a compound component. *)
Definition exports_it (i : instance) (inf : interface) : bool :=
  match ci_exports i with
  | None => false
  | Some ds => if in_dec interface_eq_dec inf ds then true else false
  end.
Definition unacceptable (p : option instance * interface) : bool :=
  match p with
  | (Some i, inf) => mandatory inf && negb (exports_it i inf)
  | (None, _) => false
  end.

Definition all_ends (conns : list connection) : list cend :=
  flat_map (fun c => cn_from c ++ cn_to c) conns.

Definition check_composition (insts : list instance)
    (conns : list connection) : res unit :=
  st <- foldM connect_end (all_ends conns) (all_interfaces insts, []) ;;
  if existsb unacceptable (fst st) then Err ASTError else Ok tt.

(** ** Connection.freeze (objects.py:399-501) *)

(** ConnectionEnd.get_end_type().hardware (objects.py:985-1000). *)
Definition end_hardware (c : connection) (e : cend) : res bool :=
  match ce_inst e with
  | Some i => Ok (ci_hw i)
  | None => match cn_enclosing c with
            | Some h => Ok h
            | None => Err AssertionError
            end
  end.

(** Raising an error whose message mentions the name of the end's instance:
    crashes if there is none. *)
Definition blame (e : cend) : exn :=
  match ce_inst e with Some _ => ASTError | None => OtherException end.

(** Lines 425-462. *)
Definition from_kind (k : ikind) : bool :=
  match k with Emits | Uses | Dataport => true | _ => false end.
Definition from_type_ok (ct : option ckind) (k : ikind) : bool :=
  match ct with
  | Some CEvent => match k with Emits => true | _ => false end
  | Some CProcedure => match k with Uses => true | _ => false end
  | Some CDataport => match k with Dataport => true | _ => false end
  | None => true
  end.
Definition check_from (c : connection) (f : cend) : res unit :=
  if negb (from_kind (if_kind (ce_if f))) then Err ASTError
  else
    h <- end_hardware c f ;;
    if xorb (ct_from_hw (cn_type c)) h then Err (blame f)
    else if negb (from_type_ok (ct_from (cn_type c)) (if_kind (ce_if f)))
    then Err (blame f)
    else Ok tt.

(** Lines 463-501. *)
Definition to_kind (k : ikind) : bool :=
  match k with Consumes | Provides | Dataport => true | _ => false end.
Definition to_type_ok (ct : option ckind) (k : ikind) : bool :=
  match ct with
  | Some CEvent => match k with Consumes => true | _ => false end
  | Some CProcedure => match k with Provides => true | _ => false end
  | Some CDataport => match k with Dataport => true | _ => false end
  | None => true
  end.
Definition check_to (c : connection) (t : cend) : res unit :=
  if negb (to_kind (if_kind (ce_if t))) then Err ASTError
  else
    h <- end_hardware c t ;;
    if xorb (ct_to_hw (cn_type c)) h then Err (blame t)
    else if negb (to_type_ok (ct_to (cn_type c)) (if_kind (ce_if t)))
    then Err (blame t)
    else Ok tt.

(** Connector.get_attribute (objects.py:837-841) and the truth of its
    default. *)
Definition type_check_disabled (ct : connector) : res bool :=
  match ct_attrs ct with
  | None => Err TypeError
  | Some attrs =>
      Ok (match dget attrs "disable_interface_type_checking" with
          | Some b => b | None => false end)
  end.

Definition end_type (e : cend) : iftype := if_type (ce_if e).

Fixpoint forM {A} (f : A -> res unit) (l : list A) : res unit :=
  match l with
  | [] => Ok tt
  | x :: l' => _ <- f x ;; forM f l'
  end.

(** The checks in order (lines 405-501). *)
Definition check_connection (c : connection) : res unit :=
  let ct := cn_type c in
  if Nat.eqb (List.length (cn_from c)) 0 then Err ASTError
  else if Nat.eqb (List.length (cn_to c)) 0 then Err ASTError
  else if Nat.ltb 1 (List.length (cn_from c)) && negb (ct_from_multiple ct)
  then Err ASTError
  else if Nat.ltb 1 (List.length (cn_to c)) && negb (ct_to_multiple ct)
  then Err ASTError
  else
    let types := nodup iftype_eq_dec (map end_type (cn_from c ++ cn_to c)) in
    off <- type_check_disabled ct ;;
    if Nat.ltb 1 (List.length types) && negb off then Err ASTError
    else
      _ <- forM (check_from c) (cn_from c) ;;
      forM (check_to c) (cn_to c).

(** The method itself (lines 399-405): it returns at once if the object is
    frozen, and marks the object frozen before making the checks.  The result
    is the new value of the flag and the outcome.  (The ends freeze without
    error.) *)
Definition freeze_connection (frozen : bool) (c : connection)
  : bool * res unit :=
  if frozen then (true, Ok tt) else (true, check_connection c).

(** ** Configuration.freeze (objects.py:327-354) *)
Section Config.
Context {V : Type}.

(** instance, attribute, value *)
Definition setting := (string * string * V)%type.
(** name and declared attributes (name, default) of an instance *)
Definition inst_attrs := (string * list (string * option V))%type.

Definition mapping := dict string (dict string V).
Definition mget (m : mapping) (i a : string) : option V :=
  match dget m i with None => None | Some d => dget d a end.
(** [m[i][a] = v] on a defaultdict. *)
Definition mset (m : mapping) (i a : string) (v : V) : mapping :=
  match dget m i with
  | None => dset m i [(a, v)]
  | Some d => dset m i (dset d a v)
  end.

(** Lines 334-338. *)
Definition add_setting (m : mapping) (s : setting) : res mapping :=
  let '(i, a, v) := s in
  match mget m i a with
  | Some _ => Err ASTError
  | None => Ok (mset m i a v)
  end.
(** Lines 347-354. *)
Definition add_default (m : mapping) (x : string * (string * option V))
  : mapping :=
  let '(i, (a, d)) := x in
  match mget m i a, d with
  | None, Some v => mset m i a v
  | _, _ => m
  end.
Definition declared (insts : list inst_attrs)
  : list (string * (string * option V)) :=
  flat_map (fun x => map (fun ad => (fst x, ad)) (snd x)) insts.
(** [insts] is None unless the parent is an assembly. *)
Definition freeze_configuration (insts : option (list inst_attrs))
    (settings : list setting) : res mapping :=
  m <- foldM add_setting settings [] ;;
  Ok (match insts with
      | None => m
      | Some is => fold_left add_default (declared is) m
      end).
End Config.

(** ** Attribute types: types_compatible (objects.py:36-80) *)

(** Python values of settings.  [VOther] is any other object. *)
Inductive value :=
| VInt (z : Z)
| VFloat (q : Z)       (* some representation of a double *)
| VStr (s : string)
| VList (l : list value)
| VTuple (l : list value)
| VDict (d : list (string * value))
| VOther.

(** Attributes and their types (objects.py:926-952, 579-596). *)
Inductive attr :=
| Attr (name : string) (ty : atype) (array : bool) (default : option value)
with atype :=
| ATName (s : string)
| ATStruct (attrs : list attr).

Definition attr_name (a : attr) : string :=
  match a with Attr n _ _ _ => n end.
Definition attr_default (a : attr) : option value :=
  match a with Attr _ _ _ d => d end.

(** Lines 46-57: rejections for a type given by name. *)
Definition scalar_ok (v : value) (type : string) : bool :=
  match v with
  | VInt _ => memb type ["int"; "uint64_t"; "int64_t"]
  | VFloat _ => memb type ["double"; "float"]
  | VStr _ => memb type ["string"]
  | VList _ => memb type ["list"]
  | VDict _ => memb type ["dict"]
  | VTuple _ | VOther => true
  end.

(** Lines 60-72: missing fields of a struct value get their default. *)
Definition fill_default (d : list (string * value)) (a : attr)
  : list (string * value) :=
  match dget d (attr_name a), attr_default a with
  | None, Some v => dset d (attr_name a) v
  | _, _ => d
  end.

(** The result: None when incompatible, otherwise the value as it is after
    defaults were filled in (in place).  A default that is filled in is the
    very object of the declaration, so nested filling also writes to the
    declaration; this is not modelled. *)
Fixpoint types_compatible (a : attr) (v : value) {struct a}
  : res (option value) :=
  match a with
  | Attr _ ty array _ =>
      let fix fields (l : list attr) (d : list (string * value))
        : res (option (list (string * value))) :=
        match l with
        | [] => Ok (Some d)
        | x :: l' =>
            match dget d (attr_name x) with
            | None => Err KeyError
            | Some w =>
                r <- types_compatible x w ;;
                match r with
                | None => Ok None
                | Some w' => fields l' (dset d (attr_name x) w')
                end
            end
        end in
      let one (v : value) : res (option value) :=
        match ty with
        | ATName s => Ok (if scalar_ok v s then Some v else None)
        | ATStruct l =>
            match v with
            | VDict d =>
                r <- fields l (fold_left fill_default l d) ;;
                Ok (match r with None => None | Some d' => Some (VDict d') end)
            | _ => Err OtherException
            end
        end in
      let fix each (vs : list value) : res (option (list value)) :=
        match vs with
        | [] => Ok (Some [])
        | v :: vs' =>
            r <- one v ;;
            match r with
            | None => Ok None
            | Some v' =>
                r' <- each vs' ;;
                Ok (match r' with
                    | None => None | Some vs'' => Some (v' :: vs'') end)
            end
        end in
      if array then
        match v with
        | VList l =>
            r <- each l ;;
            Ok (match r with None => None | Some l' => Some (VList l') end)
        | VTuple l =>
            r <- each l ;;
            Ok (match r with None => None | Some l' => Some (VTuple l') end)
        | _ => Err AssertionError
        end
      else one v
  end.

(** Assembly.freeze (objects.py:184-203): each setting of a declared attribute
    is checked; the settings afterwards.  Instances are given by name and
    declared attributes. *)
Definition find_attr (insts : list (string * list attr)) (i a : string)
  : option attr :=
  match dget insts i with
  | None => None
  | Some l => find (fun x => eqb (attr_name x) a) l
  end.
Definition check_setting (insts : list (string * list attr))
    (s : string * string * value) : res (string * string * value) :=
  let '(i, a, v) := s in
  match find_attr insts i a with
  | None => Ok s
  | Some x =>
      r <- types_compatible x v ;;
      match r with
      | None => Err ASTError
      | Some v' => Ok (i, a, v')
      end
  end.
Definition check_settings (insts : list (string * list attr))
    (settings : list (string * string * value))
  : res (list (string * string * value)) :=
  mapM (check_setting insts) settings.

(** Assembly.freeze as a whole, as far as settings are concerned: the type
    checks, then (through the children) Configuration.freeze. *)
Definition freeze_settings (insts : list (string * list attr))
    (settings : list (string * string * value))
  : res (@mapping value) :=
  ss <- check_settings insts settings ;;
  freeze_configuration
    (Some (map (fun x => (fst x, map (fun a => (attr_name a, attr_default a))
                                   (snd x))) insts)) ss.

(** ** Names: Method, Parameter, Attribute, Procedure, Component *)

(** C_KEYWORDS (ckeywords.py:17-41), a set. *)
Definition c_keywords : list string :=
  [
    "auto"; "break"; "case"; "char"; "const"; "continue"; "default"; "do";
    "double"; "else"; "enum"; "extern"; "float"; "for"; "goto"; "if";
    "inline"; "int"; "long"; "register"; "restrict"; "return"; "short";
    "signed"; "sizeof"; "static"; "struct"; "switch"; "typedef"; "union";
    "unsigned"; "void"; "volatile"; "while"; "_Alignas"; "_Alignof";
    "_Atomic"; "_Bool"; "_Complex"; "_Generic"; "_Imaginary"; "_Noreturn";
    "_Static_assert"; "_Thread_local"; "__func__"; "__objc_yes"; "__objc_no";
    "asm"; "_Bool"; "wchar_t"; "_Decimal32"; "_Decimal64"; "_Decimal128";
    "__alignof"; "__attribute"; "__builtin_choose_expr"; "__builtin_offsetof";
    "__builtin_types_compatible_p"; "__builtin_va_arg"; "__extension__";
    "__imag"; "__int128"; "__label__"; "__real"; "__thread"; "__FUNCTION__";
    "__PRETTY_FUNCTION__"; "typeof"; "__private_extern__";
    "__module_private__"; "__declspec"; "__cdecl"; "__stdcall"; "__fastcall";
    "__thiscall"; "__vectorcall"; "__pascal"; "__fp16"; "__alignof__";
    "__asm"; "__asm__"; "__attribute__"; "__complex"; "__complex__";
    "__const"; "__const__"; "__imag__"; "__inline"; "__inline__"; "__real__";
    "__restrict"; "__restrict__"; "__signed"; "__signed__"; "__typeof";
    "__typeof__"; "__volatile"; "__volatile__"; "__builtin_convertvector";
    "__unknown_anytype" ].

(** Attribute.freeze and Parameter.freeze (objects.py:947-953, 968-974). *)
Definition check_keyword (name : string) : res unit :=
  if memb name c_keywords then Err ASTError else Ok tt.

(** Method.freeze, lines 910-915: distinct parameter names. *)
Fixpoint distinct_names (seen names : list string) : res unit :=
  match names with
  | [] => Ok tt
  | n :: names' =>
      if memb n seen then Err ASTError else distinct_names (n :: seen) names'
  end.

(** A method: its name and the names of its parameters. *)
Definition method_names := (string * list string)%type.
(** Method.freeze (objects.py:904-917): everything is checked before the
    object is marked frozen.  Whether a parameter is already frozen makes no
    difference: its check depends on its name only, and a parameter that
    failed stays unfrozen. *)
Definition check_method (m : method_names) : res unit :=
  _ <- check_keyword (fst m) ;;
  _ <- distinct_names [] (snd m) ;;
  forM check_keyword (snd m).
Definition freeze_method (frozen : bool) (m : method_names)
  : bool * res unit :=
  if frozen then (true, Ok tt)
  else match check_method m with
       | Ok _ => (true, Ok tt)
       | Err e => (false, Err e)
       end.

(** A procedure: methods and attribute names. *)
Record procedure_names := ProcedureNames {
  pr_methods : list method_names; pr_attrs : list string }.
(** MapLike.freeze (base.py:271-291) on a procedure: the children are frozen,
    the object is marked frozen, and then the names are checked. *)
Definition freeze_procedure (frozen : bool) (p : procedure_names)
  : bool * res unit :=
  if frozen then (true, Ok tt)
  else
    match (_ <- forM check_method (pr_methods p) ;;
           forM check_keyword (pr_attrs p)) with
    | Err e => (false, Err e)
    | Ok _ => (true, distinct_names [] (map fst (pr_methods p) ++ pr_attrs p))
    end.

(** A component: flags, attributes, and the names of all its other named
    children (interfaces, mutexes, semaphores, binary semaphores, composition
    and configuration if named), in the order of child_fields.  The other
    children are taken to freeze without error. *)
Record component_names := ComponentNames {
  co_control : bool; co_hardware : bool; co_attrs : list string;
  co_interfaces : list string; co_mutexes : list string;
  co_semaphores : list string; co_binary_semaphores : list string;
  co_others : list string }.
(** Component.freeze (objects.py:680-703) and MapLike.freeze. *)
Definition freeze_component (frozen : bool) (c : component_names)
  : bool * res unit :=
  if frozen then (true, Ok tt)
  else if co_control c && co_hardware c then (false, Err ASTError)
  else if co_hardware c && negb (Nat.eqb (List.length (co_mutexes c)) 0)
  then (false, Err ASTError)
  else if co_hardware c && negb (Nat.eqb (List.length (co_semaphores c)) 0)
  then (false, Err ASTError)
  else
    match forM check_keyword (co_attrs c) with
    | Err e => (false, Err e)
    | Ok _ =>
        (true, distinct_names []
                 (co_attrs c ++ co_interfaces c ++ co_mutexes c ++
                  co_semaphores c ++ co_binary_semaphores c ++ co_others c))
    end.

(** Struct.freeze (objects.py:599-603): a struct is not a MapLike, only its
    attributes are checked. *)
Definition freeze_struct (frozen : bool) (attrs : list string)
  : bool * res unit :=
  if frozen then (true, Ok tt)
  else match forM check_keyword attrs with
       | Ok _ => (true, Ok tt)
       | Err e => (false, Err e)
       end.
