(** The source language, the parse trees that the grammar (camkes/parser/camkes.g) gives for
    it, and the objects that an author means by it.  plyplus drops the tokens of a rule that
    has more than one child, and keeps the token of a rule that has no other child. *)
From Coq Require Import String Ascii List Bool NArith ZArith.
From Verif Require Import Prelude DecStr Numeric_Model Lift_Model.
Import ListNotations.
Open Scope string_scope.
Open Scope list_scope.

(** ** Names, strings and values *)
Definition path := (string * list string)%type.          (* a.b.c *)
Definition ids (p : path) : list string := fst p :: snd p.
Definition text := (string * list string)%type.          (* "abc" "def": adjacent strings *)
Definition words (t : text) : string := String.concat "" (fst t :: snd t).

Inductive key := KNum (e : node) | KText (t : text).
Inductive item :=
| INum (e : node)
| IText (t : text)
| IList (l : list item)
| IDict (l : list (key * item)).

Definition t_id (s : string) : stree := Node "id" [Tok s].
Definition t_path (p : path) : stree := Node "reference" (map t_id (ids p)).
Definition in_quotes (s : string) : string := String """" (s ++ String """" EmptyString).
Definition t_piece (s : string) : stree := Node "quoted_string" [Tok (in_quotes s)].
Definition t_text (t : text) : stree := Node "multi_string" (map t_piece (fst t :: snd t)).
Definition t_key (k : key) : stree := match k with KNum e => Num e | KText t => t_text t end.
Fixpoint t_item (i : item) : stree :=
  match i with
  | INum e => Num e
  | IText t => t_text t
  | IList l => Node "list" (map t_item l)
  | IDict l => Node "dict" (flat_map (fun p => [t_key (fst p); t_item (snd p)]) l)
  end.

(** The value of a numeric expression is the subject of C44. *)
Definition number (e : node) : option Z := match Numeric_Model.lift e with Ok z => Some z | Err _ => None end.

Fixpoint all {A} (l : list (option A)) : option (list A) :=
  match l with
  | [] => Some []
  | Some a :: l => match all l with Some l => Some (a :: l) | None => None end
  | None :: _ => None
  end.
Definition omap {A B} (f : A -> B) (o : option A) : option B :=
  match o with Some a => Some (f a) | None => None end.
Definition obind {A B} (o : option A) (f : A -> option B) : option B :=
  match o with Some a => f a | None => None end.
Notation "x <~ m ;; k" := (obind m (fun x => k)) (at level 61, m at next level, right associativity).

Definition m_key (k : key) : option val :=
  match k with KNum e => omap VNum (number e) | KText t => Some (VStr (words t)) end.

(** A dictionary has each key once, where it is first given, with the value last given. *)
Definition same_key (a b : val) : bool :=
  match a, b with
  | VNum x, VNum y => Z.eqb x y
  | VStr x, VStr y => String.eqb x y
  | _, _ => false
  end.
Fixpoint first_keys (l : list val) : list val :=
  match l with
  | [] => []
  | k :: l => k :: List.filter (fun k' => negb (same_key k k')) (first_keys l)
  end.
Fixpoint last_value (k : val) (l : list (val * val)) (default : val) : val :=
  match l with
  | [] => default
  | (k', v) :: l => last_value k l (if same_key k k' then v else default)
  end.
Definition dict_of (l : list (val * val)) : list (val * val) :=
  map (fun k => (k, last_value k l (VNum 0))) (first_keys (map fst l)).

Fixpoint m_item (i : item) : option val :=
  match i with
  | INum e => omap VNum (number e)
  | IText t => Some (VStr (words t))
  | IList l => omap VList (all (map m_item l))
  | IDict l => omap (fun l => VDict (dict_of l))
      (all (map (fun p => k <~ m_key (fst p) ;; v <~ m_item (snd p) ;; Some (k, v)) l))
  end.

(** ** Types and attributes *)
Inductive ty :=
| TSigned (words : list string) | TUnsigned (words : list string)
| TChar | TSChar | TUChar | TString | TUint64 | TInt64
| TStruct (name : string)      (* struct name *)
| TName (name : string)        (* a type name *)
| TPath (p : path)
| TAnon (fields : list field)  (* { fields } *)
with field := Field (type : ty) (name : string) (array : bool) (default : option item).

Definition opt {A B} (f : A -> B) (o : option A) : list B := match o with Some a => [f a] | None => [] end.

Fixpoint t_ty (t : ty) : stree :=
  match t with
  | TSigned ws => Node "type" [Node "signed_int" (map Tok ws)]
  | TUnsigned ws => Node "type" [Node "unsigned_int" (map Tok ws)]
  | TChar => Node "type" [Node "char" [Tok "char"]]
  | TSChar => Node "type" [Node "signed_char" []]
  | TUChar => Node "type" [Node "unsigned_char" []]
  | TString => Node "type" [Tok "string"]
  | TUint64 => Node "type" [Node "uint64_t" [Tok "uint64_t"]]
  | TInt64 => Node "type" [Node "int64_t" [Tok "int64_t"]]
  | TStruct n => Node "type" [Node "struct_type" [t_id n]]
  | TName n => Node "type" [Tok n]
  | TPath p => Node "type" [Node "struct_ref" [t_path p]]
  | TAnon fs => Node "type" [Node "struct_ref" [Node "struct_defn" (map t_field fs)]]
  end
with t_field (f : field) : stree :=
  match f with
  | Field t n array d =>
      let scalar := Node "attribute_scalar_parameter" [t_ty t; t_id n] in
      Node "attribute_decl"
        ((if array then Node "attribute_array_parameter" [scalar] else scalar) :: opt t_item d)
  end.

(** Other names of types. *)
Definition canonical (s : string) : string :=
  if String.eqb s "integer" || String.eqb s "signed int" then "int"
  else if String.eqb s "unsigned integer" then "unsigned int"
  else if String.eqb s "bool" then "boolean" else s.

Definition not_empty {A} (l : list A) : bool := match l with [] => false | _ => true end.
Definition starts_struct (s : string) : bool := String.prefix "struct " s.

Fixpoint m_ty (t : ty) : option val :=
  match t with
  | TSigned _ => Some (VStr "int")
  | TUnsigned _ => Some (VStr "unsigned int")
  | TChar => Some (VStr "char")
  | TSChar => Some (VStr "signed char")
  | TUChar => Some (VStr "unsigned char")
  | TString => Some (VStr "string")
  | TUint64 => Some (VStr "uint64_t")
  | TInt64 => Some (VStr "int64_t")
  | TStruct n => Some (VStr ("struct " ++ n))
  | TName n => Some (VStr (canonical n))
  | TPath p => Some (VRef (ids p) (Some CStruct))
  | TAnon fs => if not_empty fs then omap (VStruct None) (all (map m_field fs)) else None
  end
with m_field (f : field) : option val :=
  match f with
  | Field t n array d =>
      t <~ m_ty t ;;
      d <~ match d with Some i => omap Some (m_item i) | None => Some None end ;;
      match t with
      | VStr s => if starts_struct s then None else Some (VAttr t n array d)
      | _ => Some (VAttr t n array d)
      end
  end.

(** ** Procedures *)
Inductive dir := DIn | DInout | DOut | DRefin.
Definition dir_text (d : dir) : string :=
  match d with DIn => "in" | DInout => "inout" | DOut => "out" | DRefin => "refin" end.
Inductive param := Param (direction : option dir) (type : ty) (name : string) (array : bool).
Inductive method := Meth (return_type : option ty) (name : string) (params : list param).
Inductive incl := IncText (t : text) | IncAngle (s : string).
Inductive pitem := PMethod (m : method) | PField (f : field) | PInclude (i : incl).

Definition t_dir (d : dir) : stree := Node "direction" [Tok (dir_text d)].
Definition t_param (p : param) : stree :=
  match p with
  | Param d t n array =>
      let scalar := Node "method_scalar_parameter" (opt t_dir d ++ [t_ty t; t_id n]) in
      if array then Node "method_array_parameter" [scalar] else scalar
  end.
Definition t_method (m : method) : stree :=
  match m with Meth r n ps => Node "method_decl" (opt t_ty r ++ t_id n :: map t_param ps) end.
Definition t_include (i : incl) : stree :=
  Node "include" [match i with
                  | IncText t => t_text t
                  | IncAngle s => Node "angle_string" [Tok (String "<" (s ++ ">"))]
                  end].
Definition t_pitem (i : pitem) : stree :=
  match i with PMethod m => t_method m | PField f => t_field f | PInclude i => t_include i end.
Definition named (head : string) (n : option string) (defn : stree) : stree := Node head (opt t_id n ++ [defn]).

(** Parameters and results have types with a name. *)
Definition type_text (t : ty) : option string :=
  match t with
  | TPath (s, []) => Some (canonical s)
  | TPath _ | TAnon _ => None
  | t => match m_ty t with Some (VStr s) => Some s | _ => None end
  end.
Definition m_param (p : param) : option val :=
  match p with
  | Param d t n array =>
      omap (fun s => VParam n (match d with Some d => dir_text d | None => "in" end) s array) (type_text t)
  end.
Definition m_method (m : method) : option val :=
  match m with
  | Meth r n ps =>
      r <~ match r with Some t => omap Some (type_text t) | None => Some None end ;;
      omap (VMethod n r) (all (map m_param ps))
  end.
Definition m_include (i : incl) : val :=
  match i with IncText t => VInclude (words t) true | IncAngle s => VInclude s false end.
Definition pick {A B} (f : A -> option B) (l : list A) : list B := flat_map (fun a => opt (fun b => b) (f a)) l.
Definition m_procedure (n : option string) (l : list pitem) : option val :=
  ms <~ all (map m_method (pick (fun i => match i with PMethod m => Some m | _ => None end) l)) ;;
  fs <~ all (map m_field (pick (fun i => match i with PField f => Some f | _ => None end) l)) ;;
  Some (VProcedure n (map m_include (pick (fun i => match i with PInclude i => Some i | _ => None end) l)) ms fs).

(** ** Settings *)
Inductive query_arg := QDict (l : list (key * item)) | QDicts (l : list (list (key * item))).
Inductive rhs :=
| RItem (i : item)
| RQuery (name : string) (arg : query_arg) (keys : option (key * list key))
| RRef (p : path) (keys : option (key * list key)).
Inductive setting := Set_ (instance attribute : string) (value : rhs).

Definition t_keys (ks : key * list key) : stree := Node "dict_lookup" (map t_key (fst ks :: snd ks)).
Definition t_qarg (a : query_arg) : stree :=
  match a with
  | QDict l => t_item (IDict l)
  | QDicts ls => Node "dict_list" (map (fun l => t_item (IDict l)) ls)
  end.
Definition t_rhs (r : rhs) : stree :=
  match r with
  | RItem i => t_item i
  | RQuery n a ks => Node "query" (t_id n :: t_qarg a :: opt t_keys ks)
  | RRef p ks => Node "attribute_reference" (map t_id (ids p) ++ opt t_keys ks)
  end.
Definition t_setting (s : setting) : stree :=
  match s with Set_ i a r => Node "setting" [t_id i; t_id a; t_rhs r] end.

Definition m_keys (ks : option (key * list key)) : option (option (list val)) :=
  match ks with
  | Some ks => omap Some (all (map m_key (fst ks :: snd ks)))
  | None => Some None
  end.
Definition m_qarg (a : query_arg) : option (list val) :=
  match a with
  | QDict l => omap (fun v => [v]) (m_item (IDict l))
  | QDicts ls => all (map (fun l => m_item (IDict l)) ls)
  end.
Definition m_rhs (r : rhs) : option val :=
  match r with
  | RItem i => m_item i
  | RQuery n a ks => a <~ m_qarg a ;; ks <~ m_keys ks ;; Some (VQuery n a ks)
  | RRef p ks => ks <~ m_keys ks ;; Some (VAttrRef (String.concat "." (ids p)) ks)
  end.
Definition m_setting (s : setting) : option val :=
  match s with Set_ i a r => omap (VSetting i a) (m_rhs r) end.

(** A configuration by name or in place. *)
Inductive conf_sing := FRef (p : path) | FDef (name : option string) (l : list setting).
Definition t_conf_decl (n : option string) (l : list setting) : stree :=
  named "configuration_decl" n (Node "configuration_defn" (map t_setting l)).
Definition t_conf_sing (c : conf_sing) : stree :=
  Node "configuration_sing" [match c with FRef p => t_path p | FDef n l => t_conf_decl n l end].
Definition m_conf_decl (n : option string) (l : list setting) : option val :=
  omap (VConfiguration n) (all (map m_setting l)).
Definition m_conf_sing (c : conf_sing) : option val :=
  match c with FRef p => Some (VRef (ids p) (Some CConfiguration)) | FDef n l => m_conf_decl n l end.

(** ** Connectors *)
Inductive kind := KEvent | KProcedure | KDataport.
Definition kind_text (k : kind) : string :=
  match k with KEvent => "Event" | KProcedure => "Procedure" | KDataport => "Dataport" end.
Record cend := mk_cend { ce_hardware : bool; ce_kind : kind; ce_multiple : bool; ce_threads : option node }.
Inductive connector := Connector (from to : cend) (fields : list field).
Inductive conn_type := ZRef (p : path) | ZDef (c : connector).

Definition t_cend (e : cend) : list stree :=
  (if ce_hardware e then [Node "hardware_bare" [Tok "hardware"]] else []) ++
  [Node "connector_end_type" [Tok (kind_text (ce_kind e) ++ (if ce_multiple e then "s" else ""))]] ++
  opt Num (ce_threads e).
Definition t_connector (c : connector) : stree :=
  match c with Connector f t fs => Node "connector_defn" (t_cend f ++ t_cend t ++ map t_field fs) end.
Definition t_conn_type (c : conn_type) : stree :=
  Node "connector_ref" [match c with ZRef p => t_path p | ZDef c => t_connector c end].

(** The number of threads is one unless given, and not negative. *)
Definition threads (e : cend) : option Z :=
  match ce_threads e with
  | Some n => z <~ number n ;; if (z <? 0)%Z then None else Some z
  | None => Some 1%Z
  end.
Definition m_connector (n : option string) (c : connector) : option val :=
  match c with
  | Connector f t fs =>
      a <~ threads f ;; b <~ threads t ;; fs <~ all (map m_field fs) ;;
      Some (VConnector n (kind_text (ce_kind f)) (kind_text (ce_kind t)) (ce_multiple f) (ce_multiple t)
              a b (ce_hardware f) (ce_hardware t) fs)
  end.
Definition m_conn_type (c : conn_type) : option val :=
  match c with ZRef p => Some (VRef (ids p) (Some CConnector)) | ZDef c => m_connector None c end.

(** ** Components and compositions *)
Inductive dtype := DName (s : string) | DBuf (size : node).
Inductive citem :=
| CField (f : field)
| CConsumes (maybe : bool) (type name : string)
| CControl
| CDataport (maybe : bool) (type : dtype) (name : string)
| CEmits (type name : string)
| CHardware
| CInclude (i : incl)
| CMutex (name : string)
| CProvides (type : path) (name : string)
| CSemaphore (name : string)
| CBinSemaphore (name : string)
| CUses (maybe : bool) (type : path) (name : string).
Inductive cend_ref := End_ (from : bool) (target : path).

Inductive body := Body (items : list citem) (composition : option comp_sing) (configuration : option conf_sing)
  (configuration_first : bool)
with comp_sing := XRef (p : path) | XDef (name : option string) (l : list stmt)
with stmt :=
| SInstance (i : inst)
| SConnection (type : conn_type) (name : string) (ends : list cend_ref)
| SGroup (name : option string) (l : list inst)
| SExport (source destination : path)
with inst := Inst (type : comp_type) (name : string)
with comp_type := YRef (p : path) | YBody (b : body).

Definition t_maybe (m : bool) : list stree := if m then [Node "maybe" [Tok "maybe"]] else [].
Definition t_dtype (d : dtype) : stree :=
  Node "dataport_type" [match d with DName s => t_id s | DBuf e => Num e end].
Definition t_citem (c : citem) : stree :=
  match c with
  | CField f => t_field f
  | CConsumes m t n => Node "consumes" (t_maybe m ++ [t_id t; t_id n])
  | CControl => Node "control" []
  | CDataport m t n => Node "dataport" (t_maybe m ++ [t_dtype t; t_id n])
  | CEmits t n => Node "emits" [t_id t; t_id n]
  | CHardware => Node "hardware" []
  | CInclude i => t_include i
  | CMutex n => Node "mutex" [t_id n]
  | CProvides t n => Node "provides" [t_path t; t_id n]
  | CSemaphore n => Node "semaphore" [t_id n]
  | CBinSemaphore n => Node "binary_semaphore" [t_id n]
  | CUses m t n => Node "uses" (t_maybe m ++ [t_path t; t_id n])
  end.
Definition t_end (e : cend_ref) : stree :=
  match e with
  | End_ true p => Node "connection_end" [Node "from" [Tok "from"]; t_path p]
  | End_ false p => Node "connection_end" [Node "to" [Tok "to"]; t_path p]
  end.
Definition swap (b : bool) (x y : list stree) : list stree := if b then y ++ x else x ++ y.

Fixpoint t_body (b : body) : stree :=
  match b with
  | Body items x f first =>
      Node "component_defn"
        (map t_citem items ++ swap first (match x with Some x => [t_comp_sing x] | None => [] end) (opt t_conf_sing f))
  end
with t_comp_sing (x : comp_sing) : stree :=
  Node "composition_sing"
    [match x with
     | XRef p => t_path p
     | XDef n l => named "composition_decl" n (Node "composition_defn" (map t_stmt l))
     end]
with t_stmt (s : stmt) : stree :=
  match s with
  | SInstance i => t_inst i
  | SConnection t n ends => Node "connection_defn" (t_conn_type t :: t_id n :: map t_end ends)
  | SGroup n l => named "group_decl" n (Node "group_defn" (map t_inst l))
  | SExport p q => Node "export" [t_path p; t_path q]
  end
with t_inst (i : inst) : stree :=
  match i with Inst t n => Node "instance_defn" [t_comp_type t; t_id n] end
with t_comp_type (t : comp_type) : stree :=
  Node "component_ref" [match t with YRef p => t_path p | YBody b => t_body b end].

(** What an author means. *)
Definition m_dtype (d : dtype) : option string :=
  match d with
  | DName s => Some s
  | DBuf e => z <~ number e ;; if (z <=? 0)%Z then None else Some ("Buf(" ++ dec (Z.to_N z) ++ ")")%string
  end.
Definition m_dataport (c : bool * dtype * string) : option val :=
  let '(m, t, n) := c in omap (fun t => VDataport t n m) (m_dtype t).
Definition has (f : citem -> bool) (l : list citem) : bool := existsb f l.
Definition instance_of (p : path) : option val :=
  match snd p with [] => None | _ => Some (VRef (removelast (ids p)) (Some CInstance)) end.
Definition m_end (e : cend_ref) : val :=
  match e with
  | End_ f p => VEnd (if f then "from" else "to") (instance_of p) (VRef (ids p) (Some CInterface))
  end.
Definition is_from (e : cend_ref) : bool := match e with End_ f _ => f end.

(** The parts of a component, each kind in the order of the text. *)
Definition component_of (l : list citem) (x f : option val) : option val :=
  fs <~ all (map m_field (pick (fun c => match c with CField f => Some f | _ => None end) l)) ;;
  ds <~ all (map m_dataport (pick (fun c => match c with CDataport m t n => Some (m, t, n) | _ => None end) l)) ;;
  Some (VComponent None
    (map m_include (pick (fun c => match c with CInclude i => Some i | _ => None end) l))
    (has (fun c => match c with CControl => true | _ => false end) l)
    (has (fun c => match c with CHardware => true | _ => false end) l)
    (pick (fun c => match c with CProvides t n => Some (VProvides (VRef (ids t) (Some CProcedure)) n) | _ => None end) l)
    (pick (fun c => match c with CUses m t n => Some (VUses (VRef (ids t) (Some CProcedure)) n m) | _ => None end) l)
    (pick (fun c => match c with CEmits t n => Some (VEmits t n) | _ => None end) l)
    (pick (fun c => match c with CConsumes m t n => Some (VConsumes t n m) | _ => None end) l)
    ds fs
    (pick (fun c => match c with CMutex n => Some (VMutex n) | _ => None end) l)
    (pick (fun c => match c with CSemaphore n => Some (VSemaphore n) | _ => None end) l)
    (pick (fun c => match c with CBinSemaphore n => Some (VBinSemaphore n) | _ => None end) l)
    x f).

(** What the statements of a composition declare. *)
Inductive thing := Inst_ (v : val) | Conn_ (v : val) | Group_ (v : val) | Export_ (v : val).
Definition composition_of (n : option string) (l : list thing) : val :=
  VComposition n
    (pick (fun t => match t with Inst_ v => Some v | _ => None end) l)
    (pick (fun t => match t with Conn_ v => Some v | _ => None end) l)
    (pick (fun t => match t with Group_ v => Some v | _ => None end) l)
    (pick (fun t => match t with Export_ v => Some v | _ => None end) l).

Definition keep {A B} (f : A -> option B) (o : option A) : option (option B) :=
  match o with Some a => omap Some (f a) | None => Some None end.

Fixpoint m_body (b : body) : option val :=
  match b with
  | Body items x f _ =>
      x <~ match x with Some x => omap Some (m_comp_sing x) | None => Some None end ;;
      f <~ keep m_conf_sing f ;; component_of items x f
  end
with m_comp_sing (x : comp_sing) : option val :=
  match x with
  | XRef p => Some (VRef (ids p) (Some CComposition))
  | XDef n l => omap (composition_of n) (all (map m_stmt l))
  end
with m_stmt (s : stmt) : option thing :=
  match s with
  | SInstance i => omap Inst_ (m_inst i)
  | SConnection t n ends =>
      omap (fun t => Conn_ (VConnection t n (map m_end (List.filter is_from ends))
                              (map m_end (List.filter (fun e => negb (is_from e)) ends)))) (m_conn_type t)
  | SGroup n l => omap (fun l => Group_ (VGroup n l)) (all (map m_inst l))
  | SExport p q =>
      match snd p with
      | [] => None
      | _ => Some (Export_ (VExport (VRef (removelast (ids p)) (Some CInstance)) (VRef (ids p) (Some CInterface))
                                    (VRef (ids q) (Some CInterface))))
      end
  end
with m_inst (i : inst) : option val :=
  match i with Inst t n => omap (fun t => VInstance t n) (m_comp_type t) end
with m_comp_type (t : comp_type) : option val :=
  match t with YRef p => Some (VRef (ids p) (Some CComponent)) | YBody b => m_body b end.

(** ** Assemblies and files *)
Inductive slot := Slot (domain duration : string) (unit : option bool).    (* unit: us? *)
Inductive part := ACompos (x : comp_sing) | AConf (f : conf_sing) | ASchedule (l : list slot).
Inductive decl :=
| DAssembly (name : option string) (parts : list part)
| DComponent (name : option string) (b : body)
| DComposition (name : option string) (l : list stmt)
| DConfiguration (name : option string) (l : list setting)
| DConnector (name : option string) (c : connector)
| DProcedure (name : option string) (l : list pitem)
| DStruct (name : string) (fields : list field).

Definition t_unit (u : bool) : stree := Node "schedule_unit" [Tok (if u then "us" else "ticks")].
Definition t_number (s : string) : stree := Node "number" [Tok s].
Definition t_slot (s : slot) : stree :=
  match s with Slot a b u => Node "schedule_item" ([t_number a; t_number b] ++ opt t_unit u) end.
Definition t_part (p : part) : stree :=
  match p with
  | ACompos x => t_comp_sing x
  | AConf f => t_conf_sing f
  | ASchedule l => Node "schedule_defn" (map t_slot l)
  end.
Definition tree_of (d : decl) : stree :=
  match d with
  | DAssembly n ps => named "assembly_decl" n (Node "assembly_defn" (map t_part ps))
  | DComponent n b => named "component_decl" n (t_body b)
  | DComposition n l => named "composition_decl" n (Node "composition_defn" (map t_stmt l))
  | DConfiguration n l => t_conf_decl n l
  | DConnector n c => named "connector_decl" n (t_connector c)
  | DProcedure n l => named "procedure_decl" n (Node "procedure_defn" (map t_pitem l))
  | DStruct n fs => Node "struct_decl" [t_id n; Node "struct_defn" (map t_field fs)]
  end.

Definition m_slot (s : slot) : option val :=
  match s with
  | Slot a b u =>
      match number (NNum a), number (NNum b) with
      | Some a, Some b => Some (VSlot a b u)
      | _, _ => None
      end
  end.
Definition m_assembly (n : option string) (ps : list part) : option val :=
  xs <~ all (map m_comp_sing (pick (fun p => match p with ACompos x => Some x | _ => None end) ps)) ;;
  fs <~ all (map m_conf_sing (pick (fun p => match p with AConf f => Some f | _ => None end) ps)) ;;
  ss <~ all (map (fun l => omap VSchedule (all (map m_slot l)))
               (pick (fun p => match p with ASchedule l => Some l | _ => None end) ps)) ;;
  x <~ match xs with [x] => Some x | _ => None end ;;
  f <~ match fs with [f] => Some f | [] => Some (VConfiguration None []) | _ => None end ;;
  s <~ match ss with [s] => Some s | [] => Some (VSchedule []) | _ => None end ;;
  Some (VAssembly n x f s).
Definition rename (n : option string) (v : val) : val :=
  match v with
  | VComponent _ i c h p u e k d a m s b x f => VComponent n i c h p u e k d a m s b x f
  | v => v
  end.
Definition object_of (d : decl) : option val :=
  match d with
  | DAssembly n ps => m_assembly n ps
  | DComponent n b => omap (rename n) (m_body b)
  | DComposition n l => omap (composition_of n) (all (map m_stmt l))
  | DConfiguration n l => m_conf_decl n l
  | DConnector n c => m_connector n c
  | DProcedure n l => m_procedure n l
  | DStruct n fs => if not_empty fs then omap (VStruct (Some n)) (all (map m_field fs)) else None
  end.

(** Sources in which compositions and configurations are given in place, not by name. *)
Fixpoint in_place_body (b : body) : Prop :=
  match b with
  | Body _ x f _ =>
      match x with Some x => in_place_comp x | None => True end /\
      match f with Some (FRef _) => False | _ => True end
  end
with in_place_comp (x : comp_sing) : Prop :=
  match x with XRef _ => False | XDef _ l => fold_right and True (map in_place_stmt l) end
with in_place_stmt (s : stmt) : Prop :=
  match s with
  | SInstance i => in_place_inst i
  | SGroup _ l => fold_right and True (map in_place_inst l)
  | _ => True
  end
with in_place_inst (i : inst) : Prop :=
  match i with Inst t _ => in_place_type t end
with in_place_type (t : comp_type) : Prop :=
  match t with YRef _ => True | YBody b => in_place_body b end.
Definition in_place (d : decl) : Prop :=
  match d with
  | DAssembly _ ps =>
      forall p, In p ps -> match p with
                           | ACompos x => in_place_comp x
                           | AConf (FRef _) => False
                           | _ => True
                           end
  | DComponent _ b => in_place_body b
  | DComposition _ l => fold_right and True (map in_place_stmt l)
  | _ => True
  end.

(** The outcome of lifting agrees with the meaning. *)
Definition agrees {A} (r : res A) (m : option A) : Prop :=
  match m with Some v => r = Ok v | None => exists e, r = Err e end.

(** ** Declarations that mean something *)
Definition conj {A} (P : A -> Prop) (l : list A) : Prop := fold_right and True (map P l).
Definition on {A} (P : A -> Prop) (o : option A) : Prop := match o with Some a => P a | None => True end.
Definition number_such (P : Z -> Prop) (e : node) : Prop := exists z, number e = Some z /\ P z.
Definition any (z : Z) : Prop := True.

(** Every number has a value. *)
Definition ok_key (k : key) : Prop := match k with KNum e => number_such any e | KText _ => True end.
Fixpoint ok_item (i : item) : Prop :=
  match i with
  | INum e => number_such any e
  | IText _ => True
  | IList l => conj ok_item l
  | IDict l => conj (fun p => ok_key (fst p) /\ ok_item (snd p)) l
  end.
(** A struct has at least one field; the type of a field is not written [struct x]. *)
Fixpoint ok_ty (t : ty) : Prop :=
  match t with TAnon fs => fs <> [] /\ conj ok_field fs | _ => True end
with ok_field (f : field) : Prop :=
  match f with
  | Field t _ _ d =>
      ok_ty t /\ on ok_item d /\
      match t with TStruct _ => False | TName n => String.prefix "struct " n = false | _ => True end
  end.
(** Parameters and results have a named type. *)
Definition ok_type_name (t : ty) : Prop :=
  match t with TPath (_, _ :: _) | TAnon _ => False | _ => True end.
Definition ok_param (p : param) : Prop := match p with Param _ t _ _ => ok_type_name t end.
Definition ok_method (m : method) : Prop := match m with Meth r _ ps => on ok_type_name r /\ conj ok_param ps end.
Definition ok_pitem (i : pitem) : Prop :=
  match i with PMethod m => ok_method m | PField f => ok_field f | PInclude _ => True end.
Definition ok_keys (ks : key * list key) : Prop := conj ok_key (fst ks :: snd ks).
Definition ok_qarg (a : query_arg) : Prop :=
  match a with QDict l => ok_item (IDict l) | QDicts ls => conj (fun l => ok_item (IDict l)) ls end.
Definition ok_rhs (r : rhs) : Prop :=
  match r with
  | RItem i => ok_item i
  | RQuery _ a ks => ok_qarg a /\ on ok_keys ks
  | RRef _ ks => on ok_keys ks
  end.
Definition ok_setting (s : setting) : Prop := match s with Set_ _ _ r => ok_rhs r end.
Definition ok_conf (f : conf_sing) : Prop := match f with FRef _ => True | FDef _ l => conj ok_setting l end.
(** No end of a connector has a negative number of threads. *)
Definition ok_cend (e : cend) : Prop := on (number_such (fun z => 0 <= z)%Z) (ce_threads e).
Definition ok_connector (c : connector) : Prop :=
  match c with Connector f t fs => ok_cend f /\ ok_cend t /\ conj ok_field fs end.
Definition ok_conn_type (c : conn_type) : Prop := match c with ZRef _ => True | ZDef c => ok_connector c end.
(** A dataport has a positive size. *)
Definition ok_citem (c : citem) : Prop :=
  match c with
  | CField f => ok_field f
  | CDataport _ (DBuf e) _ => number_such (fun z => 0 < z)%Z e
  | _ => True
  end.
(** An export names an interface of an instance. *)
Fixpoint ok_body (b : body) : Prop :=
  match b with Body l x f _ => conj ok_citem l /\ on ok_comp x /\ on ok_conf f end
with ok_comp (x : comp_sing) : Prop :=
  match x with XRef _ => True | XDef _ l => conj ok_stmt l end
with ok_stmt (s : stmt) : Prop :=
  match s with
  | SInstance i => ok_inst i
  | SConnection t _ _ => ok_conn_type t
  | SGroup _ l => conj ok_inst l
  | SExport p _ => snd p <> []
  end
with ok_inst (i : inst) : Prop := match i with Inst t _ => ok_comp_type t end
with ok_comp_type (t : comp_type) : Prop := match t with YRef _ => True | YBody b => ok_body b end.
Definition ok_slot (s : slot) : Prop :=
  match s with Slot a b _ => number_such any (NNum a) /\ number_such any (NNum b) end.
Definition ok_part (p : part) : Prop :=
  match p with ACompos x => ok_comp x | AConf f => ok_conf f | ASchedule l => conj ok_slot l end.
Definition count (f : part -> bool) (l : list part) : nat := List.length (List.filter f l).
Definition ok_decl (d : decl) : Prop :=
  match d with
  | DAssembly _ ps =>
      conj ok_part ps /\
      count (fun p => match p with ACompos _ => true | _ => false end) ps = 1%nat /\
      (count (fun p => match p with AConf _ => true | _ => false end) ps <= 1)%nat /\
      (count (fun p => match p with ASchedule _ => true | _ => false end) ps <= 1)%nat
  | DComponent _ b => ok_body b
  | DComposition _ l => conj ok_stmt l
  | DConfiguration _ l => conj ok_setting l
  | DConnector _ c => ok_connector c
  | DProcedure _ l => conj ok_pitem l
  | DStruct _ fs => fs <> [] /\ conj ok_field fs
  end.
