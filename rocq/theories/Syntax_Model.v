(** Model of the grammar of specifications, camkes/parser/camkes.g: which declarations (the
    source language of Lift_Spec.v) a sequence of tokens can be read as.

    Every rule of the grammar is a relation [rule x w r]: the tokens [w] are a text of [x]
    followed by the tokens [r].  The lexer (the regular expressions of the tokens, the
    layout, the comments) is not modelled: a text is the sequence of its tokens.  Neither is
    plyplus, which makes a parser of the grammar: where the grammar can read a text in two
    ways, the parser takes one of them (see [choice]). *)
From Coq Require Import String Ascii List Bool.
From Verif Require Import Prelude Numeric_Model Lift_Model Lift_Spec.
Import ListNotations.
Open Scope string_scope.
Open Scope list_scope.

(** The tokens.  camkes.g:15-79: a word is a keyword or an identifier, and no keyword is an
    identifier ([%unless]); [Buf], which is an identifier wherever an [id] is expected
    (camkes.g:81), is a [Name] here.  The parentheses and the colon are among the tokens of
    expressions. *)
Inductive tok :=
| Word (s : string)                   (* camkes.g:22-78, a keyword *)
| Name (s : string)                   (* camkes.g:15, 81 *)
| Sym (s : string)                    (* the other symbols *)
| Expr (t : Numeric_Model.token)      (* camkes.g:179-216, 219, 230 *)
| Quoted (s : string)                 (* camkes.g:221 *)
| Angled (s : string).                (* camkes.g:222 *)
Definition text_ := list tok.

(** camkes.g:164 lists [struct_ref] (line 107: [reference]: [id]: [ID]) and [ID] among the
    types, so that a type of one identifier can be read in two ways.  A parser reads it in
    one of them. *)
Inductive choice := Both | As_name | As_reference.

(** ** The operators of the grammar's notation *)
(** x* *)
Definition many {A} (P : A -> text_ -> text_ -> Prop) : list A -> text_ -> text_ -> Prop :=
  fix go (l : list A) (w r : text_) : Prop :=
    match l with
    | [] => w = r
    | a :: l => exists m, P a w m /\ go l m r
    end.
(** (',' x)* ','? *)
Definition more {A} (P : A -> text_ -> text_ -> Prop) : list A -> text_ -> text_ -> Prop :=
  fix go (l : list A) (w r : text_) : Prop :=
    match l with
    | [] => w = r \/ w = Sym "," :: r
    | a :: l => exists m m', w = Sym "," :: m /\ P a m m' /\ go l m' r
    end.
(** (x (',' x)* ','?)? *)
Definition commas {A} (P : A -> text_ -> text_ -> Prop) (l : list A) (w r : text_) : Prop :=
  match l with
  | [] => w = r
  | a :: l => exists m, P a w m /\ more P l m r
  end.
(** x? *)
Definition maybe_ {A} (P : A -> text_ -> text_ -> Prop) (o : option A) (w r : text_) : Prop :=
  match o with None => w = r | Some a => P a w r end.
(** A token that is there or not. *)
Definition flag (b : bool) (t : tok) (w r : text_) : Prop := if b then w = t :: r else w = r.

(** ** The rules *)
(** camkes.g:81 [id]. *)
Definition g_id (s : string) (w r : text_) : Prop := w = Name s :: r.
(** ('.' id)* *)
Definition g_dots : list string -> text_ -> text_ -> Prop :=
  many (fun s w r => w = Sym "." :: Name s :: r).
(** camkes.g:177 [reference]. *)
Definition g_reference (p : path) (w r : text_) : Prop :=
  exists m, g_id (fst p) w m /\ g_dots (snd p) m r.
(** camkes.g:179-216 [numeric_expr]. *)
Definition g_numeric (e : node) (w r : text_) : Prop :=
  derived 11 e = true /\ w = map Expr (text_of e) ++ r.
(** camkes.g:220-221 [multi_string]. *)
Definition g_string (t : text) (w r : text_) : Prop :=
  exists m, w = Quoted (fst t) :: m /\ many (fun s w r => w = Quoted s :: r) (snd t) m r.
(** camkes.g:228 [key]. *)
Definition g_key (k : key) (w r : text_) : Prop :=
  match k with KNum e => g_numeric e w r | KText t => g_string t w r end.
(** camkes.g:223-224, 229 [item], [list], [dict]. *)
Fixpoint g_item (i : item) (w r : text_) : Prop :=
  match i with
  | INum e => g_numeric e w r
  | IText t => g_string t w r
  | IList l => exists m, w = Sym "[" :: m /\ commas g_item l m (Sym "]" :: r)
  | IDict l => exists m, w = Sym "{" :: m /\
      commas (fun p w r => exists m, g_key (fst p) w (Expr TColon :: m) /\ g_item (snd p) m r) l m
        (Sym "}" :: r)
  end.

(** camkes.g:164-172 [type] and the rules it refers to, 107 [struct_ref]. *)
Definition signed_words : list (list string) :=
  [["int"]; ["integer"]; ["signed"]; ["signed"; "int"]; ["signed"; "integer"]].
Definition unsigned_words : list (list string) :=
  [["unsigned"]; ["unsigned"; "int"]; ["unsigned"; "integer"]].
Fixpoint g_type (k : choice) (t : ty) (w r : text_) : Prop :=
  match t with
  | TSigned ws => In ws signed_words /\ w = map Word ws ++ r
  | TUnsigned ws => In ws unsigned_words /\ w = map Word ws ++ r
  | TChar => w = Word "char" :: r
  | TSChar => w = Word "signed" :: Word "char" :: r
  | TUChar => w = Word "unsigned" :: Word "char" :: r
  | TString => w = Word "string" :: r
  | TUint64 => w = Word "uint64_t" :: r
  | TInt64 => w = Word "int64_t" :: r
  | TStruct n => w = Word "struct" :: Name n :: r
  | TName n => k <> As_reference /\ n <> "Buf" /\ w = Name n :: r
  | TPath p => (k = As_name -> snd p = [] -> fst p = "Buf") /\ g_reference p w r
  | TAnon fs => exists m, w = Sym "{" :: m /\
      many (fun f w r => g_attribute_decl k f w (Sym ";" :: r)) fs m (Sym "}" :: r)
  end
(** camkes.g:96, 161-163 [attribute_decl], [attribute_parameter]. *)
with g_attribute_decl (k : choice) (f : field) (w r : text_) : Prop :=
  match f with
  | Field t n array d => exists m m',
      g_type k t w (Name n :: m) /\
      (if array then m = Sym "[" :: Sym "]" :: m' else m = m') /\
      match d with None => m' = r | Some i => exists m, m' = Sym "=" :: m /\ g_item i m r end
  end.
(** camkes.g:106 [struct_defn]. *)
Definition g_struct_defn (k : choice) (fs : list field) (w r : text_) : Prop :=
  exists m, w = Sym "{" :: m /\
  many (fun f w r => g_attribute_decl k f w (Sym ";" :: r)) fs m (Sym "}" :: r).
(** camkes.g:108 [attribute]. *)
Definition g_attribute (k : choice) (f : field) (w r : text_) : Prop :=
  exists m, w = Word "attribute" :: m /\ g_attribute_decl k f m (Sym ";" :: r).

(** camkes.g:152, 154 [import], [include], after the keyword. *)
Definition g_file (i : incl) (w r : text_) : Prop :=
  match i with
  | IncText t => g_string t w (Sym ";" :: r)
  | IncAngle s => w = Angled s :: Sym ";" :: r
  end.
Definition g_include (i : incl) (w r : text_) : Prop :=
  exists m, w = Word "include" :: m /\ g_file i m r.

(** camkes.g:157-160 [method_parameter], [direction]. *)
Definition g_direction (d : dir) (w r : text_) : Prop := w = Word (dir_text d) :: r.
Definition g_parameter (k : choice) (p : param) (w r : text_) : Prop :=
  match p with
  | Param d t n array => exists m m',
      maybe_ g_direction d w m /\ g_type k t m (Name n :: m') /\
      (if array then m' = Sym "[" :: Sym "]" :: r else m' = r)
  end.
(** camkes.g:156 [method_decl].  Both [()] and [(void)] are a list of no parameters. *)
Definition g_method (k : choice) (x : method) (w r : text_) : Prop :=
  match x with
  | Meth t n ps => exists m,
      match t with
      | None => w = Word "void" :: Name n :: Expr TLpar :: m
      | Some t => g_type k t w (Name n :: Expr TLpar :: m)
      end /\
      (commas (g_parameter k) ps m (Expr TRpar :: Sym ";" :: r) \/
       ps = [] /\ m = Word "void" :: Expr TRpar :: Sym ";" :: r)
  end.
(** camkes.g:175 [procedure_defn].  An attribute of a procedure has no semicolon. *)
Definition g_pitem (k : choice) (i : pitem) (w r : text_) : Prop :=
  match i with
  | PMethod m => g_method k m w r
  | PField f => g_attribute_decl k f w r
  | PInclude i => g_include i w r
  end.

(** camkes.g:225-227 [dict_lookup], [dict_list], [query].  A query without an argument, which
    no lifting function accepts, is not in the source language. *)
Definition g_lookup (ks : key * list key) (w r : text_) : Prop :=
  many (fun k w r => exists m, w = Sym "[" :: m /\ g_key k m (Sym "]" :: r)) (fst ks :: snd ks) w r.
Definition g_dict (l : list (key * item)) : text_ -> text_ -> Prop := g_item (IDict l).
Definition g_query_arg (a : query_arg) (w r : text_) : Prop :=
  match a with
  | QDict l => g_dict l w r
  | QDicts ls => exists m, w = Sym "[" :: m /\ commas g_dict ls m (Sym "]" :: r)
  end.
(** camkes.g:138-139 [setting], [attribute_reference]. *)
Definition g_value (v : rhs) (w r : text_) : Prop :=
  match v with
  | RItem i => exists m, w = Sym "=" :: m /\ g_item i m r
  | RQuery n a ks => exists m m', w = Sym "=" :: Name n :: Expr TLpar :: m /\
      g_query_arg a m (Expr TRpar :: m') /\ maybe_ g_lookup ks m' r
  | RRef p ks => exists m m', w = Sym "<-" :: m /\ g_reference p m m' /\ maybe_ g_lookup ks m' r
  end.
Definition g_setting (s : setting) (w r : text_) : Prop :=
  match s with
  | Set_ i a v => exists m, w = Name i :: Sym "." :: Name a :: m /\ g_value v m (Sym ";" :: r)
  end.
(** camkes.g:136-137 [configuration_decl], [configuration_defn], after the keyword. *)
Definition g_configuration (n : option string) (l : list setting) (w r : text_) : Prop :=
  exists m, maybe_ g_id n w (Sym "{" :: m) /\ many g_setting l m (Sym "}" :: r).
(** camkes.g:89-90 [configuration_sing]. *)
Definition g_conf_sing (f : conf_sing) (w r : text_) : Prop :=
  exists m, w = Word "configuration" :: m /\
  match f with FRef p => g_reference p m (Sym ";" :: r) | FDef n l => g_configuration n l m r end.

(** camkes.g:142-150 [connector_defn], [hardware_bare], [connector_end_type], [threads]. *)
Definition g_threads (e : node) (w r : text_) : Prop :=
  exists m, w = Word "with" :: m /\ (g_numeric e m (Word "thread" :: r) \/ g_numeric e m (Word "threads" :: r)).
Definition g_cend (e : cend) (w r : text_) : Prop :=
  exists m m', flag (ce_hardware e) (Word "hardware") w m /\
  m = Word (kind_text (ce_kind e) ++ (if ce_multiple e then "s" else "")) :: m' /\
  maybe_ g_threads (ce_threads e) m' (Sym ";" :: r).
Definition g_connector (k : choice) (c : connector) (w r : text_) : Prop :=
  match c with
  | Connector f t fs => exists m m' m'',
      w = Sym "{" :: Word "from" :: m /\ g_cend f m (Word "to" :: m') /\ g_cend t m' m'' /\
      many (g_attribute k) fs m'' (Sym "}" :: r)
  end.
(** camkes.g:145 [connector_ref]. *)
Definition g_conn_type (k : choice) (c : conn_type) (w r : text_) : Prop :=
  match c with ZRef p => g_reference p w r | ZDef c => g_connector k c w r end.

(** camkes.g:108-120, 154, the parts of a component. *)
Definition g_dtype (d : dtype) (w r : text_) : Prop :=
  match d with
  | DName s => g_id s w r
  | DBuf e => exists m, w = Name "Buf" :: Expr TLpar :: m /\ g_numeric e m (Expr TRpar :: r)
  end.
Definition g_citem (k : choice) (c : citem) (w r : text_) : Prop :=
  match c with
  | CField f => g_attribute k f w r
  | CConsumes b t n => exists m, flag b (Word "maybe") w m /\
      m = Word "consumes" :: Name t :: Name n :: Sym ";" :: r
  | CControl => w = Word "control" :: Sym ";" :: r
  | CDataport b t n => exists m m', flag b (Word "maybe") w m /\ m = Word "dataport" :: m' /\
      g_dtype t m' (Name n :: Sym ";" :: r)
  | CEmits t n => w = Word "emits" :: Name t :: Name n :: Sym ";" :: r
  | CHardware => w = Word "hardware" :: Sym ";" :: r
  | CInclude i => g_include i w r
  | CMutex n => w = Word "has" :: Word "mutex" :: Name n :: Sym ";" :: r
  | CProvides t n => exists m, w = Word "provides" :: m /\ g_reference t m (Name n :: Sym ";" :: r)
  | CSemaphore n => w = Word "has" :: Word "semaphore" :: Name n :: Sym ";" :: r
  | CBinSemaphore n => w = Word "has" :: Word "binary_semaphore" :: Name n :: Sym ";" :: r
  | CUses b t n => exists m m', flag b (Word "maybe") w m /\ m = Word "uses" :: m' /\
      g_reference t m' (Name n :: Sym ";" :: r)
  end.
(** camkes.g:127-129 [connection_end]. *)
Definition g_end (e : cend_ref) (w r : text_) : Prop :=
  match e with End_ f p => exists m, w = Word (if f then "from" else "to") :: m /\ g_reference p m r end.

(** camkes.g:99-103 [component_defn], [component_ref]; 86-87 [composition_sing]; 122-134
    [composition_decl], [composition_defn], [instance_defn], [connection_defn], [group_decl],
    [group_defn], [export].  A component may have a composition, a composition and a
    configuration in either order, but not a configuration alone. *)
Fixpoint g_body (k : choice) (b : body) (w r : text_) : Prop :=
  match b with
  | Body l x f first => exists m m', w = Sym "{" :: m /\ many (g_citem k) l m m' /\
      match x, f with
      | None, None => first = false /\ m' = Sym "}" :: r
      | Some x, None => first = false /\ g_comp_sing k x m' (Sym "}" :: r)
      | Some x, Some f => exists m,
          if first then g_conf_sing f m' m /\ g_comp_sing k x m (Sym "}" :: r)
          else g_comp_sing k x m' m /\ g_conf_sing f m (Sym "}" :: r)
      | None, Some _ => False
      end
  end
with g_comp_sing (k : choice) (x : comp_sing) (w r : text_) : Prop :=
  exists m, w = Word "composition" :: m /\
  match x with
  | XRef p => g_reference p m (Sym ";" :: r)
  | XDef n l => exists m', maybe_ g_id n m (Sym "{" :: m') /\ many (g_stmt k) l m' (Sym "}" :: r)
  end
with g_stmt (k : choice) (s : stmt) (w r : text_) : Prop :=
  match s with
  | SInstance i => g_inst k i w r
  | SConnection t n ends => exists m m', w = Word "connection" :: m /\
      g_conn_type k t m (Name n :: Expr TLpar :: m') /\
      commas g_end ends m' (Expr TRpar :: Sym ";" :: r)
  | SGroup n l => exists m m', w = Word "group" :: m /\ maybe_ g_id n m (Sym "{" :: m') /\
      many (g_inst k) l m' (Sym "}" :: r)
  | SExport p q => exists m m', w = Word "export" :: m /\ g_reference p m (Sym "->" :: m') /\
      g_reference q m' (Sym ";" :: r)
  end
with g_inst (k : choice) (i : inst) (w r : text_) : Prop :=
  match i with
  | Inst t n => exists m, w = Word "component" :: m /\ g_comp_type k t m (Name n :: Sym ";" :: r)
  end
with g_comp_type (k : choice) (t : comp_type) (w r : text_) : Prop :=
  match t with YRef p => g_reference p w r | YBody b => g_body k b w r end.
Definition g_composition (k : choice) (n : option string) (l : list stmt) (w r : text_) : Prop :=
  exists m, maybe_ g_id n w (Sym "{" :: m) /\ many (g_stmt k) l m (Sym "}" :: r).

(** camkes.g:92-94 [schedule_defn], [schedule_unit], [schedule_item].  A schedule has at least
    two slots. *)
Definition g_slot (s : slot) (w r : text_) : Prop :=
  match s with
  | Slot a b u => exists m,
      w = Expr TLpar :: Expr (TNum a) :: Sym "," :: Expr (TNum b) :: m /\
      match u with
      | None => m = Expr TRpar :: r
      | Some u => m = Word (if u : bool then "us" else "ticks") :: Expr TRpar :: r
      end
  end.
Definition g_schedule (l : list slot) (w r : text_) : Prop :=
  exists m, w = Word "schedule" :: Sym "{" :: Sym "[" :: m /\ (2 <= List.length l)%nat /\
  commas g_slot l m (Sym "]" :: Sym "}" :: r).
(** camkes.g:83-84 [assembly_decl], [assembly_defn]. *)
Definition g_part (k : choice) (p : part) (w r : text_) : Prop :=
  match p with
  | ACompos x => g_comp_sing k x w r
  | AConf f => g_conf_sing f w r
  | ASchedule l => g_schedule l w r
  end.

(** The declarations: camkes.g:83, 98, 105, 122, 136, 141, 174. *)
Definition g_decl (k : choice) (d : decl) (w r : text_) : Prop :=
  match d with
  | DAssembly n ps => exists m m', w = Word "assembly" :: m /\ maybe_ g_id n m (Sym "{" :: m') /\
      ps <> [] /\ many (g_part k) ps m' (Sym "}" :: r)
  | DComponent n b => exists m m', w = Word "component" :: m /\ maybe_ g_id n m m' /\ g_body k b m' r
  | DComposition n l => exists m, w = Word "composition" :: m /\ g_composition k n l m r
  | DConfiguration n l => exists m, w = Word "configuration" :: m /\ g_configuration n l m r
  | DConnector n c => exists m m', w = Word "connector" :: m /\ maybe_ g_id n m m' /\ g_connector k c m' r
  | DProcedure n l => exists m m', w = Word "procedure" :: m /\ maybe_ g_id n m (Sym "{" :: m') /\
      many (g_pitem k) l m' (Sym "}" :: r)
  | DStruct n fs => exists m, w = Word "struct" :: Name n :: m /\ g_struct_defn k fs m r
  end.

(** camkes.g:11-13 [start].  An empty statement is nothing in the tree. *)
Inductive top := Decl (d : decl) | Import (i : incl) | Empty.
Definition g_top (k : choice) (t : top) (w r : text_) : Prop :=
  match t with
  | Decl d => g_decl k d w r
  | Import i => exists m, w = Word "import" :: m /\ g_file i m r
  | Empty => w = Sym ";" :: r
  end.
Definition g_start (k : choice) (l : list top) (w : text_) : Prop := many (g_top k) l w [].
