(** What the grammar is expected to do.  [g_start k l w]: the tokens [w] can be read as the
    file [l]. *)
From Coq Require Import String Ascii List Bool.
From Verif Require Import Prelude Numeric_Model Lift_Model Lift_Spec Syntax_Model.
Import ListNotations.
Open Scope string_scope.
Open Scope list_scope.

(** The same file, with the types of one identifier read in one way. *)
Fixpoint choose_type (k : choice) (t : ty) : ty :=
  match t with
  | TName n => match k with As_reference => TPath (n, []) | _ => TName n end
  | TPath (n, []) =>
      match k with As_name => if String.eqb n "Buf" then t else TName n | _ => t end
  | TAnon fs => TAnon (map (choose_field k) fs)
  | t => t
  end
with choose_field (k : choice) (f : field) : field :=
  match f with Field t n array d => Field (choose_type k t) n array d end.
Definition choose_param (k : choice) (p : param) : param :=
  match p with Param d t n array => Param d (choose_type k t) n array end.
Definition choose_method (k : choice) (m : method) : method :=
  match m with Meth t n ps => Meth (option_map (choose_type k) t) n (map (choose_param k) ps) end.
Definition choose_pitem (k : choice) (i : pitem) : pitem :=
  match i with
  | PMethod m => PMethod (choose_method k m)
  | PField f => PField (choose_field k f)
  | PInclude i => PInclude i
  end.
Definition choose_connector (k : choice) (c : connector) : connector :=
  match c with Connector f t fs => Connector f t (map (choose_field k) fs) end.
Definition choose_conn_type (k : choice) (c : conn_type) : conn_type :=
  match c with ZRef p => ZRef p | ZDef c => ZDef (choose_connector k c) end.
Definition choose_citem (k : choice) (c : citem) : citem :=
  match c with CField f => CField (choose_field k f) | c => c end.
Fixpoint choose_body (k : choice) (b : body) : body :=
  match b with
  | Body l x f first =>
      Body (map (choose_citem k) l) (match x with Some x => Some (choose_comp k x) | None => None end) f first
  end
with choose_comp (k : choice) (x : comp_sing) : comp_sing :=
  match x with XRef p => XRef p | XDef n l => XDef n (map (choose_stmt k) l) end
with choose_stmt (k : choice) (s : stmt) : stmt :=
  match s with
  | SInstance i => SInstance (choose_inst k i)
  | SConnection t n e => SConnection (choose_conn_type k t) n e
  | SGroup n l => SGroup n (map (choose_inst k) l)
  | SExport p q => SExport p q
  end
with choose_inst (k : choice) (i : inst) : inst :=
  match i with Inst t n => Inst (choose_comp_type k t) n end
with choose_comp_type (k : choice) (t : comp_type) : comp_type :=
  match t with YRef p => YRef p | YBody b => YBody (choose_body k b) end.
Definition choose_part (k : choice) (p : part) : part :=
  match p with ACompos x => ACompos (choose_comp k x) | p => p end.
Definition choose (k : choice) (d : decl) : decl :=
  match d with
  | DAssembly n ps => DAssembly n (map (choose_part k) ps)
  | DComponent n b => DComponent n (choose_body k b)
  | DComposition n l => DComposition n (map (choose_stmt k) l)
  | DConfiguration n l => DConfiguration n l
  | DConnector n c => DConnector n (choose_connector k c)
  | DProcedure n l => DProcedure n (map (choose_pitem k) l)
  | DStruct n fs => DStruct n (map (choose_field k) fs)
  end.
Definition choose_top (k : choice) (t : top) : top :=
  match t with Decl d => Decl (choose k d) | t => t end.

(** The declarations of a file. *)
Definition decls (l : list top) : list decl :=
  flat_map (fun t => match t with Decl d => [d] | _ => [] end) l.
