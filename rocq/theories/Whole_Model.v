(** Model of the parser from stage 5 to stage 10 (camkes/parser/parser.py:29-83): the
    groups of a specification are collapsed, its assemblies combined, its hierarchy
    flattened, its attribute references resolved, its connections merged, and its
    configuration frozen.  Stages 7 to 9 and Configuration.freeze are the functions of
    the models of these stages; stages 5 and 6 are given here on the same data.

    The stage for queries (parser/query.py) is left out: settings hold no queries.  Of
    stage 10 only what fixes the configuration and the uniqueness of names is here; the
    checks of interfaces and types are in Freeze_Model. *)
From Coq Require Import List String Bool NArith.
From Verif Require Import Prelude DecStr.
From Verif Require Flatten_Model AttrRef_Model Merge_Model Freeze_Model.
Import ListNotations.
Open Scope string_scope.
Open Scope list_scope.

(** An instance (ast/objects.py:360-377).  Its type is the number of a component of the
    specification: components are shared by all their instances. *)
Record winst := mk_winst { w_name : string; w_space : string; w_type : nat }.
(** objects.py:850-860 *)
Record wgroup := mk_wgroup { wg_name : option string; wg_insts : list winst }.
(** A component or an assembly with its composition and configuration, and the
    attributes of a component with their defaults. *)
Record block := mk_block {
  bl_insts : list winst; bl_groups : list wgroup; bl_conns : list Flatten_Model.conn;
  bl_exports : list Flatten_Model.export; bl_settings : list AttrRef_Model.setting;
  bl_attrs : list (string * option AttrRef_Model.value) }.
(** The items of a specification after stage 4; others than these two play no part in
    the following stages. *)
Inductive item := IComp (b : block) | IAsm (b : block).

(** * Stage 5 (stage5.py:39-63) *)
Definition group_space (counter : N) (g : wgroup) : string * N :=
  match wg_name g with
  | None => (("unamed_group_" ++ dec counter)%string, N.succ counter)
  | Some n => (n, counter)
  end.
Definition set_space (s : string) (i : winst) : winst := mk_winst (w_name i) s (w_type i).
Fixpoint collapse_groups (counter : N) (gs : list wgroup) : list winst * N :=
  match gs with
  | [] => ([], counter)
  | g :: gs =>
    let '(s, counter) := group_space counter g in
    let '(is, counter) := collapse_groups counter gs in
    (map (set_space s) (wg_insts g) ++ is, counter)
  end.
Definition collapse_block (counter : N) (b : block) : block * N :=
  let '(is, counter) := collapse_groups counter (bl_groups b) in
  (mk_block (bl_insts b ++ is) [] (bl_conns b) (bl_exports b) (bl_settings b) (bl_attrs b), counter).
(** The traversal meets a component again for each of its instances; it then has no
    groups left. *)
Fixpoint collapse (counter : N) (l : list item) : list item * N :=
  match l with
  | [] => ([], counter)
  | IComp b :: l =>
    let '(b, counter) := collapse_block counter b in
    let '(l, counter) := collapse counter l in (IComp b :: l, counter)
  | IAsm b :: l =>
    let '(b, counter) := collapse_block counter b in
    let '(l, counter) := collapse counter l in (IAsm b :: l, counter)
  end.

(** * Stage 6 (stage6.py:48-69) *)
Definition assemblies (l : list item) : list block :=
  flat_map (fun i => match i with IAsm b => [b] | IComp _ => [] end) l.
Definition components (l : list item) : list block :=
  flat_map (fun i => match i with IComp b => [b] | IAsm _ => [] end) l.
Definition absorb (a b : block) : block :=
  mk_block (bl_insts a ++ bl_insts b) (bl_groups a) (bl_conns a ++ bl_conns b) (bl_exports a)
           (bl_settings a ++ bl_settings b) (bl_attrs a).
Definition compose (l : list item) : res block :=
  match assemblies l with
  | [] => Err ParseError
  | a :: rest => Ok (fold_left absorb rest a)
  end.

(** * The hierarchy as stage 7 sees it: every instance with its type.  [ts] are the
    components before; a type that is none of them is an error of the model (stage 4
    does not give such specifications). *)
Definition attach (ts : list Flatten_Model.comp) (i : winst) : res Flatten_Model.inst :=
  match nth_error ts (w_type i) with
  | Some t => Ok (Flatten_Model.Inst (w_name i) (w_space i) t)
  | None => Err AssertionError
  end.
Definition unfold (ts : list Flatten_Model.comp) (b : block) : res Flatten_Model.comp :=
  is <- mapM (attach ts) (bl_insts b) ;;
  Ok (Flatten_Model.Comp is (bl_conns b) (bl_exports b) (bl_settings b) (bl_attrs b)).
Definition unfold_all (bs : list block) : res (list Flatten_Model.comp) :=
  foldM (fun ts b => t <- unfold ts b ;; Ok (ts ++ [t])) bs [].

(** * From stage to stage *)
(** An end of a flat connection, as stage 9 compares it. *)
Definition end_name (e : Flatten_Model.cend) : string :=
  match Flatten_Model.e_inst e with
  | Some n => (n ++ "." ++ Flatten_Model.e_iface e)%string
  | None => Flatten_Model.e_iface e
  end.
Definition to_mconn (c : Flatten_Model.conn) : Merge_Model.mconn :=
  Merge_Model.mk_mconn (Flatten_Model.c_name c) (Flatten_Model.c_type c)
    (map end_name (Flatten_Model.c_from c)) (map end_name (Flatten_Model.c_to c)).
(** The attributes of the flat instances, for Assembly.get_attribute (objects.py:205-217)
    and Configuration.freeze *)
Definition attributes (is : list Flatten_Model.inst) : AttrRef_Model.instances :=
  map (fun i => (Flatten_Model.iname i, Flatten_Model.attrs_of (Flatten_Model.itype i))) is.
(** A setting after stage 8, with its value *)
Definition concrete (s : AttrRef_Model.setting) : res (string * string * AttrRef_Model.value) :=
  match AttrRef_Model.s_val s with
  | AttrRef_Model.Conc v => Ok (AttrRef_Model.s_inst s, AttrRef_Model.s_attr s, v)
  | AttrRef_Model.Ref _ _ => Err AssertionError
  end.

(** MapLike.freeze (ast/base.py:240-263) of the composition of the assembly *)
Fixpoint distinct (l : list string) : bool :=
  match l with
  | [] => true
  | x :: l => negb (memb x l) && distinct l
  end.

Record result := mk_result {
  r_insts : list (string * string);   (* name and address space *)
  r_conns : list Merge_Model.mconn;
  r_values : Freeze_Model.mapping (V := AttrRef_Model.value) }.

(** The stages in order (parser.py:62-83) *)
Definition whole (spec : list item) : res result :=
  let '(spec, _) := collapse 0 spec in
  a <- compose spec ;;
  ts <- unfold_all (components spec) ;;
  root <- unfold ts a ;;
  fl <- Flatten_Model.transform root ;;
  let is := Flatten_Model.f_insts fl in
  ss <- AttrRef_Model.resolve (attributes is) (Flatten_Model.f_settings fl) ;;
  cs <- Merge_Model.merge (map to_mconn (Flatten_Model.f_conns fl)) ;;
  if negb (distinct (map Flatten_Model.iname is ++ map Merge_Model.m_name cs)) then Err ASTError
  else
    vs <- mapM concrete ss ;;
    m <- Freeze_Model.freeze_configuration (Some (attributes is)) vs ;;
    Ok (mk_result (map (fun i => (Flatten_Model.iname i, Flatten_Model.ias i)) is) cs m).
