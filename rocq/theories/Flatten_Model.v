(** Model of camkes/parser/stage7.py: hoisting a component hierarchy into one
    flat assembly.

    Simplifications, for the whole file:
    - AST objects are modelled by the fields stage 7 touches.  Python keys its
      [derived] dictionary by instance objects and its alias table by object
      identity; the model keys both by the instance's (current, mangled) name.
      The two agree when sibling instances have different names, which stage 4
      enforces ([ScopingContext.register], scope.py:50-67); theorems that need
      it state it ([wf]).
    - A component with [composition] or [configuration] equal to [None] is one
      with empty lists (stage7.py:119, 207-208 treat them alike).
    - Interfaces are their names; settings' concrete values are carried along. *)
From Coq Require Import List String Bool.
From Verif Require Import Prelude.
From Verif Require AttrRef_Model.
Import ListNotations.
Open Scope string_scope.
Open Scope list_scope.

(** ConnectionEnd: objects.py class ConnectionEnd; [None] is an end that names
    an interface of the enclosing component itself. *)
Record cend := mk_cend { e_inst : option string; e_iface : string }.

(** Connection (objects.py:384-396); the connector type is carried along. *)
Record conn := mk_conn {
  c_name : string; c_type : string; c_from : list cend; c_to : list cend }.

(** Export (objects.py class Export): [export x_inst.x_iface -> x_dest]. *)
Record export := mk_export { x_inst : string; x_iface : string; x_dest : string }.

(** Settings, with a concrete value or an AttributeReference, as for stage 8. *)
Notation sval := AttrRef_Model.sval.
Notation Conc := AttrRef_Model.Conc.
Notation Ref := AttrRef_Model.Ref.
Notation setting := AttrRef_Model.setting.
Notation mk_setting := AttrRef_Model.mk_setting.
Notation s_inst := AttrRef_Model.s_inst.
Notation s_attr := AttrRef_Model.s_attr.
Notation s_val := AttrRef_Model.s_val.

(** Component/Assembly with its composition and configuration, and the attributes it
    declares with their defaults; an instance is a name, an address space and a
    component type (objects.py:360-367). *)
Inductive comp := Comp
  (c_insts : list inst) (c_conns : list conn) (c_exports : list export)
  (c_settings : list setting) (c_attrs : list (string * option AttrRef_Model.value))
with inst := Inst (i_name : string) (i_as : string) (i_type : comp).

Definition insts_of (c : comp) := let 'Comp l _ _ _ _ := c in l.
Definition conns_of (c : comp) := let 'Comp _ l _ _ _ := c in l.
Definition exports_of (c : comp) := let 'Comp _ _ l _ _ := c in l.
Definition settings_of (c : comp) := let 'Comp _ _ _ l _ := c in l.
Definition attrs_of (c : comp) := let 'Comp _ _ _ _ l := c in l.
Definition iname (i : inst) := let 'Inst n _ _ := i in n.
Definition ias (i : inst) := let 'Inst _ a _ := i in a.
Definition itype (i : inst) := let 'Inst _ _ t := i in t.

(** ['%s.%s' % (namespace, name)] when the namespace is not None
    (stage7.py:63-65, 68, 71, 73, 79). *)
Definition mangle (ns : option string) (n : string) : string :=
  match ns with None => n | Some p => (p ++ "." ++ n)%string end.

(** derive on an Instance: stage7.py:63-66, 72-80. *)
Definition derive_inst (ns : option string) (i : inst) : inst :=
  match ns with
  | None => i
  | Some _ => Inst (mangle ns (iname i)) (mangle ns (ias i)) (itype i)
  end.
(** derive on a Connection: stage7.py:63-66, 72-73, 80. *)
Definition derive_conn (ns : option string) (c : conn) : conn :=
  match ns with
  | None => c
  | Some _ => mk_conn (mangle ns (c_name c)) (c_type c) (c_from c) (c_to c)
  end.
(** derive on a Setting: stage7.py:63-71, 80. *)
Definition derive_setting (ns : option string) (s : setting) : setting :=
  match ns with
  | None => s
  | Some _ =>
    mk_setting (mangle ns (s_inst s)) (s_attr s)
      match s_val s with
      | Ref r lk => Ref (mangle ns r) lk
      | v => v
      end
  end.

(** InterfacePointer: stage7.py:31-54 (see header for identity). *)
Definition iptr := (string * string)%type.
Definition aliases := dict iptr iptr.

(** What infer_all returns: stage7.py:212-213. *)
Record hoisted := mk_hoisted {
  h_insts : list inst; h_conns : list conn; h_aliases : aliases;
  h_settings : list setting }.

(** Lookup in [derived]; the assertions at stage7.py:151-152, 173, 187, 202. *)
Definition derived_get (d : dict string string) (n : string) : res string :=
  match dget d n with Some m => Ok m | None => Err AssertionError end.

(** Re-adjusting one end: stage7.py:165-175 and 179-189.  [parent = None] is the
    Assembly case. *)
Definition adjust_end (parent : option string) (d : dict string string) (e : cend)
  : res cend :=
  match e_inst e with
  | None => match parent with
            | None => Err ParseError
            | Some p => Ok (mk_cend (Some p) (e_iface e))
            end
  | Some n => n' <- derived_get d n ;; Ok (mk_cend (Some n') (e_iface e))
  end.

(** Body of the connection loop: stage7.py:159-193. *)
Definition adjust_conn (parent : option string) (d : dict string string) (c : conn)
  : res conn :=
  let n := derive_conn parent c in
  f <- mapM (adjust_end parent d) (c_from n) ;;
  t <- mapM (adjust_end parent d) (c_to n) ;;
  Ok (mk_conn (c_name n) (c_type n) f t).

(** Accumulators of the loop over instances: stage7.py:103-107, 117, 125-128. *)
Record acc := mk_acc {
  a_imm : list inst; a_child : list inst; a_derived : dict string string;
  a_conns : list conn; a_aliases : aliases; a_settings : list setting }.

(** Alias adjustment: stage7.py:150-155. *)
Definition adjust_alias (d : dict string string) (a : aliases) (kv : iptr * iptr)
  : res aliases :=
  let '((ki, kf), (vi, vf)) := kv in
  k' <- derived_get d ki ;;
  v' <- derived_get d vi ;;
  Ok (dset a (k', kf) (v', vf)).

(** Body of the instance loop, given the recursive result: stage7.py:130-157. *)
Definition step_inst (prefix : option string) (a : acc) (i : inst) (h : hoisted)
  : res acc :=
  let d1 := fold_left (fun d i2 => dset d (iname i2) (iname (derive_inst prefix i2)))
                      (h_insts h) (a_derived a) in
  let kids := map (derive_inst prefix) (h_insts h) in
  let n := derive_inst prefix i in
  let d2 := dset d1 (iname i) (iname n) in
  al <- foldM (adjust_alias d2) (h_aliases h) (a_aliases a) ;;
  Ok (mk_acc (a_imm a ++ [n]) (a_child a ++ kids) d2
             (a_conns a ++ h_conns h) al (a_settings a ++ h_settings h)).

(** New aliases from exports: stage7.py:195-204. *)
Definition add_export (parent : option string) (d : dict string string)
  (a : aliases) (e : export) : res aliases :=
  match parent with
  | None => Err AssertionError
  | Some p => n <- derived_get d (x_inst e) ;;
              Ok (dset a (p, x_dest e) (n, x_iface e))
  end.

(** infer_all: stage7.py:82-213.  [parent] is the enclosing instance's name;
    [None] for the Assembly. *)
Fixpoint infer_all (item : comp) (parent : option string) : res hoisted :=
  let 'Comp insts conns exports settings _ := item in
  a <- (fix go (l : list inst) (a : acc) : res acc :=
          match l with
          | [] => Ok a
          | Inst n s t :: l =>
              h <- infer_all t (Some n) ;;
              a' <- step_inst parent a (Inst n s t) h ;;
              go l a'
          end) insts (mk_acc [] [] [] [] [] []) ;;
  cs <- mapM (adjust_conn parent (a_derived a)) (conns ++ a_conns a) ;;
  al <- foldM (add_export parent (a_derived a)) exports (a_aliases a) ;;
  Ok (mk_hoisted (a_imm a ++ a_child a) cs al
        (map (derive_setting parent) (settings ++ a_settings a))).

(** [while p in aliases: p = aliases[p]] (stage7.py:242-243). *)
Fixpoint chase (fuel : nat) (al : aliases) (p : iptr) : res iptr :=
  match dget al p with
  | None => Ok p
  | Some q => match fuel with
              | O => Err OutOfFuel
              | S fuel => chase fuel al q
              end
  end.

(** One end in the final loop: stage7.py:240-245.  After infer_all every end
    has an instance; the [None] branch mirrors the assertion of
    InterfacePointer.__init__ (stage7.py:37). *)
Definition final_end (al : aliases) (e : cend) : res cend :=
  match e_inst e with
  | None => Err AssertionError
  | Some n => '(n', f') <- chase (List.length al) al (n, e_iface e) ;;
              Ok (mk_cend (Some n') f')
  end.
Definition final_conn (al : aliases) (c : conn) : res conn :=
  f <- mapM (final_end al) (c_from c) ;;
  t <- mapM (final_end al) (c_to c) ;;
  Ok (mk_conn (c_name c) (c_type c) f t).

(** The flat assembly: stage7.py:228-251. *)
Record flat := mk_flat {
  f_insts : list inst; f_conns : list conn; f_settings : list setting }.
Definition transform (assembly : comp) : res flat :=
  h <- infer_all assembly None ;;
  cs <- mapM (final_conn (h_aliases h)) (h_conns h) ;;
  Ok (mk_flat (h_insts h) cs (h_settings h)).
