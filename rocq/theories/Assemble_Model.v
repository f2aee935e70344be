(** Model of camkes/parser/stage5.py (groups) and stage6.py (several assemblies). *)
From Coq Require Import List String Bool NArith.
From Verif Require Import Prelude DecStr.
Import ListNotations.
Open Scope string_scope. Open Scope list_scope.

(** camkes/ast/objects.py:360-377.  [address_space] starts as the name. *)
Record ginst := mk_ginst { gi_name : string; gi_space : string }.
Definition new_inst (n : string) : ginst := mk_ginst n n.
(** objects.py:850-860 *)
Record group := mk_group { gr_name : option string; gr_insts : list ginst }.
(** Composition, objects.py:250-268; connections by name, exports left out. *)
Record comp := mk_comp { co_insts : list ginst; co_groups : list group; co_conns : list string }.

(** Collapser.__call__ on a Group (stage5.py:50-58): name of the address space and
    the counter afterwards. *)
Definition group_space (counter : N) (g : group) : string * N :=
  match gr_name g with
  | None => (("unamed_group_" ++ dec counter)%string, N.succ counter)
  | Some n => (n, counter)
  end.
Definition set_space (s : string) (i : ginst) : ginst := mk_ginst (gi_name i) s.
Definition collapse_group (counter : N) (g : group) : group * N :=
  let '(s, counter) := group_space counter g in
  (mk_group (gr_name g) (map (set_space s) (gr_insts g)), counter).
Fixpoint collapse_groups (counter : N) (gs : list group) : list group * N :=
  match gs with
  | [] => ([], counter)
  | g :: gs =>
    let '(g, counter) := collapse_group counter g in
    let '(gs, counter) := collapse_groups counter gs in
    (g :: gs, counter)
  end.
(** On a Composition, after its groups (stage5.py:45-49). *)
Definition collapse_comp (counter : N) (c : comp) : comp * N :=
  let '(gs, counter) := collapse_groups counter (co_groups c) in
  (mk_comp (co_insts c ++ flat_map gr_insts gs) [] (co_conns c), counter).
(** All compositions of a specification, in the order the traversal first meets them;
    the traversal meets a shared composition again, but then it has no groups left and
    nothing changes. *)
Fixpoint collapse (counter : N) (cs : list comp) : list comp * N :=
  match cs with
  | [] => ([], counter)
  | c :: cs =>
    let '(c, counter) := collapse_comp counter c in
    let '(cs, counter) := collapse counter cs in
    (c :: cs, counter)
  end.

(** Top level items (liftedast.py); an assembly always has a configuration
    (objects.py:166-181). *)
Record assembly := mk_assembly { as_name : option string; as_comp : comp;
  as_settings : list (string * string * string); as_schedule : list (nat * nat) }.
Inductive item := Asm (a : assembly) | Other (what : string).

(** LiftedAST.assembly (liftedast.py:50-58): the first one. *)
Fixpoint first_assembly (l : list item) : option assembly :=
  match l with
  | [] => None
  | Asm a :: _ => Some a
  | Other _ :: l => first_assembly l
  end.
(** One step of the loop of compose_assemblies (stage6.py:55-62). *)
Definition absorb (a b : assembly) : assembly :=
  mk_assembly (as_name a)
    (mk_comp (co_insts (as_comp a) ++ co_insts (as_comp b)) (co_groups (as_comp a))
       (co_conns (as_comp a) ++ co_conns (as_comp b)))
    (as_settings a ++ as_settings b) (as_schedule a).
(** The assemblies after the first ([not x is assembly]: identity, so two equal
    assembly blocks are two). *)
Fixpoint assemblies (l : list item) : list assembly :=
  match l with
  | [] => []
  | Asm a :: l => a :: assemblies l
  | Other _ :: l => assemblies l
  end.
(** [ast.filter] (stage6.py:69): the first assembly stays where it was. *)
Fixpoint keep_first (seen : bool) (a : assembly) (l : list item) : list item :=
  match l with
  | [] => []
  | Asm _ :: l => if seen then keep_first seen a l else Asm a :: keep_first true a l
  | Other s :: l => Other s :: keep_first seen a l
  end.
(** compose_assemblies (stage6.py:48-69) *)
Definition compose (l : list item) : res (list item) :=
  match assemblies l with
  | [] => Err ParseError
  | a :: rest => Ok (keep_first false (fold_left absorb rest a) l)
  end.
