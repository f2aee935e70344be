(** Specification of name lookup and of reference resolution: declarations are just
    kept in lists. *)
From Coq Require Import List String Bool.
From Verif Require Import Prelude Scope_Model.
Import ListNotations.
Open Scope string_scope. Open Scope list_scope.

(** ** Histories of scope operations *)
Inductive op := Open | Close | Register (o : node).
(** What is declared: a stack of lists, each in order of registration. *)
Definition decls := list (list node).
(** Two classes whose declarations clash: the same class, or groups and instances. *)
Definition group_or_instance (cls : string) : bool := String.eqb cls "Group" || String.eqb cls "Instance".
Definition clash (a b : string) : bool := String.eqb a b || (group_or_instance a && group_or_instance b).
Definition same_slot (a b : node) : bool :=
  match name_of a, name_of b with
  | Some x, Some y => String.eqb x y && clash (cls_of a) (cls_of b)
  | _, _ => false
  end.
(** One operation, on the implementation and on the declarations. *)
Definition step (ss : scopes) (o : op) : res scopes :=
  match o with Open => Ok (open ss) | Close => close ss | Register o => register ss o end.
Inductive spec_step : decls -> op -> decls -> Prop :=
| ss_open d : spec_step d Open ([] :: d)
| ss_close l d : spec_step (l :: d) Close d
| ss_register l d o : is_ref o = false -> (forall x, In x l -> same_slot x o = false) ->
    spec_step (l :: d) (Register o) ((l ++ [o]) :: d).
Inductive spec_run : decls -> list op -> decls -> Prop :=
| sr_nil d : spec_run d [] d
| sr_cons d o d1 os d2 : spec_step d o d1 -> spec_run d1 os d2 -> spec_run d (o :: os) d2.

(** ** Lookup: all declarations a qualified name can mean, nearest first. *)
Definition fits (cls : string) (t : rtype) : bool :=
  match t with
  | TAny => true
  | TClass c => String.eqb cls c
  | TInterface => String.eqb cls "Provides" || String.eqb cls "Uses" || String.eqb cls "Emits" ||
                  String.eqb cls "Consumes" || String.eqb cls "Dataport"
  end.
(** What one can look into: an object's children, but for an instance those of its
    type (its first child). *)
Definition children (o : node) : list node := match o with Node _ _ _ kids => kids | Ref _ _ => [] end.
Definition inside (o : node) : list node :=
  if String.eqb (cls_of o) "Instance"
  then match children o with ty :: _ => children ty | [] => [] end
  else children o.
Definition named (n : string) (o : node) : bool :=
  match name_of o with Some m => String.eqb m n | None => false end.
Fixpoint meanings (ref : list string) (t : rtype) (d : decls) : list node :=
  match ref with
  | [] => []
  | [n] => filter (fun o => fits (cls_of o) t) (filter (named n) (List.concat d))
  | n :: tail => flat_map (fun o => meanings tail t [inside o]) (filter (named n) (List.concat d))
  end.

(** ** Reference resolution.  [vis]: declarations visible here, innermost scope first;
    [asm]: what assemblies have declared so far.  Declarations of one scope differ in
    name or class (groups and instances counting as one class). *)
(** Instances, groups and connections declared in the composition of an assembly. *)
Definition assembly_wide (cls : string) (pp : string) : bool :=
  String.eqb pp "Assembly" && (group_or_instance cls || String.eqb cls "Connection").
Definition asm_decl (pp : string) (n : node) : list node := if assembly_wide (cls_of n) pp then [n] else [].
Inductive Res : decls -> list node -> string -> string -> node -> node -> list node -> Prop :=
| Res_ref vis asm p pp s t o : hd_error (meanings s t vis ++ meanings s t [asm]) = Some o ->
    Res vis asm p pp (Ref s t) o asm
| Res_node vis asm p pp loc cls nm kids kids' asm' :
    ResL vis [] asm cls p kids kids' asm' ->
    (assembly_wide cls pp = true -> forall x, In x asm' -> same_slot x (Node loc cls nm kids') = false) ->
    Res vis asm p pp (Node loc cls nm kids) (Node loc cls nm kids')
      (asm' ++ asm_decl pp (Node loc cls nm kids'))
(** A list of siblings, [cur] being the earlier siblings declared. *)
with ResL : decls -> list node -> list node -> string -> string -> list node -> list node -> list node -> Prop :=
| ResL_nil vis cur asm p pp : ResL vis cur asm p pp [] [] asm
| ResL_cons vis cur asm p pp n n' asm1 ns ns' asm2 :
    Res (cur :: vis) asm p pp n n' asm1 ->
    (is_ref n = false -> forall x, In x cur -> same_slot x n' = false) ->
    ResL vis (cur ++ if is_ref n then [] else [n']) asm1 p pp ns ns' asm2 ->
    ResL vis cur asm p pp (n :: ns) (n' :: ns') asm2.

(** No reference anywhere in a tree. *)
Fixpoint ref_free (n : node) : Prop :=
  match n with
  | Ref _ _ => False
  | Node _ _ _ kids => (fix all l := match l with [] => True | k :: l => ref_free k /\ all l end) kids
  end.
(** A declaration one can look into has distinct members. *)
Definition distinct (l : list node) : Prop := ForallOrdPairs (fun a b => same_slot a b = false) l.
Fixpoint tidy (n : node) : Prop :=
  (name_of n <> None -> distinct (inside n)) /\
  match n with
  | Ref _ _ => True
  | Node _ _ _ kids => (fix all l := match l with [] => True | k :: l => tidy k /\ all l end) kids
  end.
(** Histories in which every scope opened is closed again. *)
Inductive balanced : list op -> Prop :=
| b_nil : balanced []
| b_reg o os : balanced os -> balanced (Register o :: os)
| b_nest os os' : balanced os -> balanced os' -> balanced (Open :: os ++ Close :: os').

(** [b] is [a] with each reference replaced by a declaration of the wanted class with
    the last stem as its name. *)
Inductive replaced : node -> node -> Prop :=
| rp_ref s t o : fits (cls_of o) t = true -> name_of o = Some (last s "") -> ref_free o -> s <> [] ->
    replaced (Ref s t) o
| rp_node loc cls nm kids kids' : Forall2 replaced kids kids' ->
    replaced (Node loc cls nm kids) (Node loc cls nm kids').
