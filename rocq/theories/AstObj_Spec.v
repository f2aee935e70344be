(** What it means to be frozen, and to be equal. *)
From Coq Require Import List Bool String ZArith.
From Verif Require Import Prelude AstObj_Model.
Import ListNotations.
Open Scope string_scope.
Open Scope list_scope.

(** ** Freezing *)
Definition is_object (h : heap) (a : nat) (o : object) : Prop :=
  nth_error h a = Some (CObj o).
Definition is_frozen (h : heap) (a : nat) : Prop :=
  exists o, is_object h a o /\ o_frozen o = true.

(** The syntax tree: for each class the fields that hold its children. *)
Definition child_fields : list (string * list string) := [
  ("LiftedAST", ["items"]);
  ("Assembly", ["composition"; "configuration"; "schedule"]);
  ("Composition", ["instances"; "groups"; "connections"; "exports"]);
  ("Configuration", ["settings"]);
  ("Instance", ["type"]);
  ("Group", ["instances"]);
  ("Connection", ["from_ends"; "to_ends"; "type"]);
  ("ConnectionEnd", ["instance"; "interface"]);
  ("Export", ["source_instance"; "source_interface"; "destination"]);
  ("Component", ["attributes"; "includes"; "provides"; "uses"; "emits";
     "consumes"; "dataports"; "mutexes"; "semaphores"; "binary_semaphores";
     "composition"; "configuration"]);
  ("Provides", ["type"]);
  ("Uses", ["type"]);
  ("Procedure", ["includes"; "methods"; "attributes"]);
  ("Method", ["parameters"]);
  ("Attribute", ["type"]);
  ("Struct", ["attributes"])].

(** The fields that hold a list while the tree is built and an immutable
    sequence once it is frozen. *)
Definition list_fields : list (string * list string) := [
  ("LiftedAST", ["items"]);
  ("Schedule", ["items"]);
  ("Composition", ["instances"; "connections"; "groups"; "exports"]);
  ("Configuration", ["settings"]);
  ("Connection", ["from_ends"; "to_ends"]);
  ("Struct", ["attributes"]);
  ("Component", ["includes"; "provides"; "uses"; "emits"; "consumes";
     "dataports"; "attributes"; "mutexes"; "semaphores"]);
  ("Method", ["parameters"])].

(** [r] is a child of [a]: held directly, in a list or in a tuple by one of
    the child fields. *)
Definition holds (h : heap) (v : val) (r : nat) : Prop :=
  (v = VRef r /\ exists o, is_object h r o) \/
  (exists l, v = VTuple l /\ In (VRef r) l) \/
  (exists p l, v = VRef p /\ nth_error h p = Some (CList l) /\
     In (VRef r) l).
Definition child (h : heap) (a r : nat) : Prop :=
  exists o fs f v, is_object h a o /\ In (o_class o, fs) child_fields /\
    In f fs /\ dget (o_fields o) f = Some v /\ holds h v r.

Inductive descendant (h : heap) (a : nat) : nat -> Prop :=
| desc_self : descendant h a a
| desc_step b c : descendant h a b -> child h b c -> descendant h a c.

(** Everything below a frozen object is frozen. *)
Definition deeply_frozen (h : heap) : Prop :=
  forall a b, is_frozen h a -> child h a b -> is_frozen h b.

(** [v] is not a list or dict, which could be changed in place. *)
Definition settled (h : heap) (v : val) : Prop :=
  forall r, v = VRef r ->
  (forall l, nth_error h r <> Some (CList l)) /\
  (forall d, nth_error h r <> Some (CDict d)).

(** A field value is as before, up to a list having become a tuple of the same
    elements or a dict a frozendict around it. *)
Definition same_value (h : heap) (v v' : val) : Prop :=
  v' = v \/
  (exists r l, v = VRef r /\ nth_error h r = Some (CList l) /\ v' = VTuple l) \/
  (exists r d, v = VRef r /\ nth_error h r = Some (CDict d) /\ v' = VFrozenDict r).

(** Nothing but flags changed, and those only from false to true. *)
Definition same_cell (h : heap) (c c' : cell) : Prop :=
  match c, c' with
  | CObj o, CObj o' =>
      o_class o' = o_class o /\ (o_frozen o = true -> o' = o) /\
      forall f, match dget (o_fields o) f, dget (o_fields o') f with
                | Some v, Some v' => same_value h v v'
                | None, None => True
                | _, _ => False
                end
  | CList l, CList l' => l' = l
  | CDict d, CDict d' => d' = d
  | _, _ => False
  end.
Definition only_frozen (h h' : heap) : Prop :=
  forall a, match nth_error h a, nth_error h' a with
            | Some c, Some c' => same_cell h c c'
            | None, None => True
            | _, _ => False
            end.

(** Objects form no cycle through child fields. *)
Definition decreasing (rank : nat -> nat) (h : heap) : Prop :=
  forall a b, child h a b -> rank b < rank a.

(** ** Equality

    Equal as Python data: numbers by value, sequences of the same kind
    element by element, dicts as finite maps, objects of one class by their
    visible fields. *)
Definition as_number (v : pv) : option Z :=
  match v with
  | PInt z => Some z
  | PBool true => Some 1%Z
  | PBool false => Some 0%Z
  | _ => None
  end.
(** Attributes that are no part of the value: bookkeeping, and what is
    derived from the rest. *)
Definition ignored (cls attr : string) : Prop :=
  In attr ["child_fields"; "_frozen"; "_location"; "no_hash"; "_parent"] \/
  (attr = "_mapping" /\
   In cls ["Component"; "Procedure"; "Composition"; "Configuration"; "Group"])
  \/ (attr = "_assembly" /\ cls = "LiftedAST").

Inductive same : pv -> pv -> Prop :=
| same_none : same PNone PNone
| same_number a b z : as_number a = Some z -> as_number b = Some z -> same a b
| same_str s : same (PStr s) (PStr s)
| same_seq t l m : Forall2 same l m -> same (PSeq t l) (PSeq t m)
| same_dict t u d e :
    List.length d = List.length e ->
    (forall k x, In (k, x) d -> exists y, dget e k = Some y /\ same x y) ->
    same (PDict t d) (PDict u e)
| same_obj c d e :
    (forall k x, In (k, x) d -> ~ ignored c k ->
       exists y, dget e k = Some y /\ same x y) ->
    same (PObj c d) (PObj c e).

(** Values that occur: dicts have each key once, and all objects of a class
    have the same attributes, created in the same order (their constructor
    sets them all). *)
Inductive wf (layout : string -> list string) : pv -> Prop :=
| wf_none : wf layout PNone
| wf_int z : wf layout (PInt z)
| wf_bool b : wf layout (PBool b)
| wf_str s : wf layout (PStr s)
| wf_seq t l : Forall (wf layout) l -> wf layout (PSeq t l)
| wf_dict t d : NoDup (map fst d) -> Forall (fun kv => wf layout (snd kv)) d ->
    wf layout (PDict t d)
| wf_obj c d : NoDup (map fst d) -> map fst d = layout c ->
    Forall (fun kv => wf layout (snd kv)) d -> wf layout (PObj c d).

(** No dicts, and sequences of objects only. *)
Inductive tame : pv -> Prop :=
| tm_none : tame PNone
| tm_int z : tame (PInt z)
| tm_bool b : tame (PBool b)
| tm_str s : tame (PStr s)
| tm_seq t l : Forall tame l -> Forall (fun x => exists c d, x = PObj c d) l ->
    tame (PSeq t l)
| tm_obj c d : Forall (fun kv => tame (snd kv)) d -> tame (PObj c d).
