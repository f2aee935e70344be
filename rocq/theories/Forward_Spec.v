(** What is expected of reference resolution with forward references. *)
From Coq Require Import List String Bool PeanoNat.
From Verif Require Import Prelude Scope_Model Scope_Spec Forward_Model.
Import ListNotations.
Open Scope string_scope. Open Scope list_scope.

(** ** ASTs as they come from the stage before: trees.  Objects are numbered such that parents come
    before their children. *)
Record tree (h : heap) : Prop := {
  tree_root : class_of h 0 = "LiftedAST";
  tree_order : forall p k, In k (kids h p) -> p < k < List.length h;
  tree_parent : forall p q i j k, nth_error (kids h p) i = Some k -> nth_error (kids h q) j = Some k -> p = q /\ i = j;
  (* the first child of an assembly is its composition or a reference to it *)
  tree_assembly : forall a c l, class_of h a = "Assembly" -> kids h a = c :: l ->
    class_of h c = "Composition" \/ exists s, nth_error h c = Some (Reff s (TClass "Composition")) }.

(** [l] is an object, its parent and so on up to the root. *)
Inductive ancestry (h : heap) : list nat -> Prop :=
| anc_root : ancestry h [0]
| anc_kid p l k : ancestry h (p :: l) -> In k (kids h p) -> ancestry h (k :: p :: l).

Definition name_at (h : heap) (i : nat) : option string := match nth_error h i with Some (Obj _ n _) => n | _ => None end.
(** Declarations: children that are not references *)
Definition declared (h : heap) (i : nat) : list nat := filter (fun k => negb (is_reff h k)) (kids h i).
(** Everything in the compositions of assemblies *)
Definition assembly_declared (h : heap) : list nat :=
  flat_map (fun a => match kids h a with c :: _ => declared h c | [] => [] end)
           (filter (fun a => String.eqb (class_of h a) "Assembly") (kids h 0)).
(** What is visible in an object: its own declarations, those of its parent, .., those of the whole
    specification, and those of assemblies.  Declarations behind the reference count as well. *)
Definition visible (h : heap) (l : list nat) : list nat := flat_map (declared h) l ++ assembly_declared h.

(** What a qualified name can mean, nearest first. *)
Definition has_name (h : heap) (n : string) (i : nat) : bool :=
  match name_at h i with Some m => String.eqb m n | None => false end.
Definition interior (h : heap) (i : nat) : list nat :=
  if String.eqb (class_of h i) "Instance"
  then match kids h i with ty :: _ => kids h ty | [] => [] end
  else kids h i.
Fixpoint mean (h : heap) (ref : list string) (t : rtype) (l : list nat) : list nat :=
  match ref with
  | [] => []
  | [n] => filter (fun i => fits (class_of h i) t) (filter (has_name h n) l)
  | n :: tail => flat_map (fun i => mean h tail t (interior h i)) (filter (has_name h n) l)
  end.

(** ** Graphs *)
Inductive below (h : heap) : nat -> nat -> Prop :=
| below_kid p k : In k (kids h p) -> below h p k
| below_trans p k x : In k (kids h p) -> below h k x -> below h p x.
Definition reachable (h : heap) (x : nat) : Prop := x = 0 \/ below h 0 x.
Definition acyclic (h : heap) : Prop := forall x, reachable h x -> ~ below h x x.

(** The result has the same objects with the same classes and names, and the same children except that
    references have become other objects. *)
Definition only_references (h h' : heap) : Prop :=
  List.length h' = List.length h /\
  forall i, match nth_error h i with
            | Some (Reff s t) => nth_error h' i = Some (Reff s t)
            | Some (Obj c n ks) => exists ks', nth_error h' i = Some (Obj c n ks') /\
                Forall2 (fun k k' => k = k' \/ is_reff h k = true) ks ks'
            | None => True
            end.

(** Two declarations of the same name and class (groups and instances counting as one). *)
Definition clashing (h : heap) (a b : nat) : bool :=
  match name_at h a, name_at h b with
  | Some x, Some y => String.eqb x y && clash (class_of h a) (class_of h b)
  | _, _ => false
  end.
Definition distinct_names (h : heap) (l : list nat) : Prop := ForallOrdPairs (fun a b => clashing h a b = false) l.

(** ** Specifications whose references have a meaning *)
(** What a child of an object becomes: itself, or what the reference means. *)
Inductive becomes (h : heap) (l : list nat) (k : nat) : nat -> Prop :=
| becomes_same : is_reff h k = false -> becomes h l k k
| becomes_meaning n t r : nth_error h k = Some (Reff [n] t) -> hd_error (mean h [n] t (visible h l)) = Some r ->
    becomes h l k r.
(** Where x.n is looked up: in x, or for an instance in what its type becomes. *)
Definition looked_into (h : heap) (x y : nat) : Prop :=
  if String.eqb (class_of h x) "Instance"
  then exists l ty ks, ancestry h (x :: l) /\ kids h x = ty :: ks /\ becomes h (x :: l) ty y
  else y = x.
Definition no_references (h : heap) (y : nat) : Prop := forall k, In k (kids h y) -> is_reff h k = false.
(** What m.n may become is anything called n in anything called m. *)
Inductive may_become (h : heap) (l : list nat) (k : nat) : nat -> Prop :=
| may_plain r : becomes h l k r -> may_become h l k r
| may_inside m n t x y r : nth_error h k = Some (Reff [m; n] t) -> In x (visible h l) -> has_name h m x = true ->
    looked_into h x y -> In r (kids h y) -> has_name h n r = true -> may_become h l k r.
Definition leads (h : heap) (p x : nat) : Prop :=
  exists l k, ancestry h (p :: l) /\ In k (kids h p) /\ may_become h (p :: l) k x.
Inductive leads_on (h : heap) : nat -> nat -> Prop :=
| leads_one p x : leads h p x -> leads_on h p x
| leads_more p y x : leads h p y -> leads_on h y x -> leads_on h p x.
(** An end of a connection in an assembly: two references, to an instance and to an interface. *)
Definition assembly_end (h : heap) (e : nat) : Prop :=
  exists a c ks x i j, In a (kids h 0) /\ class_of h a = "Assembly" /\ kids h a = c :: ks /\
    In x (kids h c) /\ class_of h x = "Connection" /\ In e (kids h x) /\ class_of h e = "ConnectionEnd" /\
    kids h e = [i; j] /\ is_reff h i = true /\ is_reff h j = true.
(** The interface m.n exists in an assembly, and whatever is called m where it is mentioned can be looked into. *)
Definition connectable (h : heap) (l : list nat) (m n : string) : Prop :=
  (forall x, In x (visible h l) -> has_name h m x = true -> exists y, looked_into h x y /\ no_references h y) /\
  exists x y r, In x (assembly_declared h) /\ has_name h m x = true /\ looked_into h x y /\
    In r (kids h y) /\ has_name h n r = true /\ fits (class_of h r) TInterface = true.
Record sound_spec (h : heap) : Prop := {
  ss_distinct : forall x l, ancestry h (x :: l) -> is_reff h x = false -> distinct_names h (declared h x);
  ss_assemblies : distinct_names h (assembly_declared h);
  (* nothing at the top level is a reference, and compositions of assemblies are written in place *)
  ss_items : forall k, In k (kids h 0) -> is_reff h k = false;
  ss_composition : forall a c l, In a (kids h 0) -> class_of h a = "Assembly" -> kids h a = c :: l ->
    is_reff h c = false /\ forall k, In k (kids h c) -> is_reff h k = false;
  (* references are unqualified and mean something, except that connections in assemblies say m.n for interfaces *)
  ss_meaning : forall p l k s t, ancestry h (p :: l) -> In k (kids h p) -> nth_error h k = Some (Reff s t) ->
    (exists n r, s = [n] /\ hd_error (mean h [n] t (visible h (p :: l))) = Some r) \/
    (exists m n, s = [m; n] /\ t = TInterface /\ assembly_end h p /\ connectable h (p :: l) m n);
  ss_acyclic : forall x, ~ leads_on h x x }.
