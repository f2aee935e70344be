(** What the generated theory should say of the labels. *)
From Coq Require Import List String Ascii Bool NArith.
From Verif Require Import Prelude Labels_Model Labels_Spec Isabelle_Spec Refine_Model.
Import ListNotations.
Open Scope string_scope. Open Scope list_scope.

(** Objects are allocated for an instance, a connection or an address space. *)
Definition owner (is : list linst) (cs : list lconn) (l : string) : Prop :=
  In l (map li_name is) \/ In l (map lc_name cs) \/ In l (map li_space is).

(** Names of objects: letters, digits, underscores and dots, starting like a name. *)
Definition object_name (s : string) : Prop :=
  exists c r, s = String c r /\ word_start c = true /\
  forall d, In d (list_ascii_of_string r) -> word_char d = true \/ d = "."%char.
Definition kept (s : string) : Prop := forall r, s <> ("root_untyped_" ++ r)%string.

(** In Isabelle names dots are primes. *)
Fixpoint primed (s : string) : string :=
  match s with
  | EmptyString => EmptyString
  | String c s => String (if Ascii.eqb c "." then "'"%char else c) (primed s)
  end.
Definition constant (name : string) : string := (primed name ++ "_id")%string.

(** A list of labels says of a constant that it has a label, and no other. *)
Definition says (entries : list (string * N * string)) (id l : string) : Prop :=
  (exists b, In (id, b, l) entries) /\ forall b' l', In (id, b', l') entries -> l' = l.

(** No integrity labels are configured, and no instance in a group has the name of a group. *)
Definition by_groups (is : list linst) : Prop :=
  (forall i, In i is -> li_label i = None) /\
  (forall i j, In i is -> In j is -> li_space i = li_name j -> li_space j = li_name j).

Definition same_set {A} (l1 l2 : list A) : Prop := forall x, In x l1 <-> In x l2.
