(** C15, C16: frozen AST objects; equality and hashing. *)
From Coq Require Import List Bool String ZArith.
From Verif Require Import Prelude AstObj_Model AstObj_Spec AstObj_Proofs
  AstObj_Proofs2 AstObj_Proofs3 AstObj_Proofs4.
Import ListNotations.
Open Scope string_scope.
Open Scope list_scope.

(** ** C15

    [accepts], [pre] and [post] are the type tests of the attributes and the
    checks made by the freeze methods: the theorems hold whatever they are. *)

(** No sequence of operations changes anything in a frozen object: not its
    flag, not a single attribute. *)
Theorem C15_frozen : forall accepts pre post h ops a o,
  is_object h a o -> o_frozen o = true ->
  is_object (run accepts pre post h ops) a o.
Proof. exact run_frozen. Qed.
Print Assumptions C15_frozen.

(** In particular every assignment fails, and so does unfreezing. *)
Theorem C15_assign_fails : forall accepts h a f v,
  is_frozen h a -> exists e, assign accepts h a f v = (h, Err e).
Proof. exact assign_frozen. Qed.
Print Assumptions C15_assign_fails.

Theorem C15_unfreeze_fails : forall h a,
  is_frozen h a -> set_frozen h a false = (h, Err TypeError).
Proof. exact unfreeze_frozen. Qed.
Print Assumptions C15_unfreeze_fails.

(** A new object is not frozen and has the fields given. *)
Theorem C15_new : forall accepts pre post h c fs,
  let h' := run accepts pre post h [NewObject c fs] in
  (exists o, is_object h' (List.length h) o /\ o_frozen o = false /\ o_class o = c /\ o_fields o = fs) /\
  forall a o, is_object h a o -> is_object h' a o.
Proof. exact new_object. Qed.
Print Assumptions C15_new.

(** Before: an admissible assignment takes effect and nothing else changes. *)
Theorem C15_assign : forall accepts h a o f v,
  is_object h a o -> o_frozen o = false ->
  accepts h (o_class o) f v = true ->
  exists h', assign accepts h a f v = (h', Ok tt) /\
    (exists o', is_object h' a o' /\ o_class o' = o_class o /\
       o_frozen o' = false /\ dget (o_fields o') f = Some v /\
       forall g, g <> f -> dget (o_fields o') g = dget (o_fields o) g) /\
    forall b, b <> a -> nth_error h' b = nth_error h b.
Proof. exact assign_unfrozen. Qed.
Print Assumptions C15_assign.

(** An inadmissible one is refused, whatever the state of the object. *)
Theorem C15_assign_refused : forall accepts h a o f v,
  is_object h a o -> accepts h (o_class o) f v = false ->
  assign accepts h a f v = (h, Err AssertionError).
Proof. exact assign_refused. Qed.
Print Assumptions C15_assign_refused.

(** Freezing changes flags and turns lists into tuples of the same elements;
    whether it succeeds or not. *)
Theorem C15_freeze_only : forall accepts pre post n h a,
  only_frozen h (fst (freeze accepts pre post n h a)).
Proof. exact freeze_only. Qed.
Print Assumptions C15_freeze_only.

(** Once frozen, an object holds immutable sequences in its list fields, and
    a setting neither a list nor a dict. *)
Theorem C15_settled : forall accepts pre post n h a o,
  is_object h a o -> o_frozen o = false ->
  snd (freeze accepts pre post n h a) = Ok tt ->
  exists o', is_object (fst (freeze accepts pre post n h a)) a o' /\
    (forall fs f, In (o_class o, fs) list_fields -> In f fs ->
       exists l, dget (o_fields o') f = Some (VTuple l)) /\
    (o_class o = "Setting" ->
     exists v, dget (o_fields o') "value" = Some v /\
       settled (fst (freeze accepts pre post n h a)) v).
Proof. exact freeze_settles. Qed.
Print Assumptions C15_settled.

(** After a successful freeze the whole tree below is frozen. *)
Theorem C15_deep : forall accepts pre post n h a,
  deeply_frozen h -> snd (freeze accepts pre post n h a) = Ok tt ->
  deeply_frozen (fst (freeze accepts pre post n h a)) /\
  forall b, descendant (fst (freeze accepts pre post n h a)) a b ->
    is_frozen (fst (freeze accepts pre post n h a)) b.
Proof. exact freeze_deep. Qed.
Print Assumptions C15_deep.

(** After a failed one, still no frozen object has an unfrozen child. *)
Theorem C15_deep_fail : forall accepts pre post n h a,
  deeply_frozen h ->
  deeply_frozen (fst (freeze accepts pre post n h a)).
Proof. exact freeze_deep_fail. Qed.
Print Assumptions C15_deep_fail.

(** The recursion ends if objects form no cycle. *)
Theorem C15_terminates : forall accepts pre post,
  (forall h a, pre h a <> Err OutOfFuel) ->
  (forall h a, post h a <> Err OutOfFuel) ->
  forall rank n h a, decreasing rank h -> rank a < n ->
  snd (freeze accepts pre post n h a) <> Err OutOfFuel.
Proof. exact freeze_total. Qed.
Print Assumptions C15_terminates.

(** Freezing again changes nothing... *)
Theorem C15_again : forall accepts pre post n h a,
  is_frozen h a -> fst (freeze accepts pre post n h a) = h.
Proof. exact refreeze_heap. Qed.
Print Assumptions C15_again.

(** ... and succeeds, except for compositions and the root of the tree. *)
Theorem C15_again_partial : forall accepts pre post n h a o,
  is_object h a o -> o_frozen o = true ->
  ~ In (o_class o) ["Composition"; "LiftedAST"; "Reference"] ->
  freeze accepts pre post (Datatypes.S n) h a = (h, Ok tt).
Proof. exact refreeze_others. Qed.
Print Assumptions C15_again_partial.

Theorem C15_again_refuted : exists h a,
  snd (freeze yes fine fine 3 h a) = Ok tt /\
  snd (freeze yes fine fine 3 (fst (freeze yes fine fine 3 h a)) a)
    = Err TypeError.
Proof. exact refreeze_fails. Qed.
Print Assumptions C15_again_refuted.

(** What a frozen object holds can change nevertheless, if it is a list:
    freezing does not turn the list of a Group into a tuple. *)
Theorem C15_list_refuted : exists h a f ops,
  snd (freeze yes fine fine 3 h a) = Ok tt /\
  let h1 := fst (freeze yes fine fine 3 h a) in
  let h2 := run yes fine fine h1 ops in
  is_frozen h1 a /\
  exists o1 o2 r, is_object h1 a o1 /\ is_object h2 a o2 /\
    dget (o_fields o1) f = Some (VRef r) /\
    dget (o_fields o2) f = Some (VRef r) /\
    nth_error h1 r = Some (CList [VRef 0]) /\
    nth_error h2 r = Some (CList []).
Proof. exact frozen_list_changes. Qed.
Print Assumptions C15_list_refuted.

(** A composition with an instance: deeply frozen before, freezes, all
    frozen and the list a tuple. *)
Definition ex_composition : heap :=
  [CObj (Obj "Instance" false [("name", VAtom 1); ("type", VNone)]);
   CList [VRef 0]; CList [];
   CObj (Obj "Composition" false
     [("instances", VRef 1); ("connections", VRef 2); ("groups", VRef 2);
      ("exports", VRef 2)])].
Example C15_ex :
  snd (freeze yes fine fine 3 ex_composition 3) = Ok tt /\
  class_at (fst (freeze yes fine fine 3 ex_composition 3)) 0
    = Some ("Instance", true) /\
  field (fst (freeze yes fine fine 3 ex_composition 3)) 3 "instances"
    = Some (VTuple [VRef 0]) /\
  snd (assign yes (fst (freeze yes fine fine 3 ex_composition 3)) 0 "name"
         (VAtom 9)) = Err TypeError.
Proof. vm_compute. repeat split. Qed.
Example C15_ex_hyp : deeply_frozen ex_composition.
Proof.
  intros a b [o [H F]]. unfold is_object, hget in H.
  destruct a as [|[|[|[|a]]]]; cbn in H; try discriminate H;
    try (inversion H; subst; discriminate F).
  destruct a; discriminate H.
Qed.

(** ** C16 *)

(** [equal] is Python's [==]; it answers True exactly for values that are the
    same as data, objects being compared by all attributes but the ignored
    ones. *)
Theorem C16_meaning : forall a b, equal a b = Ok true <-> same a b.
Proof. exact equal_same. Qed.
Print Assumptions C16_meaning.

Theorem C16_refl : forall layout v, wf layout v -> equal v v = Ok true.
Proof. exact equal_refl. Qed.
Print Assumptions C16_refl.

Theorem C16_sym : forall layout a b,
  wf layout a -> wf layout b -> equal a b = Ok true -> equal b a = Ok true.
Proof. exact equal_sym. Qed.
Print Assumptions C16_sym.

Theorem C16_trans : forall a b c,
  equal a b = Ok true -> equal b c = Ok true -> equal a c = Ok true.
Proof. exact equal_trans. Qed.
Print Assumptions C16_trans.

(** Equal values have equal hashes, whatever the primitive hashes are. *)
Theorem C16_hash : forall layout strhash hash_none hash_int trunc a b,
  wf layout a -> wf layout b -> equal a b = Ok true ->
  camkes_hash strhash hash_none hash_int trunc a =
  camkes_hash strhash hash_none hash_int trunc b.
Proof. exact equal_hash. Qed.
Print Assumptions C16_hash.

(** Ignored attributes (location, parent, frozen flag, ...) do not matter. *)
Theorem C16_ignored : forall layout c d e,
  wf layout (PObj c d) -> wf layout (PObj c e) ->
  (forall k x, In (k, x) d -> ~ ignored c k -> In (k, x) e) ->
  equal (PObj c d) (PObj c e) = Ok true.
Proof. exact equal_ignored. Qed.
Print Assumptions C16_ignored.

(** But the comparison does not always answer: two settings whose values are
    different dicts cannot be compared. *)
Theorem C16_total_refuted : exists layout a b,
  wf layout a /\ wf layout b /\ equal a b = Err TypeError.
Proof. exact compare_dicts_fails. Qed.
Print Assumptions C16_total_refuted.

(** It does if there are no dicts, and sequences hold objects only. *)
Theorem C16_total_partial : forall a b,
  tame a -> tame b -> exists r, equal a b = Ok r.
Proof. exact equal_total. Qed.
Print Assumptions C16_total_partial.

(** The order: of two objects exactly one is less, or they are equal. *)
Theorem C16_trichotomy_partial : forall layout a b, wf layout a -> wf layout b -> tame a -> tame b ->
  (exists c d, a = PObj c d) -> (exists c d, b = PObj c d) ->
  (less a b = Ok true /\ equal a b = Ok false /\ less b a = Ok false) \/
  (less a b = Ok false /\ equal a b = Ok true /\ less b a = Ok false) \/
  (less a b = Ok false /\ equal a b = Ok false /\ less b a = Ok true).
Proof. exact trichotomy. Qed.
Print Assumptions C16_trichotomy_partial.

(** It is not transitive: True and 1 are equal, but True comes before 0 because of its
    type. *)
Theorem C16_order_refuted : exists layout a b c,
  wf layout a /\ wf layout b /\ wf layout c /\ tame a /\ tame b /\ tame c /\
  less a b = Ok true /\ less b c = Ok true /\ less a c = Ok false /\ equal a c = Ok true.
Proof. exact order_cycle. Qed.
Print Assumptions C16_order_refuted.

Example C16_ex :
  let i n fr := PObj "Instance" [("_frozen", PBool fr); ("_name", PStr n)] in
  let g l := PObj "Group" [("_mapping", PNone); ("_instances", PSeq false l)] in
  equal (g [i "a" false; i "b" false]) (g [i "a" true; i "b" false])
    = Ok true /\
  equal (g [i "a" false]) (g [i "c" false]) = Ok false /\
  equal (g [i "a" false]) (g [i "a" false; i "b" true]) = Ok false.
Proof. vm_compute. repeat split. Qed.
