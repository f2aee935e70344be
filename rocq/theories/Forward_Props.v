(** Theorems about resolution with forward references. *)
From Coq Require Import List String Bool.
From Verif Require Import Prelude Scope_Model Scope_Spec Forward_Model Forward_Spec Forward_Proofs4.
Import ListNotations.
Open Scope string_scope. Open Scope list_scope.

(** A system whose assembly comes before everything it uses:
      assembly { composition { component Foo f; component Bar b; connection Rpc c(from f.a, to b.x); } }
      component Foo { uses P a; }  component Bar { provides P x; }  procedure P { }  connector Rpc { } *)
Definition cls c := TClass c.
Definition front : heap :=
  [ Obj "LiftedAST" None [1; 2; 3; 4; 5];
    Obj "Assembly" None [6]; Obj "Component" (Some "Foo") [7]; Obj "Component" (Some "Bar") [8];
    Obj "Procedure" (Some "P") []; Obj "Connector" (Some "Rpc") [];
    Obj "Composition" None [9; 10; 11];
    Obj "Uses" (Some "a") [12]; Obj "Provides" (Some "x") [13];
    Obj "Instance" (Some "f") [14]; Obj "Instance" (Some "b") [15]; Obj "Connection" (Some "c") [16; 17; 18];
    Reff ["P"] (cls "Procedure"); Reff ["P"] (cls "Procedure"); Reff ["Foo"] (cls "Component"); Reff ["Bar"] (cls "Component");
    Obj "ConnectionEnd" None [19; 20]; Obj "ConnectionEnd" None [21; 22]; Reff ["Rpc"] (cls "Connector");
    Reff ["f"] (cls "Instance"); Reff ["f"; "a"] TInterface; Reff ["b"] (cls "Instance"); Reff ["b"; "x"] TInterface ].
Definition front_done : heap :=
  [ Obj "LiftedAST" None [1; 2; 3; 4; 5];
    Obj "Assembly" None [6]; Obj "Component" (Some "Foo") [7]; Obj "Component" (Some "Bar") [8];
    Obj "Procedure" (Some "P") []; Obj "Connector" (Some "Rpc") [];
    Obj "Composition" None [9; 10; 11];
    Obj "Uses" (Some "a") [4]; Obj "Provides" (Some "x") [4];
    Obj "Instance" (Some "f") [2]; Obj "Instance" (Some "b") [3]; Obj "Connection" (Some "c") [16; 17; 5];
    Reff ["P"] (cls "Procedure"); Reff ["P"] (cls "Procedure"); Reff ["Foo"] (cls "Component"); Reff ["Bar"] (cls "Component");
    Obj "ConnectionEnd" None [9; 7]; Obj "ConnectionEnd" None [10; 8]; Reff ["Rpc"] (cls "Connector");
    Reff ["f"] (cls "Instance"); Reff ["f"; "a"] TInterface; Reff ["b"] (cls "Instance"); Reff ["b"; "x"] TInterface ].
Example front_tree : tree front.
Proof. apply treeb_ok. vm_compute. reflexivity. Qed.
Example front_ok : forward front = Ok front_done.
Proof. vm_compute. reflexivity. Qed.
Example front_anc : ancestry front [16; 11; 6; 1; 0].
Proof. repeat (constructor; [|cbn; auto 10]). constructor. Qed.

(** ** C104: results are complete.  No reference is left, nothing contains itself, and nothing but
    references has changed. *)
Theorem C104_result h h' : tree h -> forward h = Ok h' ->
  only_references h h' /\ acyclic h' /\ forall x, reachable h' x -> is_reff h' x = false.
Proof. exact (result h h'). Qed.
Print Assumptions C104_result.

(** ** C104: an unqualified reference becomes the nearest declaration with this name and class, those
    after it included: of the objects around it, of any assembly, and at last of any composition that
    an assembly refers to. *)
Theorem C104_single h h' p l i k n t : tree h -> forward h = Ok h' -> ancestry h (p :: l) ->
  nth_error (kids h p) i = Some k -> nth_error h k = Some (Reff [n] t) ->
  exists r, nth_error (kids h' p) i = Some r /\
    hd_error (mean h [n] t (visible h (p :: l) ++ assembly_declared h')) = Some r.
Proof. exact (single h h' p l i k n t). Qed.
Print Assumptions C104_single.
Example single_front :
  nth_error (kids front 16) 0 = Some 19 /\ nth_error (kids front_done 16) 0 = Some 9 /\
  hd_error (mean front ["f"] (cls "Instance") (visible front [16; 11; 6; 1; 0] ++ assembly_declared front_done)) = Some 9.
Proof. vm_compute. auto. Qed.

(** ** C104: a qualified reference becomes one of its meanings in the final system.  Missing: that it is
    the nearest. *)
Theorem C104_qualified_partial h h' p l i k s t : tree h -> forward h = Ok h' -> ancestry h (p :: l) ->
  nth_error (kids h p) i = Some k -> nth_error h k = Some (Reff s t) ->
  exists r, nth_error (kids h' p) i = Some r /\
    In r (mean h' s t (visible h (p :: l) ++ assembly_declared h')).
Proof. exact (qualified h h' p l i k s t). Qed.
Print Assumptions C104_qualified_partial.
Example qualified_front :
  nth_error (kids front 16) 1 = Some 20 /\ nth_error (kids front_done 16) 1 = Some 7 /\
  mean front_done ["f"; "a"] TInterface (visible front [16; 11; 6; 1; 0] ++ assembly_declared front_done) = [7; 7; 7].
Proof. vm_compute. auto. Qed.

(** ** C104: two declarations of one kind and name side by side are refused. *)
Theorem C104_duplicates h h' : tree h -> forward h = Ok h' ->
  distinct_names h (assembly_declared h) /\
  forall x l, ancestry h (x :: l) -> is_reff h x = false -> distinct_names h (declared h x).
Proof. exact (duplicates h h'). Qed.
Print Assumptions C104_duplicates.

(** ** C104: resolution ends for every specification, and without qualified references all that can happen
    beside a result is an error for the user. *)
Theorem C104_outcomes h e : tree h -> forward h = Err e ->
  e = ParseError \/ e = AssertionError /\ exists k s t, nth_error h k = Some (Reff s t) /\ forall n, s <> [n].
Proof. exact (outcomes h e). Qed.
Print Assumptions C104_outcomes.
(** Two components that contain each other: an error *)
Definition cyclic_spec : heap :=
  [ Obj "LiftedAST" None [1; 2]; Obj "Component" (Some "A") [3]; Obj "Component" (Some "B") [4];
    Obj "Composition" None [5]; Obj "Composition" None [6]; Obj "Instance" (Some "b") [7]; Obj "Instance" (Some "a") [8];
    Reff ["B"] (cls "Component"); Reff ["A"] (cls "Component") ].
Example cyclic_tree : tree cyclic_spec /\ forward cyclic_spec = Err ParseError.
Proof. split; [apply treeb_ok|]; vm_compute; reflexivity. Qed.

(** ** C104: which specifications are accepted: those whose references have a meaning and whose
    connections name interfaces that exist, in whatever order things are declared.  Missing: assemblies
    that refer to their composition, and qualified references other than interfaces of an assembly's
    instances. *)
Theorem C104_accepts_partial h : tree h -> sound_spec h -> exists h', forward h = Ok h'.
Proof. exact (accepts h). Qed.
Print Assumptions C104_accepts_partial.
(** The system above *)
Definition front_paths : list (list nat) :=
  [ [0]; [1; 0]; [2; 0]; [3; 0]; [4; 0]; [5; 0]; [6; 1; 0]; [7; 2; 0]; [8; 3; 0]; [9; 6; 1; 0]; [10; 6; 1; 0]; [11; 6; 1; 0];
    [12; 7; 2; 0]; [13; 8; 3; 0]; [14; 9; 6; 1; 0]; [15; 10; 6; 1; 0]; [16; 11; 6; 1; 0]; [17; 11; 6; 1; 0]; [18; 11; 6; 1; 0];
    [19; 16; 11; 6; 1; 0]; [20; 16; 11; 6; 1; 0]; [21; 17; 11; 6; 1; 0]; [22; 17; 11; 6; 1; 0] ].
Ltac each H := cbn in H; repeat destruct H as [H|H]; try contradiction.
Example front_ancestry l : ancestry front l -> In l front_paths.
Proof.
  induction 1 as [|p l k A IH I]; [left; reflexivity|].
  each IH; injection IH as <- <-; each I; subst k; cbn; auto 40.
Qed.
Example front_becomes l k r : ancestry front l -> becomes front l k r ->
  r = k \/ In (k, r) [(12, 4); (13, 4); (14, 2); (15, 3); (18, 5); (19, 9); (21, 10)].
Proof.
  intros A [R|n t r' C M]; [left; reflexivity|right]. apply front_ancestry in A.
  destruct k as [|[|[|[|[|[|[|[|[|[|[|[|[|[|[|[|[|[|[|[|[|[|[|k]]]]]]]]]]]]]]]]]]]]]]]; cbn in C; try discriminate; try (destruct k; discriminate);
    injection C as <- <-; each A; subst l; vm_compute in M; try discriminate; injection M as <-; cbn; auto 10.
Qed.
Example front_looked x y : looked_into front x y -> y = x \/ In (x, y) [(9, 2); (9, 14); (10, 3); (10, 15)].
Proof.
  unfold looked_into. destruct (String.eqb (class_of front x) "Instance") eqn:E; [|left; assumption].
  intros [l [ty [ks [A [K B]]]]]. apply (front_becomes _ _ _ A) in B. apply front_ancestry in A.
  each A; injection A as <- <-; cbn in E; try discriminate; cbn in K; injection K as <- <-; right;
    (destruct B as [->|B]; [|each B; injection B; intros; subst; try discriminate]; cbn; auto 10).
Qed.
(** What may be below what: always something with a smaller rank *)
Definition front_rank (x : nat) : nat :=
  nth x [20; 19; 3; 3; 0; 0; 18; 2; 2; 5; 5; 17; 0; 0; 0; 0; 16; 16; 0; 0; 0; 0; 0] 0.
Example front_leads x y : leads front x y -> front_rank y < front_rank x.
Proof.
  intros [l [k [A [I M]]]]. assert (A' := A). apply front_ancestry in A.
  each A; injection A as <- <-; each I; subst k;
    (destruct M as [r B|m n t z y' r C V N L R NR];
     [ apply (front_becomes _ _ _ A') in B; destruct B as [->|B]; [|each B; injection B; intros; subst; try discriminate];
       cbn; repeat constructor
     | cbn in C; try discriminate; injection C as <- <- <-; vm_compute in V; each V; subst z; try discriminate;
       apply front_looked in L;
       (destruct L as [->|L]; [|each L; injection L; intros; try subst y'; try discriminate]); each R; subst; try discriminate; cbn; repeat constructor ]).
Qed.
Example front_sound : sound_spec front.
Proof.
  split.
  - intros x l A _. apply front_ancestry in A. each A; injection A as <- <-; vm_compute; repeat constructor.
  - vm_compute. repeat constructor.
  - intros k I. each I; subst k; reflexivity.
  - intros a c l I CA K. each I; subst a; try discriminate. injection K as <- <-. split; [reflexivity|].
    intros k I. each I; subst k; reflexivity.
  - assert (P9 : ancestry front [9; 6; 1; 0]) by (repeat (constructor; [|cbn; auto 10]); constructor).
    assert (P10 : ancestry front [10; 6; 1; 0]) by (repeat (constructor; [|cbn; auto 10]); constructor).
    assert (L9 : looked_into front 9 2).
    { exists [6; 1; 0], 14, []. repeat split; [assumption|]. apply (becomes_meaning _ _ _ "Foo" (cls "Component")); vm_compute; reflexivity. }
    assert (L10 : looked_into front 10 3).
    { exists [6; 1; 0], 15, []. repeat split; [assumption|]. apply (becomes_meaning _ _ _ "Bar" (cls "Component")); vm_compute; reflexivity. }
    assert (N2 : no_references front 2) by (intros k I; each I; subst k; reflexivity).
    assert (N3 : no_references front 3) by (intros k I; each I; subst k; reflexivity).
    intros p l k s t A I C. apply front_ancestry in A.
    each A; injection A as <- <-; each I; subst k; cbn in C; try discriminate; injection C as <- <-;
      try (left; eexists; eexists; split; [reflexivity|vm_compute; reflexivity]).
    + right. exists "f", "a". split; [reflexivity|]. split; [reflexivity|]. split.
      * exists 1, 6, [], 11, 19, 20. cbn. auto 20.
      * split.
        -- intros x V N. vm_compute in V. each V; subst x; try discriminate; exists 2; auto.
        -- exists 9, 2, 7. vm_compute. repeat split; auto.
    + right. exists "b", "x". split; [reflexivity|]. split; [reflexivity|]. split.
      * exists 1, 6, [], 11, 21, 22. cbn. auto 20.
      * split.
        -- intros x V N. vm_compute in V. each V; subst x; try discriminate; exists 3; auto.
        -- exists 10, 3, 8. vm_compute. repeat split; auto.
  - assert (R : forall x y, leads_on front x y -> front_rank y < front_rank x).
    { induction 1 as [x y L|x y z L _ IH]; apply front_leads in L; [exact L|]. exact (PeanoNat.Nat.lt_trans _ _ _ IH L). }
    intros x L. apply R in L. exact (PeanoNat.Nat.lt_irrefl _ L).
Qed.

(** ** C104: an error for the user is not all that can happen.  A component that refers to a composition
    cannot be used before it has been declared: connections of its instances fail with an assertion.
    With the assembly after the component all is well. *)
Definition crash (assembly_first : bool) : heap :=
  [ Obj "LiftedAST" None (if assembly_first then [1; 2; 3; 4; 5] else [2; 3; 4; 5; 1]);
    Obj "Assembly" None [6]; Obj "Component" (Some "Foo") [7; 8];
    Obj "Procedure" (Some "P") []; Obj "Connector" (Some "Rpc") []; Obj "Composition" (Some "Inner") [];
    Obj "Composition" None [9; 10];
    Obj "Uses" (Some "a") [11]; Reff ["Inner"] (cls "Composition");
    Obj "Instance" (Some "f") [12]; Obj "Connection" (Some "c") [13; 14];
    Reff ["P"] (cls "Procedure"); Reff ["Foo"] (cls "Component");
    Obj "ConnectionEnd" None [15; 16]; Reff ["Rpc"] (cls "Connector"); Reff ["f"] (cls "Instance"); Reff ["f"; "a"] TInterface ].
Theorem C104_crash_refuted :
  (forall b, tree (crash b)) /\ forward (crash true) = Err AssertionError /\ exists h, forward (crash false) = Ok h.
Proof.
  split; [|split].
  - intros [|]; apply treeb_ok; vm_compute; reflexivity.
  - vm_compute. reflexivity.
  - eexists. vm_compute. reflexivity.
Qed.
Print Assumptions C104_crash_refuted.
