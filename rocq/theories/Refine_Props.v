(** C115: the labels of the generated integrity theory. *)
From Coq Require Import List String Ascii Bool NArith Permutation Sorted.
From Verif Require Import Prelude Chars Labels_Model Labels_Spec Isabelle_Spec Refine_Model Refine_Spec Refine_Proofs Refine_Proofs2.
Import ListNotations.
Open Scope string_scope. Open Scope list_scope.

(** What the theory claims of the groups of instances and connections is what the description of the
    architecture says. *)
Theorem C115_lookups : forall is cs m names, integrity_group_labels is cs = Ok m ->
  map fst (lookups m names) = names /\
  forall x g, In (x, g) (lookups m names) -> g = label m x /\ get_group_label (arch_group_labels m) x = g.
Proof. exact lookups_ok. Qed.
Print Assumptions C115_lookups.

(** The list of groups in the theory has the entries of the dictionary, in the order of their labels. *)
Theorem C115_sorted : forall m, Permutation (arch_group_labels m) m /\
  Sorted (fun x y : string * string => String.leb (fst x) (fst y) = true) (arch_group_labels m).
Proof. exact arch_sorted. Qed.
Print Assumptions C115_sorted.
Example C115_sorted_met : arch_group_labels [("c", "g"); ("a", "g"); ("b", "h")] = [("a", "g"); ("b", "h"); ("c", "g")].
Proof. reflexivity. Qed.

(** Every object is labelled with the group of the instance, connection or address space for which it was
    allocated; only those that count as root untypeds have no label.  Nothing else is labelled. *)
Theorem C115_objects : forall m allocated, (forall o l, In (o, l) allocated -> object_name (o_name o)) ->
  exists e, obj_labels m (labels_of allocated) = Ok e /\
  forall id b g, In (id, b, g) e <-> exists o l, In (o, l) allocated /\ kept (o_name o) /\ id = constant (o_name o) /\
     b = match o_bits o with Some b => b | None => 0%N end /\ g = label m l.
Proof. exact objects_labelled. Qed.
Print Assumptions C115_objects.

(** If the names of the objects are different, each has one label. *)
Theorem C115_one_label : forall m allocated o l, (forall o l, In (o, l) allocated -> object_name (o_name o)) ->
  NoDup (map (fun x => o_name (fst x)) allocated) -> In (o, l) allocated -> kept (o_name o) ->
  exists e, obj_labels m (labels_of allocated) = Ok e /\ says e (constant (o_name o)) (label m l).
Proof. exact one_label. Qed.
Print Assumptions C115_one_label.

(** These labels are labels of the policy: each is the group of some instance or connection. *)
Theorem C115_policy_labels : forall is cs m, separated is cs -> integrity_group_labels is cs = Ok m ->
  forall l, owner is cs l -> exists x, (In x (map li_name is) \/ In x (map lc_name cs)) /\ label m l = label m x.
Proof. exact owner_policy. Qed.
Print Assumptions C115_policy_labels.

(** Interrupts are labelled in the same way. *)
Theorem C115_irqs : forall m allocated n g, In (n, g) (irqs m (labels_of allocated)) <->
  exists o l, In (o, l) allocated /\ o_kind o = IRQ n /\ g = label m l.
Proof. exact irqs_labelled. Qed.
Print Assumptions C115_irqs.

(** ASIDs are not: they are labelled with the instance that owns the pool, which is right only if this is
    not in another group. *)
Theorem C115_asids_partial : forall m allocated o l h, In (o, l) allocated -> o_kind o = ASIDPool (Some h) ->
  (forall o' l', In (o', l') allocated -> o_kind o' = ASIDPool (Some h) -> l' = l) ->
  dget (asids (labels_of allocated)) h = Some l /\ (dget (asids (labels_of allocated)) h = Some (label m l) <-> label m l = l).
Proof. exact asid_group. Qed.
Print Assumptions C115_asids_partial.
Definition in_group (n : string) := mk_rinst (mk_linst n "g" None) false true.
Theorem C115_asids_refuted : exists is m allocated o l h g, integrity_group_labels is [] = Ok m /\ separated is [] /\
  In (o, l) allocated /\ o_kind o = ASIDPool (Some h) /\ owner is [] l /\
  dget (asids (labels_of allocated)) h = Some g /\ g <> label m l /\
  ~ exists x, In x (map li_name is) /\ g = label m x.
Proof.
  exists [ri (in_group "a"); ri (in_group "b")], [("a", "g"); ("b", "g")], [(mk_obj "a_asid_pool" None (ASIDPool (Some 3%N)), "a")].
  do 2 eexists. exists 3%N, "a". split; [reflexivity|]. split.
  - split; [repeat constructor; cbn; intuition discriminate|]. split; [constructor|]. split; [intros i [<-|[<-|[]]]; cbn; congruence|].
    split; intros c ? [].
  - split; [left; reflexivity|]. split; [reflexivity|]. split; [left; left; reflexivity|]. split; [reflexivity|]. split; [discriminate|].
    intros (x & [<-|[<-|[]]] & X); discriminate X.
Qed.
Print Assumptions C115_asids_refuted.

(** The claim about further edges of the policy is true exactly if no such edge is between things that are
    in a group of another name: the theory replaces the names by their groups on one side only. *)
Theorem C115_extra_partial : forall is cs m extra, integrity_group_labels is cs = Ok m ->
  (same_set (extra_left m extra) (extra_right extra) <->
   forall s a o, In (s, a, o) extra -> label m s = s /\ label m o = o).
Proof. exact extra_groups. Qed.
Print Assumptions C115_extra_partial.
Theorem C115_extra_refuted : exists is m extra, integrity_group_labels is [] = Ok m /\
  (forall s a o, In (s, a, o) extra -> In s (map li_name is) /\ In o (map li_name is)) /\
  ~ same_set (extra_left m extra) (extra_right extra).
Proof.
  exists [ri (in_group "a"); mk_linst "c" "c" None], [("a", "g")], [("a", "Read", "c")]. split; [reflexivity|].
  split; [intros s a o [X|[]]; injection X as <- <- <-; cbn; auto|].
  intros H. destruct (H ("a", "Read", "c")) as [_ X]. destruct (X (or_introl eq_refl)) as [Y|[]]. discriminate Y.
Qed.
Print Assumptions C115_extra_refuted.

(** The labels claimed for the CNodes, the control threads and the page directories of components are those
    given to the objects, if there are only groups and no configured labels. *)
Theorem C115_sanity_partial : forall insts cs m allocated,
  separated (map ri insts) cs -> integrity_group_labels (map ri insts) cs = Ok m -> by_groups (map ri insts) ->
  (forall i, In i insts -> object_name (li_name (ri i)) /\ object_name (li_space (ri i)) /\ (ri_control i = true -> ri_hardware i = false)) ->
  incl (space_objs [] insts ++ tcb_objs insts) allocated ->
  (forall o l, In (o, l) allocated -> object_name (o_name o) /\ kept (o_name o)) ->
  NoDup (map (fun x => o_name (fst x)) allocated) ->
  exists e c, obj_labels m (labels_of allocated) = Ok e /\ sanity m insts = Ok c /\
    (forall id g, In (id, g) c -> says e id g) /\
    forall i mn, In i insts -> ri_control i = true -> mangled (li_name (ri i)) mn ->
      incl [(constant (li_space (ri i) ++ "_cnode"), li_space (ri i));
            (constant (li_name (ri i) ++ "_" ++ mn ++ "_0_control_tcb"), li_space (ri i));
            (constant (li_space (ri i) ++ "_group_bin_pd"), li_space (ri i))] c.
Proof. exact sanity_ok. Qed.
Print Assumptions C115_sanity_partial.

(** With a configured label the theory speaks of a CNode that does not exist. *)
Theorem C115_sanity_refuted : exists insts m e c id g, integrity_group_labels (map ri insts) [] = Ok m /\
  separated (map ri insts) [] /\ obj_labels m (labels_of (space_objs [] insts ++ tcb_objs insts)) = Ok e /\
  sanity m insts = Ok c /\ In (id, g) c /\ forall b l, ~ In (id, b, l) e.
Proof.
  exists [mk_rinst (mk_linst "a" "a" (Some "high")) false true], [("a", "high")]. do 2 eexists. exists "high_cnode_id", "high".
  split; [reflexivity|]. split.
  - split; [repeat constructor; cbn; intuition discriminate|]. split; [constructor|]. split; [intros i [<-|[]]; reflexivity|].
    split; intros c ? [].
  - split; [reflexivity|]. split; [reflexivity|]. split; [left; reflexivity|].
    intros b l [X|[X|[X|[]]]]; discriminate X.
Qed.
Print Assumptions C115_sanity_refuted.
(** And a component with the name root_untyped has objects without labels. *)
Theorem C115_untyped_refuted : exists insts m e c id g, integrity_group_labels (map ri insts) [] = Ok m /\
  separated (map ri insts) [] /\ by_groups (map ri insts) /\
  obj_labels m (labels_of (space_objs [] insts ++ tcb_objs insts)) = Ok e /\
  sanity m insts = Ok c /\ In (id, g) c /\ forall b l, ~ In (id, b, l) e.
Proof.
  exists [mk_rinst (mk_linst "root_untyped" "root_untyped" None) false true], []. do 2 eexists. exists "root_untyped_cnode_id", "root_untyped".
  split; [reflexivity|]. split.
  - split; [repeat constructor; cbn; intuition discriminate|]. split; [constructor|]. split; [intros i [<-|[]]; reflexivity|].
    split; intros c ? [].
  - split; [split; [intros i [<-|[]]; reflexivity|intros i j [<-|[]] [<-|[]]; reflexivity]|].
    split; [reflexivity|]. split; [reflexivity|]. split; [left; reflexivity|]. intros b l [].
Qed.
Print Assumptions C115_untyped_refuted.

(** Two components in a group, a third one alone, and an interrupt *)
Definition some_insts := [in_group "x.a"; in_group "b"; mk_rinst (mk_linst "c" "c" None) false true].
Definition some_conns := [mk_lconn "inside" ["x.a"; "b"]; mk_lconn "across" ["b"; "c"]].
Definition some_map : dict string string := [("x.a", "g"); ("b", "g"); ("inside", "g")].
Definition some_objs := space_objs [] some_insts ++ tcb_objs some_insts ++ [(mk_obj "b_irq" None (IRQ 27), "b"); (mk_obj "across_frame" (Some 12%N) Other, "across")].
Example C115_case_map : integrity_group_labels (map ri some_insts) some_conns = Ok some_map.
Proof. reflexivity. Qed.
Example C115_case_separated : separated (map ri some_insts) some_conns /\ by_groups (map ri some_insts).
Proof.
  split.
  - split; [repeat constructor; cbn; intuition discriminate|]. split; [repeat constructor; cbn; intuition discriminate|].
    split; [intros i [<-|[<-|[<-|[]]]]; cbn; congruence|]. split.
    + intros c i [<-|[<-|[]]] [<-|[<-|[<-|[]]]]; cbn; repeat split; discriminate.
    + intros c e [<-|[<-|[]]] [<-|[<-|[]]]; cbn; auto.
  - split; [intros i [<-|[<-|[<-|[]]]]; reflexivity|intros i j [<-|[<-|[<-|[]]]] [<-|[<-|[<-|[]]]]; cbn; congruence].
Qed.
Example C115_case_labels : obj_labels some_map (labels_of some_objs) =
  Ok [("across_frame_id", 12%N, "across"); ("b_b_0_control_tcb_id", 0%N, "g"); ("b_irq_id", 0%N, "g"); ("c_c_0_control_tcb_id", 0%N, "c");
      ("c_cnode_id", 0%N, "c"); ("c_group_bin_pd_id", 0%N, "c"); ("g_cnode_id", 0%N, "g"); ("g_group_bin_pd_id", 0%N, "g");
      ("x'a_x_a_0_control_tcb_id", 0%N, "g")].
Proof. reflexivity. Qed.
Example C115_case_irq : irqs some_map (labels_of some_objs) = [(27%N, "g")].
Proof. reflexivity. Qed.
Example C115_case_names : Forall (fun x => object_name (o_name (fst x)) /\ kept (o_name (fst x))) some_objs /\
  NoDup (map (fun x => o_name (fst x)) some_objs) /\ incl (space_objs [] some_insts ++ tcb_objs some_insts) some_objs.
Proof.
  split; [|split].
  - let l := eval vm_compute in some_objs in change some_objs with l.
    repeat (apply Forall_cons; [split|]); try apply Forall_nil; cbn [o_name fst];
      match goal with
      | |- object_name _ => do 2 eexists; split; [reflexivity|]; split; [reflexivity|];
          cbn; intros d H; repeat (destruct H as [H|H]; [subst d; first [left; reflexivity|right; reflexivity]|]); destruct H
      | |- kept _ => intros r H; discriminate H
      end.
  - let l := eval vm_compute in (map (fun x => o_name (fst x)) some_objs) in change (map (fun x => o_name (fst x)) some_objs) with l.
    repeat (apply NoDup_cons; [cbn; intuition discriminate|]). apply NoDup_nil.
  - intros x I. unfold some_objs. rewrite app_assoc. apply in_or_app. now left.
Qed.
Example C115_case_sanity : sanity some_map some_insts =
  Ok [("g_cnode_id", "g"); ("x'a_x_a_0_control_tcb_id", "g"); ("g_group_bin_pd_id", "g");
      ("g_cnode_id", "g"); ("b_b_0_control_tcb_id", "g"); ("g_group_bin_pd_id", "g");
      ("c_cnode_id", "c"); ("c_c_0_control_tcb_id", "c"); ("c_group_bin_pd_id", "c")].
Proof. reflexivity. Qed.
