(** C09, C10, C52: several assemblies, groups. *)
From Coq Require Import List String NArith.
From Verif Require Import Prelude DecStr Assemble_Model Assemble_Spec Assemble_Proofs.
Import ListNotations.
Open Scope string_scope. Open Scope list_scope.

(** The single resulting assembly holds the instances, connections and settings of all
    assemblies, in declaration order; the other items are untouched. *)
Theorem C09_composed l out : compose l = Ok out ->
  assembly_count out = 1 /\ insts_of out = insts_of l /\ conns_of out = conns_of l /\
  settings_of out = settings_of l /\ others_of out = others_of l.
Proof. exact (compose_ok l out). Qed.
Print Assumptions C09_composed.

(** It fails exactly when there is no assembly, with a parse error. *)
Theorem C09_no_assembly_rejected l : (exists e, compose l = Err e) <-> assembly_count l = 0.
Proof. exact (compose_err l). Qed.
Print Assumptions C09_no_assembly_rejected.
Theorem C09_error_kind l e : compose l = Err e -> e = ParseError.
Proof. exact (compose_err' l e). Qed.
Print Assumptions C09_error_kind.

Definition two : list item :=
  [Other "procedure P";
   Asm (mk_assembly None (mk_comp [new_inst "a"] [] ["c1"]) [("a", "x", "1")] []);
   Other "component K";
   Asm (mk_assembly (Some "m") (mk_comp [new_inst "b"; new_inst "c"] [] ["c2"]) [("b", "y", "2")] [(0, 10)])].
Example two_composed : compose two = Ok [Other "procedure P";
   Asm (mk_assembly None (mk_comp [new_inst "a"; new_inst "b"; new_inst "c"] [] ["c1"; "c2"])
      [("a", "x", "1"); ("b", "y", "2")] []);
   Other "component K"].
Proof. reflexivity. Qed.

(** C52 would say that the schedule of every assembly block is kept too: it is not. *)
Theorem C52_schedule_refuted : exists l out a b, compose l = Ok out /\ In (Asm a) l /\
  as_schedule a <> [] /\ In (Asm b) out /\ as_schedule b = [].
Proof.
  exists two. eexists _, _, _. split; [reflexivity|]. split; [right; right; right; left; reflexivity|].
  split; [discriminate|]. split; [right; left; reflexivity|reflexivity].
Qed.
Print Assumptions C52_schedule_refuted.
(** What is kept is the schedule of the first assembly block. *)
Theorem C52_first_schedule_partial l out a b : compose l = Ok out -> first_assembly l = Some a ->
  In (Asm b) out -> as_schedule b = as_schedule a /\ as_name b = as_name a.
Proof. exact (compose_schedule l out a b). Qed.
Print Assumptions C52_first_schedule_partial.
Example two_first : exists a, first_assembly two = Some a.
Proof. eexists. reflexivity. Qed.

(** No instance is lost, duplicated or renamed; no group remains; connections stay. *)
Theorem C10_instances_kept cs out k : collapse 0 cs = (out, k) ->
  map gi_name (all_insts out) = map gi_name (map fst (members 0 cs)) /\
  Forall2 (fun c c' => co_groups c' = [] /\ co_conns c' = co_conns c /\
    map gi_name (co_insts c') = map gi_name (co_insts c ++ flat_map gr_insts (co_groups c))) cs out.
Proof. exact (collapse_names cs out k). Qed.
Print Assumptions C10_instances_kept.

(** An ungrouped instance keeps an address space of its own name. *)
Theorem C10_ungrouped_own cs out k p i i' : collapse 0 cs = (out, k) -> (forall c, In c cs -> fresh_comp c) ->
  nth_error (members 0 cs) p = Some (i, None) -> nth_error (all_insts out) p = Some i' ->
  gi_space i' = gi_name i.
Proof. exact (collapse_loose cs out k p i i'). Qed.
Print Assumptions C10_ungrouped_own.

(** Instances of one group share one address space. *)
Theorem C10_group_shares cs out k p q i j g i' j' : collapse 0 cs = (out, k) ->
  nth_error (members 0 cs) p = Some (i, Some g) -> nth_error (members 0 cs) q = Some (j, Some g) ->
  nth_error (all_insts out) p = Some i' -> nth_error (all_insts out) q = Some j' ->
  gi_space i' = gi_space j'.
Proof. exact (collapse_same cs out k p q i j g i' j'). Qed.
Print Assumptions C10_group_shares.

(** Different instances share one only within a group.  Missing: names of the form
    unamed_group_<n> chosen by the user (refuted below). *)
Theorem C10_groups_apart_partial cs out k p q i j gi gj i' j' : collapse 0 cs = (out, k) ->
  (forall c, In c cs -> fresh_comp c) -> good_names cs ->
  nth_error (members 0 cs) p = Some (i, gi) -> nth_error (members 0 cs) q = Some (j, gj) ->
  nth_error (all_insts out) p = Some i' -> nth_error (all_insts out) q = Some j' ->
  gi_space i' = gi_space j' -> p = q \/ exists g, gi = Some g /\ gj = Some g.
Proof. exact (collapse_sep cs out k p q i j gi gj i' j'). Qed.
Print Assumptions C10_groups_apart_partial.

(** An unnamed group and a loose instance end up in one address space although all
    names are distinct. *)
Definition clash : list comp :=
  [mk_comp [new_inst "unamed_group_0"] [mk_group None [new_inst "a"; new_inst "b"]] []].
Theorem C10_made_up_name_refuted : exists out k,
  NoDup (group_names clash ++ loose_names clash) /\ collapse 0 clash = (out, k) /\
  exists i' j', nth_error (all_insts out) 0 = Some i' /\ nth_error (all_insts out) 1 = Some j' /\
    gi_name i' <> gi_name j' /\ gi_space i' = gi_space j' /\
    nth_error (members 0 clash) 0 = Some (new_inst "unamed_group_0", None).
Proof.
  eexists _, _. split; [repeat constructor; simpl; tauto|]. split; [reflexivity|].
  eexists _, _. split; [reflexivity|]. split; [reflexivity|]. split; [discriminate|]. split; reflexivity.
Qed.
Print Assumptions C10_made_up_name_refuted.

Definition spec3 : list comp :=
  [mk_comp [new_inst "a"] [mk_group None [new_inst "b"; new_inst "c"]; mk_group (Some "g") [new_inst "d"]] [];
   mk_comp [new_inst "e"] [mk_group None [new_inst "f"]] []].
Example spec3_spaces : map gi_space (all_insts (fst (collapse 0 spec3))) =
  ["a"; "unamed_group_0"; "unamed_group_0"; "g"; "e"; "unamed_group_1"].
Proof. reflexivity. Qed.
Example spec3_good : good_names spec3 /\ (forall c, In c spec3 -> fresh_comp c).
Proof.
  split; [split|].
  - repeat constructor; simpl; intuition discriminate.
  - simpl. intros s [<-|[<-|[<-|[]]]] n E; discriminate E.
  - intros c [<-|[<-|[]]] i [<-|[]]; reflexivity.
Qed.
