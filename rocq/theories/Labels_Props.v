(** C26: integrity group labels. *)
From Coq Require Import List String Relation_Operators.
From Verif Require Import Prelude Labels_Model Labels_Spec Labels_Proofs.
Import ListNotations.
Open Scope string_scope. Open Scope list_scope.

(** Whatever the input, a label that is assigned is not itself remapped. *)
Theorem C26_canonical : forall is cs m k l,
  integrity_group_labels is cs = Ok m -> In (k, l) m -> ~ In l (dkeys m).
Proof. exact labels_canonical. Qed.
Print Assumptions C26_canonical.

(** Whatever the input, the only failure is the reported one; no loop diverges. *)
Theorem C26_failure_reported : forall is cs e,
  integrity_group_labels is cs = Err e -> e = TemplateError.
Proof. exact labels_Err. Qed.
Print Assumptions C26_failure_reported.

(** An instance carries the same label as its configured label, or as its group. *)
Theorem C26_follows_partial : forall is cs m x p, separated is cs ->
  integrity_group_labels is cs = Ok m -> parent is x p -> label m x = label m p.
Proof. exact labels_follow. Qed.
Print Assumptions C26_follows_partial.

(** Exactly the grouped or labelled instances and the internal connections are mapped. *)
Theorem C26_domain_partial : forall is cs m x, separated is cs ->
  integrity_group_labels is cs = Ok m ->
  In x (dkeys m) <-> (exists p, parent is x p) \/
     exists c l, In c cs /\ lc_name c = x /\ lc_ends c <> [] /\
       forall e, In e (lc_ends c) -> label m e = l.
Proof. exact labels_keys. Qed.
Print Assumptions C26_domain_partial.

(** A connection is given label [l] exactly when all its ends have label [l]. *)
Theorem C26_connections_partial : forall is cs m c l, separated is cs ->
  integrity_group_labels is cs = Ok m -> In c cs ->
  dget m (lc_name c) = Some l <->
     lc_ends c <> [] /\ forall e, In e (lc_ends c) -> label m e = l.
Proof. exact labels_conn. Qed.
Print Assumptions C26_connections_partial.

(** The error is raised exactly for cyclic labellings. *)
Theorem C26_cycle_partial : forall is cs, separated is cs ->
  (integrity_group_labels is cs = Err TemplateError <->
   exists x, clos_trans_1n _ (parent is) x x).
Proof. exact labels_cycle. Qed.
Print Assumptions C26_cycle_partial.

(** Without the separation hypothesis the label may differ from that of the configured
    parent: [a] is labelled "b", and [b] is both in a group and labelled "k". *)
Theorem C26_follows_refuted : exists is m x p,
  NoDup (map li_name is) /\ integrity_group_labels is [] = Ok m /\ parent is x p /\
  label m x <> label m p.
Proof.
  exists [mk_linst "a" "a" (Some "b"); mk_linst "b" "g" (Some "k")], [("b", "k"); ("a", "g")], "a", "b".
  split; [repeat constructor; simpl; intuition discriminate|].
  split; [reflexivity|]. split; [|discriminate].
  exists (mk_linst "a" "a" (Some "b")). simpl. auto.
Qed.
Print Assumptions C26_follows_refuted.
(** A connection that shares its name with a group is reported as a labelling cycle
    although there is none. *)
Theorem C26_cycle_refuted : exists is cs, NoDup (map li_name is) /\
  NoDup (map lc_name cs) /\
  integrity_group_labels is cs = Err TemplateError /\
  forall x, ~ clos_trans_1n _ (parent is) x x.
Proof.
  exists [mk_linst "a" "g" None; mk_linst "b" "g" None], [mk_lconn "g" ["a"; "b"]].
  split; [repeat constructor; simpl; intuition discriminate|].
  split; [repeat constructor; simpl; intuition discriminate|].
  split; [reflexivity|].
  assert (P : forall x p, parent [mk_linst "a" "g" None; mk_linst "b" "g" None] x p ->
     p = "g" /\ (x = "a" \/ x = "b")).
  { intros x p [i [[<-|[<-|[]]] [<- [_ ->]]]]; simpl; auto. }
  intros x H. remember x as y in H at 2.
  assert (G : y = "g").
  { clear Heqy. induction H; [apply P in H; tauto|assumption]. }
  subst y. inversion H as [y H1|y z H1 _]; apply P in H1; destruct H1 as [_ [X|X]];
    rewrite X in G; discriminate.
Qed.
Print Assumptions C26_cycle_refuted.

Definition ex_is := [mk_linst "a" "g" None; mk_linst "b" "g" None;
                     mk_linst "c" "c" (Some "d"); mk_linst "d" "d" (Some "top")].
Definition ex_cs := [mk_lconn "ab" ["a"; "b"]; mk_lconn "ac" ["a"; "c"]; mk_lconn "cd" ["c"; "d"]].
Example C26_example : separated ex_is ex_cs /\
  integrity_group_labels ex_is ex_cs =
    Ok [("a", "g"); ("b", "g"); ("c", "top"); ("d", "top"); ("ab", "g"); ("cd", "top")].
Proof.
  split; [|reflexivity].
  split; [repeat constructor; simpl; intuition discriminate|].
  split; [repeat constructor; simpl; intuition discriminate|].
  split; [intros i [<-|[<-|[<-|[<-|[]]]]]; simpl; congruence|].
  split.
  - intros c i [<-|[<-|[<-|[]]]] [<-|[<-|[<-|[<-|[]]]]]; simpl; repeat split; discriminate.
  - intros c e [<-|[<-|[<-|[]]]] [<-|[<-|[]]]; simpl; auto.
Qed.
