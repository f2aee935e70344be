(** C08: connection merging. *)
From Coq Require Import List String Permutation.
From Verif Require Import Prelude Merge_Model Merge_Spec Merge_Proofs Merge_Proofs2 Merge_Proofs3.
Import ListNotations.
Open Scope string_scope. Open Scope list_scope.

(** When merging succeeds no interface is left in two connections (on one side). *)
Theorem C08_no_shared_end cs out d d' : NoDup cs -> merge cs = Ok out -> In d out -> In d' out ->
  share d d' -> d = d'.
Proof. exact (merge_no_share cs out d d'). Qed.
Print Assumptions C08_no_shared_end.

(** The ends of every original connection lie together in one result of the same type. *)
Theorem C08_ends_together cs out c : NoDup cs -> merge cs = Ok out -> In c cs ->
  exists d, In d out /\ m_type d = m_type c /\ incl (m_from c) (m_from d) /\ incl (m_to c) (m_to d).
Proof. exact (merge_keeps cs out c). Qed.
Print Assumptions C08_ends_together.

(** Nothing is invented: every result has exactly the ends of some original
    connections of its type, all chained together by shared ends. *)
Theorem C08_only_linked cs out d : NoDup cs -> merge cs = Ok out -> In d out ->
  exists S, S <> [] /\ incl S cs /\ merged_from S d /\ forall a b, In a S -> In b S -> linked cs a b.
Proof. exact (merge_linked cs out d). Qed.
Print Assumptions C08_only_linked.

(** The connections are divided into parts; each part becomes one connection, which is the
    single connection of the part, or has the ends of all of them and the name made of
    their names in alphabetical order.  The members of a part are chained together. *)
Theorem C08_partition cs out : NoDup cs -> merge cs = Ok out ->
  exists parts, Permutation (List.concat parts) cs /\
    Forall2 (fun S d => makes S d /\ forall a b, In a S -> In b S -> linked cs a b) parts out.
Proof. exact (merge_partition cs out). Qed.
Print Assumptions C08_partition.

(** A connection that shares no end is kept as it is. *)
Theorem C08_untouched cs out c : NoDup cs -> merge cs = Ok out -> In c cs ->
  (forall d, In d cs -> d <> c -> ~ share c d) -> In c out.
Proof. exact (merge_untouched cs out c). Qed.
Print Assumptions C08_untouched.

(** Connections of different connector types sharing an end are rejected. *)
Theorem C08_type_conflict_rejected cs c d : In c cs -> In d cs -> share c d -> m_type c <> m_type d ->
  exists e, merge cs = Err e.
Proof. exact (merge_types cs c d). Qed.
Print Assumptions C08_type_conflict_rejected.

(** Merging succeeds when every connection has at most one shared end and sharing
    connections have one type.  Missing: patterns with longer chains, see below. *)
Theorem C08_accepts_partial cs : NoDup cs -> one_shared_end cs ->
  (forall c d, In c cs -> In d cs -> share c d -> m_type c = m_type d) ->
  exists out, merge cs = Ok out.
Proof. exact (merge_accepts cs). Qed.
Print Assumptions C08_accepts_partial.

(** Without that restriction merging can crash: c1 and c3 share a to end, c2 and c4
    another, c2 and c3 a from end; all of one type. *)
Definition bridge : list mconn :=
  [mk_mconn "c1" "T" ["a.u"] ["p.x"]; mk_mconn "c2" "T" ["r.z"] ["q.y"];
   mk_mconn "c3" "T" ["r.z"] ["p.x"]; mk_mconn "c4" "T" ["b.u"] ["q.y"]].
Theorem C08_bridge_crash_refuted :
  NoDup (map m_name bridge) /\ (forall c d, In c bridge -> In d bridge -> m_type c = m_type d) /\
  merge bridge = Err ValueError.
Proof.
  split; [repeat constructor; simpl; intuition discriminate|].
  split; [simpl; intuition (subst; reflexivity)|reflexivity].
Qed.
Print Assumptions C08_bridge_crash_refuted.

(** Non-vacuity: a server with three clients, next to an unrelated connection. *)
Definition star : list mconn :=
  [mk_mconn "c1" "T" ["a.u"] ["p.x"]; mk_mconn "o" "U" ["a.v"] ["q.x"];
   mk_mconn "c2" "T" ["b.u"] ["p.x"]; mk_mconn "c3" "T" ["c.u"] ["p.x"]].
Example star_merge : merge star =
  Ok [mk_mconn "o" "U" ["a.v"] ["q.x"]; mk_mconn "c1.c2.c3" "T" ["a.u"; "b.u"; "c.u"] ["p.x"]].
Proof. reflexivity. Qed.
Example star_nodup : NoDup star.
Proof. repeat constructor; simpl; intuition discriminate. Qed.
Example star_one_shared : one_shared_end star.
Proof.
  intros c [b1 e1] [b2 e2] d1 d2. simpl.
  intros [<-|[<-|[<-|[<-|[]]]]] [<-|[<-|[<-|[<-|[]]]]] [<-|[<-|[<-|[<-|[]]]]] H1 H2;
  destruct b1, b2; cbv [has_end fst snd m_to m_from In];
  intuition (subst; try discriminate; try contradiction; try reflexivity).
Qed.
Example star_types : forall c d, In c star -> In d star -> share c d -> m_type c = m_type d.
Proof.
  intros c d [<-|[<-|[<-|[<-|[]]]]] [<-|[<-|[<-|[<-|[]]]]]; try reflexivity;
  intros [[e [A B]]|[e [A B]]]; simpl in A, B; intuition (subst; discriminate).
Qed.
Example type_conflict : merge [mk_mconn "c1" "T" ["a.u"] ["p.x"]; mk_mconn "c2" "U" ["b.u"] ["p.x"]] = Err ParseError.
Proof. reflexivity. Qed.
