(** Specification of connection merging. *)
From Coq Require Import List String Relation_Operators Permutation.
From Verif Require Import Prelude Merge_Model.
Import ListNotations.

(** Two connections use a common interface on the same side. *)
Definition share (c d : mconn) : Prop :=
  (exists e, In e (m_to c) /\ In e (m_to d)) \/ (exists e, In e (m_from c) /\ In e (m_from d)).
(** Chains of sharing inside a list of connections. *)
Definition linked (cs : list mconn) : mconn -> mconn -> Prop :=
  clos_refl_trans_1n _ (fun c d => In c cs /\ In d cs /\ share c d).

(** [d] is the merge of the connections in [S]. *)
Definition merged_from (S : list mconn) (d : mconn) : Prop :=
  (forall c, In c S -> m_type c = m_type d) /\
  (forall e, In e (m_to d) <-> exists c, In c S /\ In e (m_to c)) /\
  (forall e, In e (m_from d) <-> exists c, In c S /\ In e (m_from c)).

(** [k] is an end of [c]: (true, e) a to end, (false, e) a from end. *)
Definition has_end (c : mconn) (k : bool * string) : Prop :=
  if fst k then In (snd k) (m_to c) else In (snd k) (m_from c).
(** At most one end of a connection is used by other connections. *)
Definition one_shared_end (cs : list mconn) : Prop :=
  forall c k1 k2 d1 d2, In c cs -> In d1 cs -> In d2 cs -> d1 <> c -> d2 <> c ->
    has_end c k1 -> has_end d1 k1 -> has_end c k2 -> has_end d2 k2 -> k1 = k2.

(** In alphabetical order *)
Fixpoint sorted (l : list string) : Prop :=
  match l with
  | x :: (y :: _) as r => String.leb x y = true /\ sorted r
  | _ => True
  end.
(** [d] is made of the connections [S]: the only one of them, or their merge, which is
    named by their names in order with dots in between. *)
Definition makes (S : list mconn) (d : mconn) : Prop :=
  S = [d] \/
  2 <= List.length S /\ merged_from S d /\
  exists l, Permutation l (map m_name S) /\ sorted l /\ m_name d = String.concat "." l.
