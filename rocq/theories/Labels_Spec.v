(** Specification of integrity labelling. *)
From Coq Require Import List String.
From Verif Require Import Prelude Labels_Model.
Import ListNotations.

(** The label a name is placed under: its configured integrity label, else the group
    it belongs to. *)
Definition parent (is : list linst) (x p : string) : Prop :=
  exists i, In i is /\ li_name i = x /\
    match li_label i with
    | Some l => p = l
    | None => li_space i <> li_name i /\ p = li_space i
    end.
(** The final label of a name under a label map. *)
Definition label (m : dict string string) (x : string) : string :=
  match dget m x with Some l => l | None => x end.

(** Inputs on which the names play separate roles and no instance is both grouped and
    explicitly labelled. *)
Definition separated (is : list linst) (cs : list lconn) : Prop :=
  NoDup (map li_name is) /\ NoDup (map lc_name cs) /\
  (forall i, In i is -> li_label i <> None -> li_space i = li_name i) /\
  (forall c i, In c cs -> In i is ->
     lc_name c <> li_name i /\ lc_name c <> li_space i /\ li_label i <> Some (lc_name c)) /\
  (forall c e, In c cs -> In e (lc_ends c) -> In e (map li_name is)).
