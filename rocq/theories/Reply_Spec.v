(** What clients of an RPC server rely on. *)
From Coq Require Import NArith List Bool.
From Verif Require Import Prelude Reply_Model.
Import ListNotations.
Open Scope N_scope.

(** The call received at the end of a round. *)
Definition next_caller (r : round) : N := match r with Served _ c => c | Dropped _ c => c end.

(** All calls received, in order. *)
Definition callers (c : N) (l : list round) : list N := c :: map next_caller l.

(** Every message is well formed: no round ends by dropping it. *)
Definition is_served (r : round) : Prop := match r with Served _ _ => True | Dropped _ _ => False end.
Definition all_served (l : list round) : Prop := forall r, In r l -> is_served r.

(** The implementation asked for protection of the reply capability in this round. *)
Definition protects (u : user) : bool := match u with UOther => false | _ => true end.
Definition round_protects (r : round) : bool :=
  match r with Served l _ => existsb protects l | Dropped l _ => existsb protects l end.

(** How many rounds asked for it. *)
Definition saves_of (l : list round) : nat := List.length (filter round_protects l).
