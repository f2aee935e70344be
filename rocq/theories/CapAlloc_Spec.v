(** What users of the capability allocator rely on, said of the history of calls and
    results only. *)
From Coq Require Import NArith List Bool.
From Verif Require Import Prelude CapAlloc_Model.
Import ListNotations.
Open Scope N_scope.

Definition history := list (op * ret).

(** The descriptor given for a capability. *)
Record desc := Desc { d_type : N; d_ptr : N; d_size : N; d_attr : N }.

(** Capabilities successfully provided, oldest first. *)
Definition provided1 (e : op * ret) : list desc :=
  match e with
  | (OProvide _ t p z a, ROk) => [Desc t p z a]
  | _ => []
  end.
Definition provided (h : history) : list desc := flat_map provided1 h.

(** Capability [p] is held by a client: it was returned by an allocation and not freed
    since. *)
Definition hold1 (p : N) (b : bool) (e : op * ret) : bool :=
  match e with
  | (OAlloc _ _ _, RCap q) => if q =? p then true else b
  | (OFree q, _) => if q =? p then false else b
  | _ => b
  end.
Definition held (h : history) (p : N) : bool := fold_left (hold1 p) h false.

(** The user's side of the contract: no capability is provided twice, and the null
    capability (0) is not provided. *)
Definition well_provided (h : history) : Prop :=
  NoDup (map d_ptr (provided h)) /\ ~ In 0 (map d_ptr (provided h)).

(** A descriptor answers a request. *)
Definition answers (t z f : N) (d : desc) : Prop :=
  d_type d = t /\ (z = 0 \/ d_size d = z) /\
  (forall i, N.testbit f i = true -> N.testbit (d_attr d) i = true).
