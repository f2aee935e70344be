(** What users of the mutexes rely on, said of the history of calls. *)
From Coq Require Import NArith List Bool.
From Verif Require Import Prelude CapAlloc_Model Mutex_Model.
Import ListNotations.
Open Scope N_scope.

Definition mhistory := list (mop * mret).

(** The mutexes in existence after a history, with their notifications. *)
Definition live1 (l : list (nat * N)) (e : mop * mret) : list (nat * N) :=
  match e with
  | (_, RMutex m c) => (m, c) :: l
  | (Destroy m, _) => filter (fun x => negb (Nat.eqb (fst x) m)) l
  | _ => l
  end.
Definition live (h : mhistory) : list (nat * N) := fold_left live1 h [].

(** Capabilities of the pools are different and not null. *)
Definition all_caps (p : pools) : list N :=
  tcb_pool p ++ ep_pool p ++ notification_pool p ++ map snd (untyped_pool p).
Definition good_pools (p : pools) : Prop := NoDup (all_caps p) /\ ~ In 0 (all_caps p).

(** What the component may hand out: a capability of a pool, as an object of the type of that pool.  Rights
    are 3 for reading and writing; thread control blocks have none; the size is in bytes and counts for
    untypeds only. *)
Definition stocked (p : pools) (type size cap rights : N) : Prop :=
  type = 1 /\ size = 0 /\ rights = 0 /\ In cap (tcb_pool p) \/
  type = 2 /\ size = 0 /\ rights = 3 /\ In cap (ep_pool p) \/
  type = 3 /\ size = 0 /\ rights = 3 /\ In cap (notification_pool p) \/
  type = 0 /\ rights = 3 /\ exists bits, size = 2 ^ bits /\ In (bits, cap) (untyped_pool p).
