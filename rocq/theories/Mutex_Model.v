(** Model of the mutexes that drivers get through ps_mutex_ops, libsel4camkes/src/sync.c,
    on top of the capability allocator (CapAlloc_Model.v) as the component fills it when it
    starts, camkes/templates/component.common.c:358-425.

    Simplifications.
    - Whether calloc and sync_mutex_init (libsel4sync, not in /repo) succeed is told by the
      caller of the model; sync_mutex_init stores the capability in the mutex.
    - Filling the pools does not run out of memory (otherwise initialisation stops with an
      error).
    - A mutex is a number, fresh for every successful call of mutex_new.  Destroying
      something that is not a mutex is undefined behaviour, here Err OtherException.
    - Calls do not overlap. *)
From Coq Require Import NArith List Bool.
From Verif Require Import Prelude CapAlloc_Model.
Import ListNotations.
Open Scope N_scope.

(** Object types and rights of seL4 *)
Definition seL4_UntypedObject : N := 0.
Definition seL4_TCBObject : N := 1.
Definition seL4_EndpointObject : N := 2.
Definition seL4_NotificationObject : N := 3.
Definition seL4_CanWrite : N := 1.
Definition seL4_CanRead : N := 2.

(** The capabilities of the pools configured for the component; an untyped comes with its
    size in bits. *)
Record pools := Pools { tcb_pool : list N; ep_pool : list N; notification_pool : list N; untyped_pool : list (N * N) }.

(** component.common.c:359-425 *)
Definition provisions (p : pools) : list (N * N * N * N) :=
  map (fun c => (seL4_TCBObject, c, 0, 0)) (tcb_pool p) ++
  map (fun c => (seL4_EndpointObject, c, 0, N.lor seL4_CanRead seL4_CanWrite)) (ep_pool p) ++
  map (fun c => (seL4_NotificationObject, c, 0, N.lor seL4_CanRead seL4_CanWrite)) (notification_pool p) ++
  map (fun '(bits, c) => (seL4_UntypedObject, c, N.shiftl 1 bits, N.lor seL4_CanRead seL4_CanWrite)) (untyped_pool p).
Definition filled (p : pools) : state :=
  fold_left (fun s '(t, c, z, a) => fst (camkes_provide true t c z a s)) (provisions p) [].

Record mst := Mst { resources : state; mutexes : list (nat * N); counter : nat }.

Inductive mop :=
| New (mem init : bool)
| Destroy (m : nat).
(** mutex_new returns the mutex and uses a notification, or returns NULL; mutex_destroy
    returns 0. *)
Inductive mret := RMutex (m : nat) (notification : N) | RNull | RZero.

(** sync.c:18-49 *)
Definition mutex_new (mem init : bool) (s : mst) : res (mst * mret) :=
  let (r, cap) := camkes_alloc seL4_NotificationObject 0 (N.lor seL4_CanRead seL4_CanWrite) (resources s) in
  if cap =? cap_null then Ok (Mst r (mutexes s) (counter s), RNull)
  else if negb mem then
    r <- camkes_free cap r ;; Ok (Mst r (mutexes s) (counter s), RNull)
  else if negb init then
    r <- camkes_free cap r ;; Ok (Mst r (mutexes s) (counter s), RNull)
  else Ok (Mst r ((counter s, cap) :: mutexes s) (S (counter s)), RMutex (counter s) cap).

(** The notification of a mutex *)
Fixpoint lookup (m : nat) (l : list (nat * N)) : option N :=
  match l with
  | [] => None
  | (k, c) :: l' => if Nat.eqb k m then Some c else lookup m l'
  end.

(** sync.c:68-80 *)
Definition mutex_free (m : nat) (s : mst) : res (mst * mret) :=
  match lookup m (mutexes s) with
  | None => Err OtherException
  | Some cap =>
      r <- camkes_free cap (resources s) ;;
      Ok (Mst r (filter (fun x => negb (Nat.eqb (fst x) m)) (mutexes s)) (counter s), RZero)
  end.

Definition mstep (s : mst) (o : mop) : res (mst * mret) :=
  match o with New mem init => mutex_new mem init s | Destroy m => mutex_free m s end.

Fixpoint mrun_from (s : mst) (l : list mop) : res (mst * list (mop * mret)) :=
  match l with
  | [] => Ok (s, [])
  | o :: l' =>
      '(s1, r) <- mstep s o ;;
      '(s2, h) <- mrun_from s1 l' ;;
      Ok (s2, (o, r) :: h)
  end.
Definition mrun (p : pools) (l : list mop) := mrun_from (Mst (filled p) [] 0) l.
