(** C101: mutexes of drivers. *)
From Coq Require Import NArith List Bool.
From Verif Require Import Prelude CapAlloc_Model Mutex_Model Mutex_Spec Mutex_Proofs.
Import ListNotations.
Open Scope N_scope.

(** Whatever calls were made, the mutexes in existence are different, no two use the same
    notification, and all use notifications of the pool. *)
Theorem C101_distinct p l s h : good_pools p -> mrun p l = Ok (s, h) ->
  NoDup (map fst (live h)) /\ NoDup (map snd (live h)) /\ incl (map snd (live h)) (notification_pool p).
Proof. exact (mutex_distinct p l s h). Qed.
Print Assumptions C101_distinct.

(** A new mutex is made exactly if memory can be had, the initialisation succeeds and
    fewer mutexes exist than the pool has notifications; otherwise NULL is returned.  In
    particular calls that failed, whatever the reason, do not cost a notification, and
    destroyed mutexes give theirs back. *)
Theorem C101_new p l s h mem init : good_pools p -> mrun p l = Ok (s, h) ->
  exists s' r, mrun p (l ++ [New mem init]) = Ok (s', h ++ [(New mem init, r)]) /\
  if mem && init && Nat.ltb (length (live h)) (length (notification_pool p))
  then exists m c, r = RMutex m c /\ ~ In m (map fst (live h)) /\ ~ In c (map snd (live h)) /\ In c (notification_pool p)
  else r = RNull.
Proof. exact (mutex_new_ok p l s h mem init). Qed.
Print Assumptions C101_new.

(** A mutex in existence can be destroyed; then it is not in existence (by the definition
    of [live]).  The model stops at anything else. *)
Theorem C101_destroy p l s h m : good_pools p -> mrun p l = Ok (s, h) ->
  (In m (map fst (live h)) -> exists s', mrun p (l ++ [Destroy m]) = Ok (s', h ++ [(Destroy m, RZero)])) /\
  (~ In m (map fst (live h)) -> exists e, mrun p (l ++ [Destroy m]) = Err e).
Proof. exact (mutex_destroy_ok p l s h m). Qed.
Print Assumptions C101_destroy.

(** What the component starts with is what its pools contain: a request is answered from the pool of the
    type asked for, with the size and rights asked for, and is refused only if no pool has such a thing. *)
Theorem C101_stock p type size flags : good_pools p ->
  let cap := snd (camkes_alloc type size flags (filled p)) in
  (cap <> 0 -> exists z rights, stocked p type z cap rights /\ (size = 0 \/ size = z) /\ N.land rights flags = flags) /\
  (cap = 0 -> forall z c rights, stocked p type z c rights -> (size = 0 \/ size = z) -> N.land rights flags <> flags).
Proof. exact (first_alloc p type size flags). Qed.
Print Assumptions C101_stock.

Definition small : pools := Pools [7] [8; 9] [20; 21] [(12, 30)].
Example small_good : good_pools small.
Proof. split; cbn; [repeat constructor; cbn; intuition discriminate|intuition discriminate]. Qed.
Example small_stock : map (fun '(t, z) => snd (camkes_alloc t z 0 (filled small))) [(0, 4096); (0, 8192); (1, 0); (1, 1); (2, 0)] = [30; 0; 7; 0; 9].
Proof. reflexivity. Qed.
Example small_run : match mrun small [New true false; New true true; New false true; New true true; New true true; Destroy 0; New true true] with
  | Ok (_, h) => map snd h = [RNull; RMutex 0 21; RNull; RMutex 1 20; RNull; RZero; RMutex 2 21] /\ live h = [(2%nat, 21); (1%nat, 20)]
  | Err _ => False end.
Proof. vm_compute. split; reflexivity. Qed.
