(** C34: event connectors. *)
From Coq Require Import ZArith List.
From Verif Require Import Event_Model Event_Spec Event_Proofs.
Import ListNotations.
Open Scope Z_scope.

(** In every reachable state (any interleaving, any number of user threads): no
    registered callback together with a pending event. *)
Theorem C34_no_callback_with_pending s : reachable s -> slot s <> None -> hv s <= 0.
Proof. exact (no_callback_with_pending s). Qed.
Print Assumptions C34_no_callback_with_pending.

(** At most one thread works on the callback slot. *)
Theorem C34_mutual_exclusion s t t' : reachable s -> in_critical s t -> in_critical s t' -> t = t'.
Proof. exact (mutual_exclusion s t t'). Qed.
Print Assumptions C34_mutual_exclusion.

(** A registration never overwrites another. *)
Theorem C34_register_empty s u i : reachable s -> users s u = USet i -> slot s = None.
Proof. exact (register_empty s u i). Qed.
Print Assumptions C34_register_empty.

(** Every delivered event is in the hand of the delivery thread, dropped, paired with a
    callback or passed on, and those passed on are pending, on their way to a waiter, or
    were consumed by poll, wait or reg_callback. *)
Theorem C34_events_accounted s : reachable s ->
  cnt is_delivered (log s) =
    (in_hand (run s) + cnt is_dropped (log s) + cnt is_posted (log s) + cnt is_taken (log s))%nat /\
  Z.of_nat (cnt is_posted (log s)) =
    Z.max (hv s) 0 + Z.of_nat (wakeups s) + Z.of_nat (cnt is_polled (log s)) +
    Z.of_nat (cnt is_waited (log s)) + Z.of_nat (cnt is_claimed (log s)).
Proof. exact (events_accounted s). Qed.
Print Assumptions C34_events_accounted.

(** Events are dropped only when the lock cannot be had or the counter is full. *)
Theorem C34_drop_reason s a s' : reachable s -> step s a = Some s' ->
  cnt is_dropped (log s') <> cnt is_dropped (log s) ->
  (run s = RLock /\ a = ARun true) \/ (run s = RCheck /\ hv s = INT_MAX).
Proof. exact (drop_reason s a s'). Qed.
Print Assumptions C34_drop_reason.

(** The counter stays in the range of int. *)
Theorem C34_counter_bounds s : reachable s -> INT_MIN <= hv s <= INT_MAX.
Proof. exact (counter_bounds s). Qed.
Print Assumptions C34_counter_bounds.

(** Threads blocked in wait: as many wake-ups are on their way as pending events would
    allow; in particular none stays blocked without wake-up while an event is pending. *)
Theorem C34_waiters_served s : reachable s ->
  NoDup (blocked s) /\ (forall u, In u (blocked s) <-> users s u = UBlocked) /\
  Z.of_nat (List.length (blocked s)) = Z.of_nat (wakeups s) + Z.max (- hv s) 0.
Proof. exact (waiters_served s). Qed.
Print Assumptions C34_waiters_served.

(** A callback is called at most once, for one event, and a reg_callback call has one
    outcome. *)
Theorem C34_callback_once s i : reachable s ->
  (cnt (invoked i) (log s) <= 1)%nat /\
  (cnt (registered i) (log s) + cnt (claimed i) (log s) + cnt (refused i) (log s) <= 1)%nat /\
  ((cnt (invoked i) (log s) = 1)%nat -> (cnt (taken i) (log s) + cnt (claimed i) (log s) = 1)%nat).
Proof. exact (callback_once s i). Qed.
Print Assumptions C34_callback_once.

(** A registered callback stays registered until it is called, one for which an event was
    claimed is called. *)
Theorem C34_callback_not_lost s i : reachable s ->
  ((cnt (registered i) (log s) = 1)%nat -> slot s = Some i \/ about_to_call s i \/ (cnt (invoked i) (log s) = 1)%nat) /\
  ((cnt (claimed i) (log s) = 1)%nat -> about_to_call s i \/ (cnt (invoked i) (log s) = 1)%nat) /\
  (slot s = Some i -> (cnt (invoked i) (log s) = 0)%nat /\ (cnt (registered i) (log s) = 1)%nat).
Proof. exact (callback_not_lost s i). Qed.
Print Assumptions C34_callback_not_lost.

(** The lock is held only by a thread that is using the slot, and that thread can go on:
    no deadlock on the lock. *)
Theorem C34_lock_progress s t : reachable s -> holder s = Some t ->
  in_critical s t /\ exists s', step s (own_step t) = Some s'.
Proof. exact (lock_progress s t). Qed.
Print Assumptions C34_lock_progress.

(** wait takes a pending event or blocks (or gives up when the counter is at its minimum);
    poll takes a pending event or reports none. *)
Theorem C34_wait_outcome s u s' : step s (AWait u) = Some s' ->
  (0 < hv s /\ hv s' = hv s - 1 /\ users s' u = UIdle /\ log s' = Waited :: log s) \/
  (hv s <= 0 /\ users s' u = UBlocked /\ log s' = log s) \/
  (hv s = INT_MIN /\ s' = s).
Proof. exact (wait_outcome s u s'). Qed.
Print Assumptions C34_wait_outcome.
Theorem C34_poll_outcome s u s' : step s (APoll u) = Some s' ->
  (0 < hv s /\ hv s' = hv s - 1 /\ log s' = Polled :: log s) \/ (hv s <= 0 /\ s' = s).
Proof. exact (poll_outcome s u s'). Qed.
Print Assumptions C34_poll_outcome.

(** A thread that is in no operation can begin any of them; one that is in an operation
    begins no other. *)
Theorem C34_begin s u a : In a [APoll u; AWait u; AReg u] ->
  (users s u = UIdle <-> exists s', step s a = Some s').
Proof. exact (begin_iff s u a). Qed.
Print Assumptions C34_begin.

(** A registration is refused only when the lock cannot be had or another callback is
    registered. *)
Theorem C34_refuse_reason s a s' i : step s a = Some s' ->
  cnt (refused i) (log s') <> cnt (refused i) (log s) ->
  exists u, (users s u = ULock i /\ a = AUser u true) \/ (users s u = UCheck i /\ slot s <> None).
Proof. exact (refuse_reason s a s' i). Qed.
Print Assumptions C34_refuse_reason.

(** Two threads race to register, one is refused, an event arrives and calls the other,
    another event is left pending and polled, a third wakes a waiter. *)
Definition race : list act :=
  [AReg 1; AReg 2; AUser 1 false; AUser 2 false; AUser 1 false; AUser 1 false; AUser 1 false; Signal; ARun false; AUser 1 false;
   AUser 1 false; AUser 2 false; AUser 2 false; AUser 2 false; AUser 2 false].
Example race_state : match exec init race with
  | Some s => slot s = Some 0%nat /\ log s = [Refused 1; Registered 0; Delivered] /\ run s = RLock
  | None => False end.
Proof. vm_compute. repeat split. Qed.
Definition race2 := race ++ repeat (ARun false) 5 ++ [Signal] ++ repeat (ARun false) 8.
Example race2_state : match exec init race2 with
  | Some s => slot s = None /\ hv s = 1 /\
  log s = [Posted; Delivered; Invoked 0; Taken 0; Refused 1; Registered 0; Delivered]
  | None => False end.
Proof. vm_compute. repeat split. Qed.
Example race3_state : match exec init (race2 ++ [APoll 7; AWait 3; AWait 4; Signal] ++ repeat (ARun false) 6 ++ [AUser 4 false]) with
  | Some s => hv s = -1 /\ blocked s = [3%nat] /\
  log s = [Waited; Posted; Delivered; Polled; Posted; Delivered; Invoked 0; Taken 0; Refused 1; Registered 0; Delivered]
  | None => False end.
Proof. vm_compute. repeat split. Qed.
