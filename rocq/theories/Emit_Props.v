(** C97: emitting events. *)
From Coq Require Import ZArith List PeanoNat.
From Verif Require Import Emit_Model Emit_Spec Emit_Proofs.
Import ListNotations.
Open Scope Z_scope.

(** * seL4NotificationQueue, any number of to ends and of emits at the same time *)

(** An emit posts to the ends in order, to each at most once: one that has returned has
    tried every end once, one that gave up has tried those up to the end it failed at. *)
Theorem C97_queue_emit n s i : qreachable n s ->
  match calls s i with
  | NotStarted => emitted (log s) i 0
  | At k => emitted (log s) i k
  | Returned => emitted (log s) i n
  | GaveUp k => emitted (log s) i (S k) /\ times (Failed i k) (log s) = 1%nat
  end.
Proof. exact (queue_emitted n s i). Qed.
Print Assumptions C97_queue_emit.

(** A post fails only when the counter of that end is at its maximum. *)
Theorem C97_queue_failure n s i h s' j : qreachable n s -> qstep n s (Emit i h) = Some s' ->
  times (Failed i j) (log s') <> times (Failed i j) (log s) -> value s j = INT_MAX.
Proof. exact (queue_full n s i h s' j). Qed.
Print Assumptions C97_queue_failure.

(** No event is lost or made up: every event that reached an end was received there, is
    counted as pending, or is on its way to the blocked receiver. *)
Theorem C97_queue_counts n s j : qreachable n s -> (j < n)%nat ->
  Z.of_nat (arrivals j (log s)) = Z.of_nat (times (Got j) (log s)) + Z.max (value s j) 0 + Z.of_nat (wakes s j).
Proof. exact (queue_counts n s j). Qed.
Print Assumptions C97_queue_counts.

(** As long as more events have reached an end than were received there, the next step of
    its delivery thread receives one. *)
Theorem C97_queue_receive n s j : qreachable n s -> (j < n)%nat ->
  (times (Got j) (log s) < arrivals j (log s))%nat ->
  exists s', qstep n s (Recv j) = Some s' /\ log s' = Got j :: log s.
Proof. exact (queue_receive n s j). Qed.
Print Assumptions C97_queue_receive.
Theorem C97_queue_no_more n s j : qreachable n s -> (times (Got j) (log s) <= arrivals j (log s))%nat.
Proof. exact (queue_no_more n s j). Qed.
Print Assumptions C97_queue_no_more.

(** The counter stays in the range of int. *)
Theorem C97_queue_range n s j : qreachable n s -> -1 <= value s j <= INT_MAX.
Proof. exact (queue_range n s j). Qed.
Print Assumptions C97_queue_range.

(** An emit does not reach every end that has room: when the counter of the first end is
    full, an end behind it gets nothing, although nothing is pending there. *)
Theorem C97_one_full_end_refuted : exists s i s', qreachable 2 s /\ calls s i = At 0 /\ value s 1%nat = 0 /\
  qstep 2 s (Emit i Discard) = Some s' /\ calls s' i = GaveUp 0 /\
  forall l s'', qexec 2 s' l = Some s'' -> times (Reached i 1) (log s'') = 0%nat.
Proof. exact queue_blocked. Qed.
Print Assumptions C97_one_full_end_refuted.

(** * seL4Notification *)

(** An emit signals every end exactly once. *)
Theorem C97_notification_emit n s i : nreachable n s ->
  match ncalls s i with
  | NotStarted => forall j, times (Reached i j) (nlog s) = 0%nat
  | At k => forall j, times (Reached i j) (nlog s) = if Nat.ltb j k then 1%nat else 0%nat
  | Returned => forall j, times (Reached i j) (nlog s) = if Nat.ltb j n then 1%nat else 0%nat
  | GaveUp _ => False
  end.
Proof. exact (notification_emitted n s i). Qed.
Print Assumptions C97_notification_emit.

(** An end can receive exactly when some emit has reached it since it last received: an
    event is never overlooked, though several may be received as one. *)
Theorem C97_notification_pending n s j : nreachable n s -> (j < n)%nat ->
  (news (nlog s) j <-> exists s', nstep n s (Recv j) = Some s' /\ nlog s' = Got j :: nlog s).
Proof. exact (notification_pending n s j). Qed.
Print Assumptions C97_notification_pending.
Theorem C97_notification_no_more n s j : nreachable n s -> (times (Got j) (nlog s) <= arrivals j (nlog s))%nat.
Proof. exact (notification_no_more n s j). Qed.
Print Assumptions C97_notification_no_more.

(** * Two emits to three ends at the same time *)
Definition both : list act :=
  [Recv 1; Start 0; Start 1; Emit 0 Discard; Emit 1 Discard; Emit 0 Discard; Recv 1; Emit 1 Discard;
   Emit 1 Discard; Emit 0 Discard; Emit 0 Discard; Recv 0; Emit 1 Discard].
Example both_queue : match qexec 3 qinit both with
  | Some s => calls s 0%nat = Returned /\ calls s 1%nat = Returned /\
      log s = [Got 0; Reached 0 2; Reached 1 2; Reached 1 1; Got 1; Reached 0 1; Reached 1 0; Reached 0 0] /\
      value s 0%nat = 1 /\ value s 1%nat = 1 /\ value s 2%nat = 2
  | None => False end.
Proof. vm_compute. repeat split. Qed.
(** The same with notifications: the second event at the end 0 is not received separately. *)
Example both_notification : match nexec 3 ninit (tl both) with
  | Some s => ncalls s 0%nat = Returned /\ ncalls s 1%nat = Returned /\
      arrivals 0 (nlog s) = 2%nat /\ times (Got 0) (nlog s) = 1%nat /\ nstep 3 s (Recv 0) = None /\
      (exists s', nstep 3 s (Recv 1) = Some s')
  | None => False end.
Proof. vm_compute. repeat split. eexists. reflexivity. Qed.
