(** C98, C99: the IOAPIC interrupt connector. *)
From Coq Require Import List Bool PeanoNat.
From Verif Require Import Ioapic_Model Ioapic_Spec Ioapic_Proofs.
Import ListNotations.

(** * C98: callbacks *)

(** In every reachable state (any interleaving, any number of threads): a registration
    puts its callback in a slot at most once, and the callback is called at most once;
    until it is called it is in a slot or the delivery thread is about to call it. *)
Theorem C98_once s r : reachable s ->
  cnt (published r) (log s) <= 1 /\ cnt (invoked r) (log s) <= cnt (published r) (log s) /\
  (cnt (published r) (log s) = 1 -> cnt (invoked r) (log s) = 0 ->
     (exists i, i < MAX_CALLBACKS /\ callbacks s i = Some r) \/ exists i h, run s = RCall i r h) /\
  (forall i, callbacks s i = Some r -> cnt (published r) (log s) = 1 /\ cnt (invoked r) (log s) = 0).
Proof. exact (callback_once s r). Qed.
Print Assumptions C98_once.

(** Every callback that is registered when the delivery thread waits for an interrupt has
    been called when the next event is marked as pending. *)
Theorem C98_all_called s l s' i r :
  reachable s -> run s = RWait -> callbacks s i = Some r -> exec s l = Some s' ->
  cnt is_marked (log s) < cnt is_marked (log s') -> cnt (invoked r) (log s') = 1.
Proof. exact (all_called s l s' i r). Qed.
Print Assumptions C98_all_called.

(** _reg_callback returns 0 only if the callback was put in a slot; it returns -1 without
    having done so only if it found each slot taken, and then each was, at that time. *)
Theorem C98_result s r : reachable s ->
  (In (Returned r true) (log s) -> In (Published r) (log s)) /\
  (In (Returned r false) (log s) -> ~ In (Published r) (log s) ->
   forall i, i < MAX_CALLBACKS -> In (Busy r i) (log s)).
Proof. exact (result_ok s r). Qed.
Print Assumptions C98_result.
Theorem C98_busy s a s' r i :
  step s a = Some s' -> ~ In (Busy r i) (log s) -> In (Busy r i) (log s') -> callbacks s i <> None.
Proof. exact (busy_taken s a s' r i). Qed.
Print Assumptions C98_busy.

(** _reg_callback never blocks. *)
Theorem C98_never_blocks s u k :
  reachable s -> registering (users s u) -> exists s', step s (AUser u k) = Some s'.
Proof. exact (registration_runs s u k). Qed.
Print Assumptions C98_never_blocks.

(** "A callback is called with the argument it was registered with" is false: it can be
    called before its argument is stored, and it can be called with the argument of a
    later registration that gets the same slot. *)
Theorem C98_argument_refuted :
  (exists s, reachable s /\ In (Invoked 0 None) (log s)) /\
  (exists s, reachable s /\ In (Invoked 0 (Some 1)) (log s)).
Proof. exact argument_refuted. Qed.
Print Assumptions C98_argument_refuted.

(** It holds of the executions in which neither of the two happens: the delivery thread
    never reads a slot whose registration has still to store its argument, and no
    registration tries the slot whose callback the delivery thread is about to call. *)
Theorem C98_argument_partial l s r a :
  exec init l = Some s -> calm calm_arguments init l -> In (Invoked r a) (log s) -> a = Some r.
Proof. exact (argument_ok l s r a). Qed.
Print Assumptions C98_argument_partial.

(** "After -1 the callback is not called" is false: it stays registered when the
    acknowledgement fails. *)
Theorem C98_failed_refuted :
  exists s, reachable s /\ In (Returned 0 false) (log s) /\ In (Invoked 0 (Some 0)) (log s).
Proof. exact failed_refuted. Qed.
Print Assumptions C98_failed_refuted.

(** Acknowledging unmasks the interrupt: it can fire again. *)
Theorem C98_reenabled s a s' : step s a = Some s' -> cnt is_acked (log s) < cnt is_acked (log s') -> exists s'', step s' Fire = Some s''.
Proof. exact (reenabled s a s'). Qed.
Print Assumptions C98_reenabled.

(** Two threads register, both callbacks are called for one interrupt with their own
    arguments. *)
Definition both : list act :=
  [AReg 1; AReg 2; AUser 1 Accepted; AUser 2 Accepted; AUser 2 Accepted; AUser 1 Accepted; AUser 2 Accepted;
   AUser 2 Accepted; AUser 1 Accepted; Fire] ++ repeat ARun 16.
Example both_state : match exec init both with
  | Some s => log s = [Marked true; Invoked 1 (Some 1); Invoked 0 (Some 0); Delivered; Fired;
                       Returned 0 true; Acked; Returned 1 true; Acked; Published 1; Busy 1 0; Published 0]
              /\ run s = RWait /\ callbacks s 0 = None
  | None => False end.
Proof. vm_compute. repeat split. Qed.
Example both_calm : calm calm_arguments init both.
Proof.
  cbv [both app repeat calm]. repeat (split; [cbn; intros; discriminate || idtac | cbn]); try exact I.
  all: try (intros; unfold upd; cbn; destruct u as [|[|[|u]]]; cbn; congruence).
Qed.
(** The eleventh registration finds no slot. *)
Definition many : list act := flat_map (fun n => AReg n :: repeat (AUser n Accepted) (n + 3)) (seq 0 10) ++ AReg 10 :: repeat (AUser 10 Accepted) 10.
Example many_state : match exec init many with
  | Some s => hd_error (log s) = Some (Returned 10 false) /\ callbacks s 9 = Some 9 /\ ~ In (Published 10) (log s)
  | None => False end.
Proof. vm_compute. repeat split. intuition discriminate. Qed.

(** * C99: events *)

(** _poll returns 1, and _wait returns, as often as there were events not taken yet; events
    are not more than interrupts, and there is at most one interrupt more than there were
    acknowledgements. *)
Theorem C99_bounded s : reachable s ->
  cnt is_polled (log s) + cnt is_waited (log s) <= cnt is_marked (log s) /\
  cnt is_marked (log s) <= cnt is_delivered (log s) <= cnt is_fired (log s) /\
  cnt is_fired (log s) <= 1 + cnt is_acked (log s).
Proof. exact (events_bounded s). Qed.
Print Assumptions C99_bounded.

Theorem C99_poll s u s' : reachable s -> step s (APoll u) = Some s' ->
  log s' = (if untaken (log s) then [Polled] else []) ++ log s.
Proof. exact (poll_outcome s u s'). Qed.
Print Assumptions C99_poll.
Theorem C99_wait s u k s' : reachable s -> users s u = UPoll -> step s (AUser u k) = Some s' ->
  if untaken (log s) then users s' u = UIdle /\ log s' = Waited :: log s
  else users s' u = UInc /\ log s' = log s.
Proof. exact (wait_outcome s u k s'). Qed.
Print Assumptions C99_wait.

(** The assertions about the number of sleepers hold. *)
Theorem C99_asserts s : reachable s -> aborted s = false.
Proof. exact (asserts_hold s). Qed.
Print Assumptions C99_asserts.

(** "An interrupt is reported to a callback, or to one call of _poll or _wait" is false:
    it is reported to both. *)
Theorem C99_once_refuted :
  exists s, reachable s /\ cnt is_fired (log s) = 1 /\ In (Invoked 0 (Some 0)) (log s) /\ In Polled (log s).
Proof. exact twice_refuted. Qed.
Print Assumptions C99_once_refuted.

(** A component that only polls
    and waits gets one interrupt at most: only registrations acknowledge the interrupt, and it is masked
    until it is acknowledged. *)
Theorem C99_one_interrupt l s :
  exec init l = Some s -> forallb (fun a => negb (registers a)) l = true -> cnt is_fired (log s) <= 1.
Proof. exact (one_interrupt l s). Qed.
Print Assumptions C99_one_interrupt.

(** "No thread sleeps in _wait while an event is pending" is false: an event can be marked
    between the look for it and the sleep.  Nothing but another call of some thread can
    happen in the resulting state. *)
Theorem C99_wakeup_refuted :
  exists s, reachable s /\ event_pending s = true /\ cnt is_invoked (log s) = 0 /\ users s 1 = USleep /\
  forall a, begins a = false -> step s a = None.
Proof. exact missed_refuted. Qed.
Print Assumptions C99_wakeup_refuted.

(** It holds of the executions in which that does not happen, for events that no callback
    was called for: once the delivery thread waits for the next interrupt, a wake-up is on
    its way, or some thread is about to look for the event, or no thread sleeps. *)
Theorem C99_wakeup_partial l s :
  exec init l = Some s -> calm calm_waits init l ->
  run s = RWait -> event_pending s = true -> last_called (log s) = false ->
  lock s = true \/ (exists u, looking (users s u)) \/ forall u, ~ sleeping (users s u).
Proof. exact (waiters_woken l s). Qed.
Print Assumptions C99_wakeup_partial.

(** Threads that sleep are not woken more often than there are events. *)
Theorem C99_wakes l s : exec init l = Some s -> wakes init l <= cnt is_marked (log s).
Proof. exact (wakes_bounded l s). Qed.
Print Assumptions C99_wakes.
Example one_woken : wakes init (
  [AWait 1; AWait 2] ++ repeat (AUser 1 Accepted) 3 ++ repeat (AUser 2 Accepted) 3 ++ [Fire] ++ repeat ARun 14 ++ repeat (AUser 2 Accepted) 4) = 1.
Proof. vm_compute. reflexivity. Qed.

(** Two threads wait, an interrupt wakes one of them. *)
Definition waiters : list act :=
  [AWait 1; AWait 2] ++ repeat (AUser 1 Accepted) 3 ++ repeat (AUser 2 Accepted) 3 ++ [Fire] ++ repeat ARun 14.
Example waiters_state : match exec init waiters with
  | Some s => run s = RWait /\ event_pending s = true /\ last_called (log s) = false /\ lock s = true /\
              users s 1 = USleep /\ users s 2 = USleep /\ sleepers s = 2
  | None => False end.
Proof. vm_compute. repeat split. Qed.
Example waiters_calm : calm calm_waits init waiters.
Proof.
  cbv [waiters app repeat calm]. repeat (split; [cbn; intros; discriminate || idtac | cbn]); try exact I.
  all: try (intros; unfold upd; cbn; destruct u as [|[|[|u]]]; cbn; congruence).
Qed.
Example waiters_woken : match exec init (waiters ++ repeat (AUser 2 Accepted) 4 ++ [APoll 3]) with
  | Some s => log s = [Waited; Marked false; Delivered; Fired] /\ users s 1 = USleep /\ users s 2 = UIdle /\ sleepers s = 1
  | None => False end.
Proof. vm_compute. repeat split. Qed.
