(** C41: interrupt registration and delivery. *)
From Coq Require Import NArith ZArith List Bool.
From Verif Require Import Prelude Irq_Model Irq_Spec Irq_Proofs.
Import ListNotations.
Open Scope N_scope.

(** A successful registration returns the id of an interrupt that fits the request and
    had no callback; that interrupt is the one acknowledged, and it has the callback from
    then on. *)
Theorem C41_register irqs l t h h1 ack q cb z a h2 :
  NoDup (map fst irqs) -> run irqs l = (t, h) -> h = h1 ++ (ORegister ack q cb, z, a) :: h2 ->
  (0 <= z)%Z ->
  exists c i, z = Z.of_N c /\ a = [c] /\ In (c, i) irqs /\ fits i q /\ bound h1 c = None /\
    cb <> None /\ bound (h1 ++ [(ORegister ack q cb, z, a)]) c = cb.
Proof. exact (register_ok irqs l t h h1 ack q cb z a h2). Qed.
Print Assumptions C41_register.

(** An interrupt is registered at most once at a time. *)
Theorem C41_at_most_once irqs l t h h1 k1 q1 cb1 a1 k k2 q2 cb2 a2 h2 c :
  NoDup (map fst irqs) -> run irqs l = (t, h) ->
  h = h1 ++ (ORegister k1 q1 cb1, Z.of_N c, a1) :: k ++ (ORegister k2 q2 cb2, Z.of_N c, a2) :: h2 ->
  exists ack a, In (OUnregister ack (Z.of_N c), 0%Z, a) k.
Proof. exact (register_once irqs l t h h1 k1 q1 cb1 a1 k k2 q2 cb2 a2 h2 c). Qed.
Print Assumptions C41_at_most_once.

(** A registration succeeds exactly if the kernel accepts the acknowledgement, a callback
    is given and an interrupt that fits is free; it is refused for want of an interrupt
    exactly when every interrupt that fits is taken. *)
Theorem C41_registered_iff irqs l t h h1 ack q cb z a h2 :
  NoDup (map fst irqs) -> run irqs l = (t, h) -> h = h1 ++ (ORegister ack q cb, z, a) :: h2 ->
  ((0 <= z)%Z <-> ack = true /\ cb <> None /\
     exists c i, In (c, i) irqs /\ fits i q /\ bound h1 c = None).
Proof. exact (register_iff irqs l t h h1 ack q cb z a h2). Qed.
Print Assumptions C41_registered_iff.

Theorem C41_refused_iff irqs l t h h1 ack q f z a h2 :
  NoDup (map fst irqs) -> run irqs l = (t, h) -> h = h1 ++ (ORegister ack q (Some f), z, a) :: h2 ->
  (z = ENOENT <-> forall c i, In (c, i) irqs -> fits i q -> bound h1 c <> None).
Proof. exact (register_noent irqs l t h h1 ack q f z a h2). Qed.
Print Assumptions C41_refused_iff.

(** An unregistration succeeds exactly for the id of a registered interrupt (if the
    kernel accepts the acknowledgement), and acknowledges it. *)
Theorem C41_unregister_iff irqs l t h h1 ack id z a h2 :
  NoDup (map fst irqs) -> run irqs l = (t, h) -> h = h1 ++ (OUnregister ack id, z, a) :: h2 ->
  (z = 0%Z <-> ack = true /\ exists c i, id = Z.of_N c /\ In (c, i) irqs /\ bound h1 c <> None) /\
  (z = 0%Z -> exists c, id = Z.of_N c /\ a = [c]).
Proof. exact (unregister_full irqs l t h h1 ack id z a h2). Qed.
Print Assumptions C41_unregister_iff.

(** When the interrupt of a hardware interface fires, the callback registered for it at
    that time is called, with a function that acknowledges this interrupt; an interrupt
    not registered (any more) calls nothing. *)
Theorem C41_hardware_delivery irqs l t h hh c i :
  NoDup (map fst irqs) -> run irqs l = (t, h) -> In (c, i) irqs ->
  hw_run hh c t = Some (right_outcome hh (bound h c) c).
Proof. exact (hw_right irqs l t h hh c i). Qed.
Print Assumptions C41_hardware_delivery.

(** When the thread of a device-tree interface wakes with a badge, exactly the interrupts
    whose bits are set are delivered, each to its own callback with an acknowledgement
    that reaches it. *)
Theorem C41_dtb_delivery irqs l t h hh pairs badge :
  NoDup (map fst irqs) -> run irqs l = (t, h) ->
  NoDup (map fst pairs) -> (forall n c, In (n, c) pairs -> In (c, Interrupt n) irqs) ->
  dtb_run hh pairs t badge =
  map (fun c => Some (right_outcome hh (bound h c) c)) (fired badge pairs).
Proof. exact (dtb_right irqs l t h hh pairs badge). Qed.
Print Assumptions C41_dtb_delivery.

(** Delivery through the global endpoint: the callbacks called are those of the entries
    whose badge bits are all set and whose interrupt is registered. *)
Theorem C41_global_delivery irqs l t h handlers badge :
  NoDup (map fst irqs) -> run irqs l = (t, h) ->
  (forall b k c, In (b, k, c) handlers -> exists i, In (c, i) irqs) ->
  calls h badge handlers (global_run handlers t badge).
Proof. exact (global_calls irqs l t h handlers badge). Qed.
Print Assumptions C41_global_delivery.

(** A concrete table and history: the second registration for number 5 gets the second
    entry, a third is refused; after unregistering, the first is silent. *)
Definition ex_irqs : list (N * irq) :=
  [(10, Interrupt 5); (11, Trigger 5 1); (12, Ioapic 0 1 0 0 4)].
Definition ex_ops : list op :=
  [ORegister true (Interrupt 5) (Some 100); ORegister true (Interrupt 5) (Some 101);
   ORegister true (Interrupt 5) (Some 102); ORegister false (Ioapic 0 1 0 0 4) (Some 103);
   OUnregister true 10; ORegister true (Trigger 5 1) (Some 104)].
Example C41_example :
  NoDup (map fst ex_irqs) /\
  map (fun e => snd (fst e)) (snd (run ex_irqs ex_ops)) = [10; 11; ENOENT; EFAULT; 0; ENOENT]%Z /\
  bound (snd (run ex_irqs ex_ops)) 10 = None /\
  bound (snd (run ex_irqs ex_ops)) 11 = Some 101 /\
  dtb_run false [(5, 10)] (fst (run ex_irqs [ORegister true (Interrupt 5) (Some 100)])) 3 =
    [Some (Callback 100 10)].
Proof.
  split; [repeat constructor; simpl; intuition discriminate|]. vm_compute. auto.
Qed.
