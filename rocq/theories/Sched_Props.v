(** C87: the scheduling properties of each thread are those that were set for it. *)
From Coq Require Import List String Bool ZArith.
From Verif Require Import Prelude Sched_Model Sched_Spec Sched_Proofs.
Import ListNotations.
Open Scope string_scope.
Open Scope list_scope.

(** A configuration used in the examples below. *)
Definition ex_options : options := mk_options 254 254 0 10000 10000 0 8 true.
Definition ex_conf : conf := fun a =>
  if String.eqb a "priority" then Some 100%Z
  else if String.eqb a "_priority" then Some 90%Z
  else if String.eqb a "i_affinity" then Some 1%Z
  else if String.eqb a "i_domain" then Some 3%Z
  else if String.eqb a "q_passive" then Some 1%Z
  else if String.eqb a "i_budget" then Some 500%Z
  else None.

(** C87.  Priority, maximum priority and affinity of the control thread and of the
    threads of interfaces are those set for the thread, or else those set for the
    instance, or else the defaults; the domain is the one set for the thread, if
    any. *)
Theorem C87_tcb : forall o c t,
  t <> FaultHandler ->
  let p := thread_tcb o c t in
  value_for c t "priority" (default_priority o) (prio p) /\
  value_for c t "max_priority" (default_max_priority o) (max_prio p) /\
  value_for c t "affinity" (default_affinity o) (affinity p) /\
  (forall a, specific t "domain" = Some a -> domain p = c a).
Proof. exact tcb_values. Qed.
Print Assumptions C87_tcb.

Example C87_tcb_ex :
  thread_tcb ex_options ex_conf Control = mk_tcb 90 254 0 None /\
  thread_tcb ex_options ex_conf (Interface "i") = mk_tcb 100 254 1 (Some 3%Z).
Proof. split; reflexivity. Qed.

(** C87.  The same for the properties of scheduling contexts. *)
Theorem C87_sc : forall o c t s,
  t <> FaultHandler -> thread_sc o c t = Some s ->
  value_for c t "period" (default_period o) (period s) /\
  value_for c t "budget" (default_budget o) (budget s) /\
  value_for c t "data" (default_data o) (data s) /\
  value_for c t "size_bits" (default_size_bits o) (size_bits s).
Proof. exact sc_values. Qed.
Print Assumptions C87_sc.

(** C87.  On the realtime kernel each thread has a scheduling context, except those
    of the interfaces marked as passive. *)
Theorem C87_passive : forall o c t,
  realtime o = true ->
  (thread_sc o c t = None <->
   exists i v, t = Interface i /\ c (i ++ "_passive")%string = Some v /\ v <> 0%Z).
Proof. exact sc_exists. Qed.
Print Assumptions C87_passive.

Example C87_sc_ex :
  thread_sc ex_options ex_conf (Interface "i") = Some (mk_sc 10000 500 0 8) /\
  thread_sc ex_options ex_conf (Interface "q") = None.
Proof. split; reflexivity. Qed.

(** C87.  Setting a property of one thread changes this property of this thread and
    nothing else: every other property, of this thread and of all others, stays as
    it was.  Missing: interfaces named [max] or with a name that ends with [_max],
    see the theorems below. *)
Theorem C87_isolated_partial : forall o c v t t' p p' a,
  In p properties -> In p' properties -> plain t -> plain t' ->
  specific t p = Some a -> (t', p') <> (t, p) ->
  property_of o (with_setting c a v) t' p' = property_of o c t' p'.
Proof. exact isolation. Qed.
Print Assumptions C87_isolated_partial.

Example C87_isolated_ex :
  plain (Interface "serial") /\ specific (Interface "serial") "priority" = Some "serial_priority" /\
  property_of ex_options (with_setting ex_conf "serial_priority" (Some 7%Z)) (Interface "serial")
    "priority" = Some 7%Z.
Proof.
  split; [|split; reflexivity]. split; [discriminate|].
  intros [H|[j H]]; [discriminate|]. do 6 (destruct j as [|? j]; [discriminate|injection H as _ H]).
  destruct j; discriminate.
Qed.

(** C87.  The fault handler runs at the highest priority, on the processor set for
    the instance. *)
Theorem C87_fault_handler : forall o c,
  prio (thread_tcb o c FaultHandler) = 255%Z /\
  max_prio (thread_tcb o c FaultHandler) = default_max_priority o /\
  domain (thread_tcb o c FaultHandler) = None /\
  (forall v, c "affinity" = Some v -> affinity (thread_tcb o c FaultHandler) = v) /\
  (c "affinity" = None -> affinity (thread_tcb o c FaultHandler) = default_affinity o).
Proof. exact fault_handler. Qed.
Print Assumptions C87_fault_handler.

(** C87 is false in general: setting the priority of an interface named [max] sets
    the maximum priority of every thread of the instance. *)
Theorem C87_max_refuted : exists o c v t' ,
  specific (Interface "max") "priority" = Some "max_priority" /\ t' <> Interface "max" /\
  max_prio (thread_tcb o (with_setting c "max_priority" (Some v)) t') <>
  max_prio (thread_tcb o c t').
Proof. exact max_clash. Qed.
Print Assumptions C87_max_refuted.

(** C87 is false in general: setting the priority of an interface [i_max] sets the
    maximum priority of the threads of [i]. *)
Theorem C87_suffix_refuted : forall o c v i,
  let a := (i ++ "_max_priority")%string in
  specific (Interface (i ++ "_max")) "priority" = Some a /\
  max_prio (thread_tcb o (with_setting c a (Some v)) (Interface i)) = v.
Proof. exact suffix_clash. Qed.
Print Assumptions C87_suffix_refuted.
