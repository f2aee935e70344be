(** C114: the authority a connection hands out. *)
From Coq Require Import List Bool Arith NArith String Ascii.
From Verif Require Import Prelude DecStr Context_Model Context_Spec Grant_Model Grant_Spec Grant_Proofs2 Grant_Proofs3 Grant_Proofs4 Grant_Proofs5 Grant_Proofs6.
Import ListNotations.
Open Scope string_scope.
Open Scope list_scope.

(** Rendering succeeds exactly when no connection with a shared buffer has more than one
    end on a side. *)
Theorem C114_renders : forall rt its, distinct_names its -> (buffers_ok its <-> exists st, render_all rt its = Ok st).
Proof. exact renders_lemma. Qed.
Print Assumptions C114_renders.

(** Each end of a connection holds a capability to each object it deals with, with at least
    the rights of its side. *)
Theorem C114_held : forall rt its st, render_all rt its = Ok st -> distinct_names its ->
  forall e n r, In (End e) its -> share rt e n r ->
  exists r', holds st (e_space e) (object_name (e_conn e) n) r' /\ includes r' r.
Proof. exact held_lemma. Qed.
Print Assumptions C114_held.

(** A sender and a receiver of a connection hold capabilities to one object, on which the
    one may send and the other receive. *)
Theorem C114_meet : forall rt its st s t, render_all rt its = Ok st -> distinct_names its -> well_counted its ->
  In (End s) its -> In (End t) its -> e_conn s = e_conn t -> e_from s = true -> e_from t = false ->
  exists slot c slot' c', contents st (e_space s) slot = Some (Some c) /\ contents st (e_space t) slot' = Some (Some c') /\
    kc_obj c = kc_obj c' /\ r_write (kc_rights c) = true /\ r_read (kc_rights c') = true.
Proof. exact meet_lemma. Qed.
Print Assumptions C114_meet.

(** Whoever holds a capability to an object of a connection has an end of it that deals with
    that object, and every right on it is one such an end has by its side.  Missing: names
    that make objects of different connections, or of a component, the same. *)
Theorem C114_only_partial : forall rt its st, render_all rt its = Ok st -> distinct_names its ->
  forall e n r0 sp r, unmistakable rt its -> In (End e) its -> share rt e n r0 ->
  holds st sp (object_name (e_conn e) n) r ->
  (exists e' r', in_conn its (e_conn e) e' /\ e_space e' = sp /\ share rt e' n r') /\
  forall f, f = r_read \/ f = r_write \/ f = r_grant \/ f = r_grantreply -> f r = true ->
    exists e' r', in_conn its (e_conn e) e' /\ e_space e' = sp /\ share rt e' n r' /\ f r' = true.
Proof. exact only_lemma. Qed.
Print Assumptions C114_only_partial.

(** A connection c with a shared buffer and a connection called c_userspace_buffer: a
    component with no end of the latter can receive the calls made over it, and make some. *)
Theorem C114_only_refuted : exists its st e sp r n r0, render_all false its = Ok st /\ distinct_names its /\ well_counted its /\
  (forall i, In i its -> exists e, i = End e) /\
  In (End e) its /\ share false e n r0 /\ holds st sp (object_name (e_conn e) n) r /\ r_read r = true /\ r_write r = true /\
  forall e', in_conn its (e_conn e) e' -> e_space e' <> sp.
Proof. exact locks_refuted_lemma. Qed.
Print Assumptions C114_only_refuted.

(** The same by a semaphore of a component. *)
Theorem C114_own_refuted : exists its st e sp r n r0, render_all false its = Ok st /\ distinct_names its /\ well_counted its /\
  In (End e) its /\ share false e n r0 /\ holds st sp (object_name (e_conn e) n) r /\ r_read r = true /\ r_write r = true /\
  forall e', in_conn its (e_conn e) e' -> e_space e' <> sp.
Proof. exact own_refuted_lemma. Qed.
Print Assumptions C114_own_refuted.

(** Two capabilities to objects of connections are to the same object exactly when it is the
    same object of the same connection. *)
Theorem C114_apart_partial : forall rt its st e e' n n' r r' c c' k k' sp sp' slot slot', render_all rt its = Ok st ->
  unmistakable rt its -> In (End e) its -> In (End e') its -> share rt e n r -> share rt e' n' r' ->
  contents st sp slot = Some (Some c) -> contents st sp' slot' = Some (Some c') ->
  nth_error (c_objs st) (kc_obj c) = Some k -> nth_error (c_objs st) (kc_obj c') = Some k' ->
  ko_name k = object_name (e_conn e) n -> ko_name k' = object_name (e_conn e') n' ->
  (kc_obj c = kc_obj c' <-> e_conn e = e_conn e' /\ n = n').
Proof. exact apart_lemma. Qed.
Print Assumptions C114_apart_partial.

(** A connection is one-way: only a component with a receiving end can receive from its
    object, only one with a sending end can send, nobody can pass capabilities, and only
    callers can be replied to.  Missing: queues and bound notifications. *)
Theorem C114_one_way_partial : forall rt its st e i r0 sp r, render_all rt its = Ok st -> distinct_names its -> unmistakable rt its ->
  In (End e) its -> share rt e (channel (e_kind e) i) r0 ->
  holds st sp (object_name (e_conn e) (channel (e_kind e) i)) r ->
  (e_kind e <> NotificationQueue -> r_read r = true ->
     exists t, in_conn its (e_conn e) t /\ e_space t = sp /\ e_from t = false) /\
  (e_kind e <> NotificationBind -> r_write r = true ->
     exists s, in_conn its (e_conn e) s /\ e_space s = sp /\ e_from s = true) /\
  r_grant r = false /\
  (r_grantreply r = true -> e_kind e = RPCCall /\ exists s, in_conn its (e_conn e) s /\ e_space s = sp /\ e_from s = true).
Proof. exact one_way_lemma. Qed.
Print Assumptions C114_one_way_partial.

(** The emitter of a queue may receive the events it sends ... *)
Theorem C114_queue_refuted : exists its st e r, render_all false its = Ok st /\ distinct_names its /\ unmistakable false its /\
  well_counted its /\ In (End e) its /\ e_kind e = NotificationQueue /\ e_from e = true /\
  holds st (e_space e) (object_name (e_conn e) (channel (e_kind e) 0)) r /\ r_read r = true /\
  forall t, in_conn its (e_conn e) t -> e_from t = false -> e_space t <> e_space e.
Proof. exact queue_refuted_lemma. Qed.
Print Assumptions C114_queue_refuted.
(** ... and the consumer of a bound notification may signal it. *)
Theorem C114_bind_refuted : exists its st e r, render_all false its = Ok st /\ distinct_names its /\ unmistakable false its /\
  well_counted its /\ In (End e) its /\ e_kind e = NotificationBind /\ e_from e = false /\
  holds st (e_space e) (object_name (e_conn e) (channel (e_kind e) 0)) r /\ r_write r = true /\
  forall s, in_conn its (e_conn e) s -> e_from s = true -> e_space s <> e_space e.
Proof. exact bind_refuted_lemma. Qed.
Print Assumptions C114_bind_refuted.

(** The lock and the handoff endpoint of an end, and the lock of a shared buffer, are in the
    capability space of its own component alone. *)
Theorem C114_private : forall rt its st e n r sp r', render_all rt its = Ok st -> distinct_names its -> unmistakable rt its ->
  well_counted its -> In (End e) its -> share rt e n r -> of_one_end e n ->
  holds st sp (object_name (e_conn e) n) r' -> sp = e_space e.
Proof. exact private_lemma. Qed.
Print Assumptions C114_private.

(** The objects are of the kind their users expect, and labelled with the instance if they
    are its alone, with the connection otherwise. *)
Theorem C114_objects_partial : forall rt its st e n r k, render_all rt its = Ok st -> distinct_names its -> unmistakable rt its ->
  well_counted its -> In (End e) its -> share rt e n r -> In k (c_objs st) -> ko_name k = object_name (e_conn e) n ->
  ko_type k = kind_of n /\ ko_label k = label_of e n.
Proof. exact objects_lemma. Qed.
Print Assumptions C114_objects_partial.

(** The order in which the templates are rendered, and rendering one again, makes no
    difference to who holds what. *)
Theorem C114_order : forall rt its its' st st' e n r0 sp r, render_all rt its = Ok st -> render_all rt its' = Ok st' ->
  distinct_names its -> unmistakable rt its -> (forall i, In i its <-> In i its') ->
  In (End e) its -> share rt e n r0 ->
  (holds st sp (object_name (e_conn e) n) r <-> holds st' sp (object_name (e_conn e) n) r).
Proof. exact order_lemma. Qed.
Print Assumptions C114_order.

(** An event from one component to two others, a call, and a semaphore. *)
Definition example_items : list item :=
  [End (ev_end Notification "ev" "b" false 2 0 1 2); End (rpc_end "call" "b" true 2 (Some 3));
   End (ev_end Notification "ev" "a" true 1 0 1 2); Own "a" 1 "sem" endpoint read_write;
   End (ev_end Notification "ev" "c" false 3 1 1 2); End (rpc_end "call" "a" false 1 None)].
Example C114_names : distinct_names example_items.
Proof. constructor; [two_ends|intros e inst sp n t r H H'; ends H; ends H'; cbn; discriminate]. Qed.
Example C114_unmistakable : unmistakable true example_items.
Proof.
  constructor; [two_ends|intros e n r inst sp m t r' H Hs H'].
  ends H'. assert (X : e_conn e = "ev" \/ e_conn e = "call") by (ends H; cbn; auto).
  intros E. unfold object_name in E. destruct X as [X|X]; rewrite X in E; discriminate E.
Qed.
Example C114_counted : well_counted example_items.
Proof. constructor; two_ends; repeat constructor. Qed.
Example C114_example : exists st, render_all true example_items = Ok st /\
  map ko_name (c_objs st) = ["ev_notification_0"; "ev_handoff_0"; "ev_lock_0"; "call_userspace_buffer_ep"; "call_ep";
                             "ev_notification_1"; "a_sem"; "ev_handoff_1"; "ev_lock_1"; "call_reply_cap_slot"] /\
  contents st 1 0 = Some (Some (mk_kcap 0 only_send None)) /\ contents st 2 0 = Some (Some (mk_kcap 0 only_receive None)) /\
  contents st 2 4 = Some (Some (mk_kcap 4 call None)) /\ contents st 1 3 = Some (Some (mk_kcap 4 only_receive None)) /\
  contents st 3 0 = Some (Some (mk_kcap 5 only_receive None)).
Proof. eexists. split; [vm_compute; reflexivity|]. repeat split; reflexivity. Qed.
Example C114_share : share true (rpc_end "call" "b" true 2 (Some 3)) "userspace_buffer_ep" send_and_receive /\
  of_one_end (rpc_end "call" "b" true 2 (Some 3)) "userspace_buffer_ep".
Proof. split; [eapply buffer_lock; try reflexivity; repeat constructor|right; auto]. Qed.
