(** What C114 says: who holds a capability to which object of a connection. *)
From Coq Require Import List Bool Arith NArith String Ascii.
From Verif Require Import Prelude DecStr Context_Model Context_Spec Grant_Model.
Import ListNotations.
Open Scope string_scope.
Open Scope list_scope.

(** Some slot of the capability space is a capability to the object of that name, with
    exactly these rights. *)
Definition holds (st : ctx) (sp : nat) (name : string) (r : rights) : Prop :=
  exists slot c k, contents st sp slot = Some (Some c) /\ nth_error (c_objs st) (kc_obj c) = Some k /\
    ko_name k = name /\ kc_rights c = r.

Definition includes (r r' : rights) : Prop :=
  (r_read r' = true -> r_read r = true) /\ (r_write r' = true -> r_write r = true) /\
  (r_grant r' = true -> r_grant r = true) /\ (r_grantreply r' = true -> r_grantreply r = true).

Definition only_send : rights := mk_rights false true false false.
Definition only_receive : rights := mk_rights true false false false.
Definition send_and_receive : rights := mk_rights true true false false.
Definition call : rights := mk_rights false true false true.
Definition numbered_ (p : string) (i : nat) : string := (p ++ "_" ++ dec (N.of_nat i))%string.

(** The objects of its connection an end deals with, and the rights its side needs or is
    documented to get: a caller calls and a server receives; an emitter signals each
    consumer and a consumer receives from its own object; locks are the end's own. *)
Inductive share (rt : bool) (e : cend) : string -> rights -> Prop :=
| caller : e_kind e = RPCCall -> e_from e = true -> share rt e "ep" call
| server : e_kind e = RPCCall -> e_from e = false -> share rt e "ep" only_receive
| buffer_lock n : e_kind e = RPCCall -> e_from e = true -> e_buffer e = Some n -> (1 < n)%nat ->
    share rt e "userspace_buffer_ep" send_and_receive
| reply : e_kind e = RPCCall -> e_from e = false -> rt = true -> share rt e "reply_cap_slot" no_rights
| emitter i : e_kind e = Notification -> e_from e = true -> (i < e_receivers e)%nat ->
    share rt e (numbered_ "notification" i) only_send
| consumer : e_kind e = Notification -> e_from e = false ->
    share rt e (numbered_ "notification" (e_index e)) only_receive
| queue_emitter i : e_kind e = NotificationQueue -> e_from e = true -> (i < e_receivers e)%nat ->
    share rt e (numbered_ "ep" i) send_and_receive
| queue_consumer : e_kind e = NotificationQueue -> e_from e = false ->
    share rt e (numbered_ "ep" (e_index e)) only_receive
| handoff : e_kind e = Notification \/ e_kind e = NotificationQueue -> e_from e = false ->
    share rt e (numbered_ "handoff" (e_index e)) send_and_receive
| lock : e_kind e = Notification \/ e_kind e = NotificationQueue -> e_from e = false ->
    share rt e (numbered_ "lock" (e_index e)) send_and_receive
| native_emitter : e_kind e = NotificationNative -> e_from e = true -> share rt e "notification" only_send
| native_consumer : e_kind e = NotificationNative -> e_from e = false -> share rt e "notification" only_receive
| bind_emitter : e_kind e = NotificationBind -> e_from e = true -> share rt e "notification" only_send
| bind_consumer : e_kind e = NotificationBind -> e_from e = false -> share rt e "notification" send_and_receive.

(** The object through which a connection reaches its i-th receiving end. *)
Definition channel (k : connector) (i : nat) : string :=
  match k with
  | RPCCall => "ep"
  | Notification => numbered_ "notification" i
  | NotificationQueue => numbered_ "ep" i
  | NotificationNative | NotificationBind => "notification"
  end.

Definition in_conn (is : list item) (c : string) (e : cend) : Prop := In (End e) is /\ e_conn e = c.

(** Connections are told apart by their names, and instances from connections. *)
Record distinct_names (is : list item) : Prop := {
  one_connector : forall e e', In (End e) is -> In (End e') is -> e_conn e = e_conn e' -> e_kind e = e_kind e';
  own_label : forall e inst sp n t r, In (End e) is -> In (Own inst sp n t r) is -> inst <> e_conn e
}.
(** No connection is called like another followed by _userspace_buffer, and no object of
    a component's own is spelt like an object of a connection. *)
Record unmistakable (rt : bool) (is : list item) : Prop := {
  no_buffer_name : forall e e', In (End e) is -> In (End e') is ->
    e_conn e' <> (e_conn e ++ "_userspace_buffer")%string;
  no_own_name : forall e n r inst sp m t r', In (End e) is -> share rt e n r -> In (Own inst sp m t r') is ->
    object_name inst m <> object_name (e_conn e) n
}.
(** The ends know their connection: receiving ends are numbered, each with its own number,
    and the number of sending ends is right. *)
Record well_counted (is : list item) : Prop := {
  own_number : forall e e', In (End e) is -> In (End e') is -> e_conn e = e_conn e' ->
    e_from e = false -> e_from e' = false -> e_index e = e_index e' -> e = e';
  number_bound : forall e e', In (End e) is -> In (End e') is -> e_conn e = e_conn e' ->
    e_from e = true -> e_from e' = false -> (e_index e' < e_receivers e)%nat;
  single_sender : forall e e', In (End e) is -> In (End e') is -> e_conn e = e_conn e' ->
    e_from e = true -> e_from e' = true -> e_senders e = 1%nat -> e = e'
}.
(** No end with a buffer belongs to a connection that is not 1-to-1. *)
Definition buffers_ok (is : list item) : Prop := forall e n, In (End e) is ->
  e_kind e = RPCCall -> e_from e = true -> e_buffer e = Some n -> e_senders e = 1%nat /\ e_receivers e = 1%nat.
(** The objects of a receiving or sending end alone. *)
Definition of_one_end (e : cend) (n : string) : Prop :=
  (e_from e = false /\ (n = numbered_ "handoff" (e_index e) \/ n = numbered_ "lock" (e_index e))) \/
  (e_from e = true /\ n = "userspace_buffer_ep").
(** The kind of an object of a connection, and whom it is labelled with for the access
    control policy: locks and handoff endpoints with the instance, the rest with the
    connection. *)
Definition kind_of (n : string) : string :=
  if prefix "ep" n || prefix "handoff" n || prefix "userspace" n then "seL4_EndpointObject"
  else if prefix "reply" n then "seL4_RTReplyObject" else "seL4_NotificationObject".
Definition label_of (e : cend) (n : string) : string :=
  if prefix "handoff" n || prefix "lock" n || prefix "userspace" n then e_inst e else e_conn e.
