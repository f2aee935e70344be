(** What the templates of the communication connectors allocate: the kernel objects of a
    connection and the capabilities of its ends (/repo/camkes/templates/rpc-connector.c,
    seL4RPCCall, seL4Notification, seL4NotificationQueue, seL4NotificationNative,
    seL4NotificationBind templates), on top of the allocation functions of Context.py. *)
From Coq Require Import List Bool Arith NArith String Ascii.
From Verif Require Import Prelude DecStr Context_Model.
Import ListNotations.
Open Scope string_scope.
Open Scope list_scope.

(** The connectors (include/builtin/std_connector.camkes:45-96). *)
Inductive connector := RPCCall | Notification | NotificationQueue | NotificationNative | NotificationBind.

(** A connection end as its template sees it, [me]: the connection ([me.parent.name], which
    is also the label of the end, ast/objects.py:998-999), the connector, the side, the
    instance, the interface, the capability space of the instance's address space, the
    position among the receiving ends ([me.parent.to_ends.index(me)]), the numbers of
    [me.parent.from_ends] and [me.parent.to_ends], the number of threads the component may
    have when the connection has a [buffer] attribute (seL4RPCCall-from.template.c:37), and
    [me.might_block()].  Simplification: the checks of the buffer's connection itself
    (seL4RPCCall-from.template.c:26-35) are not modelled. *)
Record cend := mk_cend {
  e_conn : string;
  e_kind : connector;
  e_from : bool;
  e_inst : string;
  e_iface : string;
  e_space : nat;
  e_index : nat;
  e_senders : nat;
  e_receivers : nat;
  e_buffer : option nat;
  e_blocks : bool
}.

Definition endpoint : string := "seL4_EndpointObject".
Definition ntfn : string := "seL4_NotificationObject".
Definition rt_reply : string := "seL4_RTReplyObject".
Definition read_only : rights := mk_rights true false false false.
Definition write_only : rights := mk_rights false true false false.
Definition read_write : rights := mk_rights true true false false.

(** [alloc(name, type, ...)] of a template (Context.py:85-90), the slot dropped. *)
Definition alloc_ (s : ctx) (e : cend) (name type olabel : string) (r : rights) : res ctx :=
  '(s, _, _) <- alloc s (e_conn e) (e_space e) name type olabel r None ;; Ok s.

(** [alloc_obj] followed by [alloc_cap] of the object (rpc-connector.c:177-178, 200-201). *)
Definition alloc_obj_cap (s : ctx) (e : cend) (oname cname type : string) (r : rights) : res ctx :=
  let '(s, v, _) := alloc_obj s (e_conn e) oname type (e_conn e) in
  match v with
  | VObj o => '(s, _, _) <- alloc_cap s (e_conn e) (e_space e) cname (Some o) r None ;; Ok s
  | _ => Err TypeError
  end.

(** _establish_buffer with recv false (rpc-connector.c:64-88). *)
Definition establish_buffer (s : ctx) (e : cend) (lock : bool) : res ctx :=
  if lock then alloc_ s e "userspace_buffer_ep" endpoint (e_inst e) read_write else Ok s.

(** establish_from_rpc (rpc-connector.c:171-187).  The badge set on the capability is the
    subject of C22 to C24 and not recorded here. *)
Definition establish_from_rpc (s : ctx) (e : cend) (lock : bool) : res ctx :=
  s <- establish_buffer s e lock ;;
  alloc_obj_cap s e "ep" ("ep_" ++ e_iface e)%string endpoint (mk_rights false true false true).

(** seL4RPCCall-from.template.c:19-44. *)
Definition rpc_from (s : ctx) (e : cend) : res ctx :=
  match e_buffer e with
  | None => establish_from_rpc s e false
  | Some threads =>
      if negb (Nat.eqb (e_senders e) 1) || negb (Nat.eqb (e_receivers e) 1) then Err TemplateError
      else establish_from_rpc s e (Nat.ltb 1 threads)
  end.

(** establish_recv_rpc (rpc-connector.c:192-229), rt is options.realtime.  Simplification:
    the capability to the component's own CNode (219) is left out. *)
Definition establish_recv_rpc (rt : bool) (s : ctx) (e : cend) : res ctx :=
  s <- alloc_obj_cap s e "ep" ("ep_" ++ e_iface e)%string endpoint read_only ;;
  if rt then alloc_ s e "reply_cap_slot" rt_reply (e_conn e) (mk_rights false false false false)
  else if e_blocks e then
    '(s, _, _) <- alloc_cap s (e_conn e) (e_space e) "reply_cap_slot" None (mk_rights false false false false) None ;; Ok s
  else Ok s.

(** ['x_%d' % i]. *)
Definition numbered_name (prefix : string) (i : nat) : string := (prefix ++ dec (N.of_nat i))%string.

(** [for index in range(len(me.parent.to_ends))] (seL4Notification-from.template.c:12-14,
    seL4NotificationQueue-from.template.c:23-24). *)
Definition each_receiver (s : ctx) (e : cend) (prefix type : string) (r : rights) : res ctx :=
  foldM (fun s i => alloc_ s e (numbered_name prefix i) type (e_conn e) r) (seq 0 (e_receivers e)) s.

(** The handoff endpoint and the lock of a receiving end
    (seL4Notification-to.template.c:46-49, seL4NotificationQueue-to.template.c:28-37). *)
Definition handoff_lock (s : ctx) (e : cend) : res ctx :=
  s <- alloc_ s e (numbered_name "handoff_" (e_index e)) endpoint (e_inst e) read_write ;;
  alloc_ s e (numbered_name "lock_" (e_index e)) ntfn (e_inst e) read_write.

(** The template of an end. *)
Definition render (rt : bool) (s : ctx) (e : cend) : res ctx :=
  match e_kind e, e_from e with
  | RPCCall, true => rpc_from s e
  | RPCCall, false => establish_recv_rpc rt s e
  (* seL4Notification-from.template.c:11-14, seL4Notification-to.template.c:42-49 *)
  | Notification, true => each_receiver s e "notification_" ntfn write_only
  | Notification, false =>
      s <- alloc_ s e (numbered_name "notification_" (e_index e)) ntfn (e_conn e) read_only ;; handoff_lock s e
  (* seL4NotificationQueue-from.template.c:22-24, seL4NotificationQueue-to.template.c:25-37 *)
  | NotificationQueue, true => each_receiver s e "ep_" endpoint read_write
  | NotificationQueue, false =>
      s <- alloc_ s e (numbered_name "ep_" (e_index e)) endpoint (e_conn e) read_only ;; handoff_lock s e
  (* seL4NotificationNative-from.template.c:15, seL4NotificationNative-to.template.c:19 *)
  | NotificationNative, true => alloc_ s e "notification" ntfn (e_conn e) write_only
  | NotificationNative, false => alloc_ s e "notification" ntfn (e_conn e) read_only
  (* seL4NotificationBind-from.template.c:10, seL4NotificationBind-to.template.c:12 *)
  | NotificationBind, true => alloc_ s e "notification" ntfn (e_conn e) write_only
  | NotificationBind, false => alloc_ s e "notification" ntfn (e_conn e) read_write
  end.

(** What is rendered: an end of a connection, or a request of a component's own template
    for an object of its own, as for a mutex, a semaphore or a binary semaphore
    (component.common.c:220, 241, 269: label is the instance's name). *)
Inductive item :=
| End (e : cend)
| Own (inst : string) (space : nat) (name type : string) (r : rights).

Definition render_item (rt : bool) (s : ctx) (i : item) : res ctx :=
  match i with
  | End e => render rt s e
  | Own inst sp name type r => '(s, _, _) <- alloc s inst sp name type inst r None ;; Ok s
  end.

(** The runner's passes over the templates (runner/__main__.py:262-300), in any
    order and with repetitions. *)
Definition render_all (rt : bool) (is : list item) : res ctx := foldM (render_item rt) is ctx0.
