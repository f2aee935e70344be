(** Model of the reply capability of an RPC server thread (non-realtime kernel):
    libsel4camkes/src/tls.c, the macros of camkes/templates/rpc-connector.c:135-147
    (_save_reply_cap), 237-271 (recv_first_rpc), 290-297 (begin_recv), 301-359 (reply_recv),
    and the control flow of camkes/templates/rpc-connector-common-to.c:78-262.

    Simplifications.
    - A caller is a number (N), one per call made by a client.
    - The kernel is reduced to the slot for the reply capability in the thread's TCB, the
      slot set aside by the template, and who was replied to.  Receiving on an endpoint
      deletes what the TCB slot held (seL4 manual); SaveCaller fails if the target slot is
      occupied; sending on a saved reply capability uses it up.
    - The template sets cnode_cap and reply_cap_slot to valid capabilities
      (rpc-connector.c:213-220, 238-244), so the assertions about zero hold.
    - assert is on. *)
From Coq Require Import NArith List Bool.
From Verif Require Import Prelude.
Import ListNotations.
Open Scope N_scope.

Record server := Server {
  in_tcb : bool;            (* tls->reply_cap_in_tcb *)
  save_error : bool;        (* tls->reply_cap_save_error is not seL4_NoError *)
  tcb : option N;           (* kernel: the caller whose reply capability is in the TCB *)
  slot : option N;          (* kernel: the caller whose reply capability is in the slot *)
  replied : list N;         (* who got a reply, latest first *)
  saves : nat               (* successful SaveCaller operations so far *)
}.

(** A new thread (tls zero-initialised). *)
Definition fresh : server := Server false false None None [] 0.

(** tls.c:19-35, camkes_declare_reply_cap *)
Definition declare_reply_cap (s : server) : res server :=
  if in_tcb s then Err AssertionError
  else Ok (Server true (save_error s) (tcb s) (slot s) (replied s) (saves s)).

(** seL4_CNode_SaveCaller *)
Definition save_caller (s : server) : server :=
  match slot s with
  | Some _ => Server (in_tcb s) true (tcb s) (slot s) (replied s) (saves s)
  | None => Server (in_tcb s) false None (tcb s) (replied s)
                   (match tcb s with Some _ => Datatypes.S (saves s) | None => saves s end)
  end.

(** tls.c:37-66, camkes_protect_reply_cap *)
Definition protect_reply_cap (s : server) : server :=
  if in_tcb s then
    let s1 := save_caller s in
    Server false (save_error s1) (tcb s1) (slot s1) (replied s1) (saves s1)
  else s.

(** seL4_Recv on the server's endpoint: the next call is that of [c] *)
Definition recv (c : N) (s : server) : server :=
  Server (in_tcb s) (save_error s) (Some c) (slot s) (replied s) (saves s).

(** seL4_ReplyRecv: reply to whom the TCB slot says, then receive from [c] *)
Definition kernel_reply_recv (c : N) (s : server) : server :=
  recv c (Server (in_tcb s) (save_error s) None (slot s)
                 (match tcb s with Some d => d :: replied s | None => replied s end) (saves s)).

(** seL4_Send on the slot *)
Definition send_slot (s : server) : server :=
  Server (in_tcb s) (save_error s) (tcb s) None
         (match slot s with Some d => d :: replied s | None => replied s end) (saves s).

(** tls.c:68-87, camkes_unprotect_reply_cap; its result is not used by reply_recv *)
Definition unprotect_reply_cap (s : server) : res server :=
  if in_tcb s then Err AssertionError else Ok s.

(** rpc-connector.c:237-271, recv_first_rpc, and 290-297, begin_recv, with might_block *)
Definition begin_recv (c : N) (s : server) : res server := declare_reply_cap (recv c s).

(** rpc-connector.c:301-359, reply_recv, with might_block *)
Definition reply_recv (c : N) (s : server) : res server :=
  s1 <- (if in_tcb s then
           Ok (kernel_reply_recv c (Server false (save_error s) (tcb s) (slot s) (replied s) (saves s)))
         else s0 <- unprotect_reply_cap s ;; Ok (recv c (send_slot s0))) ;;
  declare_reply_cap s1.

(** What the component's implementation does between a call and its reply.
    UWait x: a generated blocking function (semaphore wait, event wait, lock of a shared
    buffer: component.common.c:246-251, seL4Notification-to.template.c:116-120,
    rpc-connector.c:362-375): protect, then receive on another endpoint, which leaves [x]
    in the TCB slot.
    UProtect: protect alone.  UOther: anything that does not touch the reply capability. *)
Inductive user := UWait (x : option N) | UProtect | UOther.

Definition do_user (s : server) (u : user) : server :=
  match u with
  | UWait x =>
      let s1 := protect_reply_cap s in
      Server (in_tcb s1) (save_error s1) x (slot s1) (replied s1) (saves s1)
  | UProtect => protect_reply_cap s
  | UOther => s
  end.

(** One pass of the loop of rpc-connector-common-to.c:90-262: the implementation runs (or
    does not), then either the reply is sent and the next call received, or the message is
    dropped (goto begin_recv at :112, :147, :206, :223, :243). *)
Inductive round := Served (l : list user) (next : N) | Dropped (l : list user) (next : N).

Definition do_round (s : server) (r : round) : res server :=
  match r with
  | Served l c => reply_recv c (fold_left do_user l s)
  | Dropped l c => begin_recv c (fold_left do_user l s)
  end.

Fixpoint do_rounds (s : server) (l : list round) : res server :=
  match l with
  | [] => Ok s
  | r :: l' => s1 <- do_round s r ;; do_rounds s1 l'
  end.

(** The server's life: first receive the call of [c], then go round. *)
Definition serve (c : N) (l : list round) : res server :=
  s <- begin_recv c fresh ;; do_rounds s l.

(** camkes/ast/objects.py:993-996, might_block: numbers of provided and used procedures,
    consumed events, mutexes and semaphores of the component *)
Definition might_block (provides uses consumes mutexes semaphores : nat) : bool :=
  Nat.ltb 1 (provides + uses + consumes + mutexes + semaphores).
