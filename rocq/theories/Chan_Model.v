(** The tables of virtqueue and message queue channels (libsel4camkes/src/virtqueue_template.c,
    virtqueue.c, msgqueue_template.c).

    Pointers are integers, 0 is NULL.  The global arrays are functions from indices.  An access
    outside an array, or through NULL, ends in [Fault]. *)
From Coq Require Import String List Bool ZArith.
Import ListNotations.
Open Scope Z_scope.

Inductive outcome (A : Type) := Returns (a : A) | Fault.
Arguments Returns {A}. Arguments Fault {A}.

(** ** Virtqueue channels *)
(** virtqueue.h:15 *)
Definition max_vq : Z := 100.
(** virtqueue.h:30-34 *)
Inductive role := Unassigned | Driver | Device.
Definition role_eqb (a b : role) : bool :=
  match a, b with Unassigned, Unassigned | Driver, Driver | Device, Device => true | _, _ => false end.
(** virtqueue.h:36-46 *)
Record vchan := mk_vchan {
  vc_buf : Z; vc_size : Z; vc_len : Z; vc_notify : Z; vc_recv : Z; vc_badge : Z;
  vc_role : role; vc_allocated : Z; vc_name : option string }.
Definition no_vchan : vchan := mk_vchan 0 0 0 0 0 0 Unassigned 0 None.
(** virtqueue_template.c:10-11 *)
Record vqs := mk_vqs { vq_arr : Z -> vchan; vq_num : Z }.
Definition vq_init : vqs := mk_vqs (fun _ => no_vchan) 0.
Definition upd {A} (f : Z -> A) (i : Z) (x : A) : Z -> A := fun j => if j =? i then x else f j.

(** The arguments of a registration *)
Record vreg := mk_vreg {
  vr_id : Z; vr_name : string; vr_len : Z; vr_size : Z; vr_buf : Z; vr_notify : Z; vr_recv : Z;
  vr_badge : Z; vr_role : role }.
(** virtqueue_template.c:13-38 [camkes_virtqueue_channel_register]; only the upper bound is checked *)
Definition vq_register (s : vqs) (r : vreg) : outcome (Z * vqs) :=
  if max_vq <? vr_id r then Returns (-1, s)
  else if (vr_buf r =? 0) || (vr_notify r =? 0) then Returns (-1, s)
  else if vr_id r <? 0 then Fault
  else Returns (0, mk_vqs
         (upd (vq_arr s) (vr_id r)
            (mk_vchan (vr_buf r) (vr_size r) (vr_len r) (vr_notify r) (vr_recv r) (vr_badge r)
               (vr_role r) 0 (Some (vr_name r))))
         (vq_num s + 1)).

(** virtqueue.c:58-80 [get_virtqueue_channel]; the id is unsigned *)
Definition vq_get (s : vqs) (rl : role) (id : Z) : option vchan :=
  if max_vq <? id then None
  else if role_eqb (vc_role (vq_arr s id)) Unassigned then None
  else let c := vq_arr s id in
       if vc_buf c =? 0 then None
       else if negb (role_eqb (vc_role c) rl) then None else Some c.

(** strncmp (_, _, 200) == 0, on strings without NUL *)
Definition same_name (a b : string) : bool := String.eqb (substring 0 200 a) (substring 0 200 b).
(** virtqueue.c:83-91 [camkes_virtqueue_get_id_from_name]: the loop over the ids from [i], of which [n]
    are left *)
Fixpoint vq_find (s : vqs) (name : string) (n : nat) (i : Z) : outcome Z :=
  match n with
  | O => Returns (-1)
  | S n =>
      match vc_name (vq_arr s i) with
      | None => Fault
      | Some x => if same_name name x then Returns i else vq_find s name n (i + 1)
      end
  end.
Definition vq_id_from_name (s : vqs) (name : string) : outcome Z := vq_find s name (Z.to_nat max_vq) 0.

(** virtqueue.c:93-141, up to the initialisation of the rings: what camkes_virtqueue_driver_init_with_recv
    and camkes_virtqueue_device_init_with_recv take from the channel.  None is the result -1. *)
Definition vq_driver_init (s : vqs) (id : Z) : option (Z * Z * Z * Z * (Z * Z)) :=
  match vq_get s Driver id with
  | None => None
  | Some c => Some (vc_buf c, vc_len c, vc_size c, vc_notify c, (vc_recv c, vc_badge c))
  end.
Definition vq_device_init (s : vqs) (id : Z) : option (Z * Z * Z * (Z * Z)) :=
  match vq_get s Device id with
  | None => None
  | Some c => Some (vc_buf c, vc_len c, vc_notify c, (vc_recv c, vc_badge c))
  end.

(** ** Message queue channels *)
(** msgqueue_template.h:9 *)
Definition max_mq : Z := 100.
(** msgqueue_template.h:17-34: the role with the functions of that role *)
Inductive mfuncs := NoFuncs | Sender (notify : Z) | Receiver (poll wait : Z).
Record mchan := mk_mchan { mc_funcs : mfuncs; mc_buf : Z; mc_len : Z; mc_size : Z; mc_msg : Z }.
Definition no_mchan : mchan := mk_mchan NoFuncs 0 0 0 0.
(** msgqueue_template.c:11-12 *)
Record mqs := mk_mqs { mq_arr : Z -> mchan; mq_num : Z }.
Definition mq_init : mqs := mk_mqs (fun _ => no_mchan) 0.
(** msgqueue_template.h:11-15 *)
Inductive mrole := MUnassigned | MSender | MReceiver.
Definition mrole_of (f : mfuncs) : mrole :=
  match f with NoFuncs => MUnassigned | Sender _ => MSender | Receiver _ _ => MReceiver end.
Definition mrole_eqb (a b : mrole) : bool :=
  match a, b with MUnassigned, MUnassigned | MSender, MSender | MReceiver, MReceiver => true | _, _ => false end.

(** msgqueue_template.c:14-43 [msgqueue_channel_check_common] *)
Definition mq_check (s : mqs) (id buf size msg : Z) : outcome bool :=
  if max_mq <=? id then Returns false
  else if max_mq <=? mq_num s then Returns false
  else if id <? 0 then Fault
  else if negb (mrole_eqb (mrole_of (mc_funcs (mq_arr s id))) MUnassigned) then Returns false
  else if buf =? 0 then Returns false
  else if size <=? msg then Returns false
  else Returns true.
(** A registration: [Sender] or [Receiver] with its functions *)
Record mreg := mk_mreg { mr_id : Z; mr_buf : Z; mr_len : Z; mr_size : Z; mr_msg : Z; mr_funcs : mfuncs }.
(** msgqueue_template.c:65-66 and 86-87: whether the functions of the role are given *)
Definition mq_given (f : mfuncs) : bool :=
  match f with
  | NoFuncs => false
  | Sender n => negb (n =? 0)
  | Receiver p w => negb ((p =? 0) || (w =? 0))
  end.
(** msgqueue_template.c:57-76 and 78-98 [camkes_msgqueue_channel_register_sender] and
    [camkes_msgqueue_channel_register_receiver]; true is the result 0, false is -EINVAL.  The counter of
    registered channels is not changed. *)
Definition mq_register (s : mqs) (r : mreg) : outcome (bool * mqs) :=
  match mq_check s (mr_id r) (mr_buf r) (mr_size r) (mr_msg r) with
  | Fault => Fault
  | Returns false => Returns (false, s)
  | Returns true =>
      if negb (mq_given (mr_funcs r)) then Returns (false, s)
      else Returns (true, mk_mqs
             (upd (mq_arr s) (mr_id r) (mk_mchan (mr_funcs r) (mr_buf r) (mr_len r) (mr_size r) (mr_msg r)))
             (mq_num s))
  end.
(** msgqueue_template.c:100-118 [camkes_msgqueue_channel_get] *)
Definition mq_get (s : mqs) (id : Z) (rl : mrole) : outcome (option mchan) :=
  if max_mq <=? id then Returns None
  else if mrole_eqb rl MUnassigned then Returns None
  else if id <? 0 then Fault
  else if negb (mrole_eqb (mrole_of (mc_funcs (mq_arr s id))) rl) then Returns None
  else Returns (Some (mq_arr s id)).
