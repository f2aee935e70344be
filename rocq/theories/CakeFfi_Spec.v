(** What CakeML programs see. *)
From Coq Require Import List Bool Arith NArith ZArith.
From Verif Require Import CakeFfi_Model.
From Verif Require Vq_Model.
Import ListNotations.

(** Numbers in [k] bytes, the most significant first, or last *)
Fixpoint big (k : nat) (x : N) : bytes :=
  match k with O => [] | S k => ((x / 256 ^ N.of_nat k) mod 256)%N :: big k x end.
Definition little (k : nat) (x : N) : bytes := rev (big k x).

Definition descriptor (fd : Z) : Prop := (0 <= fd < 2 ^ 31)%Z.
Definition word (x : N) : Prop := (x < 2 ^ 64)%N.
(** Where a word is missing to whole words *)
Definition completes (len : nat) (pad : bytes) : Prop := length pad < 8 /\ exists k, len + length pad = 8 * k.

(** ** Virtqueues: a queue of messages, and the number of those that have been received but not collected *)
Record cake_channel := Channel { pending : list bytes; received : nat }.
Inductive cake_op := CSend (m : bytes) | CRecv (room : nat) | CCollect.
Inductive cake_reply := Failed | Done | Message (m : bytes).
Definition cake_step (limit nblocks ndescs : nat) (c : cake_channel) (o : cake_op) : cake_reply * cake_channel :=
  match o with
  | CSend m =>
    if (limit <? length m) || (length (pending c) + received c =? nblocks) || (length (pending c) + received c =? ndescs)
    then (Failed, c)
    else (Done, Channel (pending c ++ [m]) (received c))
  | CRecv _ =>
    match pending c with
    | [] => (Failed, c)
    | m :: ms => (Message m, Channel ms (received c + 1))
    end
  | CCollect =>
    match received c with
    | O => (Failed, c)
    | S n => (Done, Channel (pending c) n)
    end
  end.
Fixpoint cake_steps (limit nblocks ndescs : nat) (c : cake_channel) (os : list cake_op) : list cake_reply * cake_channel :=
  match os with
  | [] => ([], c)
  | o :: os => let (r, c) := cake_step limit nblocks ndescs c o in
               let (rs, c) := cake_steps limit nblocks ndescs c os in (r :: rs, c)
  end.

(** The calls of a program: how it prepares the array and reads it afterwards *)
Definition status (a : bytes) : N := nth 0 a 0%N.
Definition call (B : nat) (p : N) (o : cake_op) (qs : queues) : option (cake_reply * queues) :=
  match o with
  | CSend m =>
    match ffivirtqueue_driver_send B (0%N :: little 8 p ++ little 8 (N.of_nat (length m)) ++ m) qs with
    | Some (a, qs) => Some (if N.eqb (status a) 0 then Done else Failed, qs)
    | None => None
    end
  | CRecv room =>
    match ffivirtqueue_device_recv (0%N :: little 8 p ++ repeat 0%N room) qs with
    | Some (a, qs) =>
      Some (if N.eqb (status a) 0 then Message (firstn (N.to_nat (of_le (firstn 8 (skipn 1 a)))) (skipn 9 a)) else Failed, qs)
    | None => None
    end
  | CCollect =>
    match ffivirtqueue_driver_recv B (0%N :: little 8 p) qs with
    | Some (a, qs) => Some (if N.eqb (status a) 0 then Done else Failed, qs)
    | None => None
    end
  end.
Fixpoint calls (B : nat) (p : N) (os : list cake_op) (qs : queues) : option (list cake_reply * queues) :=
  match os with
  | [] => Some ([], qs)
  | o :: os =>
    match call B p o qs with
    | Some (r, qs) => match calls B p os qs with Some (rs, qs) => Some (r :: rs, qs) | None => None end
    | None => None
    end
  end.
(** Messages have a length that fits a word; arrays have room for a block. *)
Definition sane (B : nat) (o : cake_op) : Prop :=
  match o with CSend m => word (N.of_nat (length m)) | CRecv room => B <= room | CCollect => True end.
(** A virtqueue as set up: all blocks and descriptors are free. *)
Definition set_up (nblocks ndescs : nat) (q : Vq_Model.vq) : Prop :=
  length (Vq_Model.q_free q) = nblocks /\ NoDup (Vq_Model.q_free q) /\ Vq_Model.q_ndesc q = ndescs /\
  Vq_Model.q_avail q = [] /\ Vq_Model.q_used q = [].
