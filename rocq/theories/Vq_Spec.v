(** Virtqueues and message queues, as their users see them: two queues of byte strings. *)
From Coq Require Import List Bool Arith NArith.
From Verif Require Import Vq_Model.
Import ListNotations.

(** ** Virtqueues *)
(** Messages on their way to the device, and on their way back with the length the device set. *)
Record channel := mk_channel { pending : list (list N); returned : list (list N * nat) }.
(** The number of blocks of a message: its length divided by the block size, rounded up. *)
Definition blocks (B : nat) (m : list N) : nat := (length m + (B - 1)) / B.
Definition in_flight (B : nat) (c : channel) : nat :=
  list_sum (map (blocks B) (pending c)) + list_sum (map (fun r => blocks B (fst r)) (returned c)).
(** A prefix of a message replaced by other bytes. *)
Definition overwrite (m data : list N) : list N :=
  firstn (length m) data ++ skipn (length data) m.

(** None when the channel has no room, or there is nothing to send. *)
Definition exchange (B nblocks ndescs : nat) (c : channel) (o : op) : option (reply * channel) :=
  match o with
  | Send data =>
      if (1 <=? length data) && (in_flight B c + blocks B data <=? nblocks) && (in_flight B c + blocks B data <=? ndescs)
      then Some (Sent true, mk_channel (pending c ++ [data]) (returned c))
      else None
  | Read size =>
      match pending c with
      | [] => Some (Nothing, c)
      | m :: ms => Some (Got (size <=? length m) (firstn size m),
                         mk_channel ms (returned c ++ [(m, Nat.min size (length m))]))
      end
  | Write data =>
      match pending c with
      | [] => Some (Nothing, c)
      | m :: ms => Some (Wrote (length data <=? length m),
                         mk_channel ms (returned c ++ [(overwrite m data, Nat.min (length data) (length m))]))
      end
  | Collect size =>
      match returned c with
      | [] => Some (Nothing, c)
      | (m, len) :: rs => Some (Collected len (firstn size m), mk_channel (pending c) rs)
      end
  end.
Fixpoint exchanges (B nblocks ndescs : nat) (c : channel) (os : list op) : option (list reply * channel) :=
  match os with
  | [] => Some ([], c)
  | o :: os => match exchange B nblocks ndescs c o with
               | None => None
               | Some (r, c) => match exchanges B nblocks ndescs c os with
                                | None => None
                                | Some (rs, c) => Some (r :: rs, c)
                                end
               end
  end.

(** ** Message queues *)
Definition message_step (limit nblocks ndescs : nat) (q : list (list N)) (o : mop) : mreply * list (list N) :=
  match o with
  | MSend m =>
      if limit <? length m then (Error EMSGSIZE, q)
      else if length q =? nblocks then (Error ENOMEM, q)
      else if length q =? ndescs then (Error ECOMM, q)
      else (Done, q ++ [m])
  | MGet size =>
      if size <? limit then (Error EMSGSIZE, q)
      else match q with
           | [] => (Error ENOMSG, q)
           | m :: q => (Message m, q)
           end
  end.
Fixpoint message_steps (limit nblocks ndescs : nat) (q : list (list N)) (os : list mop) : list mreply :=
  match os with
  | [] => []
  | o :: os => let '(r, q) := message_step limit nblocks ndescs q o in r :: message_steps limit nblocks ndescs q os
  end.
