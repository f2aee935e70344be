(** C108: what CakeML programs can call. *)
From Coq Require Import List Bool Arith NArith ZArith Lia.
From Verif Require Import CakeFfi_Model CakeFfi_Spec CakeFfi_Proofs CakeFfi_Proofs2.
From Verif Require Vq_Model.
Import ListNotations.

(** A toy file system: one file, whose bytes are the state; descriptor 3.  Any other descriptor is refused, and
    the path /x cannot be opened. *)
Definition toy_files : files bytes := {|
  f_open := fun path _ w => if match path with [47%N; 120%N] => true | _ => false end then ((-1)%Z, w) else (3%Z, w);
  f_read := fun fd n w => if Z.eqb fd 3 then (Z.of_nat (length (firstn n w)), firstn n w, skipn n w) else ((-1)%Z, [], w);
  f_write := fun fd d w => if Z.eqb fd 3 then (Z.of_nat (length d), w ++ d) else ((-1)%Z, w);
  f_close := fun fd w => (if Z.eqb fd 3 then 0%Z else (-1)%Z, w) |}.

(** Opening for writing opens the file of the given name and gives its descriptor, or a failure. *)
Theorem C108_open_out W (F : files W) path junk x a fd w w' : ~ In 0%N path -> 8 <= length a -> f_open F path true w = (fd, w') ->
  (descriptor fd -> ffiopen_out F (path ++ 0%N :: junk) (x :: a) w = Some (0%N :: big 8 (Z.to_N fd) ++ skipn 8 a, w')) /\
  ((fd < 0)%Z -> ffiopen_out F (path ++ 0%N :: junk) (x :: a) w = Some (1%N :: a, w')).
Proof. exact (open_out_ok F path junk x a fd w w'). Qed.
Print Assumptions C108_open_out.
Example toy_open : ffiopen_out toy_files [47; 97; 0]%N [9; 9; 9; 9; 9; 9; 9; 9; 9]%N [] = Some ([0; 0; 0; 0; 0; 0; 0; 0; 3]%N, []).
Proof. reflexivity. Qed.

(** Opening for reading reports a failure exactly when it succeeds. *)
Theorem C108_open_in_refuted W (F : files W) path junk x a fd w w' : ~ In 0%N path -> 8 <= length a -> f_open F path false w = (fd, w') ->
  (descriptor fd -> ffiopen_in F (path ++ 0%N :: junk) (x :: a) w = Some (1%N :: a, w')) /\
  ((fd < 0)%Z -> exists b, ffiopen_in F (path ++ 0%N :: junk) (x :: a) w = Some (0%N :: b, w')).
Proof. exact (open_in_wrong F path junk x a fd w w'). Qed.
Print Assumptions C108_open_in_refuted.
Example toy_open_in : ffiopen_in toy_files [47; 97; 0]%N [9; 9; 9; 9; 9; 9; 9; 9; 9]%N [] = Some ([1; 9; 9; 9; 9; 9; 9; 9; 9]%N, []) /\
  ffiopen_in toy_files [47; 120; 0]%N [9; 9; 9; 9; 9; 9; 9; 9; 9]%N [] = Some ([0; 255; 255; 255; 255; 255; 255; 255; 255]%N, []).
Proof. split; reflexivity. Qed.

(** Reading reads from the descriptor that opening gave, gives the number of bytes and the bytes. *)
Theorem C108_read W (F : files W) fd n x y rest w r data w' : descriptor fd -> (N.of_nat n < 65536)%N -> f_read F fd n w = (r, data, w') ->
  length data <= n -> n <= length rest ->
  (r = Z.of_nat (length data) -> ffiread F (big 8 (Z.to_N fd)) (big 2 (N.of_nat n) ++ x :: y :: rest) w =
     Some (0%N :: big 2 (N.of_nat (length data)) ++ y :: data ++ skipn (length data) rest, w')) /\
  ((r < 0)%Z -> data = [] -> exists z, ffiread F (big 8 (Z.to_N fd)) (big 2 (N.of_nat n) ++ x :: y :: rest) w = Some (1%N :: z :: x :: y :: rest, w')).
Proof. exact (read_ok F fd n x y rest w r data w'). Qed.
Print Assumptions C108_read.
Example toy_read : ffiread toy_files (big 8 3) (big 2 4 ++ [0; 0; 9; 9; 9; 9; 9]%N) [10; 11; 12; 13; 14; 15]%N =
  Some ([0; 0; 4; 0; 10; 11; 12; 13; 9]%N, [14; 15]%N).
Proof. reflexivity. Qed.

(** Writing writes the given bytes from the given offset, and gives the number of bytes written. *)
Theorem C108_write W (F : files W) fd n off rest w r w' : descriptor fd -> (N.of_nat n < 65536)%N -> (N.of_nat off < 65536)%N -> off + n <= length rest ->
  f_write F fd (firstn n (skipn off rest)) w = (r, w') ->
  ((0 <= r <= Z.of_nat n)%Z -> exists z, ffiwrite F (big 8 (Z.to_N fd)) (big 2 (N.of_nat n) ++ big 2 (N.of_nat off) ++ rest) w =
     Some (0%N :: big 2 (Z.to_N r) ++ z :: rest, w')) /\
  ((r < 0)%Z -> exists z, ffiwrite F (big 8 (Z.to_N fd)) (big 2 (N.of_nat n) ++ big 2 (N.of_nat off) ++ rest) w = Some (1%N :: z ++ rest, w') /\ length z = 3).
Proof. exact (write_ok F fd n off rest w r w'). Qed.
Print Assumptions C108_write.
Example toy_write : ffiwrite toy_files (big 8 3) (big 2 3 ++ big 2 1 ++ [20; 21; 22; 23; 24]%N) [10]%N =
  Some ([0; 0; 3; 1; 20; 21; 22; 23; 24]%N, [10; 21; 22; 23]%N).
Proof. reflexivity. Qed.

(** Closing closes the descriptor and tells whether that failed. *)
Theorem C108_close W (F : files W) fd x a w r w' : descriptor fd -> f_close F fd w = (r, w') ->
  fficlose F (big 8 (Z.to_N fd)) (x :: a) w = Some ((if Z.eqb r 0 then 0%N else 1%N) :: a, w').
Proof. exact (close_ok F fd x a w r w'). Qed.
Print Assumptions C108_close.
Example toy_close : fficlose toy_files (big 8 3) [7%N] [] = Some ([0%N], []) /\ fficlose toy_files (big 8 4) [7%N] [] = Some ([1%N], []).
Proof. split; reflexivity. Qed.

(** A kernel with one endpoint, which holds at most one message; notifications have the badge 5. *)
Definition toy_kernel : kernel (option (N * bytes)) := {|
  k_send := fun ep m w => Some (ep, m);
  k_reply := fun m w => Some (0%N, m);
  k_recv := fun ep buf w => match w with Some (b, m) => (b, length m / 8, m ++ skipn (length m) buf, None) | None => (0%N, 0, buf, None) end;
  k_wait := fun _ w => (5%N, w) |}.

(** Sending a message of at most 960 bytes sends the message, completed to whole words by what was in the
    IPC buffer before. *)
Theorem C108_send_partial W (K : kernel W) x ep data rest t : word ep -> length data <= MSG_BYTES -> length (t_msg t) = MSG_BYTES ->
  exists pad, completes (length data) pad /\ pad = firstn (length pad) (skipn (length data) (t_msg t)) /\
    ffiseL4_Send K (x :: little 8 ep ++ little 8 (N.of_nat (length data)) ++ data ++ rest) t =
      Some (0%N :: little 8 ep ++ little 8 (N.of_nat (length data)) ++ data ++ rest,
            Thread (data ++ skipn (length data) (t_msg t)) (t_cnode t) (k_send K ep (data ++ pad) (t_world t))).
Proof. exact (send_ok K x ep data rest t). Qed.
Print Assumptions C108_send_partial.
(** Three bytes 1 2 3 after a message of words of sevens: the other side gets 1 2 3 7 7 7 7 7. *)
Example toy_send : match ffiseL4_Send toy_kernel (0%N :: little 8 9 ++ little 8 3 ++ [1; 2; 3]%N) (Thread (repeat 7%N MSG_BYTES) 0 None) with
  Some (a, t) => t_world t | None => None end = Some (9%N, [1; 2; 3; 7; 7; 7; 7; 7]%N).
Proof. reflexivity. Qed.

(** Longer messages overrun the IPC buffer, and lengths beyond the array are read all the same. *)
Theorem C108_send_refuted W (K : kernel W) x ep len rest t : word len ->
  (MSG_BYTES < N.to_nat len \/ length rest < N.to_nat len) -> length (t_msg t) = MSG_BYTES ->
  ffiseL4_Send K (x :: little 8 ep ++ little 8 len ++ rest) t = None.
Proof. exact (send_fault K x ep len rest t). Qed.
Print Assumptions C108_send_refuted.
Example toy_send_long : ffiseL4_Send toy_kernel (0%N :: little 8 9 ++ little 8 5 ++ [1; 2; 3]%N) (Thread (repeat 7%N MSG_BYTES) 0 None) = None.
Proof. reflexivity. Qed.

(** Receiving gives the length in bytes, the badge and the message. *)
Theorem C108_recv W (K : kernel W) x ep z a t badge n msg w : word ep -> length z = 8 ->
  k_recv K ep (t_msg t) (t_world t) = (badge, n, msg, w) -> 8 * n <= length msg -> 8 * n <= length a ->
  ffiseL4_Recv K (x :: little 8 ep ++ z ++ a) t =
    Some (0%N :: little 8 (N.of_nat (8 * n)) ++ little 8 badge ++ firstn (8 * n) msg ++ skipn (8 * n) a, Thread msg (t_cnode t) w).
Proof. exact (recv_ok K x ep z a t badge n msg w). Qed.
Print Assumptions C108_recv.
Example toy_recv : match ffiseL4_Recv toy_kernel (0%N :: little 8 9 ++ repeat 0%N 18) (Thread (repeat 7%N MSG_BYTES) 0 (Some (9%N, [1; 2; 3; 7; 7; 7; 7; 7]%N))) with
  Some (a, t) => a | None => [] end = 0%N :: little 8 8 ++ little 8 9 ++ [1; 2; 3; 7; 7; 7; 7; 7; 0; 0]%N.
Proof. reflexivity. Qed.

(** Replying and receiving do both, in this order. *)
Theorem C108_reply_recv W (K : kernel W) x ep data rest t badge n msg w : word ep -> length data <= MSG_BYTES -> length (t_msg t) = MSG_BYTES ->
  exists pad, completes (length data) pad /\ pad = firstn (length pad) (skipn (length data) (t_msg t)) /\
    (k_recv K ep (data ++ skipn (length data) (t_msg t)) (k_reply K (data ++ pad) (t_world t)) = (badge, n, msg, w) ->
     8 * n <= length msg -> 8 * n <= length data + length rest ->
     ffiseL4_ReplyRecv K (x :: little 8 ep ++ little 8 (N.of_nat (length data)) ++ data ++ rest) t =
       Some (0%N :: little 8 (N.of_nat (8 * n)) ++ little 8 badge ++ firstn (8 * n) msg ++ skipn (8 * n) (data ++ rest), Thread msg (t_cnode t) w)).
Proof. exact (reply_recv_ok K x ep data rest t badge n msg w). Qed.
Print Assumptions C108_reply_recv.

(** Waiting gives the badge. *)
Theorem C108_wait W (K : kernel W) x src a t badge w : word src -> k_wait K src (t_world t) = (badge, w) ->
  ffiseL4_Wait K (x :: little 8 src ++ a) t = Some (0%N :: little 8 badge ++ a, Thread (t_msg t) (t_cnode t) w).
Proof. exact (wait_ok K x src a t badge w). Qed.
Print Assumptions C108_wait.

(** A message that one program sends arrives at another to which the kernel delivers it, with at most seven more bytes. *)
Theorem C108_message_partial W (K : kernel W) x ep data rest t : word ep -> length data <= MSG_BYTES -> length (t_msg t) = MSG_BYTES ->
  exists sent a1 t1, ffiseL4_Send K (x :: little 8 ep ++ little 8 (N.of_nat (length data)) ++ data ++ rest) t = Some (a1, t1) /\
    t_world t1 = k_send K ep sent (t_world t) /\
    forall W' (K' : kernel W') y ep' z a t' badge n msg w, word ep' -> length z = 8 -> 8 * n <= length a ->
      k_recv K' ep' (t_msg t') (t_world t') = (badge, n, msg, w) -> length sent = 8 * n -> 8 * n <= length msg -> firstn (8 * n) msg = sent ->
      exists pad, length pad < 8 /\
        ffiseL4_Recv K' (y :: little 8 ep' ++ z ++ a) t' =
          Some (0%N :: little 8 (N.of_nat (length (data ++ pad))) ++ little 8 badge ++ (data ++ pad) ++ skipn (8 * n) a, Thread msg (t_cnode t') w).
Proof.
  intros WE L LM. destruct (send_ok K x ep data rest t WE L LM) as [pad [[C1 C2] [P E]]].
  exists (data ++ pad). eexists. eexists. split; [exact E|]. split; [reflexivity|].
  intros W' K' y ep' z a t' badge n msg w WE' LZ LA R LS LMS F. exists pad. split; [exact C1|].
  rewrite (recv_ok K' y ep' z a t' badge n msg w WE' LZ R LMS LA). rewrite F, LS. reflexivity.
Qed.
Print Assumptions C108_message_partial.

(** Setting the cnode takes the word at the beginning of the array, not after the status byte like all others: given
    arrays of the usual form it sets another capability. *)
Theorem C108_cnode_refuted W x cap rest (t : thread W) : (x < 256)%N -> word cap ->
  ffiset_tls_cnode_cap (x :: little 8 cap ++ rest) t =
    Some (0%N :: little 8 cap ++ rest, Thread (t_msg t) ((x + 256 * cap) mod 2 ^ 64)%N (t_world t)).
Proof. exact (cnode_value W x cap rest t). Qed.
Print Assumptions C108_cnode_refuted.
Theorem C108_cnode_partial W cap rest (t : thread W) : word cap ->
  exists a, ffiset_tls_cnode_cap (little 8 cap ++ rest) t = Some (a, Thread (t_msg t) cap (t_world t)).
Proof. exact (cnode_here W cap rest t). Qed.
Print Assumptions C108_cnode_partial.
Example toy_cnode : match ffiset_tls_cnode_cap (0%N :: little 8 5) (Thread [] 1 tt) with Some (_, t) => t_cnode t | None => 0%N end = 1280%N.
Proof. reflexivity. Qed.

(** Virtqueues carry messages of at most a block in order and unchanged; sending fails only if the message is longer or
    there is no room, receiving only if there is no message, collecting only if nothing has been received. *)
Theorem C108_virtqueue_partial B p nblocks ndescs q qs os : 0 < B -> word p -> word (N.of_nat B) ->
  qs p = Some q -> set_up nblocks ndescs q -> Forall (sane B) os ->
  exists qs', calls B p os qs = Some (fst (cake_steps B nblocks ndescs (Channel [] 0) os), qs').
Proof. exact (virtqueue_ok B p nblocks ndescs q qs os). Qed.
Print Assumptions C108_virtqueue_partial.
Definition toy_queue : Vq_Model.vq := Vq_Model.mk_vq (fun _ => 0%N) [1; 0] 4 [] [].
Definition toy_queues : queues := fun p => if N.eqb p 77 then Some toy_queue else None.
Definition toy_ops := [CSend [1; 2]%N; CSend [3]%N; CSend [4]%N; CRecv 4; CCollect; CSend [5; 6; 7; 8; 9]%N; CSend [6]%N; CRecv 4; CRecv 4; CRecv 4].
Example toy_set_up : toy_queues 77%N = Some toy_queue /\ set_up 2 4 toy_queue /\ Forall (sane 4) toy_ops.
Proof.
  split; [reflexivity|]. split; [|repeat constructor].
  repeat split. repeat constructor; cbn; intuition lia.
Qed.
Example toy_calls : match calls 4 77 toy_ops toy_queues with Some (rs, _) => rs | None => [] end =
  [Done; Done; Failed; Message [1; 2]%N; Done; Failed; Done; Message [3]%N; Message [6]%N; Failed].
Proof. reflexivity. Qed.
(** An array that is too short is overrun. *)
Theorem C108_virtqueue_refuted : exists B p os qs, calls B p os qs = None.
Proof. exists 4, 77%N, [CSend [1; 2]%N; CRecv 1], toy_queues. reflexivity. Qed.
Print Assumptions C108_virtqueue_refuted.
