(** Model of the functions that CakeML programs call: libcamkescakeml/src/io.c, libcamkescakeml/src/ipc.c
    and libcamkescakeml/src/virtqueue.c.

    Simplifications.
    - The machine has 64-bit words in little-endian order.
    - An array is a list of bytes; memcpy outside of the array or the IPC buffer is [None].
    - The system calls open, read, write and close are any functions on some state.  The kernel is one, too;
      what receives leaves in the IPC buffer is any buffer that begins with the message.
    - fficamkes_declare_reply_cap and fficlear_tls_reply_cap_in_tcb are not modelled (for what they
      call, see Reply), nor are the set-up, polling and signals of virtqueues.
    - Virtqueues are those of Vq; what a pointer to one points to is a table. *)
From Coq Require Import List Bool Arith NArith ZArith.
From Verif Require Vq_Model.
Import ListNotations.

Definition bytes := list N.
(** memcpy from and to [p + off] *)
Definition load (p : bytes) (off n : nat) : option bytes :=
  if off + n <=? length p then Some (firstn n (skipn off p)) else None.
Definition store (p : bytes) (off : nat) (data : bytes) : option bytes :=
  if off + length data <=? length p then Some (firstn off p ++ data ++ skipn (off + length data) p) else None.
(** Numbers in memory *)
Fixpoint le (n : nat) (x : N) : bytes :=
  match n with O => [] | S n => (x mod 256)%N :: le n (x / 256)%N end.
Fixpoint of_le (b : bytes) : N := match b with [] => 0%N | x :: b => (x + 256 * of_le b)%N end.
(** bswap_16 and bswap_64, on what is stored or has been loaded *)
Definition bswap (b : bytes) : bytes := rev b.
(** The conversion of uint64_t to int, and of int to uint64_t and uint16_t *)
Definition to_int (x : N) : Z :=
  let y := (Z.of_N x mod 2 ^ 32)%Z in if (y <? 2 ^ 31)%Z then y else (y - 2 ^ 32)%Z.
Definition to_u64 (x : Z) : N := Z.to_N (x mod 2 ^ 64).
Definition to_u16 (x : Z) : N := Z.to_N (x mod 2 ^ 16).

Definition obind {A B} (x : option A) (k : A -> option B) : option B := match x with Some a => k a | None => None end.
Notation "'do' x <- e ; k" := (obind e (fun x => k)) (at level 200, x pattern, e at level 100, k at level 200).

Definition IO_FAILURE : N := 1.
Definition IO_SUCCESS : N := 0.

Section Io.
Context {W : Type}.
(** O_RDONLY is [false], O_RDWR|O_CREAT|O_TRUNC is [true] *)
Record files := Files {
  f_open : bytes -> bool -> W -> Z * W;
  f_read : Z -> nat -> W -> Z * bytes * W;
  f_write : Z -> bytes -> W -> Z * W;
  f_close : Z -> W -> Z * W }.
Context (F : files).

(** A string in C ends at its first 0. *)
Fixpoint c_string (c : bytes) : option bytes :=
  match c with
  | [] => None
  | x :: c => if N.eqb x 0 then Some [] else do s <- c_string c; Some (x :: s)
  end.

(** io.c:15-24; 18 tests for a failure and reports a success *)
Definition ffiopen_in (c a : bytes) (w : W) : option (bytes * W) :=
  do path <- c_string c;
  let (fd, w) := f_open F path false w in
  if (fd <? 0)%Z then
    do a <- store a 0 [IO_SUCCESS];
    do a <- store a 1 (bswap (le 8 (to_u64 fd)));
    Some (a, w)
  else
    do a <- store a 0 [IO_FAILURE]; Some (a, w).
(** io.c:26-35 *)
Definition ffiopen_out (c a : bytes) (w : W) : option (bytes * W) :=
  do path <- c_string c;
  let (fd, w) := f_open F path true w in
  if (0 <=? fd)%Z then
    do a <- store a 0 [IO_SUCCESS];
    do a <- store a 1 (bswap (le 8 (to_u64 fd)));
    Some (a, w)
  else
    do a <- store a 0 [IO_FAILURE]; Some (a, w).
(** io.c:37-52 *)
Definition ffiread (c a : bytes) (w : W) : option (bytes * W) :=
  do fd_raw <- load c 0 8;
  do n_raw <- load a 0 2;
  let fd := to_int (of_le (bswap fd_raw)) in
  let n := N.to_nat (of_le (bswap n_raw)) in
  let '(nread, data, w) := f_read F fd n w in
  do a <- store a 4 data;
  if (nread <? 0)%Z then
    do a <- store a 0 [IO_FAILURE]; Some (a, w)
  else
    do a <- store a 0 [IO_SUCCESS];
    do a <- store a 1 (bswap (le 2 (to_u16 nread)));
    Some (a, w).
(** io.c:54-72 *)
Definition ffiwrite (c a : bytes) (w : W) : option (bytes * W) :=
  do fd_raw <- load c 0 8;
  do n_raw <- load a 0 2;
  do off_raw <- load a 2 2;
  let fd := to_int (of_le (bswap fd_raw)) in
  let n := N.to_nat (of_le (bswap n_raw)) in
  let off := N.to_nat (of_le (bswap off_raw)) in
  do data <- load a (4 + off) n;
  let (nw, w) := f_write F fd data w in
  if (nw <? 0)%Z then
    do a <- store a 0 [IO_FAILURE]; Some (a, w)
  else
    do a <- store a 0 [IO_SUCCESS];
    do a <- store a 1 (bswap (le 2 (to_u16 nw)));
    Some (a, w).
(** io.c:74-79 *)
Definition fficlose (c a : bytes) (w : W) : option (bytes * W) :=
  do fd_raw <- load c 0 8;
  let fd := to_int (of_le (bswap fd_raw)) in
  let (r, w) := f_close F fd w in
  do a <- store a 0 [if (r =? 0)%Z then IO_SUCCESS else IO_FAILURE];
  Some (a, w).
End Io.
Arguments files : clear implicits.

Definition FFI_SUCCESS : N := 0.
(** The words of a message in the IPC buffer: seL4_MsgMaxLength of them *)
Definition MSG_BYTES : nat := 960.
(** ROUND_UP_UNSAFE(len, sizeof(seL4_Word)) / sizeof(seL4_Word) *)
Definition words_of (len : nat) : nat := (len + 7) / 8.

Section Ipc.
Context {W : Type}.
(** Sending a message; sending a reply; receiving, which gives the badge, the length in words and the IPC
    buffer; waiting, which gives the badge *)
Record kernel := Kernel {
  k_send : N -> bytes -> W -> W;
  k_reply : bytes -> W -> W;
  k_recv : N -> bytes -> W -> N * nat * bytes * W;
  k_wait : N -> W -> N * W }.
Context (K : kernel).
(** A thread: msg of its IPC buffer, and the cnode_cap of its TLS *)
Record thread := Thread { t_msg : bytes; t_cnode : N; t_world : W }.

(** ipc.c:32-37; unlike all others it reads from [a] and not from [a + 1] *)
Definition ffiset_tls_cnode_cap (a : bytes) (t : thread) : option (bytes * thread) :=
  do cnode <- load a 0 8;
  do a <- store a 0 [FFI_SUCCESS];
  Some (a, Thread (t_msg t) (of_le cnode) (t_world t)).
(** ipc.c:39-52 *)
Definition ffiseL4_Recv (a : bytes) (t : thread) : option (bytes * thread) :=
  do ep <- load a 1 8;
  let '(badge, n, msg, w) := k_recv K (of_le ep) (t_msg t) (t_world t) in
  let len := n * 8 in
  do a <- store a 1 (le 8 (N.of_nat len));
  do a <- store a 9 (le 8 badge);
  do m <- load msg 0 len;
  do a <- store a 17 m;
  do a <- store a 0 [FFI_SUCCESS];
  Some (a, Thread msg (t_cnode t) w).
(** ipc.c:54-76 *)
Definition ffiseL4_ReplyRecv (a : bytes) (t : thread) : option (bytes * thread) :=
  do ep <- load a 1 8;
  do l <- load a 9 8;
  let len := N.to_nat (of_le l) in
  do data <- load a 17 len;
  do msg <- store (t_msg t) 0 data;
  do out <- load msg 0 (8 * words_of len);
  let w := k_reply K out (t_world t) in
  let '(badge, n, msg, w) := k_recv K (of_le ep) msg w in
  let len := n * 8 in
  do a <- store a 1 (le 8 (N.of_nat len));
  do a <- store a 9 (le 8 badge);
  do m <- load msg 0 len;
  do a <- store a 17 m;
  do a <- store a 0 [FFI_SUCCESS];
  Some (a, Thread msg (t_cnode t) w).
(** ipc.c:78-91 *)
Definition ffiseL4_Send (a : bytes) (t : thread) : option (bytes * thread) :=
  do ep <- load a 1 8;
  do l <- load a 9 8;
  let len := N.to_nat (of_le l) in
  do data <- load a 17 len;
  do msg <- store (t_msg t) 0 data;
  do out <- load msg 0 (8 * words_of len);
  let w := k_send K (of_le ep) out (t_world t) in
  do a <- store a 0 [FFI_SUCCESS];
  Some (a, Thread msg (t_cnode t) w).
(** ipc.c:94-101 *)
Definition ffiseL4_Wait (a : bytes) (t : thread) : option (bytes * thread) :=
  do src <- load a 1 8;
  let (badge, w) := k_wait K (of_le src) (t_world t) in
  do a <- store a 1 (le 8 badge);
  do a <- store a 0 [FFI_SUCCESS];
  Some (a, Thread (t_msg t) (t_cnode t) w).
End Ipc.
Arguments kernel : clear implicits.
Arguments thread : clear implicits.

Definition FFI_FAILURE : N := 1.
Section Virtqueue.
(** BLOCK_SIZE (libsel4camkes/src/virtqueue.c:15) *)
Context (B : nat).
(** What pointers to virtqueues point to *)
Definition queues := N -> option Vq_Model.vq.
Definition put (p : N) (q : Vq_Model.vq) (qs : queues) : queues := fun x => if N.eqb x p then Some q else qs x.

(** virtqueue.c:177-207 *)
Definition ffivirtqueue_driver_send (a : bytes) (qs : queues) : option (bytes * queues) :=
  do p <- load a 1 8;
  do l <- load a 9 8;
  do q <- qs (of_le p);
  let len := N.to_nat (of_le l) in
  match Vq_Model.buffer_alloc B q len with
  | None => do a <- store a 0 [FFI_FAILURE]; Some (a, qs)
  | Some (off, q) =>
    do data <- load a 17 len;
    let q := Vq_Model.mk_vq (Vq_Model.write (Vq_Model.q_mem q) off data) (Vq_Model.q_free q) (Vq_Model.q_ndesc q) (Vq_Model.q_avail q) (Vq_Model.q_used q) in
    (* camkes_virtqueue_driver_send_buffer *)
    match Vq_Model.add_available_buf true (off, len) q with
    | None => do a <- store a 0 [FFI_FAILURE]; Some (a, put (of_le p) (Vq_Model.buffer_free B q off) qs)
    | Some q => do a <- store a 0 [FFI_SUCCESS]; Some (a, put (of_le p) q qs)
    end
  end.
(** virtqueue.c:97-136; only the first buffer of a chain is copied, and the used ring gets the length 0 *)
Definition ffivirtqueue_device_recv (a : bytes) (qs : queues) : option (bytes * queues) :=
  do p <- load a 1 8;
  do q <- qs (of_le p);
  match Vq_Model.get_available_buf q with
  | None => do a <- store a 0 [FFI_FAILURE]; Some (a, qs)
  | Some ([], q) => do a <- store a 0 [FFI_FAILURE]; Some (a, put (of_le p) q qs)
  | Some ((off, len) :: c, q) =>
    do a <- store a 1 (le 8 (N.of_nat len));
    do a <- store a 9 (Vq_Model.read (Vq_Model.q_mem q) off len);
    do a <- store a 0 [FFI_SUCCESS];
    Some (a, put (of_le p) (Vq_Model.add_used_buf ((off, len) :: c) 0 q) qs)
  end.
(** virtqueue.c:154-175 *)
Fixpoint free_chain (c : Vq_Model.chain) (q : Vq_Model.vq) : Vq_Model.vq :=
  match c with
  | [] => q
  | (off, _) :: c => free_chain c (Vq_Model.buffer_free B (Vq_Model.free_desc q) off)
  end.
Definition ffivirtqueue_driver_recv (a : bytes) (qs : queues) : option (bytes * queues) :=
  do p <- load a 1 8;
  do q <- qs (of_le p);
  match Vq_Model.get_used_buf q with
  | None => do a <- store a 0 [FFI_FAILURE]; Some (a, qs)
  | Some (c, _, q) => do a <- store a 0 [FFI_SUCCESS]; Some (a, put (of_le p) (free_chain c q) qs)
  end.
End Virtqueue.
