(** Model of transfers through virtqueues and message queues: libsel4camkes/src/virtqueue.c:19-293
    and libsel4camkes/src/msgqueue.c:90-217.

    Simplifications.
    - The rings belong to a library outside /repo (libvirtqueue).  They are modelled as that library
      documents them: a table of descriptors, of which some number is free; the available ring and
      the used ring, which are queues of chains of buffers.  Adding the first buffer to a handle
      publishes a chain, adding another one extends it; gathering a used buffer frees its descriptor.
    - Buffers are offsets from the beginning of the usable memory, which is what both sides exchange.
      Memory is a function from offsets to bytes.
    - The allocator is the stack of the indices of free blocks (VqAlloc has the code and C39 proves
      that it hands out disjoint blocks).
    - The two sides take turns between calls, not within.  Pointers passed by callers are not NULL. *)
From Coq Require Import List Bool Arith NArith.
Import ListNotations.

Definition memory := nat -> N.
Definition read (m : memory) (off len : nat) : list N := map m (seq off len).
Definition write (m : memory) (off : nat) (data : list N) : memory :=
  fun a => if (off <=? a) && (a <? off + length data) then nth (a - off) data 0%N else m a.

(** A chain of buffers: offsets and lengths. *)
Definition chain := list (nat * nat).
Record vq := mk_vq { q_mem : memory; q_free : list nat; q_ndesc : nat; q_avail : list chain; q_used : list (chain * nat) }.

Section Block.
  (** The block size of the allocator; BLOCK_SIZE for virtqueues (virtqueue.c:15). *)
  Context (B : nat).

  (** virtqueue.c:19-37 [camkes_virtqueue_buffer_alloc], see VqAlloc *)
  Definition buffer_alloc (q : vq) (size : nat) : option (nat * vq) :=
    if B <? size then None
    else match q_free q with
         | [] => None
         | i :: free => Some (B * i, mk_vq (q_mem q) free (q_ndesc q) (q_avail q) (q_used q))
         end.
  (** virtqueue.c:39-55 [camkes_virtqueue_buffer_free], see VqAlloc *)
  Definition buffer_free (q : vq) (off : nat) : vq :=
    mk_vq (q_mem q) (off / B :: q_free q) (q_ndesc q) (q_avail q) (q_used q).

  (** virtqueue_add_available_buf of the library; [first] when the handle is fresh *)
  Definition extend_last (c : nat * nat) (cs : list chain) : list chain :=
    match rev cs with
    | [] => [[c]]
    | last :: before => rev before ++ [last ++ [c]]
    end.
  Definition add_available_buf (first : bool) (c : nat * nat) (q : vq) : option vq :=
    match q_ndesc q with
    | O => None
    | S n => Some (mk_vq (q_mem q) (q_free q) n
                    (if first then q_avail q ++ [[c]] else extend_last c (q_avail q)) (q_used q))
    end.

  (** virtqueue.c:181-205 [camkes_virtqueue_driver_scatter_send_buffer]; every iteration sends at
      least one byte, so the length of the data is enough fuel *)
  Fixpoint scatter (fuel : nat) (first : bool) (data : list N) (q : vq) : bool * vq :=
    match data with
    | [] => (true, q)
    | _ =>
        match fuel with
        | O => (false, q)
        | S fuel =>
            let to_send := if length data <? B then length data else B in
            match buffer_alloc q to_send with
            | None => (false, q)
            | Some (off, q) =>
                let q := mk_vq (write (q_mem q) off (firstn to_send data)) (q_free q) (q_ndesc q) (q_avail q) (q_used q) in
                match add_available_buf first (off, to_send) q with
                | None => (false, q)
                | Some q => scatter fuel false (skipn to_send data) q
                end
            end
        end
    end.
  Definition driver_scatter_send (data : list N) (q : vq) : bool * vq := scatter (length data) true data q.

  (** virtqueue_get_available_buf, virtqueue_add_used_buf and virtqueue_get_used_buf of the library *)
  Definition get_available_buf (q : vq) : option (chain * vq) :=
    match q_avail q with
    | [] => None
    | c :: cs => Some (c, mk_vq (q_mem q) (q_free q) (q_ndesc q) cs (q_used q))
    end.
  Definition add_used_buf (c : chain) (len : nat) (q : vq) : vq :=
    mk_vq (q_mem q) (q_free q) (q_ndesc q) (q_avail q) (q_used q ++ [(c, len)]).
  Definition get_used_buf (q : vq) : option (chain * nat * vq) :=
    match q_used q with
    | [] => None
    | (c, len) :: us => Some (c, len, mk_vq (q_mem q) (q_free q) (q_ndesc q) (q_avail q) us)
    end.

  (** virtqueue.c:250-271 [camkes_virtqueue_device_gather_copy_buffer], the loop; the result has the
      bytes copied *)
  Fixpoint gather_loop (m : memory) (c : chain) (size : nat) : bool * list N :=
    match size with
    | O => (true, [])
    | _ =>
        match c with
        | [] => (false, [])
        | (off, len) :: c =>
            let to_copy := if size <? len then size else len in
            let '(ok, data) := gather_loop m c (size - to_copy) in
            (ok, read m off to_copy ++ data)
        end
    end.
  Definition device_gather_copy (c : chain) (size : nat) (q : vq) : bool * list N * vq :=
    let '(ok, data) := gather_loop (q_mem q) c size in
    (ok, data, add_used_buf c (length data) q).

  (** virtqueue.c:227-248 [camkes_virtqueue_device_scatter_copy_buffer], the loop; the result has
      the number of bytes copied *)
  Fixpoint scatter_loop (m : memory) (c : chain) (data : list N) : bool * nat * memory :=
    match data with
    | [] => (true, O, m)
    | _ =>
        match c with
        | [] => (false, O, m)
        | (off, len) :: c =>
            let to_copy := if length data <? len then length data else len in
            let '(ok, sent, m) := scatter_loop (write m off (firstn to_copy data)) c (skipn to_copy data) in
            (ok, to_copy + sent, m)
        end
    end.
  Definition device_scatter_copy (c : chain) (data : list N) (q : vq) : bool * vq :=
    let '(ok, sent, m) := scatter_loop (q_mem q) c data in
    (ok, add_used_buf c sent (mk_vq m (q_free q) (q_ndesc q) (q_avail q) (q_used q))).

  (** virtqueue_gather_used of the library frees the descriptor *)
  Definition free_desc (q : vq) : vq := mk_vq (q_mem q) (q_free q) (S (q_ndesc q)) (q_avail q) (q_used q).
  (** virtqueue.c:207-225 [camkes_virtqueue_driver_gather_copy_buffer]; [size] is what is left of the
      caller's buffer *)
  Fixpoint driver_gather_copy (c : chain) (size : nat) (q : vq) : list N * vq :=
    match c with
    | [] => ([], q)
    | (off, len) :: c =>
        let q := free_desc q in
        let to_copy := if size <? len then size else len in
        let '(data, q') := driver_gather_copy c (size - to_copy) (buffer_free q off) in
        (read (q_mem q) off to_copy ++ data, q')
    end.

  (** What the two sides do, and what they get: a device takes the next chain with
      virtqueue_get_available_buf, a driver with virtqueue_get_used_buf. *)
  Inductive op := Send (data : list N) | Read (size : nat) | Write (data : list N) | Collect (size : nat).
  Inductive reply := Sent (ok : bool) | Nothing | Got (ok : bool) (data : list N) | Wrote (ok : bool)
    | Collected (len : nat) (data : list N).
  Definition step (q : vq) (o : op) : reply * vq :=
    match o with
    | Send data => let '(ok, q) := driver_scatter_send data q in (Sent ok, q)
    | Read size =>
        match get_available_buf q with
        | None => (Nothing, q)
        | Some (c, q) => let '(ok, data, q) := device_gather_copy c size q in (Got ok data, q)
        end
    | Write data =>
        match get_available_buf q with
        | None => (Nothing, q)
        | Some (c, q) => let '(ok, q) := device_scatter_copy c data q in (Wrote ok, q)
        end
    | Collect size =>
        match get_used_buf q with
        | None => (Nothing, q)
        | Some (c, len, q) => let '(data, q) := driver_gather_copy c size q in (Collected len data, q)
        end
    end.
  Fixpoint run (q : vq) (os : list op) : list reply * vq :=
    match os with
    | [] => ([], q)
    | o :: os => let '(r, q) := step q o in let '(rs, q) := run q os in (r :: rs, q)
    end.

  (** ** Message queues *)
  Inductive error := EMSGSIZE | ENOMEM | ECOMM | ENOMSG.
  Inductive mreply := Done | Message (data : list N) | Error (e : error) | Fatal.

  (** msgqueue.c:90-114 [msgqueue_alloc_buffer]; None is NULL, and [inl] a fatal error *)
  Definition msgqueue_alloc_buffer (limit : nat) (q : vq) : unit + option (nat * vq) :=
    match get_used_buf q with
    | Some ((off, _) :: _, _, q) => inr (Some (off, free_desc q))
    | Some ([], _, _) => inl tt
    | None => inr (buffer_alloc q limit)
    end.
  (** msgqueue.c:116-151 [camkes_msgqueue_send] *)
  Definition msgqueue_send (limit : nat) (message : list N) (q : vq) : mreply * vq :=
    if limit <? length message then (Error EMSGSIZE, q)
    else match msgqueue_alloc_buffer limit q with
         | inl _ => (Fatal, q)
         | inr None => (Error ENOMEM, q)
         | inr (Some (off, q)) =>
             let q := mk_vq (write (q_mem q) off message) (q_free q) (q_ndesc q) (q_avail q) (q_used q) in
             match add_available_buf true (off, length message) q with
             | Some q => (Done, q)
             | None =>
                 let m := write (q_mem q) off (repeat 0%N (length message)) in
                 (Error ECOMM, buffer_free (mk_vq m (q_free q) (q_ndesc q) (q_avail q) (q_used q)) off)
             end
         end.
  (** msgqueue.c:181-217 [camkes_msgqueue_get]; the assertion and the unexpected error are fatal *)
  Definition msgqueue_get (limit buffer_size : nat) (q : vq) : mreply * vq :=
    if buffer_size <? limit then (Error EMSGSIZE, q)
    else match get_available_buf q with
         | None => (Error ENOMSG, q)
         | Some ([], q) => (Fatal, q)
         | Some ((off, len) :: rest, q) =>
             if buffer_size <? len then (Fatal, q)
             else (Message (read (q_mem q) off len), add_used_buf ((off, len) :: rest) len q)
         end.
  Inductive mop := MSend (message : list N) | MGet (buffer_size : nat).
  Definition mstep (limit : nat) (q : vq) (o : mop) : mreply * vq :=
    match o with
    | MSend message => msgqueue_send limit message q
    | MGet buffer_size => msgqueue_get limit buffer_size q
    end.
  Fixpoint mrun (limit : nat) (q : vq) (os : list mop) : list mreply * vq :=
    match os with
    | [] => ([], q)
    | o :: os => let '(r, q) := mstep limit q o in let '(rs, q) := mrun limit q os in (r :: rs, q)
    end.
End Block.

(** After initialisation with [blocks] blocks and a queue of length [descs]
    (virtqueue_common.c:18-94). *)
Definition fresh (m : memory) (blocks descs : nat) : vq := mk_vq m (seq 0 blocks) descs [] [].
