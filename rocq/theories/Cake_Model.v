(** An RPC server in CakeML: the loop generated from
    camkes/templates/seL4RPCCall-to.template.cakeml, the module Utils of
    camkes/templates/component.environment.start.cakeml, and the C functions
    behind the foreign calls, libcamkescakeml/src/ipc.c and io.c.

    A Word8Array is a list of bytes; an access outside of it raises Subscript,
    here [Err IndexError].  The C functions access the same array with
    memcpy, where [Err IndexError] is undefined behaviour.  Integers of CakeML
    are unbounded.  The client is the C stub of [Marshal_Model].
    Not modelled: the reply capability, the method bodies, the translation of
    CakeML to machine code, capabilities in messages. *)
From Coq Require Import List NArith ZArith Bool String.
From Verif Require Import Prelude Marshal_Model.
Import ListNotations.
Open Scope string_scope.
Open Scope N_scope.
Open Scope list_scope.

(** A parameter or result as declared: its type and whether it is an
    array. *)
Record cparam := { cp_type : string; cp_array : bool }.

(** A CakeML value: an int or a string. *)
Inductive cval :=
| CvInt (z : Z)
| CvStr (s : list byte).

(** ** Utils *)

(** int_to_bytes (component.environment.start.cakeml:21-33): the loop writes
    byte [i] as (w div divisor), [n] iterations being left. *)
Fixpoint int_to_bytes_from (w : Z) (n : nat) (divisor : Z) : list byte :=
  match n with
  | O => []
  | S n' => Z.to_N ((w / divisor) mod 256) :: int_to_bytes_from w n' (divisor * 256)
  end.
Definition int_to_bytes (w : Z) (len : N) : list byte := int_to_bytes_from w (N.to_nat len) 1.

(** Word8Array.sub. *)
Definition sub (buf : list byte) (i : N) : res byte :=
  match nth_error buf (N.to_nat i) with Some b => Ok b | None => Err IndexError end.

(** bytes_to_int (component.environment.start.cakeml:36-44): [n] iterations
    are left, so [len - i - 1] is [n - 1]. *)
Fixpoint bytes_to_int_loop (buf : list byte) (off : N) (n : nat) (acc : N) : res N :=
  match n with
  | O => Ok acc
  | S n' => b <- sub buf (off + N.of_nat n') ;; bytes_to_int_loop buf off n' (acc * 256 + b)
  end.
Definition bytes_to_int (buf : list byte) (off len : N) : res N :=
  bytes_to_int_loop buf off (N.to_nat len) 0.

(** nul_byte_idx (component.environment.start.cakeml:49-53).  The fuel bounds
    the bytes passed; beyond the array [sub] fails first. *)
Fixpoint nul_byte_idx (fuel : nat) (buf : list byte) (len i : N) : res N :=
  if i =? len then Ok i
  else
    b <- sub buf i ;;
    if b =? 0 then Ok i
    else match fuel with O => Err OutOfFuel | S f => nul_byte_idx f buf len (i + 1) end.
(** read_c_string (component.environment.start.cakeml:47-56). *)
Definition read_c_string (buf : list byte) (off len : N) : res (list byte * N) :=
  e <- nul_byte_idx (List.length buf) buf len off ;;
  s <- mread buf off (e - off) ;;
  Ok (s, e - off).

(** ** Marshalling *)

(** int_types and sizeof (seL4RPCCall-to.template.cakeml:21, 25). *)
Definition int_type (t : string) : option N :=
  if String.eqb t "uint8_t" then Some 1
  else if String.eqb t "uint16_t" then Some 2
  else if String.eqb t "uint32_t" then Some 4
  else if String.eqb t "uint64_t" then Some 8
  else None.

(** cakeml_unmarshal_param (seL4RPCCall-to.template.cakeml:23-43): the
    errors of the template and of the generated code in one function. *)
Definition cake_unmarshal (buf : list byte) (off : N) (p : cparam) : res (cval * N) :=
  if cp_array p then Err TemplateError
  else match int_type (cp_type p) with
  | Some sz =>
      n <- bytes_to_int buf off sz ;;
      Ok (CvInt (Z.of_N n), off + sz)
  | None =>
      if String.eqb (cp_type p) "string" then
        r <- read_c_string buf off (nlen buf) ;;
        Ok (CvStr (fst r), off + snd r + 1)
      else Err TemplateError
  end.
Fixpoint cake_unmarshals (buf : list byte) (off : N) (ps : list cparam) : res (list cval) :=
  match ps with
  | [] => Ok []
  | p :: ps' =>
      r <- cake_unmarshal buf off p ;;
      vs <- cake_unmarshals buf (snd r) ps' ;;
      Ok (fst r :: vs)
  end.

(** cakeml_marshal_param (seL4RPCCall-to.template.cakeml:45-69).  A negative
    [space_remaining] makes Word8Array.copy raise Subscript. *)
Definition cake_marshal (buf : list byte) (off : N) (p : cparam) (v : cval)
  : res (list byte * N) :=
  if cp_array p then Err TemplateError
  else match int_type (cp_type p), v with
  | Some sz, CvInt z =>
      b <- mwrite buf off (int_to_bytes z sz) ;;
      Ok (b, off + sz)
  | None, CvStr s =>
      if String.eqb (cp_type p) "string" then
        if nlen buf <? off + 1 then Err IndexError
        else
          let space_remaining := nlen buf - off - 1 in
          let copy_len := if nlen s <=? space_remaining then nlen s else space_remaining in
          b1 <- mwrite buf off (firstn (N.to_nat copy_len) s) ;;
          b2 <- mwrite b1 (off + copy_len) [0] ;;
          Ok (b2, off + copy_len + 1)
      else Err TemplateError
  | Some _, CvStr _ => Err TypeError
  | None, CvInt _ => if String.eqb (cp_type p) "string" then Err TypeError else Err TemplateError
  end.
Fixpoint cake_marshals (buf : list byte) (off : N) (pvs : list (cparam * cval))
  : res (list byte * N) :=
  match pvs with
  | [] => Ok (buf, off)
  | (p, v) :: pvs' =>
      r <- cake_marshal buf off p v ;;
      cake_marshals (fst r) (snd r) pvs'
  end.

(** log2 (seL4RPCCall-to.template.cakeml:71-84). *)
Definition log2 (val : N) : res N :=
  if val <=? 2 ^ 8 then Ok 1
  else if val <=? 2 ^ 16 then Ok 2
  else if val <=? 2 ^ 32 then Ok 4
  else if val <=? 2 ^ 64 then Ok 8
  else Err TemplateError.

(** ** Messages *)

(** cakeml_reserved_buf and bsize (rpc-connector.c:94-99). *)
Definition reserved (W : N) : N := 2 * W + 1.
Definition bsize (W : N) : N := 120 * W + reserved W.

(** What ffiseL4_Recv and ffiseL4_ReplyRecv store of a message of whole words
    (libcamkescakeml/src/ipc.c:44-51, 68-75). *)
Definition store_message (W badge : N) (msg a : list byte) : res (list byte) :=
  a <- mwrite a 1 (le (N.to_nat W) (nlen msg)) ;;
  a <- mwrite a (1 + W) (le (N.to_nat W) badge) ;;
  a <- mwrite a (1 + 2 * W) msg ;;
  mwrite a 0 [0].

(** seL4_Recv (component.environment.start.cakeml:78-86, ipc.c:39-52): the
    array afterwards, the length and the badge. *)
Definition cake_recv (W : N) (ep : Z) (badge : N) (msg a : list byte)
  : res (list byte * N * N) :=
  a <- mwrite a 1 (int_to_bytes ep W) ;;
  a <- store_message W badge msg a ;;
  len <- bytes_to_int a 1 W ;;
  b <- bytes_to_int a (1 + W) W ;;
  Ok (a, len, b).

(** The first half of seL4_ReplyRecv (component.environment.start.cakeml:67-72,
    ipc.c:54-67): the message sent, given the IPC buffer of the thread, and
    the array. *)
Definition cake_reply (W : N) (ep : Z) (length : N) (a ipcbuf : list byte)
  : res (list byte * list byte) :=
  a <- mwrite a 1 (int_to_bytes ep W) ;;
  a <- mwrite a (1 + W) (int_to_bytes (Z.of_N length) W) ;;
  lb <- mread a (1 + W) W ;;
  m <- mread a (1 + 2 * W) (unle lb) ;;
  b <- mwrite ipcbuf 0 m ;;
  Ok (ipc W b (unle lb), a).

(** ** The loop *)

(** A method: its input parameters, its result if any followed by its output
    parameters (seL4RPCCall-to.template.cakeml:125-126, 161-167). *)
Record cmethod := { cm_in : list cparam; cm_out : list cparam }.

(** The test of the badge (seL4RPCCall-to.template.cakeml:102-113): the first
    interface type one of whose badges it is. *)
Fixpoint type_of_badge (types : list (list N * list cmethod)) (badge : N)
  : option (list cmethod) :=
  match types with
  | [] => None
  | (bs, ms) :: types' => if existsb (N.eqb badge) bs then Some ms else type_of_badge types' badge
  end.

(** The first part of rpc_loop (seL4RPCCall-to.template.cakeml:100-155): the
    method called and its arguments.  Utils.fail ends the program,
    [Err KeyError].  The length of the message is a parameter of rpc_loop that
    is not used. *)
Definition cake_request (W : N) (types : list (list N * list cmethod)) (badge : N)
    (a : list byte) : res (N * list cval) :=
  match type_of_badge types badge with
  | None => Err KeyError
  | Some ms =>
      let offset := reserved W in
      r <- (if nlen ms <=? 1 then Ok (0, offset)
            else
              k <- log2 (nlen ms) ;;
              id <- bytes_to_int a offset k ;;
              Ok (id, offset + k)) ;;
      match nth_error ms (N.to_nat (fst r)) with
      | None => Err KeyError
      | Some m =>
          vs <- cake_unmarshals a (snd r) (cm_in m) ;;
          Ok (fst r, vs)
      end
  end.

(** The second part (seL4RPCCall-to.template.cakeml:158-169): the results are
    marshalled and sent. *)
Definition cake_respond (W : N) (ep : Z) (outs : list (cparam * cval))
    (a ipcbuf : list byte) : res (list byte * list byte) :=
  r <- cake_marshals a (reserved W) outs ;;
  cake_reply W ep (snd r - reserved W) (fst r) ipcbuf.

(** A turn of the loop: a message is received, the method [impl] is called,
    and the response is sent. *)
Definition cake_turn (W : N) (ep : Z) (types : list (list N * list cmethod))
    (impl : N -> list cval -> list cval) (badge : N) (msg a ipcbuf : list byte)
  : res (list byte * list byte) :=
  r <- cake_recv W ep badge msg a ;;
  let '(a1, _, b) := r in
  q <- cake_request W types b a1 ;;
  match type_of_badge types b with
  | None => Err KeyError
  | Some ms =>
      match nth_error ms (N.to_nat (fst q)) with
      | None => Err KeyError
      | Some m => cake_respond W ep (combine (cm_out m) (impl (fst q) (snd q))) a1 ipcbuf
      end
  end.

(** ** Files *)

(** bswap_64 and bswap_16 followed by memcpy: the low bytes of an int, most
    significant first. *)
Definition be (k : nat) (z : Z) : list byte := rev (int_to_bytes_from z k 1).

(** ffiopen_in and ffiopen_out (libcamkescakeml/src/io.c:15-35), [fd] being
    the result of open. *)
Definition ffi_open_in (fd : Z) (a : list byte) : res (list byte) :=
  if (fd <? 0)%Z then
    a <- mwrite a 0 [0] ;; mwrite a 1 (be 8 fd)
  else mwrite a 0 [1].
Definition ffi_open_out (fd : Z) (a : list byte) : res (list byte) :=
  if (0 <=? fd)%Z then
    a <- mwrite a 0 [0] ;; mwrite a 1 (be 8 fd)
  else mwrite a 0 [1].

(** ffiread (io.c:37-52): [rd fd n] is the result of read and the bytes it
    stores at [a + 4].  Simplified: the conversion of the descriptor to int. *)
Definition ffi_read (rd : Z -> N -> Z * list byte) (c a : list byte) : res (list byte) :=
  fd_raw <- mread c 0 8 ;;
  n_raw <- mread a 0 2 ;;
  let fd := Z.of_N (unle (rev fd_raw)) in
  let n := unle (rev n_raw) in
  let '(nread, data) := rd fd n in
  a <- mwrite a 4 data ;;
  if (nread <? 0)%Z then mwrite a 0 [1]
  else
    a <- mwrite a 0 [0] ;; mwrite a 1 (be 2 nread).

(** ffiwrite (io.c:54-72): [wr fd bytes] is the result of write. *)
Definition ffi_write (wr : Z -> list byte -> Z) (c a : list byte) : res (list byte) :=
  fd_raw <- mread c 0 8 ;;
  n_raw <- mread a 0 2 ;;
  off_raw <- mread a 2 2 ;;
  let fd := Z.of_N (unle (rev fd_raw)) in
  let n := unle (rev n_raw) in
  let off := unle (rev off_raw) in
  data <- mread a (4 + off) n ;;
  let nw := wr fd data in
  if (nw <? 0)%Z then mwrite a 0 [1]
  else
    a <- mwrite a 0 [0] ;; mwrite a 1 (be 2 nw).

(** fficlose (io.c:74-79): [cl fd] is the result of close. *)
Definition ffi_close (cl : Z -> Z) (c a : list byte) : res (list byte) :=
  fd_raw <- mread c 0 8 ;;
  mwrite a 0 [if (cl (Z.of_N (unle (rev fd_raw))) =? 0)%Z then 0 else 1].
