(** RPC parameter marshalling: the C macros of
    libsel4camkes/include/camkes/marshal_macros.h, the functions generated
    from camkes/templates/helpers/marshal.c, the dispatch loop generated from
    camkes/templates/rpc-connector-common-to.c, and the message transport of
    camkes/templates/rpc-connector.c.

    Bytes are [N] values, memory is a list of bytes.  Every memory access is
    checked: an access outside the object is [Err IndexError] (undefined
    behaviour in C), which the theorems have to exclude.  The other outcomes
    are the camkes error codes with the handler's action CEA_DISCARD:
    [ValueError]   CE_BUFFER_LENGTH_EXCEEDED or CE_MALFORMED_RPC_PAYLOAD,
    [OtherException] CE_ALLOCATION_FAILURE,
    [KeyError]     CE_INVALID_METHOD_INDEX.
    [W] is sizeof(seL4_Word) = sizeof(size_t) = sizeof(char * ).
    Integers are little endian on the wire; the code uses memcpy, so any
    fixed order would do.
    Not modelled: freeing of memory on the clean-up paths; a sender changing a
    shared buffer while it is being read. *)
From Coq Require Import List NArith Bool String.
From Verif Require Import Prelude.
Import ListNotations.
Open Scope N_scope.
Open Scope list_scope.

Notation byte := N (only parsing).

Definition nlen {A} (l : list A) : N := N.of_nat (List.length l).

(** size_t arithmetic is modulo [szmod W], [unsigned] arithmetic modulo
    2^32. *)
Definition szmod (W : N) : N := 2 ^ (8 * W).
Definition umod : N := 2 ^ 32.
Definition u32 (x : N) : N := x mod umod.
Definition usz (W x : N) : N := x mod szmod W.

(** Representation of a [k]-byte unsigned integer. *)
Fixpoint le (k : nat) (x : N) : list byte :=
  match k with
  | O => []
  | S k' => (x mod 256) :: le k' (x / 256)
  end.
Fixpoint unle (bs : list byte) : N :=
  match bs with
  | [] => 0
  | b :: bs' => b + 256 * unle bs'
  end.

(** memcpy out of / into a memory object. *)
Definition mread (buf : list byte) (off n : N) : res (list byte) :=
  if off + n <=? nlen buf
  then Ok (firstn (N.to_nat n) (skipn (N.to_nat off) buf))
  else Err IndexError.
Definition mwrite (buf : list byte) (off : N) (bs : list byte)
  : res (list byte) :=
  if off + nlen bs <=? nlen buf
  then Ok (firstn (N.to_nat off) buf ++ bs
           ++ skipn (N.to_nat (off + nlen bs)) buf)
  else Err IndexError.

(** strnlen(p, n), reading the object from [p] on. *)
Fixpoint strnlen (mem : list byte) (n : N) : res N :=
  if n =? 0 then Ok 0 else
  match mem with
  | [] => Err IndexError
  | b :: mem' =>
      if b =? 0 then Ok 0
      else x <- strnlen mem' (n - 1) ;; Ok (x + 1)
  end.

(** The C string starting at [p], as read by strdup. *)
Fixpoint cstr (mem : list byte) : res (list byte) :=
  match mem with
  | [] => Err IndexError
  | b :: mem' =>
      if b =? 0 then Ok []
      else x <- cstr mem' ;; Ok (b :: x)
  end.

(** The four kinds of parameter distinguished by the templates
    (helpers/marshal.c:131-142): a scalar of [k] bytes, a string, an array of
    [k]-byte elements, an array of strings. *)
Inductive ptype :=
| PScalar (k : N)
| PString
| PArray (k : N)
| PStrArray.

(** An argument in the memory of the sender. *)
Inductive pval :=
| VScalar (bs : list byte)
| VString (s : list byte)
| VArray (elems : list (list byte))
| VStrArray (ss : list (list byte)).

(** What the receiver gets: for arrays the stated element count and the
    memory block allocated for the elements. *)
Inductive rval :=
| RScalar (bs : list byte)
| RString (s : list byte)
| RArray (count : N) (block : list byte)
| RStrArray (count : N) (ss : list (list byte)).

(** ** Sending *)

(** The condition of ERR_IF_BUFFER_LENGTH_EXCEEDED (marshal_macros.h:11-13),
    [size] being a size_t and the offset an unsigned. *)
Definition send_over (W size off desired : N) : bool :=
  usz W (size + szmod W - off) <? desired.

(** MARSHAL_PARAM (marshal_macros.h:112-118). *)
Definition marshal_scalar (W : N) (buf : list byte) (size off : N)
    (bs : list byte) : res (list byte * N) :=
  if send_over W size off (nlen bs) then Err ValueError
  else
    buf' <- mwrite buf off bs ;;
    Ok (buf', u32 (off + nlen bs)).

(** MARSHAL_STRING_PARAM (marshal_macros.h:100-110).  The argument is a C
    string, so strnlen gives the minimum of its length and the bound. *)
Definition marshal_string (W : N) (buf : list byte) (size off : N)
    (s : list byte) : res (list byte * N) :=
  let n := N.min (nlen s) (usz W (size + szmod W - off)) in
  if send_over W size off (usz W (n + 1)) then Err ValueError
  else
    buf' <- mwrite buf off (s ++ [0]) ;;
    Ok (buf', u32 (off + (n + 1))).

(** MARSHAL_ARRAY_PARAM (marshal_macros.h:69-80). *)
Definition marshal_array (W : N) (buf : list byte) (size off : N)
    (k : N) (elems : list (list byte)) : res (list byte * N) :=
  let count := nlen elems in
  if send_over W size off W then Err ValueError
  else
    buf1 <- mwrite buf off (le (N.to_nat W) count) ;;
    let off1 := u32 (off + W) in
    let bytes := usz W (k * count) in
    if send_over W size off1 bytes then Err ValueError
    else
      src <- mread (List.concat elems) 0 bytes ;;
      buf2 <- mwrite buf1 off1 src ;;
      Ok (buf2, u32 (off1 + bytes)).

(** MARSHAL_STRING_ARRAY_PARAM (marshal_macros.h:82-98). *)
Fixpoint marshal_strings (W : N) (buf : list byte) (size off : N)
    (ss : list (list byte)) : res (list byte * N) :=
  match ss with
  | [] => Ok (buf, off)
  | s :: ss' =>
      p <- marshal_string W buf size off s ;;
      marshal_strings W (fst p) size (snd p) ss'
  end.
Definition marshal_string_array (W : N) (buf : list byte) (size off : N)
    (ss : list (list byte)) : res (list byte * N) :=
  if send_over W size off W then Err ValueError
  else
    buf1 <- mwrite buf off (le (N.to_nat W) (nlen ss)) ;;
    marshal_strings W buf1 size (u32 (off + W)) ss.

(** One parameter (helpers/marshal.c:131-142).  A value of the wrong kind
    cannot occur in C. *)
Definition marshal_param (W : N) (buf : list byte) (size off : N)
    (tv : ptype * pval) : res (list byte * N) :=
  match tv with
  | (PScalar _, VScalar bs) => marshal_scalar W buf size off bs
  | (PString, VString s) => marshal_string W buf size off s
  | (PArray k, VArray es) => marshal_array W buf size off k es
  | (PStrArray, VStrArray ss) => marshal_string_array W buf size off ss
  | _ => Err TypeError
  end.
Fixpoint marshal_params (W : N) (buf : list byte) (size off : N)
    (tvs : list (ptype * pval)) : res (list byte * N) :=
  match tvs with
  | [] =>
      (* assert(offset <= size), helpers/marshal.c:145 *)
      if off <=? size then Ok (buf, off) else Err AssertionError
  | tv :: tvs' =>
      p <- marshal_param W buf size off tv ;;
      marshal_params W (fst p) size (snd p) tvs'
  end.

(** macros.py:163-174 (type_to_fit_integer), giving the size of the type. *)
Definition type_to_fit_integer (value : N) : res N :=
  if value <=? 2 ^ 8 then Ok 1
  else if value <=? 2 ^ 16 then Ok 2
  else if value <=? 2 ^ 32 then Ok 4
  else if value <=? 2 ^ 64 then Ok 8
  else Err OtherException.

(** make_marshal_input_symbols (helpers/marshal.c:73-150): the request for
    method [index] of an interface with [methods_len] methods, written into a
    send buffer of which all is available. *)
Definition marshal_inputs (W methods_len index : N)
    (tvs : list (ptype * pval)) (buf : list byte) : res (list byte * N) :=
  let size := nlen buf in
  p <- (if 1 <? methods_len then
          w <- type_to_fit_integer methods_len ;;
          marshal_scalar W buf size 0 (le (N.to_nat w) index)
        else Ok (buf, 0)) ;;
  marshal_params W (fst p) size (snd p) tvs.

(** make_marshal_output_symbols (helpers/marshal.c): the return value, if
    any, followed by the output parameters. *)
Definition marshal_outputs (W : N) (ret : option (ptype * pval))
    (tvs : list (ptype * pval)) (buf : list byte) : res (list byte * N) :=
  marshal_params W buf (nlen buf) 0
    (match ret with None => tvs | Some tv => tv :: tvs end).

(** ** Transport *)

(** ROUND_UP_UNSAFE(n, sizeof(seL4_Word)). *)
Definition round_up (W n : N) : N := ((n + W - 1) / W) * W.

(** An IPC carries ROUND_UP(length)/word words and the receiver computes its
    size from the number of words (rpc-connector.c:120-133, 304-308,
    381-396). *)
Definition ipc (W : N) (buf : list byte) (length : N) : list byte :=
  firstn (N.to_nat (round_up W length)) buf.

(** ** Receiving *)

(** The condition of ERR_IF_MALFORMED_RPC_PAYLOAD (marshal_macros.h:25-27),
    [size] and the offset being unsigned. *)
Definition recv_over (size off desired : N) : bool :=
  u32 (size + umod - off) <? desired.

(** UNMARSHAL_PARAM (marshal_macros.h:185-191). *)
Definition unmarshal_scalar (buf : list byte) (size off k : N)
  : res (list byte * N) :=
  if recv_over size off k then Err ValueError
  else
    bs <- mread buf off k ;;
    Ok (bs, u32 (off + k)).

(** strnlen / strdup at [buffer + off]. *)
Definition at_off (buf : list byte) (off : N) : list byte :=
  skipn (N.to_nat off) buf.

(** UNMARSHAL_STRING_PARAM (marshal_macros.h:174-183).  [mal n] tells whether
    an allocation of [n] bytes succeeds. *)
Definition unmarshal_string (W : N) (mal : N -> bool) (buf : list byte)
    (size off : N) : res (list byte * N) :=
  n <- strnlen (at_off buf off) (u32 (size + umod - off)) ;;
  if recv_over size off (usz W (n + 1)) then Err ValueError
  else
    s <- cstr (at_off buf off) ;;
    if mal (nlen s + 1) then Ok (s, u32 (off + n + 1))
    else Err OtherException.

(** UNMARSHAL_ARRAY_PARAM (marshal_macros.h:120-139). *)
Definition unmarshal_array (W : N) (mal : N -> bool) (buf : list byte)
    (size off k : N) : res (N * list byte * N) :=
  if recv_over size off W then Err ValueError
  else
    bs <- mread buf off W ;;
    let count := unle bs in
    let off1 := u32 (off + W) in
    let bytes := usz W (k * count) in
    if mal bytes then
      if recv_over size off1 bytes then Err ValueError
      else
        block <- mread buf off1 bytes ;;
        Ok (count, block, u32 (off1 + bytes))
    else Err OtherException.

(** UNMARSHAL_STRING_ARRAY_PARAM (marshal_macros.h:141-172): the loop.  [cap]
    is the number of bytes allocated for the array of pointers. *)
Fixpoint unmarshal_strings (fuel : nat) (W : N) (mal : N -> bool)
    (buf : list byte) (size cap i count off : N)
  : res (list (list byte) * N) :=
  if i <? count then
    match fuel with
    | O => Err OutOfFuel
    | S fuel' =>
        n <- strnlen (at_off buf off) (u32 (size + umod - off)) ;;
        if recv_over size off (usz W (n + 1)) then Err ValueError
        else
          s <- cstr (at_off buf off) ;;
          if cap <? (i + 1) * W then Err IndexError
          else if mal (nlen s + 1) then
            p <- unmarshal_strings fuel' W mal buf size cap (i + 1) count
                   (u32 (off + (n + 1))) ;;
            Ok (s :: fst p, snd p)
          else Err OtherException
    end
  else Ok ([], off).
Definition unmarshal_string_array (W : N) (mal : N -> bool)
    (buf : list byte) (size off : N) : res (N * list (list byte) * N) :=
  if recv_over size off W then Err ValueError
  else
    bs <- mread buf off W ;;
    let count := unle bs in
    let bytes := usz W (W * count) in
    if mal bytes then
      p <- unmarshal_strings (S (List.length buf)) W mal buf size bytes 0
             count (u32 (off + W)) ;;
      Ok (count, fst p, snd p)
    else Err OtherException.

Definition unmarshal_param (W : N) (mal : N -> bool) (buf : list byte)
    (size off : N) (t : ptype) : res (rval * N) :=
  match t with
  | PScalar k =>
      p <- unmarshal_scalar buf size off k ;; Ok (RScalar (fst p), snd p)
  | PString =>
      p <- unmarshal_string W mal buf size off ;; Ok (RString (fst p), snd p)
  | PArray k =>
      p <- unmarshal_array W mal buf size off k ;;
      Ok (RArray (fst (fst p)) (snd (fst p)), snd p)
  | PStrArray =>
      p <- unmarshal_string_array W mal buf size off ;;
      Ok (RStrArray (fst (fst p)) (snd (fst p)), snd p)
  end.
Fixpoint unmarshal_params (W : N) (mal : N -> bool) (buf : list byte)
    (size off : N) (ts : list ptype) : res (list rval * N) :=
  match ts with
  | [] => Ok ([], off)
  | t :: ts' =>
      p <- unmarshal_param W mal buf size off t ;;
      q <- unmarshal_params W mal buf size (snd p) ts' ;;
      Ok (fst p :: fst q, snd q)
  end.

(** The excess check (marshal_macros.h:40-54), present unless
    [allow_trailing]. *)
Definition finish (W : N) (allow_trailing : bool) (size : N)
    (p : list rval * N) : res (list rval) :=
  if negb allow_trailing && negb (round_up W (snd p) =? size)
  then Err ValueError else Ok (fst p).

(** make_unmarshal_input_symbols (helpers/marshal.c): the method index is
    stepped over without a check, the dispatcher has read it before. *)
Definition unmarshal_inputs (W : N) (mal : N -> bool) (allow_trailing : bool)
    (methods_len : N) (ts : list ptype) (buf : list byte)
  : res (list rval) :=
  let size := nlen buf in
  off <- (if 1 <? methods_len then type_to_fit_integer methods_len
          else Ok 0) ;;
  p <- unmarshal_params W mal buf size off ts ;;
  finish W allow_trailing size p.

(** make_unmarshal_output_symbols (helpers/marshal.c). *)
Definition unmarshal_outputs (W : N) (mal : N -> bool) (allow_trailing : bool)
    (ret : option ptype) (ts : list ptype) (buf : list byte)
  : res (list rval) :=
  let size := nlen buf in
  p <- unmarshal_params W mal buf size 0
         (match ret with None => ts | Some t => t :: ts end) ;;
  finish W allow_trailing size p.

(** The dispatch of rpc-connector-common-to.c:100-141, 210-224 for one
    interface type, given by the input parameter types of its methods: the
    method reached and its arguments. *)
Definition dispatch_index (methods_len : N) (buf : list byte) : res N :=
  if methods_len <=? 1 then Ok 0
  else
    w <- type_to_fit_integer methods_len ;;
    p <- unmarshal_scalar buf (nlen buf) 0 w ;;
    Ok (unle (fst p)).
Definition dispatch (W : N) (mal : N -> bool) (allow_trailing : bool)
    (methods : list (list ptype)) (buf : list byte) : res (N * list rval) :=
  call <- dispatch_index (nlen methods) buf ;;
  if call <? nlen methods then
    vs <- unmarshal_inputs W mal allow_trailing (nlen methods)
            (nth (N.to_nat call) methods []) buf ;;
    Ok (call, vs)
  else Err KeyError.

(** ** The lock around a shared buffer

    The client stub of rpc-connector-common-from.c:44-100 when the buffer
    needs a lock (rpc-connector.c:362-375, 401-406).  [lock] is the value of
    the semaphore; [server] maps a request to the reply.  The result carries
    the semaphore value afterwards; [None] is a call that never gets past
    sync_sem_bare_wait (no other thread holds the lock, all earlier calls
    have returned). *)
Definition client_call (W : N) (mal : N -> bool) (methods_len index : N)
    (tvs : list (ptype * pval)) (ret : option ptype) (outs : list ptype)
    (server : list byte -> list byte) (buf : list byte) (lock : N)
  : option (res (list rval) * N) :=
  if lock =? 0 then None
  else
    let lock1 := lock - 1 in
    match marshal_inputs W methods_len index tvs buf with
    | Err e => Some (Err e, lock1)
    | Ok (buf', _) =>
        match unmarshal_outputs W mal true ret outs (server buf') with
        | Err e => Some (Err e, lock1)
        | Ok vs => Some (Ok vs, lock1 + 1)
        end
    end.
