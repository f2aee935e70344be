(** What RPC marshalling is expected to do, independent of the model's
    functions. *)
From Coq Require Import List NArith.
From Verif Require Import Prelude Marshal_Model.
Import ListNotations.
Open Scope N_scope.

(** 32- and 64-bit platforms. *)
Definition word_size (W : N) : Prop := W = 4 \/ W = 8.

(** A C string: no NUL inside. *)
Definition is_cstring (s : list N) : Prop := Forall (fun b => b <> 0) s.

(** Values a C caller can pass for a parameter of a given type: a scalar of
    [k] bytes, a string, an array of [k]-byte elements that fits into the
    address space, an array of strings whose pointers fit. *)
Inductive has_type (W : N) : ptype -> pval -> Prop :=
| ht_scalar k bs : nlen bs = k -> has_type W (PScalar k) (VScalar bs)
| ht_string s : is_cstring s -> has_type W PString (VString s)
| ht_array k es :
    0 < k -> Forall (fun e => nlen e = k) es ->
    k * nlen es < 2 ^ (8 * W) -> has_type W (PArray k) (VArray es)
| ht_strings ss :
    Forall is_cstring ss -> W * nlen ss < 2 ^ (8 * W) ->
    has_type W PStrArray (VStrArray ss).

(** The receiver sees the value sent: same bytes, same string, same number of
    elements with the same contents. *)
Inductive delivered : pval -> rval -> Prop :=
| dl_scalar bs : delivered (VScalar bs) (RScalar bs)
| dl_string s : delivered (VString s) (RString s)
| dl_array es : delivered (VArray es) (RArray (nlen es) (concat es))
| dl_strings ss : delivered (VStrArray ss) (RStrArray (nlen ss) ss).

(** Number of bytes an argument takes in a message. *)
Definition wire_size (W : N) (v : pval) : N :=
  match v with
  | VScalar bs => nlen bs
  | VString s => nlen s + 1
  | VArray es => W + nlen (concat es)
  | VStrArray ss => W + fold_right (fun s n => nlen s + 1 + n) 0 ss
  end.
Definition wire_total (W : N) (vs : list pval) : N :=
  fold_right (fun v n => wire_size W v + n) 0 vs.

(** Number of bytes needed to tell [n] methods apart. *)
Definition index_bytes (n : N) (w : N) : Prop :=
  (n <= 1 /\ w = 0) \/
  (1 < n /\ (w = 1 \/ w = 2 \/ w = 4 \/ w = 8) /\ n <= 256 ^ w).

(** The elements of a received array are all there. *)
Definition backed (t : ptype) (r : rval) : Prop :=
  match t, r with
  | PArray k, RArray count block => nlen block = k * count
  | PStrArray, RStrArray count ss => nlen ss = count
  | PScalar k, RScalar bs => nlen bs = k
  | PString, RString s => is_cstring s
  | _, _ => False
  end.

(** The errors unmarshalling reports to the error handler. *)
Definition reported (e : exn) : Prop := e = ValueError \/ e = OtherException.

(** The number a sequence of bytes stands for, least significant first. *)
Definition le_value (bs : list N) : N := fold_right (fun b n => b + 256 * n) 0 bs.

(** What a received value looks like in the message: the bytes of a scalar, a string with
    its NUL, a count of one word followed by the elements. *)
Inductive encodes (W : N) : rval -> list N -> Prop :=
| en_scalar bs : encodes W (RScalar bs) bs
| en_string s : is_cstring s -> encodes W (RString s) (s ++ [0])
| en_array cb block : nlen cb = W -> encodes W (RArray (le_value cb) block) (cb ++ block)
| en_strings cb ss : nlen cb = W -> Forall is_cstring ss ->
    encodes W (RStrArray (le_value cb) ss) (cb ++ concat (map (fun s => s ++ [0]) ss)).

(** A count at offset [off] of the message for which the size of the array of
    pointers does not fit a size_t. *)
Definition overflowing_count (W : N) (buf : list N) : Prop :=
  exists off count, off + W <= nlen buf /\
    count = le_value (firstn (N.to_nat W) (skipn (N.to_nat off) buf)) /\
    2 ^ (8 * W) <= W * count.

(** [backed], except that an array whose byte size does not fit a size_t is
    not covered. *)
Definition backed_unless_wrap (W : N) (t : ptype) (r : rval) : Prop :=
  match t, r with
  | PArray k, RArray count block =>
      k * count < 2 ^ (8 * W) -> nlen block = k * count
  | _, _ => backed t r
  end.

(** Allocations succeed. *)
Definition always (n : N) : bool := true.
