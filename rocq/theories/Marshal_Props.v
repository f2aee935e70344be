(** Properties of RPC marshalling (C31, C32, C33, C54). *)
From Coq Require Import List NArith Lia.
From Verif Require Import Prelude Marshal_Model Marshal_Spec Marshal_Proofs
  Marshal_Proofs2 Marshal_Proofs3.
Import ListNotations.
Open Scope N_scope.

(** C31, requests: whatever a client stub managed to marshal, the server
    dispatches to the same method with the same arguments, both when the
    message travels as an IPC of whole words (the excess check is on) and when
    it stays in a shared buffer (the whole buffer is the message). *)
Theorem C31_request : forall W methods i ts vs buf buf' n,
  word_size W -> nlen buf < 2 ^ 31 -> nlen methods <= 2 ^ 64 ->
  nth_error methods (N.to_nat i) = Some ts ->
  Forall2 (has_type W) ts vs ->
  marshal_inputs W (nlen methods) i (combine ts vs) buf = Ok (buf', n) ->
  nlen buf' = nlen buf /\ n <= nlen buf /\
  (nlen buf mod W = 0 ->
   exists rs,
     dispatch W always false methods (ipc W buf' n) = Ok (i, rs) /\
     Forall2 delivered vs rs) /\
  exists rs,
    dispatch W always true methods buf' = Ok (i, rs) /\
    Forall2 delivered vs rs.
Proof. exact request_round_trip. Qed.
Print Assumptions C31_request.

(** C31, responses: same for the return value and output parameters. *)
Theorem C31_response : forall W rt rv ts vs buf buf' n,
  word_size W -> nlen buf < 2 ^ 31 ->
  match rt, rv with
  | Some t, Some v => has_type W t v | None, None => True | _, _ => False
  end ->
  Forall2 (has_type W) ts vs ->
  marshal_outputs W
    (match rt, rv with Some t, Some v => Some (t, v) | _, _ => None end)
    (combine ts vs) buf = Ok (buf', n) ->
  nlen buf' = nlen buf /\ n <= nlen buf /\
  (nlen buf mod W = 0 ->
   exists rs,
     unmarshal_outputs W always false rt ts (ipc W buf' n) = Ok rs /\
     Forall2 delivered
       (match rv with Some v => v :: vs | None => vs end) rs) /\
  exists rs,
    unmarshal_outputs W always true rt ts buf' = Ok rs /\
    Forall2 delivered (match rv with Some v => v :: vs | None => vs end) rs.
Proof. exact response_round_trip. Qed.
Print Assumptions C31_response.

(** C31, acceptance: marshalling succeeds exactly when the arguments fit the
    buffer, and otherwise reports CE_BUFFER_LENGTH_EXCEEDED; it never writes
    outside the buffer. *)
Theorem C31_accepts : forall W n i ts vs buf,
  word_size W -> nlen buf < 2 ^ 31 -> n <= 2 ^ 64 ->
  Forall2 (has_type W) ts vs ->
  exists w, index_bytes n w /\
  (w + wire_total W vs <= nlen buf ->
   exists buf', marshal_inputs W n i (combine ts vs) buf
                = Ok (buf', w + wire_total W vs)) /\
  (nlen buf < w + wire_total W vs ->
   marshal_inputs W n i (combine ts vs) buf = Err ValueError).
Proof. exact marshal_inputs_accepts. Qed.
Print Assumptions C31_accepts.

Definition ex_methods : list (list ptype) :=
  [[]; [PScalar 4; PString; PArray 2; PStrArray]].
Definition ex_vals : list pval :=
  [VScalar [1; 2; 3; 4]; VString [104; 105]; VArray [[5; 6]; [7; 8]; [9; 10]];
   VStrArray [[97]; []; [98; 99]]].
Example ex_typed : Forall2 (has_type 8) (nth 1 ex_methods []) ex_vals.
Proof.
  repeat constructor; try lia; try reflexivity; intro H; discriminate.
Qed.
Example ex_marshalled :
  match marshal_inputs 8 2 1 (combine (nth 1 ex_methods []) ex_vals)
          (repeat 255 64) with
  | Ok (buf', n) =>
      n = 36 /\
      dispatch 8 always false ex_methods (ipc 8 buf' n)
      = Ok (1, [RScalar [1; 2; 3; 4]; RString [104; 105];
                RArray 3 [5; 6; 7; 8; 9; 10];
                RStrArray 3 [[97]; []; [98; 99]]])
  | Err _ => False
  end.
Proof. vm_compute. auto. Qed.

(** C32 fails in full: the byte size of an array is computed in a size_t and
    wraps.  An 8-byte request is accepted and hands the server a zero-byte
    block with a stated length of at least 2^62 elements. *)
Theorem C32_array_length_refuted :
  exists (buf : list N) (count : N) (block : list N),
    nlen buf = 8 /\
    dispatch 8 always false [[PArray 4]] buf = Ok (0, [RArray count block]) /\
    block = [] /\ 2 ^ 62 <= count.
Proof. exact array_count_wraps. Qed.
Print Assumptions C32_array_length_refuted.

(** ... and a 16-byte request makes the server write outside the array of
    string pointers it allocated. *)
Theorem C32_string_array_refuted :
  exists (buf : list N),
    nlen buf = 16 /\
    dispatch 8 always false [[PStrArray]] buf = Err IndexError.
Proof. exact string_array_overruns. Qed.
Print Assumptions C32_string_array_refuted.

(** C32, what holds for every message and every interface: the message is
    rejected with a reported error, or dispatched to a method of the interface
    with arguments backed by the message (arrays whose size wraps excepted).
    Memory outside the message and the allocated blocks is touched only if a
    method has a string array and the message holds an overflowing count.
    Missing: the two refuted cases. *)
Theorem C32_request_partial : forall W mal tr methods buf,
  word_size W -> nlen buf < 2 ^ 31 -> nlen methods <= 2 ^ 64 ->
  match dispatch W mal tr methods buf with
  | Ok (c, rs) => exists ts,
      nth_error methods (N.to_nat c) = Some ts /\
      Forall2 (backed_unless_wrap W) ts rs
  | Err e => reported e \/ e = KeyError \/
      (e = IndexError /\ overflowing_count W buf /\
       exists ts, In ts methods /\ In PStrArray ts)
  end.
Proof. exact dispatch_safe. Qed.
Print Assumptions C32_request_partial.

Theorem C32_response_partial : forall W mal tr ret ts buf,
  word_size W -> nlen buf < 2 ^ 31 ->
  match unmarshal_outputs W mal tr ret ts buf with
  | Ok rs => Forall2 (backed_unless_wrap W)
               (match ret with None => ts | Some t => t :: ts end) rs
  | Err e => reported e \/
      (e = IndexError /\ overflowing_count W buf /\
       In PStrArray (match ret with None => ts | Some t => t :: ts end))
  end.
Proof. exact unmarshal_outputs_safe. Qed.
Print Assumptions C32_response_partial.

(** C32, the arguments come from the message: an accepted request is the method index, the
    encodings of the arguments in order, and (unless trailing bytes are allowed) less than
    one word of padding. *)
Theorem C32_request_from_message : forall W mal tr methods buf c rs,
  word_size W -> nlen buf < 2 ^ 31 -> nlen methods <= 2 ^ 64 ->
  dispatch W mal tr methods buf = Ok (c, rs) ->
  exists ib body rest, buf = ib ++ concat body ++ rest /\
    index_bytes (nlen methods) (nlen ib) /\ (1 < nlen methods -> c = le_value ib) /\
    Forall2 (encodes W) rs body /\ (tr = false -> nlen rest < W).
Proof. exact dispatch_from_message. Qed.
Print Assumptions C32_request_from_message.

Theorem C32_response_from_message : forall W mal tr ret ts buf rs,
  word_size W -> nlen buf < 2 ^ 31 ->
  unmarshal_outputs W mal tr ret ts buf = Ok rs ->
  exists body rest, buf = concat body ++ rest /\
    Forall2 (encodes W) rs body /\ (tr = false -> nlen rest < W).
Proof. exact response_from_message. Qed.
Print Assumptions C32_response_from_message.

(** Both outcomes occur. *)
Example ex_truncated :
  dispatch 8 always false [[PString; PArray 4]] (repeat 65 8) = Err ValueError.
Proof. reflexivity. Qed.
Example ex_accepted :
  dispatch 4 always false [[PString; PArray 4]]
    ([65; 0; 1; 0; 0; 0; 9; 9; 9; 9] ++ [7; 7])
  = Ok (0, [RString [65]; RArray 1 [9; 9; 9; 9]]).
Proof. reflexivity. Qed.

(** C33: the index the client sends for method [i] is the index the server
    switches on, whatever follows in the message. *)
Theorem C33_index : forall W methods i ts vs buf buf' n,
  word_size W -> nlen buf < 2 ^ 31 -> nlen methods <= 2 ^ 64 ->
  nth_error methods (N.to_nat i) = Some ts ->
  Forall2 (has_type W) ts vs ->
  marshal_inputs W (nlen methods) i (combine ts vs) buf = Ok (buf', n) ->
  forall tail, nlen (firstn (N.to_nat n) buf' ++ tail) < 2 ^ 31 ->
  dispatch_index (nlen methods) (firstn (N.to_nat n) buf' ++ tail) = Ok i.
Proof. exact dispatch_index_round_trip. Qed.
Print Assumptions C33_index.

(** C33: an index that is not one of the interface's methods is rejected;
    [w] is the least sufficient index width. *)
Theorem C33_rejects : forall W mal tr methods w buf,
  nlen buf < 2 ^ 31 -> 1 < nlen methods -> nlen methods <= 2 ^ 64 ->
  index_bytes (nlen methods) w -> w <= nlen buf ->
  (forall w', index_bytes (nlen methods) w' -> w <= w') ->
  nlen methods <= le_value (firstn (N.to_nat w) buf) ->
  dispatch W mal tr methods buf = Err KeyError.
Proof. exact dispatch_rejects_value. Qed.
Print Assumptions C33_rejects.

Example ex_index_256 :
  type_to_fit_integer 256 = Ok 1 /\ type_to_fit_integer 257 = Ok 2.
Proof. split; reflexivity. Qed.
Example ex_index_bad :
  dispatch 8 always false ex_methods [2; 0; 0; 0; 0; 0; 0; 0] = Err KeyError.
Proof. reflexivity. Qed.

(** C54 fails: a call whose arguments do not fit the shared buffer returns
    with the buffer lock still held, so every later call blocks for ever. *)
Theorem C54_refuted :
  exists (buf : list N) (big : list N) (server : list N -> list N),
    (exists e, client_call 8 always 1 0 [(PString, VString big)] None [] server
                 buf 1 = Some (Err e, 0)) /\
    forall tvs, client_call 8 always 1 0 tvs None [] server buf 0 = None.
Proof. exact client_call_stuck. Qed.
Print Assumptions C54_refuted.

(** C54, what holds: a call that succeeds leaves the lock as it found it. *)
Theorem C54_partial : forall W mal n i tvs ret outs server buf lock rs lock',
  client_call W mal n i tvs ret outs server buf lock = Some (Ok rs, lock') ->
  lock' = lock.
Proof. exact client_call_ok. Qed.
Print Assumptions C54_partial.

(** C31 and C54 together: a call through a shared buffer to a server that answers with
    certain values when it is given the arguments of the call returns these values, and
    leaves the lock as it was. *)
Theorem C54_whole_call : forall W methods i ts vs rt rv ots ovs buf buf' n lock server,
  word_size W -> nlen buf < 2 ^ 31 -> nlen methods <= 2 ^ 64 ->
  nth_error methods (N.to_nat i) = Some ts -> Forall2 (has_type W) ts vs ->
  match rt, rv with Some t, Some v => has_type W t v | None, None => True | _, _ => False end ->
  Forall2 (has_type W) ots ovs ->
  marshal_inputs W (nlen methods) i (combine ts vs) buf = Ok (buf', n) -> 0 < lock ->
  (forall request args, dispatch W always true methods request = Ok (i, args) ->
     Forall2 delivered vs args -> exists n',
     marshal_outputs W (match rt, rv with Some t, Some v => Some (t, v) | _, _ => None end)
       (combine ots ovs) request = Ok (server request, n')) ->
  exists rs, client_call W always (nlen methods) i (combine ts vs) rt ots server buf lock = Some (Ok rs, lock) /\
    Forall2 delivered (match rv with Some v => v :: ovs | None => ovs end) rs.
Proof. exact whole_call. Qed.
Print Assumptions C54_whole_call.
Example C54_whole_call_example :
  let answer m := match marshal_outputs 8 (Some (PScalar 1, VScalar [7])) (combine [PString] [VString [66; 67]]) m with
                  | Ok (b, _) => b | Err _ => [] end in
  client_call 8 always 1 0 [(PString, VString [65])] (Some (PScalar 1)) [PString] answer (repeat 0 8) 1 =
    Some (Ok [RScalar [7]; RString [66; 67]], 1).
Proof. reflexivity. Qed.

Example ex_call :
  client_call 8 always 1 0 [(PString, VString [65])] None [] (fun m => m)
    (repeat 0 8) 1 = Some (Ok [], 1).
Proof. reflexivity. Qed.
