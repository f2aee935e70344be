(** Properties of RPC servers in CakeML (C125) and of its file functions (C126). *)
From Coq Require Import List NArith ZArith Bool String Lia.
From Verif Require Import Prelude Marshal_Model Marshal_Spec Cake_Model Cake_Spec
  Cake_Proofs Cake_Proofs2 Cake_Proofs3.
Import ListNotations.
Open Scope string_scope.
Open Scope N_scope.
Open Scope list_scope.

(** C125, requests: what a C client has marshalled (in an IPC buffer of 120
    words) reaches a CakeML server as the same method and the same arguments,
    whatever its array contained before. *)
Theorem C125_request : forall W ep types b ms i m ts vs buf buf' n a,
  word_size W -> nlen buf = 120 * W -> nlen a = 122 * W + 1 -> b < 256 ^ W ->
  serves types b ms -> nlen ms <= 2 ^ 64 -> nth_error ms (N.to_nat i) = Some m ->
  Forall2 typed (cm_in m) ts -> Forall2 (has_type W) ts vs ->
  marshal_inputs W (nlen ms) i (combine ts vs) buf = Ok (buf', n) ->
  exists a' args,
    cake_recv W ep b (ipc W buf' n) a = Ok (a', nlen (ipc W buf' n), b) /\ nlen a' = nlen a /\
    cake_request W types b a' = Ok (i, args) /\ Forall2 received vs args.
Proof. exact request_lemma. Qed.
Print Assumptions C125_request.

(** C125, calls: the server calls this method with these arguments and the C
    client gets its results, if they are C strings and integers and fit an IPC
    buffer; integers are reduced to the width of the declared type. *)
Theorem C125_call : forall W ep types b ms i m ts vs buf buf' n a ib impl rt os size,
  word_size W -> nlen buf = 120 * W -> nlen a = 122 * W + 1 -> nlen ib = 120 * W -> b < 256 ^ W ->
  serves types b ms -> nlen ms <= 2 ^ 64 -> nth_error ms (N.to_nat i) = Some m ->
  Forall2 typed (cm_in m) ts -> Forall2 (has_type W) ts vs ->
  Forall2 typed (cm_out m) (match rt with Some t => t :: os | None => os end) ->
  (forall args, Forall2 received vs args ->
     results (match rt with Some t => t :: os | None => os end) (impl i args) size) ->
  size <= 120 * W ->
  marshal_inputs W (nlen ms) i (combine ts vs) buf = Ok (buf', n) ->
  exists msg a' args rs,
    cake_turn W ep types impl b (ipc W buf' n) a ib = Ok (msg, a') /\
    Forall2 received vs args /\
    unmarshal_outputs W always false rt os msg = Ok rs /\
    Forall2 returned (impl i args) rs.
Proof. exact call_lemma. Qed.
Print Assumptions C125_call.

(** C125: exactly the unsigned types of a fixed width and strings, no arrays,
    are accepted as parameters and as results; for others no code is
    generated. *)
Theorem C125_parameter_types : forall p,
  (exists t, typed p t) <-> forall buf off, cake_unmarshal buf off p <> Err TemplateError.
Proof. exact types_unmarshal_lemma. Qed.
Print Assumptions C125_parameter_types.
Theorem C125_result_types : forall p,
  (exists t, typed p t) <-> exists buf off v r, cake_marshal buf off p v = Ok r.
Proof. exact types_marshal_lemma. Qed.
Print Assumptions C125_result_types.

(** C125: a message with a badge of no client, or with the number of a method
    that does not exist, calls no method; the server ends. *)
Theorem C125_unknown_badge : forall W types b a,
  (forall bs ms, In (bs, ms) types -> ~ In b bs) -> cake_request W types b a = Err KeyError.
Proof. exact unknown_badge_lemma. Qed.
Print Assumptions C125_unknown_badge.
Theorem C125_unknown_method : forall W types b ms w pre x rest,
  serves types b ms -> 1 < nlen ms -> log2 (nlen ms) = Ok w -> nlen pre = 2 * W + 1 ->
  nlen x = w -> nlen ms <= le_value x -> cake_request W types b (pre ++ x ++ rest) = Err KeyError.
Proof. exact unknown_method_lemma. Qed.
Print Assumptions C125_unknown_method.

(** C125, refuted: a request that is too short is not refused.  After a
    message of a client with badge [b1], an empty message of another client
    with badge [b2] calls the method with the first byte [x] of the message
    of the first.  A server in C refuses it. *)
Theorem C125_short_refuted : forall W ep b1 b2 x m1 a,
  word_size W -> nlen a = 122 * W + 1 -> b1 < 256 ^ W -> b2 < 256 ^ W -> nlen (x :: m1) = W ->
  let types := [([b1; b2], [{| cm_in := [{| cp_type := "uint8_t"; cp_array := false |}];
                               cm_out := [] |}])] in
  exists a1 l1 a2,
    cake_recv W ep b1 (x :: m1) a = Ok (a1, l1, b1) /\
    cake_recv W ep b2 [] a1 = Ok (a2, 0, b2) /\
    cake_request W types b2 a2 = Ok (0, [CvInt (Z.of_N x)]) /\
    dispatch W always false [[PScalar 1]] [] = Err ValueError.
Proof. exact stale_lemma. Qed.
Print Assumptions C125_short_refuted.

(** C125, refuted: a string that does not fit is not reported but cut off. *)
Theorem C125_long_refuted : forall W ep s a ib,
  word_size W -> nlen a = 122 * W + 1 -> nlen ib = 120 * W -> is_cstring s -> 120 * W <= nlen s ->
  exists msg a',
    cake_respond W ep [({| cp_type := "string"; cp_array := false |}, CvStr s)] a ib = Ok (msg, a') /\
    unmarshal_outputs W always false (Some PString) [] msg
      = Ok [RString (firstn (N.to_nat (120 * W - 1)) s)].
Proof. exact truncated_lemma. Qed.
Print Assumptions C125_long_refuted.

(** A server with two methods.  The second one takes a string and a number
    and returns a byte and a string. *)
Definition u8 := {| cp_type := "uint8_t"; cp_array := false |}.
Definition u16 := {| cp_type := "uint16_t"; cp_array := false |}.
Definition str := {| cp_type := "string"; cp_array := false |}.
Definition demo_methods : list cmethod :=
  [ {| cm_in := []; cm_out := [] |}; {| cm_in := [str; u16]; cm_out := [u8; str] |} ].
Definition demo_types := [([5; 6], demo_methods); ([7], [])].
Definition demo_impl (i : N) (vs : list cval) : list cval :=
  match vs with
  | [CvStr s; CvInt z] => [CvInt (z + 1); CvStr (s ++ [33])]
  | _ => []
  end.
Definition zeros (n : N) : list N := repeat 0 (N.to_nat n).
Example C125_case_serves : serves demo_types 6 demo_methods.
Proof.
  split.
  - exists [5; 6]. split; [left|right; left]; reflexivity.
  - intros bs ms [H|[H|[]]] Hb; inversion H; subst; [reflexivity|].
    destruct Hb as [Hb|[]]. discriminate Hb.
Qed.
Example C125_case_types :
  Forall2 typed [str; u16] [PString; PScalar 2] /\
  Forall2 (has_type 4) [PString; PScalar 2] [VString [104; 105]; VScalar [255; 2]] /\
  Forall2 typed [u8; str] [PScalar 1; PString] /\
  results [PScalar 1; PString] (demo_impl 1 [CvStr [104; 105]; CvInt 767]) (1 + (3 + 1 + 0)).
Proof.
  repeat split; repeat constructor; try discriminate.
Qed.
(** The client gets 767 + 1 reduced to a byte, and the string. *)
Example C125_case_call :
  match marshal_inputs 4 2 1 (combine [PString; PScalar 2] [VString [104; 105]; VScalar [255; 2]])
          (zeros 480) with
  | Err _ => None
  | Ok (buf, n) =>
      match cake_turn 4 9 demo_types demo_impl 6 (ipc 4 buf n) (zeros 489) (zeros 480) with
      | Err _ => None
      | Ok (msg, _) => Some (unmarshal_outputs 4 always false (Some (PScalar 1)) [PString] msg)
      end
  end = Some (Ok [RScalar [0]; RString [104; 105; 33]]).
Proof. vm_compute. reflexivity. Qed.
Example C125_case_unknown :
  cake_request 4 demo_types 8 (zeros 489) = Err KeyError /\
  cake_request 4 demo_types 5 (zeros 9 ++ [2] ++ zeros 479) = Err KeyError.
Proof. vm_compute. split; reflexivity. Qed.

(** C126: opening for writing reports success if and only if open succeeded,
    with its descriptor. *)
Theorem C126_open_out : forall fd o x r, nlen x = 8 -> (fd < 2 ^ 31)%Z ->
  ((0 <= fd)%Z -> exists v, ffi_open_out fd (o :: x ++ r) = Ok (0 :: v ++ r) /\ nlen v = 8 /\
     Z.of_N (be_value v) = fd) /\
  ((fd < 0)%Z -> ffi_open_out fd (o :: x ++ r) = Ok (1 :: x ++ r)).
Proof. exact open_out_lemma. Qed.
Print Assumptions C126_open_out.

(** C126, refuted: opening for reading reports success if and only if open
    failed. *)
Theorem C126_open_in_refuted : forall fd o x r, nlen x = 8 ->
  exists st y, ffi_open_in fd (o :: x ++ r) = Ok (st :: y) /\ (st = 0 <-> (fd < 0)%Z).
Proof. exact open_in_lemma. Qed.
Print Assumptions C126_open_in_refuted.

(** C126: reading asks for the bytes of the given number from the given
    descriptor; the bytes read and their number are delivered, or failure. *)
Theorem C126_read : forall rd f n0 n1 b2 b3 fb old rest data k,
  nlen fb = 8 -> f = Z.of_N (be_value fb) ->
  rd f (be_value [n0; n1]) = (k, data) -> (k < 65536)%Z -> nlen data = nlen old ->
  ((0 <= k)%Z -> exists h l, ffi_read rd fb ([n0; n1; b2; b3] ++ old ++ rest)
     = Ok ([0; h; l; b3] ++ data ++ rest) /\ Z.of_N (be_value [h; l]) = k) /\
  ((k < 0)%Z -> exists y, ffi_read rd fb ([n0; n1; b2; b3] ++ old ++ rest) = Ok (1 :: y)).
Proof. exact read_lemma. Qed.
Print Assumptions C126_read.

(** C126: writing writes the given number of bytes from the given offset, and
    reports how many were written, or failure. *)
Theorem C126_write : forall wr f n0 n1 o0 o1 fb pre data rest k,
  nlen fb = 8 -> f = Z.of_N (be_value fb) ->
  nlen data = be_value [n0; n1] -> nlen pre = be_value [o0; o1] ->
  wr f data = k -> (k < 65536)%Z ->
  ((0 <= k)%Z -> exists h l, ffi_write wr fb ([n0; n1; o0; o1] ++ pre ++ data ++ rest)
     = Ok ([0; h; l; o1] ++ pre ++ data ++ rest) /\ Z.of_N (be_value [h; l]) = k) /\
  ((k < 0)%Z -> ffi_write wr fb ([n0; n1; o0; o1] ++ pre ++ data ++ rest)
     = Ok ([1; n1; o0; o1] ++ pre ++ data ++ rest)).
Proof. exact write_lemma. Qed.
Print Assumptions C126_write.

(** C126: closing closes the given descriptor and reports whether that
    succeeded. *)
Theorem C126_close : forall cl f fb o r, nlen fb = 8 -> f = Z.of_N (be_value fb) ->
  exists st, ffi_close cl fb (o :: r) = Ok (st :: r) /\
    ((cl f = 0%Z /\ st = 0) \/ (cl f <> 0%Z /\ st = 1)).
Proof. exact close_lemma. Qed.
Print Assumptions C126_close.

Example C126_case :
  ffi_open_in 3 (zeros 9) = Ok (1 :: zeros 8) /\
  ffi_open_out 3 (zeros 9) = Ok (0 :: zeros 7 ++ [3]) /\
  ffi_write (fun fd bs => if (fd =? 3)%Z then Z.of_N (nlen bs) else (-1)%Z)
    (zeros 7 ++ [3]) ([0; 2; 0; 1] ++ [9] ++ [65; 66] ++ [7])
  = Ok ([0; 0; 2; 1] ++ [9] ++ [65; 66] ++ [7]) /\
  ffi_read (fun fd n => (2%Z, [65; 66])) (zeros 7 ++ [3]) ([0; 5; 0; 0] ++ zeros 5)
  = Ok ([0; 0; 2; 0] ++ [65; 66] ++ zeros 3).
Proof. vm_compute. repeat split; reflexivity. Qed.
