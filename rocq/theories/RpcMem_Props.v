(** C119, C120: heap memory in remote procedure calls. *)
From Coq Require Import List NArith.
From Verif Require Import Prelude Marshal_Model Marshal_Spec RpcMem_Model
  RpcMem_Spec RpcMem_Proofs RpcMem_Proofs2 RpcMem_Proofs3 RpcMem_Proofs4.
Import ListNotations.
Open Scope N_scope.
Open Scope list_scope.

(** C119, no misuse: whatever message arrives, whichever allocations fail and
    whether or not the response fits, the server frees only blocks that are in
    use and reads only through pointers to such blocks, provided the
    implementation leaves its variables in order. *)
Theorem C119_defined : forall W mal tr n ret ps impl fits buf m,
  sane m -> returnable ret -> orderly ret ps impl ->
  serve W mal tr n ret ps impl fits buf m <> None.
Proof. exact serve_defined. Qed.
Print Assumptions C119_defined.

(** C119, a message refused with a reported error leaves nothing behind and
    takes nothing away. *)
Theorem C119_refused : forall W mal tr n ret ps impl fits buf m e m',
  sane m ->
  serve W mal tr n ret ps impl fits buf m = Some (Refused e, m') ->
  reported e -> unchanged m m'.
Proof. exact serve_refused. Qed.
Print Assumptions C119_refused.

(** C119, after a request has been carried out exactly the blocks the variables
    and the result refer to are freed; the implementation was called with
    blocks of its own. *)
Theorem C119_freed : forall W mal tr n ret ps impl fits buf m h m',
  sane m -> returnable ret -> orderly ret ps impl ->
  serve W mal tr n ret ps impl fits buf m = Some (h, m') ->
  h = Answered \/ h = Unsent ->
  exists ss m1 ins rc after m2 rb outs,
    sane m1 /\ arguments ps ss m1 ins /\ acquired m (concat ins) m1 /\
    impl ss m1 = (rc, after, m2) /\
    ret_owns m2 ret rc rb /\
    Forall2 (slot_owns m2) (variables ss after) outs /\
    released m2 (rb ++ concat outs) m'.
Proof. exact serve_done. Qed.
Print Assumptions C119_freed.

(** C119, no leak: with an implementation that keeps nothing for itself a
    request leaves the memory as it was. *)
Theorem C119_no_leak : forall W mal tr n ret ps impl fits buf m h m',
  sane m -> returnable ret -> orderly ret ps impl -> tidy ret ps impl ->
  serve W mal tr n ret ps impl fits buf m = Some (h, m') ->
  (forall e, h = Refused e -> reported e) ->
  unchanged m m'.
Proof. exact serve_tidy. Qed.
Print Assumptions C119_no_leak.

(** C119, the variables hold what the message says (the values of C31, C32),
    and the message is refused exactly when it is there. *)
Theorem C119_values : forall W mal0 tr n buf ps m, sane m ->
  exists r ss m',
    u_inputs W (fun _ => mal0) tr n buf (map fresh_slot ps) m
    = Some (r, ss, m') /\
    unmarshal_inputs W mal0 tr n
      (map snd (filter (fun p => match fst p with DOut => false | _ => true end)
                  ps)) buf
    = match r with
      | Ok _ => match read_slots m' (filter is_input ss) with
                | Some vs => Ok vs | None => Err AssertionError end
      | Err e => Err e
      end.
Proof. exact serve_values. Qed.
Print Assumptions C119_values.

(** C119, the response is made of the result and of what the implementation left
    in the variables of the output parameters, in order; it is sent if it
    fits. *)
Theorem C119_response : forall W mal tr n ret ps impl fits buf m h m',
  serve W mal tr n ret ps impl fits buf m = Some (h, m') ->
  h = Answered \/ h = Unsent ->
  exists o ss m1 rc after m2 rv vs,
    u_inputs W mal tr n buf (map fresh_slot ps) m = Some (Ok o, ss, m1) /\
    impl ss m1 = (rc, after, m2) /\
    match ret with
    | None => rv = []
    | Some t => exists v, read_param m2 t rc = Some v /\ rv = [v]
    end /\
    read_slots m2
      (filter (fun s => match s_dir s with DOut | DInout => true | _ => false end)
         (variables ss after)) = Some vs /\
    (h = Answered <-> fits (rv ++ vs) = true).
Proof. exact serve_response. Qed.
Print Assumptions C119_response.

(** C119, an implementation must not leave an output parameter alone: the glue
    code then reads through NULL. *)
Theorem C119_untouched_refuted :
  ~ (forall W mal tr n ret ps fits buf m, sane m ->
       serve W mal tr n ret ps idle fits buf m <> None).
Proof.
  exact (fun H => H 8 (fun _ _ => true) true 1 None [(DOut, PString)]
                    (fun _ => true) [] (mem_of []) (mem_of_sane [])
                    idle_undefined).
Qed.
Print Assumptions C119_untouched_refuted.

(** An implementation meeting the requirements, a request carried out, and two
    refused ones: one cut off inside the array of strings, one for which the
    third allocation fails. *)
Example C119_met_impl :
  orderly None greet_params greet /\ tidy None greet_params greet.
Proof. exact (conj greet_orderly greet_tidy). Qed.
Definition array_message : list N :=
  [2; 0; 0; 0; 0; 0; 0; 0; 65; 0; 66; 0].
Definition live_below (m : mem) (n : nat) : list nat :=
  filter (fun b => match m_live m b with Some _ => true | None => false end)
    (seq 0 n).
Definition outcome_of (x : option (handled * mem))
  : option (handled * nat * list nat) :=
  match x with
  | Some (h, m) => Some (h, m_next m, live_below m (m_next m))
  | None => None
  end.
Example C119_met :
  let m := mem_of [BBytes [1]] in
  outcome_of (serve 8 (fun _ _ => true) true 1 None greet_params greet
                (fun _ => true) array_message m)
  = Some (Answered, 5%nat, [0%nat]) /\
  outcome_of (serve 8 (fun _ _ => true) true 1 None greet_params greet
                (fun _ => true) (firstn 11 array_message) m)
  = Some (Refused ValueError, 3%nat, [0%nat]) /\
  outcome_of (serve 8 (fun k _ => Nat.ltb k 3) true 1 None greet_params greet
                (fun _ => true) array_message m)
  = Some (Refused OtherException, 4%nat, [0%nat]).
Proof. vm_compute. auto. Qed.

(** C120, no misuse: whatever reply arrives and whichever allocations fail, the
    client stub frees only blocks that are in use and reads only through
    pointers to such blocks. *)
Theorem C120_defined : forall W mal tr ret server ss m olds,
  sane m -> returnable ret -> caller ss m olds ->
  call W mal tr ret server ss m <> None.
Proof. exact call_defined. Qed.
Print Assumptions C120_defined.

(** C120, a request that does not fit changes nothing. *)
Theorem C120_unsent : forall W mal tr ret server ss m olds rc ss' m',
  sane m -> returnable ret -> caller ss m olds ->
  call W mal tr ret server ss m = Some (NotSent, rc, ss', m') ->
  ss' = ss /\ unchanged m m'.
Proof. exact call_unsent. Qed.
Print Assumptions C120_unsent.

(** C120, a call that returns: the result and the output variables refer to
    fresh blocks, each to its own; the blocks that variables passed both ways
    referred to before are gone; nothing else has changed. *)
Theorem C120_returned : forall W mal tr ret server ss m olds rc ss' m',
  sane m -> returnable ret -> caller ss m olds ->
  call W mal tr ret server ss m = Some (Returned, rc, ss', m') ->
  map (fun s => (s_dir s, s_type s)) ss' = map (fun s => (s_dir s, s_type s)) ss
  /\ filter (fun s => negb (is_output s)) ss'
     = filter (fun s => negb (is_output s)) ss
  /\ exists rb news,
    ret_owns m' ret rc rb /\
    Forall2 (slot_owns m') (filter is_output ss') news /\
    NoDup (rb ++ concat news) /\
    (forall b, In b (rb ++ concat news) -> m_live m b = None) /\
    (forall b, ~ In b (rb ++ concat news) ->
       (In b (concat olds) -> m_live m' b = None) /\
       (~ In b (concat olds) -> m_live m' b = m_live m b)).
Proof. exact call_returned. Qed.
Print Assumptions C120_returned.

(** C120, the variables hold what the reply says (the values of C31, C32). *)
Theorem C120_values : forall W mal0 tr ret reply rc ss m olds,
  sane m -> returnable ret -> caller ss m olds ->
  exists r rc' ss' m',
    u_outputs W (fun _ => mal0) tr ret reply rc ss m = Some (r, rc', ss', m') /\
    unmarshal_outputs W mal0 tr ret (map s_type (filter is_output ss)) reply
    = match r with
      | Ok _ =>
          match (match ret with
                 | None => Some []
                 | Some t => match read_param m' t rc' with
                             | Some v => Some [v] | None => None end
                 end), read_slots m' (filter is_output ss') with
          | Some rv, Some vs => Ok (rv ++ vs)
          | _, _ => Err AssertionError
          end
      | Err e => Err e
      end.
Proof. exact call_values. Qed.
Print Assumptions C120_values.

(** C120, a reply that cannot be unmarshalled, what holds: no block is leaked;
    the blocks of the variables passed both ways are gone up to some parameter,
    and from there on the variables are untouched and in order.
    Missing: the variables up to that parameter are not usable, and the caller
    is not told which they are. *)
Theorem C120_failed_partial :
  forall W mal tr ret server ss m olds e rc ss' m',
  sane m -> returnable ret -> caller ss m olds ->
  call W mal tr ret server ss m = Some (BadReply e, rc, ss', m') ->
  reported e ->
  filter (fun s => negb (is_output s)) ss'
  = filter (fun s => negb (is_output s)) ss /\
  exists k, (k <= length olds)%nat /\
    released m (concat (firstn k olds)) m' /\
    skipn k (filter is_output ss') = skipn k (filter is_output ss) /\
    Forall2 (fun s o => match s_dir s with
                        | DInout => slot_owns m' s o | _ => o = [] end)
      (skipn k (filter is_output ss')) (skipn k olds).
Proof. exact call_failed. Qed.
Print Assumptions C120_failed_partial.

(** C120, after such a reply one variable passed both ways can refer to memory
    that has been freed while another one still has to be freed by the
    caller. *)
Theorem C120_failed_refuted :
  exists W mal tr ret server ss m olds e rc ss' m',
    sane m /\ returnable ret /\ caller ss m olds /\
    call W mal tr ret server ss m = Some (BadReply e, rc, ss', m') /\
    reported e /\
    (exists s b, In s ss' /\ s_dir s = DInout /\ s_type s = PString /\
       c_ptr (s_cell s) = Blk b /\ m_live m' b = None) /\
    (exists s b, In s ss' /\ s_dir s = DInout /\ s_type s = PString /\
       c_ptr (s_cell s) = Blk b /\ m_live m' b <> None).
Proof. exact failed_dangling. Qed.
Print Assumptions C120_failed_refuted.

(** A call that returns a string and replaces three. *)
Example C120_met :
  caller two_strings two_mem [[0]; [1]; [2]]%nat /\
  match call 8 (fun _ _ => true) true (Some PString)
          (fun _ => Some [90; 0; 88; 0; 0; 89; 89; 0]) two_strings two_mem with
  | Some (Returned, rc, ss', m') =>
      c_ptr rc = Blk 3 /\ m_live m' 3 = Some (BBytes [90]) /\
      map (fun s => c_ptr (s_cell s)) ss' = [Blk 4; Blk 5; Blk 6] /\
      live_below m' 9 = [3; 4; 5; 6]%nat
  | _ => False
  end.
Proof. split; [exact two_caller|vm_compute; auto]. Qed.
