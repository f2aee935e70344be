(** The properties of the template context: C28 (store), C29 (allocation), C30 (symbols). *)
From Coq Require Import List Bool Arith NArith String Ascii.
From Verif Require Import Prelude DecStr Context_Model Context_Spec Context_Proofs Context_Proofs2 Context_Proofs3 Context_Proofs4.
Import ListNotations.
Open Scope string_scope.
Open Scope list_scope.

(** Stash, pop and guard answer as a dictionary per client does. *)
Theorem C28_dictionary : forall ops st outs i o c k, run ctx0 ops = Ok (st, outs) ->
  nth_error ops i = Some o -> store_key o = Some (c, k) ->
  nth_error outs i = store_answer (held (firstn i ops) c k) o.
Proof. exact store_answers_lemma. Qed.
Print Assumptions C28_dictionary.

(** A client gets the answers it would get if it were the only client. *)
Theorem C28_isolated : forall ops st outs c, run ctx0 ops = Ok (st, outs) ->
  exists st', run ctx0 (filter (of_client c) ops) = Ok (st', answers_of_client c ops outs).
Proof. exact isolated_lemma. Qed.
Print Assumptions C28_isolated.

(** Once a guarded request has been answered with a value, later ones for that key get the
    same value and the function is not called again.  Missing: the value None. *)
Theorem C28_guard_once_partial : forall ops st outs i j c k vi vj wi bi, run ctx0 ops = Ok (st, outs) -> (i < j)%nat ->
  nth_error ops i = Some (OGuard c k vi) -> nth_error ops j = Some (OGuard c k vj) ->
  Forall (fun o => ~ disturbs c k o) (firstn (j - S i) (skipn (S i) ops)) ->
  nth_error outs i = Some (wi, bi) -> wi <> VNone ->
  nth_error outs j = Some (wi, false).
Proof. exact guard_once_lemma. Qed.
Print Assumptions C28_guard_once_partial.

(** A guarded function that returns None is called again, and its next value replaces None. *)
Theorem C28_guard_once_refuted : exists ops st outs c k vi vj wj,
  run ctx0 ops = Ok (st, outs) /\ nth_error ops 0 = Some (OGuard c k vi) /\ nth_error ops 1 = Some (OGuard c k vj) /\
  nth_error outs 0 = Some (vi, true) /\ nth_error outs 1 = Some (wj, true) /\ wj <> vi.
Proof. exact guard_none_lemma. Qed.
Print Assumptions C28_guard_once_refuted.

Example C28_example : exists st,
  run ctx0 [OGuard "a" "k" (VAtom 1); OStash "b" "k" (VAtom 7); OGuard "a" "k" (VAtom 2);
            OPop "b" "k"; OPop "b" "k"; OPop "a" "k"; OGuard "a" "k" (VAtom 3)] =
  Ok (st, [(VAtom 1, true); (VStr "", false); (VAtom 1, false); (VAtom 7, false); (VNone, false);
           (VAtom 1, false); (VAtom 3, true)]).
Proof. eexists. vm_compute. reflexivity. Qed.

(** The same requester asking for the same object name gets the same object. *)
Theorem C29_same_object : forall ops st outs i j l n t ol t' ol' vi vj, run ctx0 ops = Ok (st, outs) ->
  nth_error ops i = Some (OAllocObj l n t ol) -> nth_error ops j = Some (OAllocObj l n t' ol') ->
  nth_error outs i = Some vi -> nth_error outs j = Some vj -> fst vi = fst vj.
Proof. exact same_object_lemma. Qed.
Print Assumptions C29_same_object.

(** The object returned exists and is as its first requester described it. *)
Theorem C29_object : forall ops st outs i l n t ol v b, run ctx0 ops = Ok (st, outs) ->
  nth_error ops i = Some (OAllocObj l n t ol) -> nth_error outs i = Some (v, b) ->
  exists o, v = VObj o /\ nth_error (c_objs st) o = first_obj_request ops (object_name l n) /\
    first_obj_request ops (object_name l n) <> None.
Proof. exact object_contents_lemma. Qed.
Print Assumptions C29_object.

(** Requests whose full names differ get different objects.  Missing: requests that differ
    only in where the label ends and the name begins. *)
Theorem C29_distinct_object_partial : forall ops st outs i j l n t ol l' n' t' ol' vi vj, run ctx0 ops = Ok (st, outs) ->
  nth_error ops i = Some (OAllocObj l n t ol) -> nth_error ops j = Some (OAllocObj l' n' t' ol') ->
  nth_error outs i = Some vi -> nth_error outs j = Some vj ->
  object_name l n <> object_name l' n' -> fst vi <> fst vj.
Proof. exact distinct_object_lemma. Qed.
Print Assumptions C29_distinct_object_partial.

(** Two requesters can be given one object although they asked for different ones. *)
Theorem C29_distinct_object_refuted : exists ops st outs l n l' n' t t' o b b',
  run ctx0 ops = Ok (st, outs) /\ nth_error ops 0 = Some (OAllocObj l n t l) /\
  nth_error ops 1 = Some (OAllocObj l' n' t' l') /\ l <> l' /\ n <> n' /\ t <> t' /\
  nth_error outs 0 = Some (VObj o, b) /\ nth_error outs 1 = Some (VObj o, b').
Proof. exact distinct_object_refuted_lemma. Qed.
Print Assumptions C29_distinct_object_refuted.

(** The same capability asked for again is the same slot ... *)
Theorem C29_same_slot : forall ops st outs i j oi oj key vi vj, run ctx0 ops = Ok (st, outs) ->
  nth_error ops i = Some oi -> nth_error ops j = Some oj -> cap_key oi = Some key -> cap_key oj = Some key ->
  nth_error outs i = Some vi -> nth_error outs j = Some vj -> fst vi = fst vj.
Proof. exact same_slot_lemma. Qed.
Print Assumptions C29_same_slot.

(** ... different capabilities of a space are different slots ... *)
Theorem C29_distinct_slot : forall ops st outs i j oi oj sp l n l' n' vi vj, run ctx0 ops = Ok (st, outs) ->
  nth_error ops i = Some oi -> nth_error ops j = Some oj ->
  cap_key oi = Some (sp, l, n) -> cap_key oj = Some (sp, l', n') -> (l, n) <> (l', n') ->
  nth_error outs i = Some vi -> nth_error outs j = Some vj -> fst vi <> fst vj.
Proof. exact distinct_slot_lemma. Qed.
Print Assumptions C29_distinct_slot.

(** ... and the slot holds the capability first asked for, with exactly the rights any of
    the requests for it asked for (nothing if the slot was reserved empty). *)
Theorem C29_rights : forall ops st outs i o key v b, run ctx0 ops = Ok (st, outs) ->
  nth_error ops i = Some o -> cap_key o = Some key -> nth_error outs i = Some (v, b) ->
  exists s, v = VSlot s /\ contents st (fst (fst key)) s = Some (first_cap (c_objs st) ops key).
Proof. exact slot_contents_lemma. Qed.
Print Assumptions C29_rights.

(** A request changes no slot but the one it answers with ... *)
Theorem C29_other_slots : forall ops st outs o s' v b sp i, run ctx0 ops = Ok (st, outs) -> exec st o = Ok (s', (v, b)) ->
  contents st sp i <> None -> contents s' sp i <> contents st sp i ->
  v = VSlot i /\ exists l n, cap_key o = Some (sp, l, n).
Proof. exact frame_lemma. Qed.
Print Assumptions C29_other_slots.

(** ... and no existing object. *)
Theorem C29_other_objects : forall ops st outs o s' v i k, run ctx0 ops = Ok (st, outs) -> exec st o = Ok (s', v) ->
  nth_error (c_objs st) i = Some k -> nth_error (c_objs s') i = Some k.
Proof. exact objects_kept_lemma. Qed.
Print Assumptions C29_other_objects.

(** A request fails only when it asks rights on a slot that was reserved empty. *)
Theorem C29_failure : forall ops st outs o e, run ctx0 ops = Ok (st, outs) -> exec st o = Err e ->
  e = KeyError /\ exists key, cap_key o = Some key /\ exists l sp n r bd,
    find (is_key key) ops = Some (OAllocCap l sp n None r bd).
Proof. exact failure_lemma. Qed.
Print Assumptions C29_failure.

(** A second request for a capability name with another object is answered with the
    capability to the first object. *)
Theorem C29_object_of_cap_refuted : exists ops st outs l sp n o o' r s b c,
  o <> o' /\ run ctx0 ops = Ok (st, outs) /\ In (OAllocCap l sp n (Some o) r None) ops /\
  nth_error ops 3 = Some (OAllocCap l sp n (Some o') r None) /\
  nth_error outs 3 = Some (VSlot s, b) /\ contents st sp s = Some (Some c) /\ kc_obj c = o.
Proof. exact object_of_cap_lemma. Qed.
Print Assumptions C29_object_of_cap_refuted.

Example C29_example : exists st,
  run ctx0 [OAlloc "conn" 0 "ep" "Endpoint" "conn" (mk_rights true false false false) None;
            OAllocObj "conn" "ep" "Endpoint" "conn"; OAllocCap "c1" 0 "free" None no_rights None;
            OAlloc "conn" 0 "ep" "Endpoint" "conn" (mk_rights false true true false) (Some 4%N)] =
  Ok (st, [(VSlot 0, true); (VObj 0, false); (VSlot 1, true); (VSlot 0, false)]) /\
  map (contents st 0) [0; 1; 2] =
    [Some (Some (mk_kcap 0 (mk_rights true true true false) None)); Some None; None].
Proof. eexists. split; [vm_compute; reflexivity|reflexivity]. Qed.

(** No two C symbols of a run are equal, whatever their tags and whatever happens between. *)
Theorem C30_c_symbols : forall ops st outs i j ti tj vi vj, run ctx0 ops = Ok (st, outs) -> i <> j ->
  nth_error ops i = Some (OCSymbol ti) -> nth_error ops j = Some (OCSymbol tj) ->
  nth_error outs i = Some vi -> nth_error outs j = Some vj -> fst vi <> fst vj.
Proof. exact c_sym_lemma. Qed.
Print Assumptions C30_c_symbols.

(** No C symbol is an Isabelle symbol. *)
Theorem C30_c_isabelle : forall ops st outs i j ti tj vi vj, run ctx0 ops = Ok (st, outs) ->
  nth_error ops i = Some (OCSymbol ti) -> nth_error ops j = Some (OISymbol tj) ->
  nth_error outs i = Some vi -> nth_error outs j = Some vj -> fst vi <> fst vj.
Proof. exact c_i_differ_lemma. Qed.
Print Assumptions C30_c_isabelle.

(** Isabelle symbols differ when no tag ends in a digit. *)
Theorem C30_isabelle_partial : forall ops st outs i j ti tj vi vj, run ctx0 ops = Ok (st, outs) -> i <> j ->
  nth_error ops i = Some (OISymbol ti) -> nth_error ops j = Some (OISymbol tj) ->
  ~ ends_in_digit ti -> ~ ends_in_digit tj ->
  nth_error outs i = Some vi -> nth_error outs j = Some vj -> fst vi <> fst vj.
Proof. exact i_sym_lemma. Qed.
Print Assumptions C30_isabelle_partial.

(** With a tag that ends in a digit two Isabelle symbols can be equal. *)
Theorem C30_isabelle_refuted : exists ops st outs i j ti tj v, run ctx0 ops = Ok (st, outs) /\ i <> j /\
  nth_error ops i = Some (OISymbol ti) /\ nth_error ops j = Some (OISymbol tj) /\
  nth_error outs i = Some v /\ nth_error outs j = Some v.
Proof. exact isabelle_refuted_lemma. Qed.
Print Assumptions C30_isabelle_refuted.

Example C30_example : exists st,
  run ctx0 [OCSymbol "a_1"; OCSymbol "a"; OCSymbol ""; OISymbol ""; OCSymbol "a_1"] =
  Ok (st, [(VStr "_camkes_a_1_0", false); (VStr "_camkes_a_1", false); (VStr "_camkes__2", false);
           (VStr "s3'", false); (VStr "_camkes_a_1_4", false)]).
Proof. eexists. vm_compute. reflexivity. Qed.
