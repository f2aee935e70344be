(** Witnesses for the refuted parts of C28, C29 and C30. *)
From Coq Require Import List Bool Arith NArith String Ascii.
From Verif Require Import Prelude DecStr Context_Model Context_Spec.
Import ListNotations.
Open Scope string_scope.
Open Scope list_scope.

Lemma guard_none_lemma : exists ops st outs c k vi vj wj,
  run ctx0 ops = Ok (st, outs) /\ nth_error ops 0 = Some (OGuard c k vi) /\ nth_error ops 1 = Some (OGuard c k vj) /\
  nth_error outs 0 = Some (vi, true) /\ nth_error outs 1 = Some (wj, true) /\ wj <> vi.
Proof.
  exists [OGuard "a" "k" VNone; OGuard "a" "k" (VAtom 1)].
  eexists. eexists. exists "a", "k", VNone, (VAtom 1), (VAtom 1).
  split; [vm_compute; reflexivity|]. do 4 (split; [reflexivity|]). discriminate.
Qed.

Lemma distinct_object_refuted_lemma : exists ops st outs l n l' n' t t' o b b',
  run ctx0 ops = Ok (st, outs) /\ nth_error ops 0 = Some (OAllocObj l n t l) /\
  nth_error ops 1 = Some (OAllocObj l' n' t' l') /\ l <> l' /\ n <> n' /\ t <> t' /\
  nth_error outs 0 = Some (VObj o, b) /\ nth_error outs 1 = Some (VObj o, b').
Proof.
  exists [OAllocObj "a" "b_c" "Endpoint" "a"; OAllocObj "a_b" "c" "Notification" "a_b"].
  eexists. eexists. exists "a", "b_c", "a_b", "c", "Endpoint", "Notification". eexists. eexists. eexists.
  split; [vm_compute; reflexivity|]. split; [reflexivity|]. split; [reflexivity|].
  do 3 (split; [discriminate|]). split; reflexivity.
Qed.

Lemma object_of_cap_lemma : exists ops st outs l sp n o o' r s b c,
  o <> o' /\ run ctx0 ops = Ok (st, outs) /\ In (OAllocCap l sp n (Some o) r None) ops /\
  nth_error ops 3 = Some (OAllocCap l sp n (Some o') r None) /\
  nth_error outs 3 = Some (VSlot s, b) /\ contents st sp s = Some (Some c) /\ kc_obj c = o.
Proof.
  exists [OAllocObj "a" "x" "Endpoint" "a"; OAllocObj "a" "y" "Endpoint" "a";
          OAllocCap "a" 0 "n" (Some 0) no_rights None; OAllocCap "a" 0 "n" (Some 1) no_rights None].
  eexists. eexists. exists "a", 0, "n", 0, 1, no_rights. eexists. eexists. eexists.
  split; [discriminate|]. split; [vm_compute; reflexivity|]. split; [right; right; left; reflexivity|].
  split; [reflexivity|]. split; [reflexivity|]. split; reflexivity.
Qed.

Lemma isabelle_refuted_lemma : exists ops st outs i j ti tj v, run ctx0 ops = Ok (st, outs) /\ i <> j /\
  nth_error ops i = Some (OISymbol ti) /\ nth_error ops j = Some (OISymbol tj) /\
  nth_error outs i = Some v /\ nth_error outs j = Some v.
Proof.
  exists [OISymbol "s1"; OISymbol ""; OISymbol ""; OISymbol ""; OISymbol ""; OISymbol "";
          OISymbol ""; OISymbol ""; OISymbol ""; OISymbol ""; OISymbol "s"].
  eexists. eexists. exists 0, 10, "s1", "s". eexists.
  split; [vm_compute; reflexivity|]. split; [discriminate|].
  split; [reflexivity|]. split; [reflexivity|]. split; reflexivity.
Qed.
