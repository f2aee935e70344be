(** C22-C25: property theorems about the badge and id allocators. *)
From Coq Require Import List String NArith Lia Sorted.
From Verif Require Import Prelude Badges_Model Badges_Spec Badges_Proofs Badges_Proofs2.
Import ListNotations.
Open Scope N_scope.

(** ** C22 notification badges *)

(** Badges of two ends of one instance, taken together, never repeat a value,
    provided the mask fits the badge width and does not overlap the base. *)
Theorem C22_distinct_partial : forall bits base mask e e' cs l l',
  mask < 2 ^ bits -> N.land base mask = 0 ->
  e_inst e = e_inst e' -> e_id e <> e_id e' ->
  global_endpoint_badges bits base mask e cs = Ok l ->
  global_endpoint_badges bits base mask e' cs = Ok l' -> NoDup (l ++ l').
Proof. exact geb_distinct. Qed.
Print Assumptions C22_distinct_partial.

(** The default mask always meets the two provisos. *)
Theorem C22_default_mask : forall bits base,
  default_mask bits base < 2 ^ bits /\ N.land base (default_mask bits base) = 0.
Proof. exact default_mask_ok. Qed.
Print Assumptions C22_default_mask.

(** Every badge is the base plus one bit of the mask. *)
Theorem C22_one_bit_partial : forall bits base mask e cs l b, mask < 2 ^ bits ->
  global_endpoint_badges bits base mask e cs = Ok l -> In b l ->
  exists k, k < bits /\ N.testbit mask k = true /\ b = N.lor (2 ^ k) base.
Proof. exact geb_one_bit. Qed.
Print Assumptions C22_one_bit_partial.

(** An end gets as many badges as it needs. *)
Theorem C22_count_partial : forall bits base mask e cs l, mask < 2 ^ bits ->
  global_endpoint_badges bits base mask e cs = Ok l ->
  exists u, In u (users (e_inst e) cs) /\ u_end u = e_id e /\ N.of_nat (List.length l) = u_count u.
Proof. exact geb_count. Qed.
Print Assumptions C22_count_partial.

(** Exact result: the k-th badge in composition order uses the k-th bit of the mask;
    success exactly when the bits suffice (an interrupt source also needs the bit
    after its last one). *)
Theorem C22_exact_partial : forall bits base mask e cs l, mask < 2 ^ bits ->
  global_endpoint_badges bits base mask e cs = Ok l <->
  exists pre u post, users (e_inst e) cs = pre ++ u :: post /\ u_end u = e_id e /\
    ~ In (e_id e) (map u_end pre) /\
    demand pre + (if u_irq u then u_count u else 0) < N.of_nat (List.length (mask_bits bits mask)) /\
    l = map (fun k => N.lor (2 ^ k) base)
          (firstn (N.to_nat (u_count u)) (skipn (N.to_nat (demand pre)) (mask_bits bits mask))).
Proof. exact geb_exact. Qed.
Print Assumptions C22_exact_partial.

(** Failure is always the reported error (in particular the search never diverges). *)
Theorem C22_exhaustion_reported : forall bits base mask e cs x,
  global_endpoint_badges bits base mask e cs = Err x -> x = OtherException.
Proof. exact geb_error. Qed.
Print Assumptions C22_exhaustion_reported.

Definition e1 := mk_end 1 "drv" None.
Definition e2 := mk_end 2 "drv" None.
Definition e3 := mk_end 3 "drv" (Some 2).
Definition e4 := mk_end 4 "cli" None.
Definition cs1 : list conn :=
  [ mk_conn false false true false true [e4] [e1];
    mk_conn true false false false false [e4] [e3];
    mk_conn false true false true false [e2] [e4; e4] ].

(** The unguarded claims fail: a base overlapping the mask gives two ends the same
    badge ... *)
Theorem C22_distinct_refuted : exists bits base mask e e' cs l,
  mask < 2 ^ bits /\ e_inst e = e_inst e' /\ e_id e <> e_id e' /\
  global_endpoint_badges bits base mask e cs = Ok l /\
  global_endpoint_badges bits base mask e' cs = Ok l /\ l <> [].
Proof.
  exists 28, 3, 3, e1, e2, [mk_conn false true false false false [e1; e2] [e4]], [3].
  repeat split; try discriminate; try (vm_compute; reflexivity).
Qed.
Print Assumptions C22_distinct_refuted.
(** ... and a mask wider than a badge yields a badge that does not fit. *)
Theorem C22_width_refuted : exists bits base mask e cs b, base < 2 ^ bits /\
  global_endpoint_badges bits base mask e cs = Ok [b] /\ 2 ^ bits <= b.
Proof.
  exists 28, 0, (2 ^ 28), e1, [mk_conn false true false false false [e1] [e4]], (2 ^ 28).
  repeat split; try discriminate; try (vm_compute; reflexivity). 
Qed.
Print Assumptions C22_width_refuted.
(** Exhaustion is also reported for an interrupt source whose badges all exist. *)
Theorem C22_spurious_exhaustion_refuted : exists bits base mask e cs,
  mask < 2 ^ bits /\ users (e_inst e) cs = [(e_id e, true, 2)] /\
  N.of_nat (List.length (mask_bits bits mask)) = 2 /\
  global_endpoint_badges bits base mask e cs = Err OtherException.
Proof.
  exists 28, 0, 3, e3, [mk_conn true false false false false [e4] [e3]].
  repeat split; vm_compute; reflexivity.
Qed.
Print Assumptions C22_spurious_exhaustion_refuted.

Example C22_example :
  let m := default_mask 28 1 in
  global_endpoint_badges 28 1 m e1 cs1 = Ok [3] /\
  global_endpoint_badges 28 1 m e3 cs1 = Ok [5; 9] /\
  global_endpoint_badges 28 1 m e2 cs1 = Ok [17].
Proof. repeat split; vm_compute; reflexivity. Qed.

(** ** C23 RPC badges *)
Theorem C23_distinct_partial : forall bits base mask e e' cs l l', N.land base mask = 0 ->
  e_inst e = e_inst e' -> e_id e <> e_id e' ->
  global_rpc_endpoint_badges bits base mask e cs = Ok l ->
  global_rpc_endpoint_badges bits base mask e' cs = Ok l' -> NoDup (l ++ l').
Proof. exact rpc_distinct. Qed.
Print Assumptions C23_distinct_partial.

(** Only mask bits, non-zero, within the badge width, plus the base. *)
Theorem C23_within_mask : forall bits base mask e cs l b,
  global_rpc_endpoint_badges bits base mask e cs = Ok l -> In b l ->
  exists x, 0 < x < 2 ^ bits /\ within mask x /\ b = N.lor x base.
Proof. exact rpc_value. Qed.
Print Assumptions C23_within_mask.

(** One badge per end on the other side. *)
Theorem C23_count : forall bits base mask e cs l,
  global_rpc_endpoint_badges bits base mask e cs = Ok l ->
  exists u, In u (rpc_users (e_inst e) cs) /\ u_end u = e_id e /\ N.of_nat (List.length l) = u_count u.
Proof. exact rpc_count. Qed.
Print Assumptions C23_count.

(** The values handed out, in order, are exactly the non-zero values within the mask
    below both the badge width and the mask itself, in increasing order ([rpc_enum]),
    and the call succeeds exactly while more of them remain than are needed. *)
Theorem C23_exact : forall bits base mask e cs l,
  global_rpc_endpoint_badges bits base mask e cs = Ok l <->
  exists pre u post, rpc_users (e_inst e) cs = pre ++ u :: post /\ u_end u = e_id e /\
    ~ In (e_id e) (map u_end pre) /\
    demand pre + u_count u < N.of_nat (List.length (rpc_enum bits mask)) /\
    l = map (fun x => N.lor x base)
          (firstn (N.to_nat (u_count u)) (skipn (N.to_nat (demand pre)) (rpc_enum bits mask))).
Proof. exact rpc_exact. Qed.
Print Assumptions C23_exact.
Theorem C23_enumeration : forall bits mask x, In x (rpc_enum bits mask) <->
  0 < x /\ within mask x /\ x < N.min (2 ^ bits) mask.
Proof. exact rpc_enum_In. Qed.
Print Assumptions C23_enumeration.
Theorem C23_enumeration_increasing : forall bits mask, StronglySorted N.lt (rpc_enum bits mask).
Proof. exact rpc_enum_sorted. Qed.
Print Assumptions C23_enumeration_increasing.
Theorem C23_exhaustion_reported : forall bits base mask e cs x,
  global_rpc_endpoint_badges bits base mask e cs = Err x -> x = OtherException.
Proof. exact rpc_error. Qed.
Print Assumptions C23_exhaustion_reported.

(** Unguarded distinctness fails when base and mask overlap. *)
Theorem C23_distinct_refuted : exists bits base mask e cs l,
  global_rpc_endpoint_badges bits base mask e cs = Ok l /\ ~ NoDup l.
Proof.
  exists 28, 3, 15, e2, [mk_conn false false false true false [e2] [e4; e4; e1]], [3; 3; 3].
  split; [vm_compute; reflexivity|]. intros H. inversion H as [|? ? N]. apply N. left. reflexivity.
Qed.
Print Assumptions C23_distinct_refuted.
(** Exhaustion is reported although a value within the mask is still free: the mask
    value itself is never handed out. *)
Theorem C23_spurious_exhaustion_refuted : exists bits base mask e cs,
  rpc_users (e_inst e) cs = [(e_id e, true, 1)] /\ 0 < mask < 2 ^ bits /\ N.land base mask = 0 /\
  global_rpc_endpoint_badges bits base mask e cs = Err OtherException.
Proof.
  exists 28, 0, 4, e2, [mk_conn false false false true false [e2] [e4]].
  repeat split; vm_compute; reflexivity.
Qed.
Print Assumptions C23_spurious_exhaustion_refuted.

Example C23_example : let m := default_rpc_mask 28 in
  global_rpc_endpoint_badges 28 0 m e1 cs1 = Ok [2] /\
  global_rpc_endpoint_badges 28 0 m e2 cs1 = Ok [4; 6] /\
  global_rpc_endpoint_badges 28 1 0x50 e2 cs1 = Err OtherException /\
  global_rpc_endpoint_badges 28 1 0xd0 e2 cs1 = Ok [0x41; 0x51].
Proof. repeat split; vm_compute; reflexivity. Qed.

(** ** C24 RPC connector badges: explicit badges are kept, every missing one is filled
    with a value that occurs nowhere else. *)
Theorem C24_allocate_badges : forall explicit,
  let final := allocate_badges explicit in
  List.length final = List.length explicit /\
  (forall i x, nth i explicit None = Some x -> nth i final None = Some x) /\
  (forall i, (i < List.length explicit)%nat -> nth i explicit None = None ->
     exists v, nth i final None = Some v /\
       forall j, (j < List.length explicit)%nat -> j <> i -> nth j final None <> Some v).
Proof. exact allocate_badges_ok. Qed.
Print Assumptions C24_allocate_badges.
Example C24_example : allocate_badges [None; Some 1; None; Some 3; None] =
  [Some 2; Some 1; Some 4; Some 3; Some 5].
Proof. reflexivity. Qed.

(** ** C25 virtqueue client ids *)
Theorem C25_id_found : forall conf cs e, In e (vq_interfaces (e_inst e) cs) ->
  exists v, virtqueue_get_client_id conf cs e = Ok (Some v).
Proof. exact vq_some'. Qed.
Print Assumptions C25_id_found.
Theorem C25_configured_kept : forall conf cs e x,
  NoDup (map e_id (vq_interfaces (e_inst e) cs)) -> In e (vq_interfaces (e_inst e) cs) ->
  conf e = Some x -> virtqueue_get_client_id conf cs e = Ok (Some x).
Proof. exact vq_keep'. Qed.
Print Assumptions C25_configured_kept.
Theorem C25_distinct : forall conf cs e e' v v',
  NoDup (map e_id (vq_interfaces (e_inst e) cs)) -> In e (vq_interfaces (e_inst e) cs) ->
  e_inst e = e_inst e' -> e_id e <> e_id e' -> conf e = None ->
  virtqueue_get_client_id conf cs e = Ok (Some v) ->
  virtqueue_get_client_id conf cs e' = Ok (Some v') -> v <> v'.
Proof. exact vq_distinct'. Qed.
Print Assumptions C25_distinct.
Example C25_example :
  let conf x := if e_id x =? 2 then Some 0 else None in
  let cs := [mk_vconn true [e1] [e4]; mk_vconn false [e3] [e4]; mk_vconn true [e2] [e3]] in
  virtqueue_get_client_id conf cs e1 = Ok (Some 1) /\
  virtqueue_get_client_id conf cs e2 = Ok (Some 0) /\
  virtqueue_get_client_id conf cs e3 = Ok (Some 2) /\
  NoDup (map e_id (vq_interfaces "drv" cs)).
Proof.
  repeat split; try (vm_compute; reflexivity).
  repeat constructor; simpl; intuition discriminate.
Qed.
