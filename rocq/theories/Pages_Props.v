(** C20, C21: property theorems about page and untyped arithmetic. *)
From Coq Require Import List String NArith Sorted Lia.
From Verif Require Import Prelude Pages_Model Pages_Spec Pages_Proofs.
Import ListNotations.
Open Scope N_scope.

(** C20: the untypeds are an exact, in-order, naturally aligned partition, and
    the computation always ends. *)
Theorem C20_untyped_partition : forall start size, 0 < start ->
  exists uts, get_untypeds_from_range start size = Ok uts /\ partition start size uts.
Proof. exact get_untypeds_ok. Qed.
Print Assumptions C20_untyped_partition.

(** Read pointwise: an address is in the range iff it is in one of the pieces. *)
Theorem C20_untyped_cover : forall start size uts, partition start size uts -> forall x,
  start <= x < start + size <-> exists a b, In (a, b) uts /\ a <= x < a + 2 ^ b.
Proof. exact partition_point. Qed.
Print Assumptions C20_untyped_cover.

Example C20_example : get_untypeds_from_range 0x1000 0x7800 =
  Ok [(0x1000, 12); (0x2000, 13); (0x4000, 14); (0x8000, 11)].
Proof. vm_compute. reflexivity. Qed.

(** C21: next_page_multiple is the least [p0 + n*4096] not below the size. *)
Theorem C21_next_page_multiple : forall p0 size,
  exists n, next_page_multiple p0 size = Ok (p0 + n * 4096) /\
    size <= p0 + n * 4096 /\ forall j, j < n -> p0 + j * 4096 < size.
Proof. exact next_page_multiple_ok. Qed.
Print Assumptions C21_next_page_multiple.

(** C21: get_page_size is the largest supported page size dividing the size, 0 iff
    there is none. *)
Theorem C21_page_size : forall sizes size, StronglySorted N.lt sizes ->
  (forall p, In p sizes -> 0 < p) ->
  (get_page_size sizes size <> 0 -> largest_page sizes size (get_page_size sizes size)) /\
  (get_page_size sizes size = 0 -> forall p, In p sizes -> p <= size -> ~ (p | size)).
Proof. exact get_page_size_some. Qed.
Print Assumptions C21_page_size.

(** C21: without an explicit frame size a shared variable uses the largest one, and
    one is found exactly when some page size divides the size. *)
Theorem C21_frame_size : forall sizes size fs, StronglySorted N.lt sizes ->
  (forall p, In p sizes -> 0 < p) ->
  calc_frame_size sizes size None = Ok fs -> largest_page sizes size fs.
Proof. exact calc_frame_size_search. Qed.
Print Assumptions C21_frame_size.
Theorem C21_frame_size_found : forall sizes size, StronglySorted N.lt sizes ->
  (forall p, In p sizes -> 0 < p) ->
  (exists p, In p sizes /\ p <= size /\ (p | size)) <->
  exists fs, calc_frame_size sizes size None = Ok fs.
Proof. exact calc_frame_size_none. Qed.
Print Assumptions C21_frame_size_found.
(** A frame size asked for explicitly is used. *)
Theorem C21_explicit_frame_size : forall sizes size f, 0 < f ->
  calc_frame_size sizes size (Some f) = Ok f.
Proof. exact calc_frame_size_explicit. Qed.
Print Assumptions C21_explicit_frame_size.

(** C21: the frames of a shared variable: equal sized, distinctly named, physically
    contiguous from the given address ... *)
Theorem C21_shared_frames : forall sizes g size fso pa frames,
  shared_frames sizes g size fso pa = Ok frames ->
  exists fs, calc_frame_size sizes size fso = Ok fs /\ 0 < fs /\
    List.length frames = N.to_nat (size / fs) /\
    NoDup (map fr_name frames) /\
    (forall i, i < size / fs -> exists f, nth_error frames (N.to_nat i) = Some f /\
        fr_size f = fs /\ fr_paddr f = option_map (fun p => p + i * fs) pa).
Proof. exact shared_frames_ok. Qed.
Print Assumptions C21_shared_frames.
(** ... and they add up to exactly the variable, if the frame size divides it. *)
Theorem C21_shared_frames_cover_partial : forall sizes g size fso pa frames fs,
  shared_frames sizes g size fso pa = Ok frames ->
  calc_frame_size sizes size fso = Ok fs -> (fs | size) -> total_size frames = size.
Proof. exact shared_frames_total. Qed.
Print Assumptions C21_shared_frames_cover_partial.
(** The full statement fails: an explicit frame size is not checked against the size. *)
Theorem C21_shared_frames_cover_refuted :
  exists sizes g size fso frames, StronglySorted N.lt sizes /\
    (forall p, In p sizes -> 0 < p) /\ (exists p, In p sizes /\ (p | size)) /\
    shared_frames sizes g size fso None = Ok frames /\ total_size frames < size.
Proof. exact shared_frames_short. Qed.
Print Assumptions C21_shared_frames_cover_refuted.

(** Rounding helpers. *)
Theorem C21_round_up : forall x y, 0 < y ->
  exists r, round_up x y = Ok r /\ (y | r) /\ x <= r /\
    forall m, (y | m) -> x <= m -> r <= m.
Proof. exact round_up_ok. Qed.
Print Assumptions C21_round_up.
Theorem C21_round_down : forall x y, 0 < y ->
  exists r, round_down x y = Ok r /\ (y | r) /\ r <= x /\
    forall m, (y | m) -> m <= x -> m <= r.
Proof. exact round_down_ok. Qed.
Print Assumptions C21_round_down.
Theorem C21_align_page_address : forall k a,
  let p := 2 ^ k in
  (p | align_page_address p a) /\ align_page_address p a <= a /\
  forall m, (p | m) -> m <= a -> m <= align_page_address p a.
Proof. exact align_ok. Qed.
Print Assumptions C21_align_page_address.

Example C21_example : get_page_size [4096; 65536; 2097152] 131072 = 65536 /\
  next_page_multiple 4096 5000 = Ok 8192 /\
  calc_frame_size [4096; 65536; 2097152] 12288 None = Ok 4096 /\
  shared_frames [4096; 65536] "buf" 8192 None (Some 0x10000) =
    Ok [mk_frame "buf_0_obj" 4096 (Some 0x10000); mk_frame "buf_1_obj" 4096 (Some 0x11000)] /\
  StronglySorted N.lt [4096; 65536; 2097152].
Proof. repeat split; try (vm_compute; reflexivity). repeat constructor; lia. Qed.

(** ** C60: the integer type chosen to number methods. *)
(** With [n] methods, the type chosen holds every method index below [n] and is the
    smallest that does. *)
Theorem C60_holds_every_index : forall n w, type_to_fit_integer n = Ok w ->
  (forall i, i < n -> i < 2 ^ w) /\ In w [8; 16; 32; 64] /\
  forall k, In k [8; 16; 32; 64] -> (forall i, i < n -> i < 2 ^ k) -> w <= k.
Proof. exact type_fits. Qed.
Print Assumptions C60_holds_every_index.
(** A type is found exactly for up to 2^64 methods. *)
Theorem C60_found : forall v, (exists w, type_to_fit_integer v = Ok w) <-> v <= 2 ^ 64.
Proof. exact type_none. Qed.
Print Assumptions C60_found.
Example C60_example : type_to_fit_integer 256 = Ok 8 /\ type_to_fit_integer 257 = Ok 16.
Proof. split; reflexivity. Qed.
