(** C82: a fault is shown at the right place of a true picture of the address space. *)
From Coq Require Import String List Bool ZArith Sorted Permutation.
From Verif Require Import Prelude FaultMap_Model FaultMap_Spec FaultMap_Proofs.
Import ListNotations.
Open Scope Z_scope.

(** If no two regions end at the same address and none ends at the last address, all regions are shown
    once from top to bottom, whatever their order in the map, with the gaps between them and with the
    fault in exactly the regions that hold it. *)
Theorem C82_picture_partial : forall w rs rest map address,
  0 < w -> terminated rs rest map -> word_regions w rs -> Forall upright rs ->
  NoDup (List.map r_end rs) -> (forall r, In r rs -> r_end r <> 2 ^ w - 1) ->
  exists order ls, show_fault_location w map address = Ok ls /\ Permutation order rs /\
    StronglySorted higher order /\ picture address None order ls.
Proof. exact picture_ok. Qed.
Print Assumptions C82_picture_partial.

(** Whatever the regions, a picture that is shown names each of them and marks the fault exactly if one
    of them holds its address. *)
Theorem C82_located : forall w rs rest map address ls, 0 < w ->
  terminated rs rest map -> word_regions w rs -> show_fault_location w map address = Ok ls ->
  Permutation (names ls) (List.map r_name rs) /\
  forall a, In (FaultAt a) ls <-> a = address /\ Exists (within address) rs.
Proof. exact located_ok. Qed.
Print Assumptions C82_located.

(** The address shown for a memory fault is the one reported by the kernel, and it is the one looked up
    in the map; a fetch is told from a data access. *)
Theorem C82_address : forall w mr map rep, show_fault w 5 mr map = Ok rep ->
  exists m, rep = MemoryFault (mr 2%nat =? 1) (mr 1%nat) (mr 0%nat) (mr 3%nat) m /\
    match map with
    | None => m = None
    | Some mp => exists ls, m = Some ls /\ show_fault_location w mp (mr 1%nat) = Ok ls
    end.
Proof. exact fault_address. Qed.
Print Assumptions C82_address.

(** For each kind of fault, what is shown is what the kernel sent, in the right places.  (The phase of a
    capability fault is shown for invalid roots only.) *)
Theorem C82_report : forall w f mr map rep, carries mr (snd (message f)) -> small f ->
  show_fault w (fst (message f)) mr map = Ok rep -> reports f rep.
Proof. exact report_ok. Qed.
Print Assumptions C82_report.
Example report_case :
  let f := CapFault 0x10080 12 false (Guard 20 3 7) in
  carries (fun i => nth i (snd (message f)) 99) (snd (message f)) /\ small f /\
  show_fault 32 (fst (message f)) (fun i => nth i (snd (message f)) 99) None =
    Ok (GuardMismatch 20 7 3 0x10080 12).
Proof.
  split; [|split; [split; split; (discriminate || reflexivity)|reflexivity]].
  intros i x E. now apply nth_error_nth.
Qed.
(** Other messages are reported as such. *)
Theorem C82_unknown : forall w lab mr map, c_int lab -> (forall f, fst (message f) <> lab) ->
  show_fault w lab mr map = Ok UnknownMessage.
Proof. exact unknown_ok. Qed.
Print Assumptions C82_unknown.
Example unknown_case : c_int 7 /\ forall f, fst (message f) <> 7.
Proof. split; [split; [discriminate|reflexivity]|]. now intros []. Qed.

(** A map with an inverted region, or with two regions that end at the same address, stops the handler
    at an assertion. *)
Theorem C82_inverted : forall w rs rest map address r, terminated rs rest map -> In r rs -> ~ upright r ->
  show_fault_location w map address = Err AssertionError.
Proof. exact inverted_err. Qed.
Print Assumptions C82_inverted.
Theorem C82_same_end : forall w rs rest map address, 0 < w ->
  terminated rs rest map -> word_regions w rs -> Forall upright rs -> ~ NoDup (List.map r_end rs) ->
  forall ls, show_fault_location w map address <> Ok ls.
Proof. exact same_end_err. Qed.
Print Assumptions C82_same_end.

(** A concrete map, not in order *)
Definition stack := mk_region 0x3000 0x3fff "stack".
Definition ipc := mk_region 0x4000 0x4fff "guard".
Definition code := mk_region 0x1000 0x17ff "code".
Definition none := mk_region 0 0 "".
Example map_case : terminated [stack; code; ipc] [] [stack; code; ipc; none] /\
  word_regions 32 [stack; code; ipc] /\ Forall upright [stack; code; ipc] /\
  NoDup (List.map r_end [stack; code; ipc]) /\
  show_fault_location 32 [stack; code; ipc; none] 0x3010 =
    Ok [Bound 0x4fff; Name "guard"; Bound 0x4000; Name "stack"; FaultAt 0x3010; Bound 0x3000;
        Undescribed; Bound 0x17ff; Name "code"; Bound 0x1000].
Proof.
  split; [|split; [|split; [|split]]].
  - exists none. split; [reflexivity|]. split; [split; reflexivity|].
    repeat constructor; intros [H1 H2]; discriminate.
  - repeat constructor; discriminate.
  - repeat constructor; discriminate.
  - repeat constructor; cbn; intuition discriminate.
  - reflexivity.
Qed.
Example inverted_case : show_fault_location 32 [stack; mk_region 2 1 "x"; none] 0 = Err AssertionError.
Proof. reflexivity. Qed.
Example same_end_case : show_fault_location 32 [stack; mk_region 0x3800 0x3fff "heap"; none] 0 = Err AssertionError.
Proof. reflexivity. Qed.

(** A region up to the last address is shown without that address. *)
Theorem C82_top_refuted : exists w rs rest map address ls,
  0 < w /\ terminated rs rest map /\ word_regions w rs /\ Forall upright rs /\ NoDup (List.map r_end rs) /\
  show_fault_location w map address = Ok ls /\
  ~ exists order, Permutation order rs /\ picture address None order ls.
Proof.
  exists 32, [mk_region 0xfffff000 0xffffffff "kernel"], [], [mk_region 0xfffff000 0xffffffff "kernel"; none], 0.
  eexists. split; [reflexivity|]. split.
  { exists none. split; [reflexivity|]. split; [split; reflexivity|].
    repeat constructor; intros [H1 H2]; discriminate. }
  split; [repeat constructor; discriminate|]. split; [repeat constructor; discriminate|].
  split; [repeat constructor; cbn; intuition discriminate|]. split; [reflexivity|].
  intros [order [Hp Hpic]]. apply Permutation_sym, Permutation_length_1_inv in Hp. subst order.
  inversion Hpic as [|? ? ? ? ? ? Hu Hm Hr]; subst. inversion Hu; subst. discriminate.
Qed.
Print Assumptions C82_top_refuted.

(** Between overlapping regions a gap is shown although every address is described. *)
Theorem C82_overlap_refuted : exists map address ls,
  show_fault_location 32 map address = Ok ls /\ In Undescribed ls /\
  exists rs, terminated rs [] map /\ Forall upright rs /\
    forall a, (exists r1 r2, In r1 rs /\ In r2 rs /\ r_start r1 <= a <= r_end r2) -> Exists (within a) rs.
Proof.
  exists [mk_region 0x1000 0x2fff "data"; mk_region 0x2000 0x3fff "heap"; none], 0. eexists.
  split; [reflexivity|]. split; [cbn; tauto|].
  exists [mk_region 0x1000 0x2fff "data"; mk_region 0x2000 0x3fff "heap"]. split.
  { exists none. split; [reflexivity|]. split; [split; reflexivity|].
    repeat constructor; intros [H1 H2]; discriminate. }
  split; [repeat constructor; discriminate|].
  intros a [r1 [r2 [H1 [H2 H]]]].
  assert (0x1000 <= a <= 0x3fff).
  { cbn in H1, H2. destruct H1 as [<-|[<-|[]]], H2 as [<-|[<-|[]]]; cbn in H;
      (split; [eapply Z.le_trans; [|apply H]|eapply Z.le_trans; [apply H|]]; discriminate). }
  destruct (Z_le_gt_dec a 0x2fff) as [Hle|Hgt].
  - left. split; [apply H0|exact Hle].
  - right. left. split; [|apply H0]. cbn. apply Z.gt_lt in Hgt. apply Z.lt_le_incl.
    eapply Z.lt_trans; [|exact Hgt]. reflexivity.
Qed.
Print Assumptions C82_overlap_refuted.

(** For a capability fault of unknown cause the number shown is not the cause. *)
Theorem C82_cause_refuted : exists w l mr map n pc slot,
  show_fault w l mr map = Ok (UnknownCause n pc slot) /\ 0 <= mr 3%nat < 2 ^ 31 /\ n <> mr 3%nat.
Proof.
  exists 32, 1, (fun _ => 0), None. do 3 eexists. split; [reflexivity|].
  split; [split; [discriminate|reflexivity]|discriminate].
Qed.
Print Assumptions C82_cause_refuted.
