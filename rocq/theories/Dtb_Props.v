(** C50: interrupt lists of device-tree nodes.  C59: mapping of device registers. *)
From Coq Require Import String List Bool Arith NArith ZArith Sorted.
From Verif Require Import Prelude Pages_Model Dtb_Model Dtb_Spec Dtb_Proofs.
Import ListNotations.

(** On ARM a list of three-cell interrupts gives one descriptor each, in order, with the
    right number and trigger.  Missing: flags with a CPU mask (see below). *)
Theorem C50_arm_partial es max : Forall plain_flags es -> room max (List.length es) ->
  parse_interrupts true (mk_inode (Some (flat_map cells_of es)) None) max =
  Ok (map (describes true) es).
Proof. exact (arm_list es max). Qed.
Print Assumptions C50_arm_partial.

(** The extended form: one interrupt.  Missing: more than one (see below). *)
Theorem C50_arm_extended_partial ctl e max : plain_flags e -> room max 1%nat ->
  parse_interrupts true (mk_inode None (Some (ctl :: cells_of e))) max = Ok [describes true e].
Proof. exact (arm_extended ctl e max). Qed.
Print Assumptions C50_arm_extended_partial.

(** Elsewhere: lists of three-cell interrupts with any flags, also behind one controller
    reference, and lists of one or two one-cell interrupts. *)
Theorem C50_generic es max : (0 < List.length es)%nat -> room max (List.length es) ->
  parse_interrupts false (mk_inode (Some (flat_map cells_of es)) None) max =
  Ok (map (describes false) es).
Proof. exact (generic_list es max). Qed.
Print Assumptions C50_generic.
Theorem C50_generic_extended ctl es max : (0 < List.length es)%nat -> room max (List.length es) ->
  parse_interrupts false (mk_inode None (Some (ctl :: flat_map cells_of es))) max =
  Ok (map (describes false) es).
Proof. exact (generic_extended ctl es max). Qed.
Print Assumptions C50_generic_extended.
Theorem C50_generic_short zs max : (List.length zs < 3)%nat -> room max (List.length zs) ->
  parse_interrupts false (mk_inode (Some (map CInt zs)) None) max =
  Ok (map (fun z => mk_descr (CInt z) 1) zs).
Proof. exact (generic_short zs max). Qed.
Print Assumptions C50_generic_short.

Example C50_example :
  let es := [mk_irq 0 73 4; mk_irq 1 9 1] in
  Forall plain_flags es /\ room (Some 28%nat) (List.length es) /\
  map (describes true) es = [mk_descr (CInt 105) 0; mk_descr (CInt 9) 1] /\
  map (describes false) es = [mk_descr (CInt 73) 0; mk_descr (CInt 9) 1].
Proof.
  cbn. split; [|repeat split].
  - constructor; [right; right; left; reflexivity|]. constructor; [left; reflexivity|constructor].
  - repeat constructor.
Qed.

(** More interrupts than supported are refused, not dropped; and outside ARM a list whose
    length is not a multiple of three is refused. *)
Theorem C50_too_many arm es max : (0 < List.length es)%nat -> ~ room max (List.length es) ->
  exists x, parse_interrupts arm (mk_inode (Some (flat_map cells_of es)) None) max = Err x.
Proof. exact (overfull arm es max). Qed.
Print Assumptions C50_too_many.
Theorem C50_remainder l max : (3 <= List.length l)%nat -> Nat.modulo (List.length l) 3 <> 0%nat ->
  parse_interrupts false (mk_inode (Some l) None) max = Err TemplateError.
Proof. exact (generic_remainder l max). Qed.
Print Assumptions C50_remainder.
Example C50_too_many_example : ~ room (Some 1%nat) 2%nat /\ Nat.modulo 4 3 <> 0%nat.
Proof. cbn. split; [intro H; inversion H as [|? H0]; inversion H0|discriminate]. Qed.

(** A node with neither property has no interrupts. *)
Theorem C50_none arm max : parse_interrupts arm (mk_inode None None) max = Ok [].
Proof. exact (no_properties arm max). Qed.
Print Assumptions C50_none.
(** Finding: the device-tree specification gives the extended property precedence; here it
    is ignored as soon as the plain one is present. *)
Theorem C50_both_refuted arm l x max :
  parse_interrupts arm (mk_inode (Some l) (Some x)) max =
  parse_interrupts arm (mk_inode (Some l) None) max.
Proof. exact (both_properties arm l x max). Qed.
Print Assumptions C50_both_refuted.

(** Finding: on ARM two interrupts in the extended form are misread: the second descriptor
    has the second interrupt's type as its number. *)
Theorem C50_arm_extended_refuted c1 e1 c2 e2 : plain_flags e1 ->
  parse_interrupts true (mk_inode None (Some (CInt c1 :: cells_of e1 ++ CInt c2 :: cells_of e2))) None =
  Ok [describes true e1; mk_descr (CInt (if (c2 =? 0)%Z then i_type e2 + 32 else i_type e2)%Z)
                                  (if (i_id e2 <? 4)%Z then 1%Z else 0%Z)].
Proof. exact (arm_extended_two c1 e1 c2 e2). Qed.
Print Assumptions C50_arm_extended_refuted.
(** Finding: on ARM cells left over are ignored. *)
Theorem C50_arm_malformed_refuted es rest max : Forall plain_flags es ->
  room max (List.length es) -> (List.length rest < 3)%nat ->
  parse_interrupts true (mk_inode (Some (flat_map cells_of es ++ rest)) None) max =
  Ok (map (describes true) es).
Proof. exact (arm_trailing es rest max). Qed.
Print Assumptions C50_arm_malformed_refuted.
(** Finding: on ARM an edge-triggered interrupt whose flags carry a CPU mask is reported as
    level-triggered. *)
Theorem C50_arm_mask_refuted : exists e, edge (i_flags e) = true /\
  parse_interrupts true (mk_inode (Some (cells_of e)) None) None =
  Ok [mk_descr (CInt (i_id e)) 0].
Proof. exact arm_mask_wrong. Qed.
Print Assumptions C50_arm_mask_refuted.
(** Finding: outside ARM three one-cell interrupts are read as one interrupt, and a two-cell
    interrupt (number, flags) as two interrupts. *)
Theorem C50_three_refuted a b c :
  parse_interrupts false (mk_inode (Some [CInt a; CInt b; CInt c]) None) None =
  Ok [mk_descr (CInt b) (if edge c then 1 else 0)%Z].
Proof. exact (generic_three_wrong a b c). Qed.
Print Assumptions C50_three_refuted.
Theorem C50_pair_refuted a f :
  parse_interrupts false (mk_inode (Some [CInt a; CInt f]) None) None =
  Ok [mk_descr (CInt a) 1; mk_descr (CInt f) 1].
Proof. exact (generic_pair_wrong a f). Qed.
Print Assumptions C50_pair_refuted.

Open Scope N_scope.

(** The regions of a node are its cells taken in turn, address then size, most significant
    cell first; the address is rounded down to a page. *)
Theorem C59_regions k rs a s rest : (0 < s)%nat ->
  Forall (fun r => List.length (fst r) = a /\ List.length (snd r) = s) rs ->
  (List.length rest < a + s)%nat ->
  parse_reg (2 ^ k) (Some (flat_map reg_cells rs ++ rest)) a s =
  Ok (map (fun r => (big_endian (fst r) - big_endian (fst r) mod 2 ^ k, big_endian (snd r))) rs).
Proof. exact (regions k rs a s rest). Qed.
Print Assumptions C59_regions.
(** A node without registers has none. *)
Theorem C59_absent p0 a s : parse_reg p0 None a s = Ok [].
Proof. exact (absent_reg p0 a s). Qed.
Print Assumptions C59_absent.
(** A node without size cells is refused. *)
Theorem C59_no_size p0 regs a : parse_reg p0 (Some regs) a 0 = Err TemplateError.
Proof. exact (parse_reg_zero p0 regs a). Qed.
Print Assumptions C59_no_size.

(** Every register region that starts on a page is covered by the frames mapped for it, on
    any machine whose page sizes include 4096.  Missing: other regions (see below). *)
Theorem C59_covered_partial sizes name rs a s rest : (0 < s)%nat ->
  Forall (fun r => List.length (fst r) = a /\ List.length (snd r) = s) rs ->
  (List.length rest < a + s)%nat ->
  StronglySorted N.lt sizes -> (forall p, In p sizes -> 0 < p) -> In 4096 sizes ->
  Forall (fun r => (4096 | big_endian (fst r))) rs ->
  exists maps, map_registers 4096 sizes name (Some (flat_map reg_cells rs ++ rest)) a s = Ok maps /\
    List.length maps = List.length rs /\
    forall i r fs, nth_error rs i = Some r -> nth_error maps i = Some fs ->
      covers fs (big_endian (fst r)) (big_endian (fst r) + big_endian (snd r)).
Proof. exact (registers_mapped sizes name rs a s rest). Qed.
Print Assumptions C59_covered_partial.
Example C59_example :
  let rs := [([1; 4096], [8192]); ([0; 65536], [100])] in
  Forall (fun r => List.length (fst r) = 2%nat /\ List.length (snd r) = 1%nat) rs /\
  Forall (fun r => (4096 | big_endian (fst r))) rs /\
  map (fun r => big_endian (fst r)) rs = [4294971392; 65536].
Proof.
  cbn zeta. split; [repeat constructor|split; [|reflexivity]].
  constructor; [exists 1048577; reflexivity|]. constructor; [exists 16; reflexivity|constructor].
Qed.

(** Finding: the address is rounded down but the size is not enlarged, so the end of a
    region that does not start on a page may not be mapped. *)
Theorem C59_misaligned_refuted : exists sizes rs maps,
  StronglySorted N.lt sizes /\ In 4096 sizes /\
  map_registers 4096 sizes (fun _ => ""%string) (Some (flat_map reg_cells rs)) 1 1 = Ok maps /\
  exists r fs, nth_error rs 0 = Some r /\ nth_error maps 0 = Some fs /\
    ~ covers fs (big_endian (fst r)) (big_endian (fst r) + big_endian (snd r)).
Proof. exact misaligned_lost. Qed.
Print Assumptions C59_misaligned_refuted.
(** Finding: the page size is chosen by the size of the region alone, so large frames may
    be placed at addresses that are not multiples of their size. *)
Theorem C59_frame_alignment_refuted : exists sizes rs maps,
  StronglySorted N.lt sizes /\ In 4096 sizes /\
  map_registers 4096 sizes (fun _ => ""%string) (Some (flat_map reg_cells rs)) 1 1 = Ok maps /\
  Forall (fun r => (4096 | big_endian (fst r))) rs /\
  exists fs f p, In fs maps /\ In f fs /\ fr_paddr f = Some p /\ ~ (fr_size f | p).
Proof. exact misaligned_frame. Qed.
Print Assumptions C59_frame_alignment_refuted.
