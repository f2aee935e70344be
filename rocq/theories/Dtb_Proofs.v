(** Proofs about device-tree nodes. *)
From Coq Require Import ssreflect ssrbool String List Bool Arith NArith ZArith Lia Sorted.
From Verif Require Import Prelude Pages_Model Pages_Spec Pages_Proofs Dtb_Model Dtb_Spec.
Import ListNotations.
Open Scope list_scope.
Open Scope nat_scope.

Lemma mapM_seq {A B} (f : nat -> res B) (g : A -> B) (l : list A) : forall k,
  (forall i x, nth_error l i = Some x -> f (k + i)%nat = Ok (g x)) ->
  mapM f (seq k (List.length l)) = Ok (map g l).
Proof.
  elim: l => [|x l IH] k H //=.
  have E := H 0%nat x eq_refl. rewrite Nat.add_0_r in E. rewrite E /= (IH (S k)) //.
  move=> i y Hy. have := H (S i) y Hy. by rewrite Nat.add_succ_r.
Qed.
Lemma mapM_seq0 {A B} (f : nat -> res B) (g : A -> B) (l : list A) n :
  n = List.length l -> (forall i x, nth_error l i = Some x -> f i = Ok (g x)) ->
  mapM f (seq 0 n) = Ok (map g l).
Proof. move=> ->. exact: (mapM_seq f g l 0). Qed.

Lemma too_many_room max n : room max n -> too_many max n = false.
Proof. case: max => [m|] // H. cbn [room too_many] in *. apply Nat.ltb_ge. lia. Qed.
Lemma too_many_noroom max n : ~ room max n -> too_many max n = true.
Proof. case: max => [m|] H; last by case: H. cbn [room too_many] in *. apply Nat.ltb_lt. lia. Qed.

(** * Interrupts *)
Lemma flat_length es : List.length (flat_map cells_of es) = (List.length es * 3)%nat.
Proof. elim: es => [|e es IH] //=. by rewrite IH. Qed.
Lemma flat_nth es i e k rest : nth_error es i = Some e -> (k < 3)%nat ->
  nth_error (flat_map cells_of es ++ rest) (i * 3 + k) = nth_error (cells_of e) k.
Proof.
  elim: es i => [|x es IH] [|i] //= H L.
  - move: H => [->]. clear IH. by case: k L => [|[|[|k]]] //=; lia.
  - exact: IH.
Qed.
Lemma get_flat es i e k rest c : nth_error es i = Some e -> (k < 3)%nat ->
  nth_error (cells_of e) k = Some c -> get (flat_map cells_of es ++ rest) (i * 3 + k) = Ok c.
Proof. move=> H L C. by rewrite /get (flat_nth es i e) // C. Qed.

Lemma plain_edge e : plain_flags e -> (i_flags e <? 4)%Z = edge (i_flags e).
Proof. by rewrite /plain_flags => [[->|[->|[->| ->]]]]. Qed.
Lemma land3 z : (Z.land z 3 =? 0)%Z = negb (edge z).
Proof.
  rewrite /edge. 
  have B : Z.land z 3 = (Z.b2z (Z.testbit z 0) + 2 * Z.b2z (Z.testbit z 1))%Z.
  { change 3%Z with (Z.ones 2). rewrite Z.land_ones; first lia.
    rewrite Z.testbit_spec' ?Z.testbit_spec'; try lia.
    have -> : (2 ^ 0 = 1)%Z by []. have -> : (2 ^ 1 = 2)%Z by []. have -> : (2 ^ 2 = 4)%Z by [].
    rewrite Z.div_1_r. have := Z.div_mod z 4. have := Z.div_mod z 2. have := Z.div_mod (z / 2) 2.
    have := Z.mod_pos_bound z 4. have := Z.mod_pos_bound z 2. have := Z.mod_pos_bound (z / 2) 2.
    lia. }
  rewrite B. by case: (Z.testbit z 0); case: (Z.testbit z 1).
Qed.

Lemma arm_step_flat es i e rest ctl ext : nth_error es i = Some e -> plain_flags e ->
  ext = List.length ctl -> (ext <= 1)%nat ->
  arm_step (Nat.eqb ext 1) (ctl ++ flat_map cells_of es ++ rest) i = Ok (describes true e).
Proof.
  move=> H P -> L. rewrite /arm_step.
  have G : forall k c, (k < 3)%nat -> nth_error (cells_of e) k = Some c ->
    get (ctl ++ flat_map cells_of es ++ rest)
        (i * 3 + k + (if Nat.eqb (List.length ctl) 1 then 1 else 0))%nat = Ok c.
  { move=> k c Lk C. rewrite -(get_flat es i e k rest c H Lk C) /get.
    case: ctl L => [|x [|y ctl]] /=; try lia; move=> _.
    - by rewrite Nat.add_0_r.
    - by rewrite Nat.add_1_r. }
  rewrite (G 2 (CInt (i_flags e)) ltac:(lia) eq_refl). cbn [bind].
  rewrite (G 1 (CInt (i_id e)) ltac:(lia) eq_refl). cbn [bind].
  rewrite (G 0 (CInt (i_type e)) ltac:(lia) eq_refl). cbn [bind].
  rewrite /describes -(plain_edge e P) /=.
  case: Z.eqb_spec => E; first by rewrite E.
  by case: (i_type e) E.
Qed.

Lemma arm_list es max : Forall plain_flags es -> room max (List.length es) ->
  parse_interrupts true (mk_inode (Some (flat_map cells_of es)) None) max =
  Ok (map (describes true) es).
Proof.
  move=> P R. rewrite /parse_interrupts /= /parse_arm flat_length Nat.div_mul // too_many_room //.
  apply: mapM_seq0 => // i e H.
  have := arm_step_flat es i e [] [] 0 H _ eq_refl (Nat.le_0_l _). rewrite app_nil_r. apply.
  by move/Forall_forall: P => /(_ e (nth_error_In _ _ H)).
Qed.
Lemma arm_extended ctl e max : plain_flags e -> room max 1 ->
  parse_interrupts true (mk_inode None (Some (ctl :: cells_of e))) max = Ok [describes true e].
Proof.
  move=> P R. rewrite /parse_interrupts /parse_arm. cbn [interrupts interrupts_extended].
  have -> : Nat.div (List.length (ctl :: cells_of e)) 4 = 1%nat by [].
  rewrite too_many_room //. cbn [seq mapM].
  have := arm_step_flat [e] 0 e [] [ctl] 1 eq_refl P eq_refl (Nat.le_refl _).
  rewrite /= => ->. by [].
Qed.

Lemma generic_list es max : (0 < List.length es)%nat -> room max (List.length es) ->
  parse_interrupts false (mk_inode (Some (flat_map cells_of es)) None) max =
  Ok (map (describes false) es).
Proof.
  move=> N R. rewrite /parse_interrupts /parse_generic. cbn [interrupts]. rewrite flat_length.
  have -> : Nat.ltb (List.length es * 3) 3 = false by apply/Nat.ltb_ge; lia.
  rewrite Nat.mod_mul // Nat.div_mul //. cbn [Nat.eqb negb]. rewrite too_many_room //.
  apply: mapM_seq0 => // i e H. rewrite /generic_step /parse_int. cbn [Nat.eqb].
  rewrite -(app_nil_r (flat_map cells_of es)).
  rewrite (get_flat es i e 1 [] (CInt (i_id e)) H ltac:(lia) eq_refl). cbn [bind].
  rewrite (get_flat es i e 2 [] (CInt (i_flags e)) H ltac:(lia) eq_refl). cbn [bind].
  rewrite (get_flat es i e 0 [] (CInt (i_type e)) H ltac:(lia) eq_refl). cbn [bind].
  rewrite /describes land3 /=. by case: (edge _).
Qed.
Lemma generic_extended ctl es max : (0 < List.length es)%nat -> room max (List.length es) ->
  parse_interrupts false (mk_inode None (Some (ctl :: flat_map cells_of es))) max =
  Ok (map (describes false) es).
Proof.
  move=> N R. rewrite -(generic_list es max N R) /parse_interrupts /parse_generic.
  cbn [interrupts interrupts_extended tl].
  have -> : Nat.ltb 1 (List.length (ctl :: flat_map cells_of es)) = true; last by [].
  apply/Nat.ltb_lt. cbn [List.length]. rewrite flat_length. lia.
Qed.
Lemma generic_short zs max : (List.length zs < 3)%nat -> room max (List.length zs) ->
  parse_interrupts false (mk_inode (Some (map CInt zs)) None) max =
  Ok (map (fun z => mk_descr (CInt z) 1) zs).
Proof.
  move=> L R. rewrite /parse_interrupts /parse_generic. cbn [interrupts]. rewrite map_length.
  rewrite (proj2 (Nat.ltb_lt _ _) L) Nat.mod_1_r Nat.div_1_r. cbn [Nat.eqb negb].
  rewrite too_many_room //. apply: mapM_seq0 => // i z H.
  rewrite /generic_step /parse_int /get. cbn [Nat.eqb].
  by rewrite (map_nth_error _ _ _ H).
Qed.
Lemma generic_remainder l max : (3 <= List.length l)%nat -> Nat.modulo (List.length l) 3 <> 0%nat ->
  parse_interrupts false (mk_inode (Some l) None) max = Err TemplateError.
Proof.
  move=> L M. rewrite /parse_interrupts /parse_generic. cbn [interrupts].
  have -> : Nat.ltb (List.length l) 3 = false by apply/Nat.ltb_ge.
  by rewrite (proj2 (Nat.eqb_neq _ _) M).
Qed.
Lemma overfull arm es max : (0 < List.length es)%nat -> ~ room max (List.length es) ->
  exists x, parse_interrupts arm (mk_inode (Some (flat_map cells_of es)) None) max = Err x.
Proof.
  move=> N R. rewrite /parse_interrupts /parse_arm /parse_generic. cbn [interrupts].
  case: arm; rewrite flat_length.
  - rewrite Nat.div_mul // too_many_noroom //. by eexists.
  - have -> : Nat.ltb (List.length es * 3) 3 = false by apply/Nat.ltb_ge; lia.
    rewrite Nat.mod_mul // Nat.div_mul //. cbn [Nat.eqb negb]. rewrite too_many_noroom //. by eexists.
Qed.

(** What the other encodings are taken for. *)
Lemma arm_extended_two c1 e1 c2 e2 : plain_flags e1 ->
  parse_interrupts true (mk_inode None (Some (CInt c1 :: cells_of e1 ++ CInt c2 :: cells_of e2))) None =
  Ok [describes true e1; mk_descr (CInt (if (c2 =? 0)%Z then i_type e2 + 32 else i_type e2)%Z)
                                  (if (i_id e2 <? 4)%Z then 1%Z else 0%Z)].
Proof.
  move=> P. rewrite /describes -(plain_edge e1 P).
  rewrite /parse_interrupts /parse_arm /= /arm_step /=.
  case: (Z.eqb_spec (i_type e1) 0) => [-> | E1] /=.
  - case: (Z.eqb_spec c2 0) => [-> | E2] //=. by case: c2 E2.
  - have -> : match i_type e1 with 0%Z => Ok (CInt (i_id e1 + 32)) | _ => Ok (CInt (i_id e1)) end
              = Ok (CInt (i_id e1)) by case: (i_type e1) E1.
    cbn. case: (Z.eqb_spec c2 0) => [-> | E2] //=. by case: c2 E2.
Qed.
Lemma arm_trailing es rest max : Forall plain_flags es -> room max (List.length es) ->
  (List.length rest < 3)%nat ->
  parse_interrupts true (mk_inode (Some (flat_map cells_of es ++ rest)) None) max =
  Ok (map (describes true) es).
Proof.
  move=> P R L. rewrite /parse_interrupts /= /parse_arm app_length flat_length.
  have -> : Nat.div (List.length es * 3 + List.length rest) 3 = List.length es.
  { rewrite Nat.div_add_l // Nat.div_small //. }
  rewrite too_many_room //. apply: mapM_seq0 => // i e H.
  apply: (arm_step_flat es i e rest [] 0) => //; last lia.
  by move/Forall_forall: P => /(_ e (nth_error_In _ _ H)).
Qed.
Lemma arm_mask_wrong : exists e, edge (i_flags e) = true /\
  parse_interrupts true (mk_inode (Some (cells_of e)) None) None =
  Ok [mk_descr (CInt (i_id e)) 0].
Proof. by exists (mk_irq 1 9 0xf01). Qed.
Lemma generic_three_wrong a b c : parse_interrupts false (mk_inode (Some [CInt a; CInt b; CInt c]) None) None =
  Ok [mk_descr (CInt b) (if edge c then 1 else 0)%Z].
Proof. rewrite /parse_interrupts /= /parse_generic /= /generic_step /= land3. by case: (edge c). Qed.
Lemma generic_pair_wrong a f : parse_interrupts false (mk_inode (Some [CInt a; CInt f]) None) None =
  Ok [mk_descr (CInt a) 1; mk_descr (CInt f) 1].
Proof. by []. Qed.

(** * Registers *)
Open Scope N_scope.
Lemma big_endian_acc l v : fold_left (fun v c => v * 2 ^ 32 + c) l v =
  v * 2 ^ (32 * N.of_nat (List.length l)) + big_endian l.
Proof.
  rewrite /big_endian. elim: l v => [|c l IH] v.
  - cbn [fold_left List.length]. by rewrite N.mul_0_r N.pow_0_r N.mul_1_r N.add_0_r.
  - cbn [fold_left]. rewrite (IH (v * _ + c)) (IH (0 * _ + c)).
    have -> : 32 * N.of_nat (List.length (c :: l)) = 32 + 32 * N.of_nat (List.length l)
      by cbn [List.length]; lia.
    rewrite N.pow_add_r. lia.
Qed.
Lemma big_endian_cons c l : big_endian (c :: l) = c * 2 ^ (32 * N.of_nat (List.length l)) + big_endian l.
Proof. by rewrite {1}/big_endian; cbn [fold_left]; rewrite big_endian_acc. Qed.

Lemma foldM_snoc {A B} (f : A -> B -> res A) l x a :
  foldM f (l ++ [x]) a = (y <- foldM f l a ;; f y x).
Proof. elim: l a => [|b l IH] a //=; first by case: (f a x). by case: (f a b) => //=. Qed.
Lemma skipn_nth {A} (l : list A) m c : nth_error l m = Some c -> skipn m l = c :: skipn (S m) l.
Proof. elim: l m => [|y l IHl] [|m] //; first by move=> [->]. exact: IHl. Qed.
Lemma combine_ok pre l post n : n = List.length l ->
  combine_cells (pre ++ l ++ post) (List.length pre) n = Ok (big_endian l).
Proof.
  move=> E. rewrite /combine_cells.
  have H : forall k, (k <= n)%nat ->
    foldM (fun acc j => c <- get (pre ++ l ++ post) (List.length pre + (n - 1 - j))%nat ;;
                        Ok (acc + N.shiftl c (N.of_nat (j * 32)))) (seq 0 k) 0 =
    Ok (big_endian (skipn (n - k) l)).
  { elim=> [|k IH] L.
    - rewrite Nat.sub_0_r E skipn_all. by [].
    - rewrite seq_S foldM_snoc IH; first lia. cbn [bind Nat.add].
      have [c Hc] : exists c, nth_error l (n - 1 - k) = Some c.
      { case D: (nth_error l (n - 1 - k)) => [c|]; first by exists c.
        move/nth_error_None: D. lia. }
      have -> : get (pre ++ l ++ post) (List.length pre + (n - 1 - k)) = Ok c.
      { rewrite /get nth_error_app2; first lia.
        rewrite nth_error_app1; first (rewrite -E; lia).
        have -> : (List.length pre + (n - 1 - k) - List.length pre = n - 1 - k)%nat by lia.
        by rewrite Hc. }
      cbn [bind].
      have SK : skipn (n - S k) l = c :: skipn (n - k) l.
      { have -> : (n - S k = n - 1 - k)%nat by lia. have -> : (n - k = S (n - 1 - k))%nat by lia.
        exact: skipn_nth. }
      rewrite SK big_endian_cons N.shiftl_mul_pow2 skipn_length -E.
      have -> : N.of_nat (k * 32) = 32 * N.of_nat (n - (n - k)) by lia.
      f_equal. lia. }
  rewrite H //. by rewrite Nat.sub_diag.
Qed.

Lemma regs_split rs a s i r rest : Forall (fun r => List.length (fst r) = a /\ List.length (snd r) = s) rs ->
  nth_error rs i = Some r -> exists pre post,
    flat_map reg_cells rs ++ rest = pre ++ (fst r ++ snd r) ++ post /\ List.length pre = (i * (a + s))%nat.
Proof.
  elim: rs i => [|x rs IH] [|i] //= F H; inversion F as [|? ? [Fa Fs] F']; subst.
  - move: H => [->]. exists [], (flat_map reg_cells rs ++ rest). by rewrite -app_assoc.
  - have [pre [post [E L]]] := IH i F' H. exists (reg_cells x ++ pre), post.
    rewrite -app_assoc E -!app_assoc. split=> //. rewrite !app_length L. lia.
Qed.
Lemma regs_length rs a s : Forall (fun r => List.length (fst r) = a /\ List.length (snd r) = s) rs ->
  List.length (flat_map reg_cells rs) = (List.length rs * (a + s))%nat.
Proof.
  elim: rs => [|x rs IH] // F. inversion F as [|? ? [Fa Fs] F']; subst.
  cbn [flat_map]. rewrite app_length (IH F') /reg_cells app_length. cbn [List.length]. lia.
Qed.
Lemma parse_reg_ok p0 rs a s rest : (0 < s)%nat ->
  Forall (fun r => List.length (fst r) = a /\ List.length (snd r) = s) rs ->
  (List.length rest < a + s)%nat ->
  parse_reg p0 (Some (flat_map reg_cells rs ++ rest)) a s =
  Ok (map (fun r => (align_page_address p0 (big_endian (fst r)), big_endian (snd r))) rs).
Proof.
  move=> S F L. rewrite /parse_reg (proj2 (Nat.eqb_neq _ _)); first lia.
  rewrite app_length (regs_length _ _ _ F) Nat.div_add_l; first lia.
  rewrite Nat.div_small // Nat.add_0_r. apply: mapM_seq0 => // i r H.
  have [pre [post [-> E]]] := regs_split _ _ _ _ _ rest F H.
  move/Forall_forall: F => /(_ r (nth_error_In _ _ H)) [Fa Fs].
  rewrite -E -app_assoc (combine_ok pre (fst r) (snd r ++ post)) //=.
  rewrite app_assoc -Fa -app_length (combine_ok (pre ++ fst r) (snd r) post) //.
Qed.
Lemma parse_reg_zero p0 regs a : parse_reg p0 (Some regs) a 0 = Err TemplateError.
Proof. by []. Qed.

(** * Mapping *)
Lemma align_id k a : (2 ^ k | a) -> align_page_address (2 ^ k) a = a.
Proof.
  move=> [q ->]. rewrite /align_page_address. have -> : 2 ^ k - 1 = N.ones k by rewrite N.ones_equiv; lia.
  rewrite N.ldiff_ones_r N.shiftr_div_pow2 N.shiftl_mul_pow2 N.div_mul //. exact: N.pow_nonzero.
Qed.
Lemma map_region_ok sizes name p size : StronglySorted N.lt sizes ->
  (forall p, In p sizes -> 0 < p) -> In 4096 sizes ->
  exists fs, map_region 4096 sizes name (p, size) = Ok fs /\ covers fs p (p + size) /\
    Forall (fun f => In (fr_size f) sizes) fs.
Proof.
  move=> S P I. rewrite /map_region. cbn [fst snd].
  have [n [-> [L _]]] := next_page_multiple_ok 4096 size. cbn [bind].
  have [H1 H2] := get_page_size_some sizes (4096 + n * 4096) S P.
  case: N.eqb_spec => Z.
  { exfalso. apply: (H2 Z 4096 I); first lia. exists (1 + n). lia. }
  have [I' [_ [D _]]] := H1 Z. move: D (Z) I'. set g := get_page_size _ _. move=> D Zg I'.
  rewrite /shared_frames /calc_frame_size (proj2 (N.eqb_neq _ _) Zg) (proj2 (N.eqb_neq _ _) Zg).
  cbn [bind]. eexists. split; first reflexivity. split; last first.
  { apply/Forall_forall => f /in_map_iff [i [<- _]]. exact: I'. }
  move=> x Hx. have [q Eq] := D. 
  have Lx : (x - p) / g < (4096 + n * 4096) / g.
  { rewrite Eq N.div_mul //. apply: N.div_lt_upper_bound => //. lia. }
  exists (mk_frame (frame_name name (digits_of ((4096 + n * 4096) / g)) ((x - p) / g)) g
            (Some (p + (x - p) / g * g))), (p + (x - p) / g * g).
  split; last split=> //.
  - apply/in_map_iff. exists ((x - p) / g). split=> //.
    rewrite /nseq. apply/in_map_iff. exists (N.to_nat ((x - p) / g)). rewrite N2Nat.id. split=> //.
    apply/in_seq. move: ((x - p) / g) (_ / g) Lx => u v. clear. lia.
  - cbn [fr_size]. have := N.div_mod (x - p) g Zg. have := N.mod_lt (x - p) g Zg.
    move: ((x - p) / g) ((x - p) mod g) (Hx) => u v [Hx1 _] Lv Ex. have Ep : x = p + (g * u + v) by lia.
    rewrite Ep. clear -Lv. lia.
Qed.

Lemma combine_seq_nth {A} (l : list A) k i x : nth_error l i = Some x ->
  nth_error (List.combine (seq k (List.length l)) l) i = Some ((k + i)%nat, x).
Proof.
  elim: l k i => [|y l IH] k [|i] //=; first by case=> ->; rewrite Nat.add_0_r.
  move=> H. by rewrite (IH (S k) i H) Nat.add_succ_r.
Qed.
Lemma mapM_total {A B} (f : A -> res B) l (P : A -> B -> Prop) :
  (forall x, In x l -> exists y, f x = Ok y /\ P x y) ->
  exists r, mapM f l = Ok r /\ Forall2 P l r.
Proof.
  elim: l => [|x l IH] H; first by exists []; split.
  have [y [E Q]] := H x (or_introl eq_refl). have [r [Er Fr]] := IH (fun z Hz => H z (or_intror Hz)).
  exists (y :: r). rewrite /= E /= Er. by split=> //; constructor.
Qed.
Lemma Forall2_nth {A B} (P : A -> B -> Prop) l r i x y : Forall2 P l r ->
  nth_error l i = Some x -> nth_error r i = Some y -> P x y.
Proof.
  move=> F. elim: F i => [|a b l' r' Hab _ IH] [|i] //=; first by move=> [<-] [<-].
  exact: IH.
Qed.
Lemma Forall2_len {A B} (P : A -> B -> Prop) l r : Forall2 P l r -> List.length l = List.length r.
Proof. by elim=> //= ? ? ? ? _ _ ->. Qed.
Lemma registers_mapped sizes name rs a s rest : (0 < s)%nat ->
  Forall (fun r => List.length (fst r) = a /\ List.length (snd r) = s) rs ->
  (List.length rest < a + s)%nat ->
  StronglySorted N.lt sizes -> (forall p, In p sizes -> 0 < p) -> In 4096 sizes ->
  Forall (fun r => (4096 | big_endian (fst r))) rs ->
  exists maps, map_registers 4096 sizes name (Some (flat_map reg_cells rs ++ rest)) a s = Ok maps /\
    List.length maps = List.length rs /\
    forall i r fs, nth_error rs i = Some r -> nth_error maps i = Some fs ->
      covers fs (big_endian (fst r)) (big_endian (fst r) + big_endian (snd r)).
Proof.
  move=> S0 F L S P I A. rewrite /map_registers parse_reg_ok //. cbn [bind].
  set l := map _ rs.
  have [m [Em Fm]] : exists m,
    mapM (fun ir => map_region 4096 sizes (name (fst ir)) (snd ir)) (List.combine (seq 0 (List.length l)) l)
    = Ok m /\ Forall2 (fun ir fs => covers fs (fst (snd ir)) (fst (snd ir) + snd (snd ir)))
              (List.combine (seq 0 (List.length l)) l) m.
  { apply: mapM_total => [[i [p z]]] _. have [fs [E [C _]]] := map_region_ok sizes (name i) p z S P I.
    by exists fs. }
  exists m. rewrite Em. split=> //. split.
  - have := Forall2_len _ _ _ Fm. rewrite combine_length seq_length Nat.min_id /l map_length. lia.
  - move=> i r fs Hr Hf.
    have Hl : nth_error l i = Some (align_page_address 4096 (big_endian (fst r)), big_endian (snd r))
      by rewrite /l (map_nth_error _ _ _ Hr).
    have := Forall2_nth _ _ _ _ _ _ Fm (combine_seq_nth l 0 i _ Hl) Hf. cbn [fst snd].
    change 4096 with (2 ^ 12). rewrite align_id //.
    by move/Forall_forall: A => /(_ r (nth_error_In _ _ Hr)).
Qed.

Lemma misaligned_lost : exists sizes rs maps, 
  StronglySorted N.lt sizes /\ In 4096 sizes /\
  map_registers 4096 sizes (fun _ => ""%string) (Some (flat_map reg_cells rs)) 1 1 = Ok maps /\
  exists r fs, nth_error rs 0 = Some r /\ nth_error maps 0 = Some fs /\
    ~ covers fs (big_endian (fst r)) (big_endian (fst r) + big_endian (snd r)).
Proof.
  exists [4096], [([2048], [4096])]. eexists. split; first by repeat constructor.
  split; first by left. split; first by vm_compute; reflexivity.
  do 2 eexists. split; first reflexivity. split; first reflexivity.
  move=> C. have [|f [p [Hf [Hp Hx]]]] := C 4096; first by vm_compute.
  case: Hf => [E|[]]. subst f. cbn in Hp. move: Hp => [Hp]. subst p. vm_compute in Hx. by case: Hx.
Qed.
Lemma misaligned_frame : exists sizes rs maps, 
  StronglySorted N.lt sizes /\ In 4096 sizes /\
  map_registers 4096 sizes (fun _ => ""%string) (Some (flat_map reg_cells rs)) 1 1 = Ok maps /\
  Forall (fun r => (4096 | big_endian (fst r))) rs /\
  exists fs f p, In fs maps /\ In f fs /\ fr_paddr f = Some p /\ ~ (fr_size f | p).
Proof.
  exists [4096; 2097152], [([4096], [2097152])]. eexists. split; first by repeat constructor.
  split; first by left. split; first by vm_compute; reflexivity.
  split. { constructor=> //. by exists 1. }
  do 3 eexists. split; first by left; reflexivity. split; first by left; reflexivity.
  split; first by reflexivity. cbn [fr_size]. move=> /N.mod_divide => H. by have := H ltac:(done).
Qed.

(** Rounding down to a page. *)
Lemma align_down k x : align_page_address (2 ^ k) x = x - x mod 2 ^ k.
Proof.
  rewrite /align_page_address N.sub_1_r -N.ones_equiv N.ldiff_ones_r N.shiftl_mul_pow2 N.shiftr_div_pow2.
  have H := N.div_mod x (2 ^ k) ltac:(by apply: N.pow_nonzero). rewrite N.mul_comm.
  move: H. move: (2 ^ k * (x / 2 ^ k)) (x mod 2 ^ k) => q r H. lia.
Qed.
Lemma regions k rs a s rest : (0 < s)%nat ->
  Forall (fun r => List.length (fst r) = a /\ List.length (snd r) = s) rs ->
  (List.length rest < a + s)%nat ->
  parse_reg (2 ^ k) (Some (flat_map reg_cells rs ++ rest)) a s =
  Ok (map (fun r => (big_endian (fst r) - big_endian (fst r) mod 2 ^ k, big_endian (snd r))) rs).
Proof.
  move=> S F L. rewrite (parse_reg_ok _ _ _ _ _ S F L). f_equal. apply: map_ext => r.
  by rewrite align_down.
Qed.
Lemma no_properties arm max : parse_interrupts arm (mk_inode None None) max = Ok [].
Proof. by []. Qed.
Lemma both_properties arm l x max :
  parse_interrupts arm (mk_inode (Some l) (Some x)) max = parse_interrupts arm (mk_inode (Some l) None) max.
Proof. by []. Qed.
Lemma absent_reg p0 a s : parse_reg p0 None a s = Ok [].
Proof. by []. Qed.
