(** Proofs about the simple interface: the enumeration and the lookups. *)
From Coq Require Import ZArith NArith List Bool Lia PeanoNat.
From Coq Require Import ssreflect ssrbool.
From Verif Require Import Prelude Simple_Model Simple_Spec Simple_Proofs.
Import ListNotations.
Open Scope N_scope.

(** ** The switch *)
Definition covers (start : nat) (ls : list case_label) (L : list N) : Prop :=
  forall n rest, switch (ls ++ rest) n =
    if ((Z.of_nat start <=? n) && (n <? Z.of_nat (start + List.length L)))%Z then nth_error L (Z.to_nat n - start) else switch rest n.
Lemma covers_nil start : covers start [] [].
Proof. move=> n rest /=. case: Z.leb_spec => //= A. case: Z.ltb_spec => //. lia. Qed.
Lemma covers_app start a b L L' : covers start a L -> covers (start + List.length L) b L' -> covers start (a ++ b) (L ++ L').
Proof.
  move=> A B n rest. rewrite -app_assoc A B app_length.
  case: (Z.leb_spec (Z.of_nat start) n) => X /=; last first. { case: Z.leb_spec => //= ?. lia. }
  case: (Z.ltb_spec n (Z.of_nat (start + List.length L))) => Y /=.
  - have ->: (n <? Z.of_nat (start + (List.length L + List.length L')))%Z by apply/Z.ltb_lt; lia.
    rewrite nth_error_app1 //. lia.
  - have ->: (Z.of_nat (start + List.length L) <=? n)%Z by apply/Z.leb_le; lia.
    have ->: (start + List.length L + List.length L' = start + (List.length L + List.length L'))%nat by lia.
    case: Z.ltb_spec => Z //=. rewrite nth_error_app2; first lia. f_equal. lia.
Qed.
Lemma covers_single n c : covers n [single n c] [c].
Proof.
  move=> k rest /=. case: (Z.leb_spec (Z.of_nat n) k) => //= A. case: Z.leb_spec => B; case: Z.ltb_spec => D //=; try lia.
  by have ->: (Z.to_nat k - n = 0)%nat by lia.
Qed.
Lemma covers_singles l : forall n, covers n (singles n l) l.
Proof.
  elim: l => [|c l IH] n; first exact: covers_nil. apply: (covers_app n [single n c] (singles (S n) l) [c] l); first exact: covers_single.
  rewrite /= Nat.add_1_r. exact: IH.
Qed.
Lemma nth_firstn {A} (l : list A) n k : (k < n)%nat -> nth_error (firstn n l) k = nth_error l k.
Proof. elim: n l k => [|n IH] [|a l] [|k] //= H; try lia. apply: IH. lia. Qed.
Lemma covers_table lo len a : (len <= List.length a)%nat ->
  covers lo [table_label lo (Z.of_nat (lo + len) - 1) a] (firstn len a).
Proof.
  move=> H k rest /=. rewrite firstn_length Nat.min_l //. case: (Z.leb_spec (Z.of_nat lo) k) => //= A.
  case: Z.leb_spec => B; case: Z.ltb_spec => D //=; try lia.
  rewrite nth_firstn; first lia. f_equal. lia.
Qed.
Lemma frames_len s cs p z b : Forall2 (fun c x => object_of s c = Some (snd (A := key) x)) cs (frame_requests p z b) ->
  List.length cs = List.length (offsets z b).
Proof. move=> F. move: (objs_len _ _ _ (objs_req _ _ _ F)). by rewrite /frame_requests !map_length. Qed.
Lemma covers_regions s l l' : Forall2 (region_ok s) l l' -> forall start, covers start (region_labels start l) (flat_map snd l).
Proof.
  elim=> [|[[[p z] b] cs] x l0 l0' [_ B] _ IH] start /=; first exact: covers_nil.
  have L := frames_len _ _ _ _ _ B.
  apply: (covers_app start [_] _ cs).
  - rewrite -{2}(firstn_all cs) L. apply: covers_table. by rewrite L.
  - rewrite L. exact: IH.
Qed.

(** All that is handed out *)
Definition listed (w : N -> N) (m : simple) : list N :=
  [self_cnode m; self_pd m] ++ map u_cptr (firstn (List.length (untyped_obj_list m)) (untyped_table w m)) ++
  flat_map snd (mmio_regions m) ++ map (fun '(cap, _, _) => cap) (ioports m) ++ map snd (iospaces m) ++
  map snd (untyped_mmio m) ++ [holding_slot m].
Lemma table_len w m : List.length (untyped_table w m) = (List.length (untyped_obj_list m) + List.length (untyped_mmio m))%nat.
Proof. by rewrite /untyped_table app_length !map_length. Qed.
Lemma listed_len w m : List.length (listed w m) = cap_count m.
Proof.
  rewrite /listed !app_length !map_length firstn_length table_len /cap_count /mmio_caps_len /=. lia.
Qed.
Lemma nth_cap_covers w c s m : made_ok c s m -> covers 0 (nth_cap_labels w m) (listed w m).
Proof.
  move=> M. rewrite /nth_cap_labels /listed. set uts := List.length (untyped_obj_list m).
  have Lt: List.length (firstn uts (untyped_table w m)) = uts by rewrite firstn_length table_len; lia.
  apply: (covers_app 0 [single 0 (self_cnode m); single 1 (self_pd m)] _ [self_cnode m; self_pd m]).
  { apply: (covers_app 0 [single 0 _] [single 1 _] [_] [_]); exact: covers_single. }
  apply: covers_app.
  { case: Nat.ltb_spec => X.
    - have ->: Z.of_nat (uts + 1) = (Z.of_nat (2 + uts) - 1)%Z by lia. rewrite -firstn_map. apply: covers_table.
      rewrite map_length table_len /uts. lia.
    - have ->: uts = 0%nat by lia. exact: covers_nil. }
  rewrite map_length Lt /=. apply: covers_app; first exact (covers_regions _ _ _ (m_regions _ _ _ M) _).
  apply: covers_app; first exact: covers_singles.
  rewrite map_length. apply: covers_app. { rewrite /mmio_caps_len. exact: covers_singles. }
  rewrite map_length. apply: covers_app. { exact: covers_singles. }
  rewrite map_length.
  have ->: (2 + uts + List.length (flat_map snd (mmio_regions m)) + List.length (ioports m) + List.length (iospaces m) + List.length (untyped_mmio m)
     = uts + mmio_caps_len m + List.length (ioports m) + List.length (iospaces m) + List.length (untyped_mmio m) + 2)%nat by rewrite /mmio_caps_len; lia.
  exact: covers_single.
Qed.
Lemma nth_cap_listed w c s m n : made_ok c s m ->
  nth_cap w m n = if (0 <=? n)%Z then nth_error (listed w m) (Z.to_nat n) else None.
Proof.
  move=> M. rewrite /nth_cap -(app_nil_r (nth_cap_labels w m)) (nth_cap_covers w c s m M). cbn [switch].
  rewrite Nat.sub_0_r Nat.add_0_l. change (Z.of_nat 0) with 0%Z. case: (Z.leb_spec 0 n) => A; last by []. cbn [andb].
  case: Z.ltb_spec => B //. symmetry. apply/nth_error_None. lia.
Qed.

(** The labels do not overlap *)
Definition within (a b : nat) (ls : list case_label) : Prop :=
  (a <= b)%nat /\ apart ls /\ forall lo hi f, In (lo, hi, f) ls -> (Z.of_nat a <= lo)%Z /\ (hi < Z.of_nat b)%Z.
Lemma within_app a b c l l' : within a b l -> within b c l' -> within a c (l ++ l').
Proof.
  move=> [A0 [A1 A2]] [B0 [B1 B2]]. split; first lia. split.
  - elim: l A1 A2 => [|[[lo hi] f] l IH] //= [X Y] Z. split.
    + move=> n lo' hi' f'. rewrite in_app_iff => [[U|U]]; first exact (X _ _ _ _ U).
      move: (B2 _ _ _ U) (Z _ _ _ (or_introl eq_refl)). lia.
    + apply: IH => // lo' hi' f' U. exact (Z _ _ _ (or_intror U)).
  - move=> lo hi f. rewrite in_app_iff => [[/A2|/B2]]; lia.
Qed.
Lemma within_one a b f lo hi : (a <= b)%nat -> (Z.of_nat a <= lo)%Z -> (hi < Z.of_nat b)%Z -> within a b [(lo, hi, f)].
Proof. move=> A B C. split=> //. split=> //. move=> ? ? ? [[<- <- _]|] //. Qed.
Lemma within_nil a : within a a []. Proof. split=> //. Qed.
Lemma within_singles l : forall n, within n (n + List.length l) (singles n l).
Proof.
  elim: l => [|c l IH] n /=; first by rewrite Nat.add_0_r; exact: within_nil.
  apply: (within_app n (S n) _ [_]); first by apply: within_one; lia. rewrite Nat.add_succ_r. exact: IH.
Qed.
Lemma within_regions s l l' : Forall2 (region_ok s) l l' -> forall start, within start (start + List.length (flat_map snd l)) (region_labels start l).
Proof.
  elim=> [|[[[p z] b] cs] x l0 l0' [_ B] _ IH] start /=; first by rewrite Nat.add_0_r; exact: within_nil.
  have L := frames_len _ _ _ _ _ B. rewrite app_length Nat.add_assoc L.
  apply: (within_app _ (start + List.length (offsets z b)) _ [_]); first by apply: within_one; lia. exact: IH.
Qed.
Lemma labels_apart w c s m : made_ok c s m -> apart (nth_cap_labels w m).
Proof.
  move=> M. suff: exists b, within 0 b (nth_cap_labels w m) by move=> [b [_ [X _]]].
  rewrite /nth_cap_labels. set uts := List.length (untyped_obj_list m). eexists.
  apply: (within_app 0 2). { apply: (within_app 0 1 2 [_] [_]); apply: within_one; lia. }
  apply: (within_app 2 (2 + uts)).
  { case: Nat.ltb_spec => X; first by apply: within_one; lia. have ->: uts = 0%nat by lia. exact: within_nil. }
  apply: within_app; first exact (within_regions _ _ _ (m_regions _ _ _ M) _).
  apply: within_app; first exact: within_singles. rewrite map_length.
  apply: within_app; first exact: within_singles. rewrite map_length.
  apply: within_app; first exact: within_singles. rewrite map_length.
  apply: (within_one _ (S (uts + mmio_caps_len m + List.length (ioports m) + List.length (iospaces m) + List.length (untyped_mmio m) + 2))); rewrite /mmio_caps_len; lia.
Qed.

(** ** The objects *)
Lemma objs_app s a b x y : objs s a x -> objs s b y -> objs s (a ++ b) (x ++ y).
Proof. exact: Forall2_app. Qed.
Lemma objs_regions s l l' : Forall2 (region_ok s) l l' -> objs s (flat_map snd l) (flat_map region_objects l').
Proof.
  elim=> [|[[[p z] b] cs] x l0 l0' [-> B] _ IH] /=; first by constructor. apply: objs_app IH.
  move: (objs_req _ _ _ B). by rewrite frame_objects.
Qed.
Lemma bits_pools c : map snd (pool_requests c) = map (fun o => match o with OUntyped b _ => b | _ => 0 end) (pool_objects c).
Proof.
  rewrite /pool_requests /pool_objects. elim: (c_pools c) => [|[b n] l IH] //=. by rewrite !map_app !map_map IH.
Qed.
Lemma table_pools w c s m : made_ok c s m -> no_small c ->
  firstn (List.length (untyped_obj_list m)) (untyped_table w m) = map (fun '(cap, b) => Untyped cap (w cap) b false) (untyped_obj_list m).
Proof.
  move=> M Ns. rewrite /untyped_table firstn_app map_length Nat.sub_diag firstn_O app_nil_r firstn_all2 ?map_length //.
  apply: map_ext_in => [[cap b] I].
  have: In b (map snd (pool_requests c)) by rewrite -(m_bits _ _ _ M); exact (in_map snd _ _ I).
  rewrite /pool_requests in_map_iff => [[[[k o] b'] [/= -> /in_flat_map [[b2 n] [I2 /in_map_iff [i [[_ _ <-] _]]]]]]].
  move: (Ns _ _ I2) => /N.leb_le ->. done.
Qed.
Lemma listed_objs w c s m : made_ok c s m -> no_small c -> objs s (listed w m) (expected c).
Proof.
  move=> M Ns. rewrite /listed /expected (table_pools w c s m M Ns).
  apply: objs_app; first by constructor; [exact: m_cnode M|constructor; [exact: m_pd M|constructor]].
  apply: objs_app.
  { rewrite map_map. have ->: map (fun x => u_cptr (let '(cap, b) := x in Untyped cap (w cap) b false)) (untyped_obj_list m) = map fst (untyped_obj_list m) by apply: map_ext => [[? ?]].
    exact: m_uts M. }
  apply: objs_app; first exact: objs_regions (m_regions _ _ _ M).
  apply: objs_app; first exact: m_ports M.
  apply: objs_app; first exact: m_spaces M.
  apply: objs_app; first exact: m_devs M.
  constructor; [exact: m_hold M|constructor].
Qed.
Lemma objs_nth s cs os i : objs s cs os -> (i < List.length os)%nat ->
  exists c, nth_error cs i = Some c /\ object_of s c = nth_error os i.
Proof.
  move=> F. elim: F i => [|c o cs0 os0 H _ IH] [|i] /= L; try lia; first by exists c. apply: IH. lia.
Qed.

Lemma count_ok b64 c first s m : template b64 c first = Ok (s, m) -> sensible c -> no_small c ->
  cap_count m = List.length (expected c).
Proof.
  move=> T Sn Ns. have M := template_ok _ _ _ _ _ Sn T. rewrite -(listed_len (fun x => x)). exact (objs_len _ _ _ (listed_objs _ _ _ _ M Ns)).
Qed.
Lemma enumeration_ok w b64 c first s m i : template b64 c first = Ok (s, m) -> sensible c -> no_small c ->
  (i < cap_count m)%nat ->
  exists cap, nth_cap w m (Z.of_nat i) = Some cap /\ object_of s cap = nth_error (expected c) i.
Proof.
  move=> T Sn Ns L. have M := template_ok _ _ _ _ _ Sn T. rewrite (nth_cap_listed w c s m _ M).
  have ->: (0 <=? Z.of_nat i)%Z by apply/Z.leb_le; lia. rewrite Nat2Z.id. apply: objs_nth; first exact: listed_objs.
  by rewrite -(count_ok _ _ _ _ _ T Sn Ns).
Qed.
Lemma outside_ok w b64 c first s m n : template b64 c first = Ok (s, m) -> sensible c ->
  (n < 0 \/ Z.of_nat (cap_count m) <= n)%Z -> nth_cap w m n = None.
Proof.
  move=> T Sn H. have M := template_ok _ _ _ _ _ Sn T. rewrite (nth_cap_listed w c s m _ M).
  case: Z.leb_spec => // A. apply/nth_error_None. rewrite listed_len. lia.
Qed.
Lemma compiles_ok w b64 c first s m : template b64 c first = Ok (s, m) -> sensible c -> apart (nth_cap_labels w m).
Proof. move=> T Sn. exact: labels_apart (template_ok _ _ _ _ _ Sn T). Qed.
Lemma nodup_nth {A} (l : list A) i j x : NoDup l -> nth_error l i = Some x -> nth_error l j = Some x -> i = j.
Proof.
  move=> N E F. apply: (proj1 (NoDup_nth_error l) N); last by rewrite E F. apply/nth_error_Some. by rewrite E.
Qed.
Lemma distinct_ok w b64 c first s m i j cap : template b64 c first = Ok (s, m) -> sensible c -> no_small c -> NoDup (expected c) ->
  nth_cap w m i = Some cap -> nth_cap w m j = Some cap -> i = j.
Proof.
  move=> T Sn Ns Nd. have M := template_ok _ _ _ _ _ Sn T. rewrite !(nth_cap_listed w c s m _ M).
  have F := listed_objs w _ _ _ M Ns.
  have X: forall k, nth_error (listed w m) k = Some cap -> object_of s cap = nth_error (expected c) k /\ (k < List.length (expected c))%nat.
  { move=> k E. have L: (k < List.length (expected c))%nat by rewrite -(objs_len _ _ _ F); apply/nth_error_Some; rewrite E.
    move: (objs_nth _ _ _ _ F L) => [c' [E1 E2]]. split=> //. congruence. }
  case: Z.leb_spec => // A E1; case: Z.leb_spec => // B E2. move: (X _ E1) (X _ E2) => [O1 L1] [O2 L2].
  suff: Z.to_nat i = Z.to_nat j by lia.
  case E: (nth_error (expected c) (Z.to_nat i)) => [o|]; last by move: E => /nth_error_None; lia.
  apply: (nodup_nth _ _ _ o Nd) => //. congruence.
Qed.

(** The untypeds *)
Lemma untyped_ok w b64 c first s m i : template b64 c first = Ok (s, m) -> sensible c -> no_small c ->
  (i < untyped_count m)%nat ->
  exists u, nth_untyped w m i = Some u /\
  match nth_error (pool_objects c ++ device_objects c) i with
  | Some (OUntyped bits k) => object_of s (u_cptr u) = Some (OUntyped bits k) /\ u_bits u = bits /\ u_device u = false /\ u_paddr u = w (u_cptr u)
  | Some (ODeviceUntyped p bits) => object_of s (u_cptr u) = Some (ODeviceUntyped p bits) /\ u_bits u = bits /\ u_device u = true /\ u_paddr u = p
  | _ => False
  end.
Proof.
  move=> T Sn Ns L. have M := template_ok _ _ _ _ _ Sn T. rewrite /nth_untyped.
  have Eu: untyped_table w m = map (fun '(cap, b) => Untyped cap (w cap) b false) (untyped_obj_list m) ++ map (fun '(p, b, cap) => Untyped cap p b true) (untyped_mmio m).
  { rewrite -(table_pools w c s m M Ns) {1}/untyped_table /untyped_table firstn_app map_length Nat.sub_diag firstn_O app_nil_r firstn_all2 ?map_length //. }
  have L1: List.length (untyped_obj_list m) = List.length (pool_objects c) by move: (objs_len _ _ _ (m_uts _ _ _ M)); rewrite map_length.
  rewrite Eu. case: (Nat.lt_ge_cases i (List.length (untyped_obj_list m))) => H.
  - rewrite !nth_error_app1 ?map_length -?L1 //.
    case E: (nth_error (untyped_obj_list m) i) => [[cap b]|]; last by move: E => /nth_error_None; lia.
    rewrite (map_nth_error _ _ _ E). eexists. split=> //.
    have Li: (i < List.length (pool_objects c))%nat by lia.
    move: (objs_nth _ _ _ _ (m_uts _ _ _ M) Li) => [c' [E1 E2]]. rewrite (map_nth_error fst _ _ E) in E1. case: E1 => <- in E2 *.
    case Eo: (nth_error (pool_objects c) i) => [o|]; last by move: Eo => /nth_error_None; lia.
    have: In o (pool_objects c) by exact (nth_error_In _ _ Eo).
    rewrite /pool_objects in_flat_map => [[[b2 n] [_ /in_map_iff [k [Ek _]]]]]. subst o. rewrite E2 Eo. repeat split=> //=.
    have Bn: nth_error (map snd (untyped_obj_list m)) i = Some b by rewrite (map_nth_error snd _ _ E).
    move: Bn. rewrite (m_bits _ _ _ M) bits_pools (map_nth_error _ _ _ Eo). by case.
  - rewrite !nth_error_app2 ?map_length -?L1 //. rewrite /untyped_count in L.
    set j := (i - _)%nat. have Lj: (j < List.length (untyped_mmio m))%nat by rewrite /j; lia.
    case E: (nth_error (untyped_mmio m) j) => [[[p b] cap]|]; last by move: E => /nth_error_None; lia.
    rewrite (map_nth_error _ _ _ E). eexists. split=> //.
    have E1: nth_error (c_untyped_mmios c) j = Some (p, b) by rewrite -(m_dev_at _ _ _ M) (map_nth_error fst _ _ E).
    have E2: nth_error (device_objects c) j = Some (ODeviceUntyped p b) by rewrite /device_objects (map_nth_error _ _ _ E1).
    have Lj2: (j < List.length (device_objects c))%nat by apply/nth_error_Some; rewrite E2.
    move: (objs_nth _ _ _ _ (m_devs _ _ _ M) Lj2) => [c' [E3 E4]]. rewrite (map_nth_error snd _ _ E) in E3. case: E3 => <- in E4 *.
    by rewrite E2 E4.
Qed.

(** The holding slot *)
Lemma holding_ok b64 c first s m cap o : template b64 c first = Ok (s, m) -> sensible c -> object_of s cap = Some o ->
  cap <= holding_slot m /\ cap < 2 ^ (cnode_size m - 1).
Proof.
  move=> T Sn H. have M := template_ok _ _ _ _ _ Sn T. move: (m_last _ _ _ M _ _ H) => X. split=> //.
  rewrite /cnode_size N.add_sub. apply: N.le_lt_trans X _. exact: N.size_gt.
Qed.
Lemma cnode_ok m : 0 < holding_slot m -> 2 ^ (cnode_size m - 2) <= holding_slot m < 2 ^ (cnode_size m - 1).
Proof.
  move=> H. rewrite /cnode_size N.add_sub. split; last exact: N.size_gt.
  have ->: N.size (holding_slot m) + 1 - 2 = N.log2 (holding_slot m). { rewrite N.size_log2; lia. }
  by move: (N.log2_spec _ H) => [].
Qed.

(** ** Lookups *)
Lemma nth_below n i : (i < N.to_nat n)%nat -> nth_error (below n) i = Some (N.of_nat i).
Proof.
  move=> H. rewrite /below. apply: map_nth_error. rewrite (nth_error_nth' _ 0%nat) ?seq_length // seq_nth //.
Qed.
Lemma frame_ok w b64 c first s m paddr bits : template b64 c first = Ok (s, m) -> sensible c -> no_wrap w c ->
  match get_frame_cap w m paddr bits with
  | Some cap => exists base, object_of s cap = Some (OFrame base bits) /\ base <= paddr < base + 2 ^ bits
  | None => forall base size, In (base, size, bits) (c_mmios c) -> ~ inside paddr base size
  end.
Proof.
  move=> T Sn Nw. have M := template_ok _ _ _ _ _ Sn T. move: (m_regions _ _ _ M) Nw. rewrite /get_frame_cap /no_wrap.
  elim=> [|[[[p z] b] cs] x l l' [-> B] _ IH] Nw /=; first by move=> ? ? [].
  move: (Nw p z b (or_introl eq_refl)) => Hw. rewrite N.mod_small //.
  case: (N.leb_spec p paddr) => A /=; last first.
  { have := IH (fun p' z' b' X => Nw p' z' b' (or_intror X)). case: frame_cap => // H base size [[<- <- _]|X]; [rewrite /inside; lia|exact (H _ _ X)]. }
  case: (N.ltb_spec paddr (p + z)) => A2 /=; last first.
  { have := IH (fun p' z' b' X => Nw p' z' b' (or_intror X)). case: frame_cap => // H base size [[<- <- _]|X]; [rewrite /inside; lia|exact (H _ _ X)]. }
  case: (N.eqb_spec bits b) => A3; last first.
  { have := IH (fun p' z' b' X => Nw p' z' b' (or_intror X)). case: frame_cap => // H base size [[_ _ E]|X]; [congruence|exact (H _ _ X)]. }
  subst b. rewrite N.shiftr_div_pow2. have Z: 2 ^ bits <> 0 by apply: N.pow_nonzero.
  set q := (paddr - p) / 2 ^ bits.
  have Q: q < (z + 2 ^ bits - 1) / 2 ^ bits.
  { apply: N.lt_le_trans (N.div_le_mono (paddr - p + 2 ^ bits) _ _ Z _); last lia.
    rewrite /q. have ->: paddr - p + 2 ^ bits = paddr - p + 1 * 2 ^ bits by lia. rewrite N.div_add //. lia. }
  have O := objs_req _ _ _ B. rewrite frame_objects in O.
  have Ln: nth_error (region_objects (p, z, bits)) (N.to_nat q) = Some (OFrame (p + q * 2 ^ bits) bits).
  { have X: nth_error (below ((z + 2 ^ bits - 1) / 2 ^ bits)) (N.to_nat q) = Some q by rewrite nth_below; [lia|rewrite N2Nat.id].
    by rewrite /region_objects (map_nth_error _ _ _ X). }
  have Li: (N.to_nat q < List.length (region_objects (p, z, bits)))%nat by apply/nth_error_Some; rewrite Ln.
  move: (objs_nth _ _ _ _ O Li) => [cap [-> E2]]. exists (p + q * 2 ^ bits). rewrite E2 Ln. split=> //.
  have D := N.div_mod (paddr - p) _ Z. have Dm := N.mod_lt (paddr - p) _ Z. fold q in D. rewrite N.mul_comm in D.
  clearbody q. clear -A D Dm. move: D Dm. generalize ((paddr - p) mod 2 ^ bits) => y1. generalize (q * 2 ^ bits) => x1. generalize (2 ^ bits) => e1. lia.
Qed.


Lemma alloc_first k o s f : (forall c x, In (c, x) (behind s) -> f <= c) -> f <= next s ->
  (forall c x, In (c, x) (behind (fst (alloc k o s))) -> f <= c) /\ f <= next (fst (alloc k o s)).
Proof. rewrite /alloc. case: made_before => [c|] A B //=. split; last lia. move=> c x [[<- _]|/A] //. Qed.
Lemma allocs_first l f : forall s, (forall c x, In (c, x) (behind s) -> f <= c) -> f <= next s ->
  (forall c x, In (c, x) (behind (fst (allocs l s))) -> f <= c) /\ f <= next (fst (allocs l s)).
Proof.
  elim: l => [|[k o] l IH] s A B //=. move: (alloc_first k o s f A B). case: (alloc k o s) => [s1 c] /= [A1 B1].
  move: (IH s1 A1 B1). by case: (allocs l s1).
Qed.
Lemma regions_first l f : forall s, (forall c x, In (c, x) (behind s) -> f <= c) -> f <= next s ->
  (forall c x, In (c, x) (behind (fst (alloc_regions l s))) -> f <= c) /\ f <= next (fst (alloc_regions l s)).
Proof.
  elim: l => [|[[p z] b] l IH] s A B //=. move: (allocs_first (frame_requests p z b) f s A B). case: (allocs _ s) => [s1 c] /= [A1 B1].
  move: (IH s1 A1 B1). by case: (alloc_regions l s1).
Qed.
Lemma first_free b64 c first s m cap o : template b64 c first = Ok (s, m) -> sensible c -> object_of s cap = Some o -> first <= cap.
Proof.
  move=> T _ /find_In. move: T. rewrite /template.
  set P := fun s : alloc_state => (forall c x, In (c, x) (behind s) -> first <= c) /\ first <= next s.
  have P0: P (AState [] first []) by split=> //=; lia. move: P0. generalize (AState [] first []) => s0 P0.
  have Q1: forall k o s t q, P s -> alloc k o s = (t, q) -> P t.
  { move=> k x u t q [A B] E. move: (alloc_first k x u first A B). by rewrite E. }
  have Q2: forall l s t q, P s -> allocs l s = (t, q) -> P t.
  { move=> l u t q [A B] E. move: (allocs_first l first u A B). by rewrite E. }
  have Q3: forall l s t q, P s -> alloc_regions l s = (t, q) -> P t.
  { move=> l u t q [A B] E. move: (regions_first l first u A B). by rewrite E. }
  case E1: (alloc KCnode OCnode s0) => [s1 ?]. move: (Q1 _ _ _ _ _ P0 E1) => P1.
  case E2: (alloc KPd OPd s1) => [s2 ?]. move: (Q1 _ _ _ _ _ P1 E2) => P2. case: (negb _) => //.
  case E3: (allocs _ s2) => [s3 ?]. move: (Q2 _ _ _ _ P2 E3) => P3.
  case E4: (allocs _ s3) => [s4 ?]. move: (Q2 _ _ _ _ P3 E4) => P4. case: (negb _) => //.
  case E5: (alloc_regions _ s4) => [s5 ?]. move: (Q3 _ _ _ _ P4 E5) => P5.
  case E6: (allocs _ s5) => [s6 ?]. move: (Q2 _ _ _ _ P5 E6) => P6.
  case E7: (allocs _ s6) => [s7 ?]. move: (Q2 _ _ _ _ P6 E7) => P7.
  case E8: (allocs _ s7) => [s8 ?]. move: (Q2 _ _ _ _ P7 E8) => P8.
  set s9 := (if _ then _ else s8). have P9: P s9.
  { rewrite /s9. case: (c_asid_pool c) => //. case E9: (alloc _ _ s8) => [? ?]. exact (Q1 _ _ _ _ _ P8 E9). }
  case E10: (alloc KNotification ONotification s9) => [s10 ?]. move: (Q1 _ _ _ _ _ P9 E10) => P10 /=.
  case E11: (allocs _ s10) => [s11 ?]. move: (Q2 _ _ _ _ P10 E11) => P11.
  case E12: (alloc KHolding _ s11) => [s12 ?]. move: (Q1 _ _ _ _ _ P11 E12) => P12 [<- _]. case: P12 => X _. exact: X.
Qed.

Lemma fold_ports (l : list (N * N * N)) a e : forall c0,
  let r := fold_left (fun c '(cap, st, en) => if (st <=? a) && (e <=? en) then cap else c) l c0 in
  (exists st en, In (r, st, en) l /\ st <= a /\ e <= en) \/ (r = c0 /\ forall cap st en, In (cap, st, en) l -> ~ (st <= a /\ e <= en)).
Proof.
  elim: l => [|[[cap st] en] l IH] c0 /=; first by right.
  case: (IH (if (st <=? a) && (e <=? en) then cap else c0)) => [[st' [en' [I X]]]|[-> H]].
  - left. exists st', en'. split=> //. by right.
  - case: N.leb_spec => A /=; first case: N.leb_spec => B /=.
    + left. exists st, en. split=> //. by left.
    + right. split=> // cap' st' en' [[_ <- <-]|X]; [lia|exact: H X].
    + right. split=> // cap' st' en' [[_ <- <-]|X]; [lia|exact: H X].
Qed.
Lemma ports_pair s c m cap st en : made_ok c s m -> In (cap, st, en) (ioports m) ->
  In (st, en) (c_ioports c) /\ object_of s cap = Some (OIoports st en).
Proof.
  move=> M I. move: (In_nth_error _ _ I) => [i E]. 
  have E1: nth_error (c_ioports c) i = Some (st, en) by rewrite -(m_port_ends _ _ _ M) (map_nth_error _ _ _ E).
  split; first exact (nth_error_In _ _ E1).
  have E2: nth_error (map (fun '(a, e) => OIoports a e) (c_ioports c)) i = Some (OIoports st en) by rewrite (map_nth_error _ _ _ E1).
  have L: (i < List.length (map (fun '(a, e) => OIoports a e) (c_ioports c)))%nat by apply/nth_error_Some; rewrite E2.
  move: (objs_nth _ _ _ _ (m_ports _ _ _ M) L) => [c' [E3 E4]]. rewrite (map_nth_error _ _ _ E) in E3. case: E3 => ->. by rewrite E4.
Qed.
Lemma ports_back s c m st en : made_ok c s m -> In (st, en) (c_ioports c) -> exists cap, In (cap, st, en) (ioports m).
Proof.
  move=> M. rewrite -(m_port_ends _ _ _ M) in_map_iff => [[[[cap a] b] [[<- <-] I]]]. by exists cap.
Qed.

Lemma ioport_ok b64 c first s m a e : template b64 c first = Ok (s, m) -> sensible c -> 0 < first ->
  match get_ioport_cap m a e with
  | Some cap => exists st en, In (st, en) (c_ioports c) /\ object_of s cap = Some (OIoports st en) /\ st <= a /\ e <= en
  | None => forall st en, In (st, en) (c_ioports c) -> ~ (st <= a /\ e <= en)
  end.
Proof.
  move=> T Sn F. have M := template_ok _ _ _ _ _ Sn T. rewrite /get_ioport_cap.
  move: (fold_ports (ioports m) a e 0) => /=. set r := fold_left _ _ _. move=> [[st [en [I X]]]|[-> H]].
  - move: (ports_pair _ _ _ _ _ _ M I) => [J O]. case: N.eqb_spec => [Z|_]; last by exists st, en.
    move: (first_free _ _ _ _ _ _ _ T Sn O). lia.
  - move=> /= st en J. move: (ports_back _ _ _ _ _ M J) => [cap K]. exact: H K.
Qed.

Lemma label_ok l n : match label_lookup l n with
  | Some c => exists i, nth_error l i = Some (n, c)
  | None => ~ In n (map fst l) end.
Proof.
  elim: l => [|[k c] l IH] //=. case: (N.eqb_spec k n) => [->|X]; first by exists 0%nat.
  case: label_lookup IH => [d [i E]|H]; first by exists (S i). by move=> [].
Qed.
Lemma pair_nth s (l : list (N * N)) os i k cap : objs s (map snd l) os -> nth_error l i = Some (k, cap) ->
  nth_error (map fst l) i = Some k /\ object_of s cap = nth_error os i.
Proof.
  move=> O E. split; first by rewrite (map_nth_error fst _ _ E).
  have L: (i < List.length os)%nat. { rewrite -(objs_len _ _ _ O) map_length. apply/nth_error_Some. by rewrite E. }
  move: (objs_nth _ _ _ _ O L) => [c' [E3 E4]]. rewrite (map_nth_error snd _ _ E) in E3. case: E3 => ->. done.
Qed.
Lemma irq_ok b64 c first s m n : template b64 c first = Ok (s, m) -> sensible c ->
  match get_irq m n with
  | Some cap => In n (c_irqs c) /\ object_of s cap = Some (OIrq n)
  | None => ~ In n (c_irqs c)
  end.
Proof.
  move=> T Sn. have M := template_ok _ _ _ _ _ Sn T. rewrite /get_irq. move: (label_ok (irqs m) n).
  case: label_lookup => [cap [i E]|]; last by rewrite (m_irq_nums _ _ _ M).
  move: (pair_nth _ _ _ _ _ _ (m_irqs _ _ _ M) E) => [E1 ->]. rewrite (m_irq_nums _ _ _ M) in E1.
  split; first exact (nth_error_In _ _ E1). by rewrite (map_nth_error _ _ _ E1).
Qed.
Lemma lor_device d x : x < 65536 -> N.lor (N.shiftl d 16) x = d * 65536 + x.
Proof.
  move=> H. have L: N.land (N.shiftl d 16) x = 0.
  { apply: N.bits_inj => i. rewrite N.land_spec N.bits_0. case: (N.lt_ge_cases i 16) => I.
    - by rewrite N.shiftl_spec_low.
    - have ->: N.testbit x i = false; last by rewrite andb_false_r.
      case: (N.eq_dec x 0) => [->|Z]; first by rewrite N.bits_0. apply: N.bits_above_log2.
      apply: N.lt_le_trans I. apply/N.log2_lt_pow2; lia. }
  rewrite -N.lxor_lor // -N.add_nocarry_lxor // N.shiftl_mul_pow2. done.
Qed.
Lemma iospace_ok b64 c first s m d b v f : template b64 c first = Ok (s, m) -> sensible c -> c_smmu c = [] -> pci d b v f ->
  match get_iospace m d (b * 256 + v * 8 + f) with
  | Some cap => In (d, b, v, f) (c_iospaces c) /\ object_of s cap = Some (OIospace d b v f)
  | None => ~ In (d, b, v, f) (c_iospaces c)
  end.
Proof.
  move=> T Sn Z P. have M := template_ok _ _ _ _ _ Sn T. rewrite /get_iospace lor_device; first by move: P; rewrite /pci; lia.
  move: (m_ids _ _ _ M) (m_spaces _ _ _ M). rewrite Z app_nil_r /iospace_objects Z app_nil_r => Ids Sp.
  have Eid: d * 65536 + (b * 256 + v * 8 + f) = device_id d b v f by [].
  rewrite Eid. move: (label_ok (iospaces m) (device_id d b v f)). case: label_lookup => [cap [i E]|].
  - move: (pair_nth _ _ _ _ _ _ Sp E) => [E1 ->]. rewrite Ids in E1.
    case X: (nth_error (c_iospaces c) i) => [[[[d' b'] v'] f']|]; last first.
    { move: X => /nth_error_None X. have: (i < List.length (map (fun '(d, b, v, f) => device_id d b v f) (c_iospaces c)))%nat by apply/nth_error_Some; rewrite E1.
      rewrite map_length. lia. }
    rewrite (map_nth_error _ _ _ X) in E1. rewrite (map_nth_error _ _ _ X). case: E1 => E1.
    have Px: pci d' b' v' f'. { case: Sn => _ [_ Dv]. exact (Dv _ _ _ _ (nth_error_In _ _ X)). }
    move: (device_inj _ _ _ _ _ _ _ _ Px P E1) => [A1 [A2 [A3 A4]]]. subst. split=> //. exact (nth_error_In _ _ X).
  - rewrite Ids => H I. apply: H. apply/in_map_iff. by exists (d, b, v, f).
Qed.
Lemma iospace_labels b64 c first s m : template b64 c first = Ok (s, m) -> sensible c -> c_smmu c = [] ->
  NoDup (c_iospaces c) -> NoDup (map fst (iospaces m)).
Proof.
  move=> T Sn Z Nd. have M := template_ok _ _ _ _ _ Sn T. rewrite (m_ids _ _ _ M) Z app_nil_r.
  case: Sn => _ [_ Dv]. rewrite /devices_pci in Dv. elim: (c_iospaces c) Nd Dv => [|[[[d b] v] f] l IH] Nd Dv /=; first by constructor.
  move: (proj1 (NoDup_cons_iff _ _) Nd) => [A B]. constructor; last by apply: IH => // *; apply: Dv; right.
  rewrite in_map_iff => [[[[[d' b'] v'] f'] [E I]]].
  have P1: pci d' b' v' f' by apply: Dv; right. have P2: pci d b v f by apply: Dv; left.
  move: (device_inj _ _ _ _ _ _ _ _ P1 P2 E) => [A1 [A2 [A3 A4]]]. by subst.
Qed.

(** Extended bootinfo *)
Lemma fold_types (l : list (N * nat)) t : forall m0,
  match fold_left (fun m '(t', f) => if t =? t' then Some f else m) l m0 with
  | Some f => In (t, f) l \/ m0 = Some f
  | None => ~ In t (map fst l) /\ m0 = None
  end.
Proof.
  elim: l => [|[k g] l IH] m0 /=; first by case: m0 => [x|]; [right|split].
  case: (N.eqb_spec t k) => [<-|X]; [move: (IH (Some g))|move: (IH m0)]; case: (fold_left _ _ _) => [f|].
  - move=> [I|[->]]; left; [by right|by left].
  - by move=> [_ ?].
  - move=> [I|->]; [left; by right|by right].
  - move=> [I ->]. split=> //. move=> [E|E]; [by apply: X|exact: I E].
Qed.
Lemma bootinfo_ok b64 c first s m len_of content t max_len : template b64 c first = Ok (s, m) ->
  (forall f n, len_of f = Some n -> n <= 4096) ->
  match extended_bootinfo m len_of content t max_len with
  | Ok (Some bytes) => exists f n, nth_error (c_bootinfo c) f = Some t /\ len_of f = Some n /\ bytes = firstn (N.to_nat (N.min n max_len)) (content f)
  | Ok None => forall f, nth_error (c_bootinfo c) f = Some t -> (forall f', nth_error (c_bootinfo c) f' = Some t -> f' = f) -> len_of f = None
  | Err _ => False
  end.
Proof.
  move=> T H. rewrite /extended_bootinfo.
  have E: extrabi_list m = combine (c_bootinfo c) (seq 0 (List.length (c_bootinfo c))).
  { move: T. rewrite /template. do 20 (case: (alloc _ _ _) => [? ?] || case: (allocs _ _) => [? ?] || case: (alloc_regions _ _) => [? ?] || case: (negb _) => //).
    all: by move=> [_ <-]. }
  have I: forall f, In (t, f) (extrabi_list m) <-> nth_error (c_bootinfo c) f = Some t.
  { move=> f. rewrite E. move: (c_bootinfo c) => l. have: forall k, In (t, f) (combine l (seq k (List.length l))) <-> (k <= f)%nat /\ nth_error l (f - k) = Some t.
    { elim: l => [|x l IH] k /=. { split=> // [[_]]. by case: (f - k)%nat. }
      rewrite IH. split.
      - move=> [[-> ->]|[A B]]; first by rewrite Nat.sub_diag. split; first lia. by have ->: (f - k = S (f - S k))%nat by lia.
      - move=> [A B]. case: (Nat.eq_dec k f) => [X|X]; [left|right].
        + subst k. rewrite Nat.sub_diag in B. by case: B => ->.
        + split; first lia. have D: (f - k = S (f - S k))%nat by lia. by rewrite D in B. }
    move=> X. rewrite (X 0%nat) Nat.sub_0_r. split; [by case|by move=> Y; split; [lia|]]. }
  move: (fold_types (extrabi_list m) t None). case: (fold_left _ _ _) => [f|] X.
  - case: X => // /I X. case L: (len_of f) => [n|]; last by move=> g _ Y; rewrite -(Y _ X).
    have Hn := H _ _ L. have: (4096 <? N.min n max_len) = false by apply/N.ltb_ge; lia. move=> ->. by exists f, n.
  - move=> g G. case: X => X _. case: X. apply/in_map_iff. exists (t, g). split=> //. by apply/I.
Qed.

(** ** What is wrong *)
Definition plain : settings := Settings [] [] [] [] [] [] false [] [].
Definition small : settings := Settings [(4, 1)] [] [] [] [] [] false [] [].
Definition twice : settings := Settings [(12, 1); (12, 1)] [] [] [] [] [] false [] [].
Definition mixed : settings := Settings [] [] [(2097152, 2097152, 21); (2097152, 4096, 12)] [] [] [] false [] [].
Definition top : settings := Settings [] [] [(4294963200, 4096, 12)] [] [] [] false [] [].
Definition info : settings := Settings [] [] [] [] [] [] false [] [1].
Definition the (x : res (alloc_state * simple)) : alloc_state * simple :=
  match x with Ok y => y | Err _ => (AState [] 0 [], Simple 0 0 [] [] [] [] [] [] 0 []) end.
Lemma plain_frames c : c_mmios c = [] -> c_untyped_mmios c = [] -> c_iospaces c = [] -> sensible c.
Proof.
  move=> A B C. split; [|split].
  - by move=> r r' p b b'; rewrite A.
  - by move=> p b b'; rewrite B.
  - by move=> d b v f; rewrite C.
Qed.
Lemma small_bad : exists c s m, sensible c /\ template true c 2 = Ok (s, m) /\
  exists i, (i < cap_count m)%nat /\ nth_cap (fun x => x) m (Z.of_nat i) = Some 0 /\ object_of s 0 = None /\
  exists u, nth_untyped (fun x => x) m 0 = Some u /\ u_bits u = 0 /\ nth_error (pool_objects c) 0 = Some (OUntyped 4 0).
Proof.
  exists small, (fst (the (template true small 2))), (snd (the (template true small 2))). split; first exact: plain_frames.
  split; first by vm_compute. exists 2%nat. split; first by apply/Nat.ltb_lt; vm_compute. do 2 (split; first by vm_compute). exists (Untyped 0 0 0 false). by vm_compute.
Qed.
Lemma twice_bad : exists c s m, sensible c /\ no_small c /\ template true c 2 = Ok (s, m) /\
  exists i j cap, i <> j /\ nth_cap (fun x => x) m i = Some cap /\ nth_cap (fun x => x) m j = Some cap.
Proof.
  exists twice, (fst (the (template true twice 2))), (snd (the (template true twice 2))). split; first exact: plain_frames.
  split. { move=> b n /= [[<- _]|[[<- _]|[]]]; lia. } split; first by vm_compute. exists 2%Z, 3%Z, 4. by vm_compute.
Qed.
Lemma mixed_bad : exists c s m paddr bits cap, template true c 2 = Ok (s, m) /\ no_wrap 48 c /\
  get_frame_cap 48 m paddr bits = Some cap /\ forall base, object_of s cap <> Some (OFrame base bits).
Proof.
  exists mixed, (fst (the (template true mixed 2))), (snd (the (template true mixed 2))), 2097152, 12, 4.
  split; first by vm_compute. split. { move=> p z b /= [[<- <- _]|[[<- <- _]|[]]]; vm_compute; done. }
  split; first by vm_compute. move=> base. by vm_compute.
Qed.
Lemma top_bad : exists c s m base size bits paddr, sensible c /\ template true c 2 = Ok (s, m) /\
  In (base, size, bits) (c_mmios c) /\ inside paddr base size /\ paddr < 2 ^ 32 /\ get_frame_cap 32 m paddr bits = None.
Proof.
  exists top, (fst (the (template true top 2))), (snd (the (template true top 2))), 4294963200, 4096, 12, 4294963200.
  split; last first. { split; first by vm_compute. split; first by left. split; first by rewrite /inside; lia. by vm_compute. }
  split; last by split; [move=> ? ? ? []|move=> ? ? ? ? []].
  move=> r r' p b b' I J. have ->: r = (4294963200, 4096, 12) by case: I => [<-|[]]. have ->: r' = (4294963200, 4096, 12) by case: J => [<-|[]].
  have X: forall A (f : A -> N) l n, In (OFrame p n) (map (fun i => OFrame (f i) 12) l) -> n = 12.
  { by move=> A f l n /in_map_iff [i [[_ <-] _]]. }
  move=> /(X _ _ _ _) -> /(X _ _ _ _) ->. done.
Qed.
Lemma info_bad : exists c s m, sensible c /\ template true c 2 = Ok (s, m) /\
  extended_bootinfo m (fun _ => Some 5000) (fun _ => []) 1 10000 = Err OtherException.
Proof.
  exists info, (fst (the (template true info 2))), (snd (the (template true info 2))). split; first exact: plain_frames. by vm_compute.
Qed.

(** ** What is accepted *)
Lemma pools_legal_ok b64 c : pools_legal b64 c = true <->
  (forall bits n, In (bits, n) (c_pools c) -> 0 < n -> 4 <= bits <= (if b64 then 47 else 29)).
Proof.
  unfold pools_legal. rewrite forallb_forall. split.
  - intros H bits n I P. specialize (H _ I). cbn in H. apply orb_true_iff in H. destruct H as [H|H].
    + apply N.eqb_eq in H. lia.
    + apply andb_true_iff in H. destruct H as [A B]. apply N.leb_le in A, B. unfold min_untyped_size, max_untyped_size in *. destruct b64; lia.
  - intros H [bits n] I. destruct (n =? 0) eqn:E; [reflexivity|]. apply N.eqb_neq in E.
    specialize (H bits n I ltac:(lia)). cbn [orb]. apply andb_true_iff. unfold min_untyped_size, max_untyped_size.
    split; apply N.leb_le; destruct b64; lia.
Qed.
Lemma frames_legal_ok c : forallb (fun '(_, _, b) => frame_bits b) (c_mmios c) = true <->
  (forall p z bits, In (p, z, bits) (c_mmios c) -> bits = 12 \/ bits = 20 \/ bits = 21).
Proof.
  rewrite forallb_forall. split.
  - intros H p z bits I. specialize (H _ I). cbn in H. unfold frame_bits in H.
    apply orb_true_iff in H. rewrite orb_true_iff !N.eqb_eq in H. tauto.
  - intros H [[p z] bits] I. specialize (H _ _ _ I). unfold frame_bits. rewrite !orb_true_iff !N.eqb_eq. tauto.
Qed.
Lemma accepted_ok b64 c first : (exists s m, template b64 c first = Ok (s, m)) <-> sizes_exist b64 c.
Proof.
  unfold sizes_exist. rewrite -pools_legal_ok -frames_legal_ok. unfold template.
  repeat match goal with |- context[let (_, _) := ?x in _] => destruct x end.
  destruct (pools_legal b64 c); cbn [negb]; [|split; [intros (? & ? & [=])|intros [[=] _]]].
  repeat match goal with |- context[let (_, _) := ?x in _] => destruct x end.
  destruct (forallb _ (c_mmios c)); cbn [negb]; [|split; [intros (? & ? & [=])|intros [_ [=]]]].
  repeat match goal with |- context[let (_, _) := ?x in _] => destruct x end.
  split; [auto|]. intros _. eauto.
Qed.
