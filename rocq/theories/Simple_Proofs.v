(** Proofs about the simple interface. *)
From Coq Require Import ZArith NArith List Bool Lia PeanoNat.
From Coq Require Import ssreflect ssrbool.
From Verif Require Import Prelude Simple_Model Simple_Spec.
Import ListNotations.
Open Scope N_scope.

(** ** Allocation *)
Section Alloc.
Variable R : key -> object -> Prop.
Hypothesis R_fun : forall k o o', R k o -> R k o' -> o = o'.

Record inv (s : alloc_state) : Prop := {
  i_new : forall c o, In (c, o) (behind s) -> c < next s;
  i_made : forall k c, made_before k (made s) = Some c -> exists o, object_of s c = Some o /\ R k o }.
(** Nothing is lost *)
Definition grows (s s' : alloc_state) : Prop :=
  (forall c o, object_of s c = Some o -> object_of s' c = Some o) /\ next s <= next s' /\
  (forall c o, In (c, o) (behind s') -> In (c, o) (behind s) \/ next s <= c).

Lemma find_In cap l o : find_object cap l = Some o -> In (cap, o) l.
Proof. elim: l => [|[k x] l IH] //=. case: (N.eqb_spec k cap) => [->|_]; [by move=> [->]; left|by right; apply: IH]. Qed.
Lemma grows_refl s : grows s s.
Proof. split; [done|split; [lia|by left]]. Qed.
Lemma grows_trans a b c : grows a b -> grows b c -> grows a c.
Proof.
  move=> [A1 [A2 A3]] [B1 [B2 B3]]. split; first by auto. split; first lia. move=> x o /B3 [/A3 X|X]; [tauto|right; lia].
Qed.
Lemma alloc_ok k o s s' c : inv s -> R k o -> alloc k o s = (s', c) ->
  inv s' /\ grows s s' /\ object_of s' c = Some o.
Proof.
  move=> I Rk. rewrite /alloc. case E: made_before => [c'|] [<- <-].
  - move: (i_made _ I _ _ E) => [o' [Ho Ro]]. rewrite (R_fun _ _ _ Rk Ro). split=> //. split=> //. exact: grows_refl.
  - have G: grows s (AState ((k, next s) :: made s) (next s + 1) ((next s, o) :: behind s)).
    { split; [|split=> /=; [lia|]].
      - move=> d x H. rewrite /object_of /=. case: (N.eqb_spec (next s) d) => // X. move: (i_new _ I _ _ (find_In _ _ _ H)). lia.
      - move=> d x [[<- _]|]; [right; lia|by left]. }
    have F: object_of (AState ((k, next s) :: made s) (next s + 1) ((next s, o) :: behind s)) (next s) = Some o.
    { by rewrite /object_of /= N.eqb_refl. }
    split=> //. split=> /=.
    + move=> d x [[<- _]|/(i_new _ I)]; lia.
    + move=> k' d. case: key_eq_dec => [->|_]; first by move=> [<-]; exists o. move=> /(i_made _ I) [x [X Y]].
      exists x. split=> //. by case: G => G _; apply: G.
Qed.
Lemma allocs_ok l : forall s s' cs, inv s -> (forall k o, In (k, o) l -> R k o) -> allocs l s = (s', cs) ->
  inv s' /\ grows s s' /\ Forall2 (fun c x => object_of s' c = Some (snd x)) cs l.
Proof.
  elim: l => [|[k o] l IH] s s' cs I H /=. { move=> [<- <-]. split=> //. split; [exact: grows_refl|constructor]. }
  case E: (alloc k o s) => [s1 c]. case E2: (allocs l s1) => [s2 cs2] [<- <-].
  move: (alloc_ok _ _ _ _ _ I (H _ _ (or_introl eq_refl)) E) => [I1 [G1 O1]].
  move: (IH _ _ _ I1 (fun k o X => H k o (or_intror X)) E2) => [I2 [G2 O2]].
  split=> //. split; first exact (grows_trans _ _ _ G1 G2). constructor=> //. by case: G2 => G2 _; apply: G2.
Qed.
Definition region_ok (s : alloc_state) (r : N * N * N * list N) (x : N * N * N) : Prop :=
  let '(paddr, size, bits, caps) := r in x = (paddr, size, bits) /\
  Forall2 (fun c x => object_of s c = Some (snd x)) caps (frame_requests paddr size bits).
Lemma regions_ok l : forall s s' rs, inv s -> (forall p z b k o, In (p, z, b) l -> In (k, o) (frame_requests p z b) -> R k o) ->
  alloc_regions l s = (s', rs) -> inv s' /\ grows s s' /\ Forall2 (region_ok s') rs l.
Proof.
  elim: l => [|[[p z] b] l IH] s s' rs I H /=. { move=> [<- <-]. split=> //. split; [exact: grows_refl|constructor]. }
  case E: (allocs _ s) => [s1 c]. case E2: (alloc_regions l s1) => [s2 rs2] [<- <-].
  move: (allocs_ok _ _ _ _ I (fun k o X => H _ _ _ k o (or_introl eq_refl) X) E) => [I1 [G1 O1]].
  move: (IH _ _ _ I1 (fun p' z' b' k o X Y => H p' z' b' k o (or_intror X) Y) E2) => [I2 [G2 O2]].
  split=> //. split; first exact (grows_trans _ _ _ G1 G2). constructor=> //. split=> //.
  elim: O1 => [|? ? ? ? A B C]; constructor=> //. by case: G2 => G2 _; apply: G2.
Qed.
End Alloc.

(** ** What the template asks for *)
Definition all_requests (c : settings) : list (key * object) :=
  [(KCnode, OCnode); (KPd, OPd)] ++ map fst (pool_requests c) ++ ioport_requests c ++
  flat_map (fun '(p, z, b) => frame_requests p z b) (c_mmios c) ++ untyped_mmio_requests c ++ iospace_requests c ++
  smmu_requests c ++ [(KAsidPool, OAsidPool); (KNotification, ONotification)] ++ irq_requests c ++ [(KHolding, ONothing)].
Definition asked (c : settings) (k : key) (o : object) : Prop := In (k, o) (all_requests c).

Lemma offsets_below size bits : offsets size bits = map (fun i => i * 2 ^ bits) (below ((size + 2 ^ bits - 1) / 2 ^ bits)).
Proof.
  have Z: 2 ^ bits <> 0 by apply: N.pow_nonzero. rewrite /offsets.
  have ->: size + (2 ^ bits - 1) = size + 2 ^ bits - 1 by lia. done.
Qed.
Lemma frame_objects p z b : map snd (frame_requests p z b) = region_objects (p, z, b).
Proof. by rewrite /frame_requests map_map offsets_below map_map. Qed.
Lemma device_inj d b v f d' b' v' f' : pci d b v f -> pci d' b' v' f' -> device_id d b v f = device_id d' b' v' f' ->
  d = d' /\ b = b' /\ v = v' /\ f = f'.
Proof. rewrite /pci /device_id. lia. Qed.

Lemma asked_shape c k o : asked c k o ->
  match k with
  | KCnode => o = OCnode | KPd => o = OPd
  | KUntyped b i => o = OUntyped b i
  | KIoport s e => o = OIoports s e
  | KFrame p => exists b r, o = OFrame p b /\ In r (c_mmios c) /\ In o (region_objects r)
  | KMmioUntyped p => exists b, o = ODeviceUntyped p b /\ In (p, b) (c_untyped_mmios c)
  | KIospace n => exists d b v f, o = OIospace d b v f /\ In (d, b, v, f) (c_iospaces c) /\ n = device_id d b v f
  | KSmmu n => o = OSmmu n
  | KAsidPool => o = OAsidPool | KNotification => o = ONotification
  | KIrq n => o = OIrq n
  | KHolding => o = ONothing
  end.
Proof.
  rewrite /asked /all_requests !in_app_iff. move=> [X|[X|[X|[X|[X|[X|[X|[X|[X|X]]]]]]]]].
  - by case: X => [[<- <-]|[[<- <-]|]].
  - move: X. rewrite /pool_requests in_map_iff => [[[[k' o'] b] [/= [-> ->] /in_flat_map [[b' n] [_ /in_map_iff [i [[<- <- _] _]]]]]]]. done.
  - by move: X; rewrite /ioport_requests in_map_iff => [[[s e] [[<- <-] _]]].
  - move: X. rewrite in_flat_map => [[[[p z] b] [I X]]]. move: (X). rewrite {1}/frame_requests in_map_iff => [[off [E _]]].
    have F: In o (region_objects (p, z, b)) by rewrite -frame_objects; exact (in_map snd _ _ X).
    case: E => Ek Eo. subst k. exists b, (p, z, b). by split.
  - move: X; rewrite /untyped_mmio_requests in_map_iff => [[[p b] [[<- <-] I]]]. by exists b.
  - move: X; rewrite /iospace_requests in_map_iff => [[[[[d b] v] f] [[<- <-] I]]]. by exists d, b, v, f.
  - by move: X; rewrite /smmu_requests in_map_iff => [[n [[<- <-] _]]].
  - by case: X => [[<- <-]|[[<- <-]|]].
  - by move: X; rewrite /irq_requests in_map_iff => [[n [[<- <-] _]]].
  - by case: X => [[<- <-]|].
Qed.
Lemma asked_fun c : sensible c -> forall k o o', asked c k o -> asked c k o' -> o = o'.
Proof.
  move=> [F [U D]] k o o' /asked_shape X /asked_shape Y. case: k X Y => [||b i|a b|p|p|n|n|||n|] X Y; try congruence.
  - move: X Y => [b [r [E1 [I1 J1]]]] [b' [r' [E2 [I2 J2]]]]. subst. f_equal. exact (F _ _ _ _ _ I1 I2 J1 J2).
  - move: X Y => [b [-> I1]] [b' [-> I2]]. f_equal. exact (U _ _ _ I1 I2).
  - move: X Y => [d [b [v [f [-> [I1 E1]]]]]] [d' [b' [v' [f' [-> [I2 E2]]]]]].
    case: (device_inj d b v f d' b' v' f') => [||| -> [-> [-> ->]]] //; try exact: D. congruence.
Qed.

(** ** The result of the template *)
Definition objs (s : alloc_state) (caps : list N) (os : list object) : Prop := Forall2 (fun c o => object_of s c = Some o) caps os.
Record made_ok (c : settings) (s : alloc_state) (m : simple) : Prop := {
  m_cnode : object_of s (self_cnode m) = Some OCnode;
  m_pd : object_of s (self_pd m) = Some OPd;
  m_uts : objs s (map fst (untyped_obj_list m)) (pool_objects c);
  m_bits : map snd (untyped_obj_list m) = map snd (pool_requests c);
  m_ports : objs s (map (fun '(x, _, _) => x) (ioports m)) (map (fun '(a, e) => OIoports a e) (c_ioports c));
  m_port_ends : map (fun '(_, a, e) => (a, e)) (ioports m) = c_ioports c;
  m_regions : Forall2 (region_ok s) (mmio_regions m) (c_mmios c);
  m_devs : objs s (map snd (untyped_mmio m)) (device_objects c);
  m_dev_at : map fst (untyped_mmio m) = c_untyped_mmios c;
  m_spaces : objs s (map snd (iospaces m)) (iospace_objects c);
  m_ids : map fst (iospaces m) = map (fun '(d, b, v, f) => device_id d b v f) (c_iospaces c) ++ c_smmu c;
  m_irqs : objs s (map snd (irqs m)) (map OIrq (c_irqs c));
  m_irq_nums : map fst (irqs m) = c_irqs c;
  m_hold : object_of s (holding_slot m) = Some ONothing;
  m_last : forall cap o, object_of s cap = Some o -> cap <= holding_slot m }.

Lemma objs_grow s s' cs os : grows s s' -> objs s cs os -> objs s' cs os.
Proof. move=> [G _]. elim=> [|? ? ? ? A B C]; constructor=> //. exact: G. Qed.
Lemma objs_req s cs l : Forall2 (fun c x => object_of s c = Some (snd (A := key) (B := object) x)) cs l -> objs s cs (map snd l).
Proof. elim=> [|? ? ? ? A B C]; constructor=> //. Qed.
Lemma objs_len s cs os : objs s cs os -> List.length cs = List.length os.
Proof. elim=> //= ? ? ? ? _ _ ->. done. Qed.
Lemma region_grow s s' rs l : grows s s' -> Forall2 (region_ok s) rs l -> Forall2 (region_ok s') rs l.
Proof.
  move=> [G _]. elim=> [|[[[p z] b] cs] x ? ? [A B] C D]; constructor=> //. split=> //.
  elim: B => [|? ? ? ? E F H]; constructor=> //. exact: G.
Qed.
Lemma combine_fst {A B} (l : list A) (l' : list B) : List.length l = List.length l' -> map fst (combine l l') = l.
Proof. elim: l l' => [|a l IH] [|b l'] //= [E]. by rewrite IH. Qed.
Lemma combine_snd {A B} (l : list A) (l' : list B) : List.length l = List.length l' -> map snd (combine l l') = l'.
Proof. elim: l l' => [|a l IH] [|b l'] //= [E]. by rewrite IH. Qed.
Lemma range_below n : range n = below n. Proof. done. Qed.

Lemma template_ok b64 c first s m : sensible c -> template b64 c first = Ok (s, m) -> made_ok c s m.
Proof.
  move=> Sn. have RF0 := asked_fun c Sn.
  set R := fun k o => asked c k o /\ k <> KHolding.
  have RF: forall k o o', R k o -> R k o' -> o = o' by move=> k o o' [X _] [Y _]; exact (RF0 _ _ _ X Y). rewrite /template.
  set s0 := AState [] first []. have I0: inv R s0 by split.
  have A: forall k o, In (k, o) (all_requests c) -> k <> KHolding -> R k o by [].
  case E1: (alloc KCnode OCnode s0) => [s1 cnode].
  move: (alloc_ok _ RF _ _ _ _ _ I0 (A KCnode OCnode (or_introl eq_refl) ltac:(done)) E1) => [I1 [G1 O1]].
  case E2: (alloc KPd OPd s1) => [s2 pd].
  move: (alloc_ok _ RF _ _ _ _ _ I1 (A KPd OPd (or_intror (or_introl eq_refl)) ltac:(done)) E2) => [I2 [G2 O2]].
  case: (negb (pools_legal b64 c)) => //.
  case E3: (allocs _ s2) => [s3 uts].
  have H3: forall k o, In (k, o) (map fst (pool_requests c)) -> R k o.
  { move=> k o X. split; first by rewrite /asked /all_requests !in_app_iff; tauto. move=> E. subst k. move: X. rewrite in_map_iff => [[[[? ?] ?] [/= [-> _] /in_flat_map [[? ?] [_ /in_map_iff [? [? _]]]]]]]. done. }
  move: (allocs_ok _ RF _ _ _ _ I2 H3 E3) => [I3 [G3 /objs_req O3]].
  case E4: (allocs _ s3) => [s4 ports].
  have H4: forall k o, In (k, o) (ioport_requests c) -> R k o.
  { move=> k o X. split; first by rewrite /asked /all_requests !in_app_iff; tauto. move=> E. subst k. by move: X; rewrite /ioport_requests in_map_iff => [[[? ?] [? _]]]. }
  move: (allocs_ok _ RF _ _ _ _ I3 H4 E4) => [I4 [G4 /objs_req O4]].
  case: (negb _) => //.
  case E5: (alloc_regions _ s4) => [s5 regions].
  have H5: forall p z b k o, In (p, z, b) (c_mmios c) -> In (k, o) (frame_requests p z b) -> R k o.
  { move=> p z b k o X Y. split; last by (move=> E; subst k; move: Y; rewrite /frame_requests in_map_iff => [[? [? _]]]). rewrite /asked /all_requests !in_app_iff. do 3 right. left. apply/in_flat_map. by exists (p, z, b). }
  move: (regions_ok _ RF _ _ _ _ I4 H5 E5) => [I5 [G5 O5]].
  case E6: (allocs _ s5) => [s6 devs].
  have H6: forall k o, In (k, o) (untyped_mmio_requests c) -> R k o.
  { move=> k o X. split; first by rewrite /asked /all_requests !in_app_iff; tauto. move=> E. subst k. by move: X; rewrite /untyped_mmio_requests in_map_iff => [[[? ?] [? _]]]. }
  move: (allocs_ok _ RF _ _ _ _ I5 H6 E6) => [I6 [G6 /objs_req O6]].
  case E7: (allocs _ s6) => [s7 spaces].
  have H7: forall k o, In (k, o) (iospace_requests c) -> R k o.
  { move=> k o X. split; first by rewrite /asked /all_requests !in_app_iff; tauto. move=> E. subst k. by move: X; rewrite /iospace_requests in_map_iff => [[[[[? ?] ?] ?] [? _]]]. }
  move: (allocs_ok _ RF _ _ _ _ I6 H7 E7) => [I7 [G7 /objs_req O7]].
  case E8: (allocs _ s7) => [s8 smmus].
  have H8: forall k o, In (k, o) (smmu_requests c) -> R k o.
  { move=> k o X. split; first by rewrite /asked /all_requests !in_app_iff; tauto. move=> E. subst k. by move: X; rewrite /smmu_requests in_map_iff => [[? [? _]]]. }
  move: (allocs_ok _ RF _ _ _ _ I7 H8 E8) => [I8 [G8 /objs_req O8]].
  set s9 := (if c_asid_pool c then _ else s8).
  have [I9 G9]: inv R s9 /\ grows s8 s9.
  { rewrite /s9. case: (c_asid_pool c); last by split=> //; exact: grows_refl.
    case E9: (alloc KAsidPool OAsidPool s8) => [t q] /=.
    have H9: R KAsidPool OAsidPool by split=> //; rewrite /asked /all_requests !in_app_iff /=; tauto.
    by move: (alloc_ok _ RF _ _ _ _ _ I8 H9 E9) => [? [? _]]. }
  set s10 := fst (alloc KNotification ONotification s9).
  have [I10 G10]: inv R s10 /\ grows s9 s10.
  { rewrite /s10. case E10: (alloc KNotification ONotification s9) => [t q] /=.
    have H10: R KNotification ONotification by split=> //; rewrite /asked /all_requests !in_app_iff /=; tauto.
    by move: (alloc_ok _ RF _ _ _ _ _ I9 H10 E10) => [? [? _]]. }
  case E11: (allocs _ s10) => [s11 irqcaps].
  have H11: forall k o, In (k, o) (irq_requests c) -> R k o.
  { move=> k o X. split; first by rewrite /asked /all_requests !in_app_iff; tauto. move=> E. subst k. by move: X; rewrite /irq_requests in_map_iff => [[? [? _]]]. }
  move: (allocs_ok _ RF _ _ _ _ I10 H11 E11) => [I11 [G11 /objs_req O11]].
  case E12: (alloc KHolding ONothing s11) => [s12 holding].
  have H12: asked c KHolding ONothing by rewrite /asked /all_requests !in_app_iff /=; tauto.
  have I11': inv (asked c) s11.
  { split; first exact: i_new I11. move=> k d /(i_made _ _ I11) [o [X [Y _]]]. by exists o. }
  move: (alloc_ok _ RF0 _ _ _ _ _ I11' H12 E12) => [I12 [G12 O12]].
  move=> [<- <-].
  have T11: grows s11 s12 by [].
  have T10: grows s10 s12 by exact: grows_trans G11 T11.
  have T8: grows s8 s12 by exact: grows_trans G9 (grows_trans _ _ _ G10 T10).
  have T7: grows s7 s12 by exact: grows_trans G8 T8.
  have T6: grows s6 s12 by exact: grows_trans G7 T7.
  have T5: grows s5 s12 by exact: grows_trans G6 T6.
  have T4: grows s4 s12 by exact: grows_trans G5 T5.
  have T3: grows s3 s12 by exact: grows_trans G4 T4.
  have T2: grows s2 s12 by exact: grows_trans G3 T3.
  have T1: grows s1 s12 by exact: grows_trans G2 T2.
  have L3 := objs_len _ _ _ O3. have L4 := objs_len _ _ _ O4. have L6 := objs_len _ _ _ O6. have L7 := objs_len _ _ _ O7.
  have L8 := objs_len _ _ _ O8. have L11 := objs_len _ _ _ O11.
  rewrite !map_length in L3 L4 L6 L7 L8 L11.
  split=> /=.
  - by case: T1 => T _; apply: T.
  - by case: T2 => T _; apply: T.
  - rewrite combine_fst ?map_length //. apply: (objs_grow s3) => //. 
    suff <-: map snd (map fst (pool_requests c)) = pool_objects c by [].
    rewrite /pool_requests /pool_objects map_map. elim: (c_pools c) => [|[b n] l IH] //=. by rewrite map_app map_map IH.
  - by rewrite combine_snd ?map_length.
  - apply: (objs_grow s4) => //. move: O4. rewrite /ioport_requests map_map map_map.
    have ->: map (fun x => (let '(x0, _, _) := let '(cap, (st, e)) := x in (cap, st, e) in x0)) (combine ports (c_ioports c)) = map fst (combine ports (c_ioports c)).
    { apply: map_ext => [[? [? ?]]]. done. }
    rewrite combine_fst //. have ->: map (fun x => snd (let '(s13, e) := x in (KIoport s13 e, OIoports s13 e))) (c_ioports c) = map (fun '(a, e) => OIoports a e) (c_ioports c) by apply: map_ext => [[? ?]].
    done.
  - rewrite map_map. have ->: map (fun x => (let '(_, a, e) := let '(cap, (st, e)) := x in (cap, st, e) in (a, e))) (combine ports (c_ioports c)) = map snd (combine ports (c_ioports c)).
    { apply: map_ext => [[? [? ?]]]. done. }
    by rewrite combine_snd.
  - exact: region_grow O5.
  - apply: (objs_grow s6) => //. move: O6. rewrite /untyped_mmio_requests !map_map.
    have ->: map (fun x => snd (let '(cap, (p, b)) := x in (p, b, cap))) (combine devs (c_untyped_mmios c)) = map fst (combine devs (c_untyped_mmios c)).
    { apply: map_ext => [[? [? ?]]]. done. }
    rewrite combine_fst //. have ->: map (fun x => snd (let '(p, b) := x in (KMmioUntyped p, ODeviceUntyped p b))) (c_untyped_mmios c) = device_objects c by apply: map_ext => [[? ?]].
    done.
  - rewrite map_map. have ->: map (fun x => fst (let '(cap, (p, b)) := x in (p, b, cap))) (combine devs (c_untyped_mmios c)) = map snd (combine devs (c_untyped_mmios c)).
    { apply: map_ext => [[? [? ?]]]. done. }
    by rewrite combine_snd.
  - rewrite map_app !map_map /iospace_objects. apply: Forall2_app.
    + apply: (objs_grow s7) => //. move: O7. rewrite /iospace_requests map_map.
      have ->: map (fun x => snd (let '(cap, (d, b, v, f)) := x in (device_id d b v f, cap))) (combine spaces (c_iospaces c)) = map fst (combine spaces (c_iospaces c)).
      { apply: map_ext => [[? [[[? ?] ?] ?]]]. done. }
      rewrite combine_fst //.
      have ->: map (fun x => snd (let '(d, b, v, f) := x in (KIospace (device_id d b v f), OIospace d b v f))) (c_iospaces c) = map (fun '(d, b, v, f) => OIospace d b v f) (c_iospaces c) by apply: map_ext => [[[[? ?] ?] ?]].
      done.
    + apply: (objs_grow s8) => //. move: O8. rewrite /smmu_requests map_map /=.
      have ->: map (fun x => snd (let '(cap, n) := x in (n, cap))) (combine smmus (c_smmu c)) = map fst (combine smmus (c_smmu c)) by apply: map_ext => [[? ?]].
      by rewrite combine_fst.
  - rewrite map_app !map_map. f_equal.
    + have ->: map (fun x => fst (let '(cap, (d, b, v, f)) := x in (device_id d b v f, cap))) (combine spaces (c_iospaces c)) = map (fun '(d, b, v, f) => device_id d b v f) (map snd (combine spaces (c_iospaces c))).
      { rewrite map_map. apply: map_ext => [[? [[[? ?] ?] ?]]]. done. }
      by rewrite combine_snd.
    + have ->: map (fun x => fst (let '(cap, n) := x in (n, cap))) (combine smmus (c_smmu c)) = map snd (combine smmus (c_smmu c)) by apply: map_ext => [[? ?]].
      by rewrite combine_snd.
  - apply: (objs_grow s11) => //. move: O11. rewrite /irq_requests !map_map /=.
    have ->: map (fun x => snd (let '(cap, n) := x in (n, cap))) (combine irqcaps (c_irqs c)) = map fst (combine irqcaps (c_irqs c)) by apply: map_ext => [[? ?]].
    by rewrite combine_fst.
  - rewrite map_map. have ->: map (fun x => fst (let '(cap, n) := x in (n, cap))) (combine irqcaps (c_irqs c)) = map snd (combine irqcaps (c_irqs c)) by apply: map_ext => [[? ?]].
    by rewrite combine_snd.
  - done.
  - have N: made_before KHolding (made s11) = None.
    { case E: made_before => [q|] //. by move: (i_made _ _ I11 _ _ E) => [o [_ [_ []]]]. }
    move: E12. rewrite /alloc N => [[<- <-]] cap o X. move: (i_new _ _ I11). rewrite /object_of /= in X.
    move: X. case: (N.eqb_spec (next s11) cap) => [<-|_] X H; first lia. move: (H _ _ (find_In _ _ _ X)). lia.
Qed.
