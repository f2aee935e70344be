From Coq Require Import NArith ZArith List Bool Lia ssreflect ssrbool.
From Verif Require Import Prelude Irq_Model Irq_Spec.
Import ListNotations.
Open Scope N_scope.

Lemma normaliseE a n t c : normalise a = Some (n, t, c) <-> line a n t c.
Proof.
  split; last by case.
  by case: a => [m|m u|m u k|????? |????? |] //= [<- <- <-]; constructor.
Qed.

Lemma check_fits a b : check_irq_info_is_equal a b = true <-> fits a b.
Proof.
  have F : forall a n t c, normalise a = Some (n, t, c) ->
    (match b with
     | Interrupt n' => n =? n'
     | Trigger n' t' => (n =? n') && (t =? t')
     | PerCpu n' t' c' => (n =? n') && (t =? t') && (c =? c')
     | _ => false
     end = true <-> fits a b).
  { clear. move=> a n t c Ea. split.
    - case: b => [n'|n' t'|n' t' c'|????? |????? |] //.
      + move=> /N.eqb_eq <-. apply: fits_number. by apply normaliseE; exact: Ea.
      + move=> /andP [/N.eqb_eq <- /N.eqb_eq <-]. apply: fits_trigger. by apply normaliseE; exact: Ea.
      + move=> /andP [/andP [/N.eqb_eq <- /N.eqb_eq <-] /N.eqb_eq <-]. apply: fits_cpu. by apply normaliseE; exact: Ea.
    - move=> H. inversion H; subst; try (have H1 := proj2 (normaliseE _ _ _ _) H0; by rewrite Ea in H1; case: H1 => *; subst; rewrite !N.eqb_refl).
      + by [].
      + by []. }
  case: a F => [n|n t|n t c|i p l q v|x d f h v|] F; cbn [check_irq_info_is_equal normalise].
  - by apply: F.
  - by apply: F.
  - by apply: F.
  - split; last by move=> H; inversion H as [? ? ? ? L|? ? ? ? L|? ? ? ? L| |]; subst; try (by inversion L); rewrite ?N.eqb_refl //.
    case: b F => // i' p' l' q' v' _ /andP [/andP [/andP [/andP [/N.eqb_eq <- /N.eqb_eq <-] /N.eqb_eq <-] /N.eqb_eq <-] /N.eqb_eq <-].
    by constructor.
  - split; last by move=> H; inversion H as [? ? ? ? L|? ? ? ? L|? ? ? ? L| |]; subst; try (by inversion L); rewrite ?N.eqb_refl //.
    case: b F => // i' p' l' q' v' _ /andP [/andP [/andP [/andP [/N.eqb_eq <- /N.eqb_eq <-] /N.eqb_eq <-] /N.eqb_eq <-] /N.eqb_eq <-].
    by constructor.
  - split=> // H. by inversion H as [? ? ? ? L|? ? ? ? L|? ? ? ? L| |]; inversion L.
Qed.

Lemma run_from_app t l1 l2 :
  run_from t (l1 ++ l2) =
  let (t1, h1) := run_from t l1 in let (t2, h2) := run_from t1 l2 in (t2, h1 ++ h2).
Proof.
  elim: l1 t => [|o l1 IH] t /=; first by case: (run_from t l2).
  case: (step t o) => [[t1 z] a]. rewrite IH. case: (run_from t1 l1) => t2 h1.
  by case: (run_from t2 l2).
Qed.

Lemma run_snoc irqs l o t h : run irqs (l ++ [o]) = (t, h) ->
  exists t0 h0 z a, run irqs l = (t0, h0) /\ step t0 o = (t, z, a) /\ h = h0 ++ [(o, z, a)].
Proof.
  rewrite /run run_from_app. case: (run_from (initial irqs) l) => t0 h0 /=.
  case E: (step t0 o) => [[t1 z] a] [? ?]; subst. by exists t0, h0, z, a.
Qed.

Lemma run_ops t l t' h : run_from t l = (t', h) -> map (fun e => fst (fst e)) h = l.
Proof.
  elim: l t t' h => [|o l IH] t t' h /=; first by move=> [_ <-].
  case: (step t o) => [[t1 z] a]. case E: (run_from t1 l) => [t2 h2] [_ <-] /=. by rewrite (IH _ _ _ E).
Qed.

Lemma run_prefix irqs l t h h1 h2 : run irqs l = (t, h) -> h = h1 ++ h2 ->
  exists t1, run irqs (map (fun e => fst (fst e)) h1) = (t1, h1).
Proof.
  rewrite /run => R E. have F := run_ops _ _ _ _ R.
  move: R. rewrite -F E map_app run_from_app.
  case E1: (run_from (initial irqs) (map _ h1)) => [t1 k1].
  case E2: (run_from t1 (map _ h2)) => [t2 k2] [_ Ek].
  exists t1. have F1 := run_ops _ _ _ _ E1.
  have L : List.length k1 = List.length h1 by rewrite -(map_length (fun e => fst (fst e)) h1) -F1 map_length.
  suff -> : h1 = k1 by [].
  move: L Ek. clear. elim: k1 h1 => [|a k1 IH] [|b h1] //= [L] [-> Ek].
  by rewrite (IH _ L Ek).
Qed.

Lemma bound_snoc h e c : bound (h ++ [e]) c = bound1 c (bound h c) e.
Proof. by rewrite /bound fold_left_app. Qed.

Lemma bound_app h k c : bound (h ++ k) c = fold_left (bound1 c) k (bound h c).
Proof. by rewrite /bound fold_left_app. Qed.

(** ** The table as a function of the history *)
Definition some {A} (o : option A) : bool := match o with Some _ => true | None => false end.

Definition entry_of (h : history) (x : N * irq) : entry :=
  Entry (fst x) (snd x) (some (bound h (fst x))) (bound h (fst x)).

Lemma find_interrupt_cases q t :
  (exists t1 e t2, t = t1 ++ e :: t2 /\ e_alloc e = false /\ fits (e_irq e) q /\
     find_by_interrupt q t = Some e) \/
  ((forall e, In e t -> e_alloc e = true \/ ~ fits (e_irq e) q) /\ find_by_interrupt q t = None).
Proof.
  elim: t => [|e t IH] /=; first by right.
  case A: (e_alloc e) => /=.
  - case: IH => [[t1 [e' [t2 [-> [H1 [H2 H3]]]]]]|[H1 H2]].
    + left. by exists (e :: t1), e', t2.
    + right. split=> //. move=> x [<-|/H1] //. by left.
  - case C: (check_irq_info_is_equal (e_irq e) q).
    + left. exists [], e, t. do 2 (split; [done|]). split=> //. by apply/check_fits.
    + have Hn : ~ fits (e_irq e) q by move=> /check_fits; rewrite C.
      case: IH => [[t1 [e' [t2 [-> [H1 [H2 H3]]]]]]|[H1 H2]].
      * left. by exists (e :: t1), e', t2.
      * right. split=> //. move=> x [<-|/H1] //. by right.
Qed.

Lemma find_cptr_cases c t :
  (exists t1 e t2, t = t1 ++ e :: t2 /\ e_alloc e = true /\ e_handler e = c /\
     find_by_cptr c t = Some e) \/
  ((forall e, In e t -> e_handler e = c -> e_alloc e = false) /\ find_by_cptr c t = None).
Proof.
  elim: t => [|e t IH] /=; first by right.
  case A: (e_alloc e) => /=.
  - case: N.eqb_spec => E.
    + left. by exists [], e, t.
    + case: IH => [[t1 [e' [t2 [-> [H1 [H2 H3]]]]]]|[H1 H2]].
      * left. by exists (e :: t1), e', t2.
      * right. split=> //. move=> x [<-|/H1] //.
  - case: IH => [[t1 [e' [t2 [-> [H1 [H2 H3]]]]]]|[H1 H2]].
    + left. by exists (e :: t1), e', t2.
    + right. split=> //. move=> x [<-|/H1] //.
Qed.

Lemma map_split {A B} (g : A -> B) l l1 x l2 :
  map g l = l1 ++ x :: l2 -> exists y, In y l /\ g y = x.
Proof.
  move=> E. have : In x (map g l) by rewrite E in_app_iff /=; tauto.
  move=> /in_map_iff [y [H1 H2]]. by exists y.
Qed.

(** Errors are negative, ids are not. *)
Lemma of_N_neg n z : (z < 0)%Z -> (z =? Z.of_N n)%Z = false.
Proof. move=> H. apply/Z.eqb_neq. lia. Qed.

Lemma closed_form irqs l t h : NoDup (map fst irqs) -> run irqs l = (t, h) ->
  t = map (entry_of h) irqs.
Proof.
  move=> Hnd. elim/rev_ind: l t h => [|o l IH] t h.
  { rewrite /run /= /initial => [[<- <-]]. apply: map_ext => [[c q]] //. }
  move=> /run_snoc [t0 [h0 [z [a [R [S ->]]]]]]. have {}IH := IH _ _ R.
  have Hsame : (forall c, bound (h0 ++ [(o, z, a)]) c = bound h0 c) -> t = t0 ->
    t = map (entry_of (h0 ++ [(o, z, a)])) irqs.
  { move=> Hb ->. rewrite IH. apply: map_ext => x. by rewrite /entry_of Hb. }
  have Hupd : forall c b cb, some cb = b -> (forall c', bound (h0 ++ [(o, z, a)]) c' = if c' =? c then cb else bound h0 c') ->
    t = update c b cb t0 -> t = map (entry_of (h0 ++ [(o, z, a)])) irqs.
  { move=> c b cb Hc Hb ->. rewrite IH /update map_map. apply: map_ext => x.
    rewrite /entry_of Hb /=. case: (N.eqb_spec (fst x) c) => [->|] //. by rewrite Hc. }
  case: o S Hsame Hupd => [ack q cb|ack id] /= S Hsame Hupd.
  - move: S. rewrite /irq_register. case: cb Hsame Hupd => [f|] Hsame Hupd.
    + case: (find_interrupt_cases q t0) => [[t1 [e [t2 [Et [Ha [Hf ->]]]]]]|[_ ->]].
      * case: ack Hsame Hupd => Hsame Hupd [Ht Hz Hac].
        -- apply: (Hupd (e_handler e) true (Some f)) => //. move=> c'. rewrite bound_snoc /= -Hz.
           case: (N.eqb_spec c' (e_handler e)) => [->|E]; first by rewrite Z.eqb_refl.
           have -> // : (Z.of_N (e_handler e) =? Z.of_N c')%Z = false by apply/Z.eqb_neq; lia.
        -- apply: Hsame => // c. rewrite bound_snoc /= -Hz of_N_neg //.
      * move=> [Ht Hz Hac]. apply: Hsame => // c. rewrite bound_snoc /= -Hz of_N_neg //.
    + move=> [Ht Hz Hac]. apply: Hsame => // c. rewrite bound_snoc /= -Hz of_N_neg //.
  - move: S. rewrite /irq_unregister. case: Z.ltb_spec => Hid.
    { move=> [Ht Hz Hac]. apply: Hsame => // c. by rewrite bound_snoc /= -Hz andb_false_r. }
    case: (find_cptr_cases (Z.to_N id) t0) => [[t1 [e [t2 [Et [Ha [Hh ->]]]]]]|[_ ->]].
    + case: ack Hsame Hupd => Hsame Hupd [Ht Hz Hac].
      * apply: (Hupd (e_handler e) false None) => //. move=> c'. rewrite bound_snoc /= -Hz andb_true_r Hh.
        case: (N.eqb_spec c' (Z.to_N id)) => [->|E].
        -- by rewrite Z2N.id // Z.eqb_refl.
        -- have -> // : (id =? Z.of_N c')%Z = false by apply/Z.eqb_neq; lia.
      * apply: Hsame => // c. by rewrite bound_snoc /= -Hz andb_false_r.
    + move=> [Ht Hz Hac]. apply: Hsame => // c. by rewrite bound_snoc /= -Hz andb_false_r.
Qed.

(** ** Registration *)
Lemma at_step irqs l t h h1 o z a h2 : run irqs l = (t, h) -> h = h1 ++ (o, z, a) :: h2 ->
  exists t1 t2, run irqs (map (fun e => fst (fst e)) h1) = (t1, h1) /\ step t1 o = (t2, z, a).
Proof.
  move=> R E.
  have E' : h = (h1 ++ [(o, z, a)]) ++ h2 by rewrite -app_assoc.
  have [s1] := run_prefix _ _ _ _ _ _ R E'. rewrite map_app => R1.
  have [s0 [h0 [r [b [R0 [S E0]]]]]] := run_snoc _ _ _ _ _ R1.
  apply app_inj_tail in E0. move: E0 => [E1 [E2 E3]]. subst. by exists s0, s1.
Qed.

Lemma register_ok irqs l t h h1 ack q cb z a h2 :
  NoDup (map fst irqs) -> run irqs l = (t, h) -> h = h1 ++ (ORegister ack q cb, z, a) :: h2 ->
  (0 <= z)%Z ->
  exists c i, z = Z.of_N c /\ a = [c] /\ In (c, i) irqs /\ fits i q /\ bound h1 c = None /\
    cb <> None /\ bound (h1 ++ [(ORegister ack q cb, z, a)]) c = cb.
Proof.
  move=> Hnd R E Hz. have [t1 [t2 [R1 S]]] := at_step _ _ _ _ _ _ _ _ _ R E.
  have C := closed_form _ _ _ _ Hnd R1. move: S => /=. rewrite /irq_register.
  case: cb E => [f|] E; last by move=> [_ Hz' _]; subst z.
  case: (find_interrupt_cases q t1) => [[k1 [e [k2 [Et [Ha [Hf ->]]]]]]|[_ ->]]; last by move=> [_ Hz' _]; subst z.
  case: ack E => E; last by move=> [_ Hz' _]; subst z.
  move=> [_ Hz' Hac]. rewrite C in Et. have [[c i] [Hin He]] := map_split _ _ _ _ _ Et.
  exists c, i. rewrite -Hz' -Hac -He /=. do 2 (split; [done|]). split=> //. rewrite -He /= in Hf Ha.
  split=> //. split; first by case: (bound h1 c) Ha. split=> //. by rewrite bound_snoc /= Z.eqb_refl.
Qed.

(** A registration finds nothing exactly when every interrupt it fits is taken. *)
Lemma register_noent irqs l t h h1 ack q f z a h2 :
  NoDup (map fst irqs) -> run irqs l = (t, h) -> h = h1 ++ (ORegister ack q (Some f), z, a) :: h2 ->
  (z = ENOENT <-> forall c i, In (c, i) irqs -> fits i q -> bound h1 c <> None).
Proof.
  move=> Hnd R E. have [t1 [t2 [R1 S]]] := at_step _ _ _ _ _ _ _ _ _ R E.
  have C := closed_form _ _ _ _ Hnd R1. move: S => /=. rewrite /irq_register.
  case: (find_interrupt_cases q t1) => [[k1 [e [k2 [Et [Ha [Hf ->]]]]]]|[H ->]].
  - rewrite C in Et. have [[c i] [Hin He]] := map_split _ _ _ _ _ Et. rewrite -He /= in Hf Ha.
    move=> S. split.
    + move: S. case: (ack) => [[_ <- _]|[_ <- _]] //. rewrite /ENOENT. lia.
    + move=> H. case: (H c i Hin Hf). by case: (bound h1 c) Ha.
  - move=> [_ <- _]. split=> // _ c i Hin Hf.
    have Hin' : In (entry_of h1 (c, i)) t1 by rewrite C; apply: in_map.
    case: (H _ Hin') => /=; last by [].
    by case: (bound h1 c).
Qed.

Lemma unregister_ok irqs l t h h1 ack id z a h2 :
  NoDup (map fst irqs) -> run irqs l = (t, h) -> h = h1 ++ (OUnregister ack id, z, a) :: h2 ->
  (z = 0%Z <-> ack = true /\ exists c i, id = Z.of_N c /\ In (c, i) irqs /\ bound h1 c <> None).
Proof.
  move=> Hnd R E. have [t1 [t2 [R1 S]]] := at_step _ _ _ _ _ _ _ _ _ R E.
  have C := closed_form _ _ _ _ Hnd R1. move: S => /=. rewrite /irq_unregister.
  case: Z.ltb_spec => Hid.
  { move=> [_ <- _]. split=> // [[_ [c [i [H _]]]]]. lia. }
  case: (find_cptr_cases (Z.to_N id) t1) => [[k1 [e [k2 [Et [Ha [Hh ->]]]]]]|[H ->]].
  - rewrite C in Et. have [[c i] [Hin He]] := map_split _ _ _ _ _ Et. rewrite -He /= in Ha Hh.
    case: (ack) => [[_ <- _]|[_ <- _]]; last by split=> // [[]].
    split=> // _. split=> //. exists c, i. split; first by rewrite Hh Z2N.id. split=> //.
    by case: (bound h1 c) Ha.
  - move=> [_ <- _]. split=> // [[_ [c [i [Eid [Hin Hb]]]]]]. exfalso.
    have Hin' : In (entry_of h1 (c, i)) t1 by rewrite C; apply: in_map.
    have := H _ Hin'. rewrite /= Eid N2Z.id => /(_ eq_refl). by case: (bound h1 c) Hb.
Qed.

(** Between two registrations that return the same id lies an unregistration of it. *)
Lemma register_once irqs l t h h1 k1 q1 cb1 a1 k k2 q2 cb2 a2 h2 c :
  NoDup (map fst irqs) -> run irqs l = (t, h) ->
  h = h1 ++ (ORegister k1 q1 cb1, Z.of_N c, a1) :: k ++ (ORegister k2 q2 cb2, Z.of_N c, a2) :: h2 ->
  exists ack a, In (OUnregister ack (Z.of_N c), 0%Z, a) k.
Proof.
  move=> Hnd R E.
  have E2 : h = (h1 ++ (ORegister k1 q1 cb1, Z.of_N c, a1) :: k) ++ (ORegister k2 q2 cb2, Z.of_N c, a2) :: h2.
  { by rewrite -app_assoc. }
  have [c1 [i1 [Ec1 [_ [_ [_ [_ [Hcb1 Hb1]]]]]]]] := register_ok _ _ _ _ _ _ _ _ _ _ _ Hnd R E (N2Z.is_nonneg c).
  have [c2 [i2 [Ec2 [_ [_ [_ [Hb2 _]]]]]]] := register_ok _ _ _ _ _ _ _ _ _ _ _ Hnd R E2 (N2Z.is_nonneg c).
  apply N2Z.inj in Ec1. apply N2Z.inj in Ec2. subst c1 c2.
  have Ek : h1 ++ (ORegister k1 q1 cb1, Z.of_N c, a1) :: k = (h1 ++ [(ORegister k1 q1 cb1, Z.of_N c, a1)]) ++ k.
  { by rewrite -app_assoc. }
  rewrite Ek bound_app Hb1 in Hb2.
  have Hreg : forall k' b e k'' g, h = g ++ (ORegister k' b e, Z.of_N c, k'') :: skipn (Datatypes.S (List.length g)) h -> e <> None.
  { move=> k' b e k'' g Eg. by have [? [? [_ [_ [_ [_ [_ [H _]]]]]]]] := register_ok _ _ _ _ _ _ _ _ _ _ _ Hnd R Eg (N2Z.is_nonneg c). }
  have Hreg2 : forall k' b e k'', In (ORegister k' b e, Z.of_N c, k'') k -> e <> None.
  { move=> k' b e k'' Hin. apply in_split in Hin. move: Hin => [x [y Exy]].
    apply: (Hreg k' b e k'' (h1 ++ (ORegister k1 q1 cb1, Z.of_N c, a1) :: x)).
    have Eh : h = (h1 ++ (ORegister k1 q1 cb1, Z.of_N c, a1) :: x) ++ (ORegister k' b e, Z.of_N c, k'') :: (y ++ (ORegister k2 q2 cb2, Z.of_N c, a2) :: h2).
    { rewrite E Exy. by repeat (rewrite -app_assoc /=). }
    rewrite {1}Eh. congr (_ ++ _ :: _). rewrite Eh. rewrite skipn_app.
    rewrite skipn_all2; first by lia. rewrite PeanoNat.Nat.sub_succ_l // PeanoNat.Nat.sub_diag. by []. }
  move: Hb2 Hcb1 Hreg2. clear. elim: k cb1 => [|[[o z] a] k IH] cb //= Hb Hcb Hreg.
  have Hreg' : forall k' b e k'', In (ORegister k' b e, Z.of_N c, k'') k -> e <> None.
  { move=> k' b e k'' Hin. apply: (Hreg k' b e k''). by right. }
  case: o Hb Hreg => [ack q cb'|ack id] /= Hb Hreg.
  - case: (Z.eqb_spec z (Z.of_N c)) Hb => [Ez|Ez] Hb.
    + have Hn : cb' <> None by apply: (Hreg ack q cb' a); left; rewrite Ez.
      have [ack' [a' H]] := IH _ Hb Hn Hreg'. exists ack', a'. by right.
    + have [ack' [a' H]] := IH _ Hb Hcb Hreg'. exists ack', a'. by right.
  - case: (Z.eqb_spec id (Z.of_N c)) Hb => [Eid|Eid] /= Hb.
    + case: (Z.eqb_spec z 0) Hb => [Ez|Ez] Hb.
      * exists ack, a. left. by rewrite Eid Ez.
      * have [ack' [a' H]] := IH _ Hb Hcb Hreg'. exists ack', a'. by right.
    + have [ack' [a' H]] := IH _ Hb Hcb Hreg'. exists ack', a'. by right.
Qed.

(** ** Delivery *)
Lemma get_entry_map irqs h c i : NoDup (map fst irqs) -> In (c, i) irqs ->
  get_entry c (map (entry_of h) irqs) = Some (entry_of h (c, i)).
Proof.
  elim: irqs => [|[c' i'] irqs IH] //= Hnd Hin. inversion Hnd as [|? ? Hni Hnd']; subst.
  case: N.eqb_spec => E.
  - subst c'. case: Hin => [[<-]|Hin] //. exfalso. apply: Hni. by apply: (in_map fst _ _ Hin).
  - apply: IH => //. case: Hin => // [[E2 _]]. by rewrite E2 in E.
Qed.

Lemma deliver_of hh h x ack : deliver hh (entry_of h x) ack = right_outcome hh (bound h (fst x)) ack.
Proof. rewrite /deliver /=. by case: hh; case: (bound h (fst x)). Qed.

Lemma hw_right irqs l t h hh c i : NoDup (map fst irqs) -> run irqs l = (t, h) -> In (c, i) irqs ->
  hw_run hh c t = Some (right_outcome hh (bound h c) c).
Proof.
  move=> Hnd R Hin. rewrite (closed_form _ _ _ _ Hnd R) /hw_run (get_entry_map _ _ _ i) //.
  by rewrite deliver_of.
Qed.

Lemma dtb_ack_own n c pairs : NoDup (map fst pairs) -> In (n, c) pairs -> dtb_ack n pairs = Some c.
Proof.
  elim: pairs => [|[n' c'] pairs IH] //= Hnd Hin. inversion Hnd as [|? ? Hni Hnd']; subst.
  case: N.eqb_spec => E.
  - subst n'. case: Hin => [[<-]|Hin] //. exfalso. apply: Hni. by apply: (in_map fst _ _ Hin).
  - apply: IH => //. case: Hin => // [[E2 _]]. by rewrite E2 in E.
Qed.

Lemma dtb_right irqs l t h hh pairs badge :
  NoDup (map fst irqs) -> run irqs l = (t, h) ->
  NoDup (map fst pairs) -> (forall n c, In (n, c) pairs -> In (c, Interrupt n) irqs) ->
  dtb_run hh pairs t badge =
  map (fun c => Some (right_outcome hh (bound h c) c)) (fired badge pairs).
Proof.
  move=> Hnd R Hp Hin. rewrite /dtb_run /fired.
  have G : forall i rest, (forall p, In p rest -> In p pairs) ->
    dtb_loop hh pairs t badge i rest =
    map (fun c => Some (right_outcome hh (bound h c) c))
      (map (fun x => snd (snd x))
        (filter (fun x => N.testbit badge (N.of_nat (fst x))) (combine (seq i (List.length rest)) rest))).
  { move=> i rest. elim: rest i => [|[n c] rest IH] i Hr //.
    cbn [dtb_loop List.length seq combine filter fst]. rewrite IH; first by move=> p Hp'; apply: Hr; right.
    rewrite /dtb_one /=. case: (N.testbit badge (N.of_nat i)) => //=.
    have Hpc : In (n, c) pairs by apply: Hr; left.
    rewrite (dtb_ack_own n c) // (closed_form _ _ _ _ Hnd R) (get_entry_map _ _ _ (Interrupt n)) //; first by apply: Hin.
    by rewrite deliver_of. }
  by apply: G.
Qed.

Lemma land_sub badge b : (N.land badge b =? b) = true ->
  forall j, N.testbit b j = true -> N.testbit badge j = true.
Proof.
  rewrite N.eqb_eq => E j Hj. rewrite -E N.land_spec in Hj. by case/andP: Hj.
Qed.
Lemma land_missing badge b : (N.land badge b =? b) = false ->
  exists j, N.testbit b j = true /\ N.testbit badge j = false.
Proof.
  move=> /N.eqb_neq Hne. exists (N.log2 (N.ldiff b badge)).
  have Hz : N.ldiff b badge <> 0.
  { move=> Hz. apply: Hne. apply: N.bits_inj => j. rewrite N.land_spec.
    have : N.testbit (N.ldiff b badge) j = false by rewrite Hz N.bits_0.
    rewrite N.ldiff_spec. by case: (N.testbit b j); case: (N.testbit badge j). }
  have := N.bit_log2 _ Hz. rewrite N.ldiff_spec => /andP [-> /negbTE ->]. done.
Qed.

Lemma global_calls irqs l t h handlers badge :
  NoDup (map fst irqs) -> run irqs l = (t, h) ->
  (forall b k c, In (b, k, c) handlers -> exists i, In (c, i) irqs) ->
  calls h badge handlers (global_run handlers t badge).
Proof.
  move=> Hnd R. have C := closed_form _ _ _ _ Hnd R. rewrite C. clear C R t l.
  elim: handlers => [|[[b k] c] hs IH] Hh /=; first by constructor.
  have Hh' : forall b' k' c', In (b', k', c') hs -> exists i, In (c', i) irqs.
  { move=> b' k' c' Hin. apply: (Hh b' k' c'). by right. }
  have [i Hi] := Hh b k c (or_introl eq_refl). have {}IH := IH Hh'.
  rewrite (get_entry_map _ _ _ i) //=. case Es: (_ =? _).
  - case Eb: (bound h c) => [f|] /=.
    + apply: calls_one => //. exact: land_sub.
    + exact: calls_unregistered.
  - have [j [H1 H2]] := land_missing _ _ Es. exact: (calls_not_set _ _ _ _ _ _ _ j).
Qed.

(** When registrations and unregistrations succeed. *)
Lemma register_iff irqs l t h h1 ack q cb z a h2 :
  NoDup (map fst irqs) -> run irqs l = (t, h) -> h = h1 ++ (ORegister ack q cb, z, a) :: h2 ->
  ((0 <= z)%Z <-> ack = true /\ cb <> None /\
     exists c i, In (c, i) irqs /\ fits i q /\ bound h1 c = None).
Proof.
  move=> Hnd R E. split.
  - move=> Hz. have [c [i [_ [_ [H1 [H2 [H3 [H4 _]]]]]]]] := register_ok _ _ _ _ _ _ _ _ _ _ _ Hnd R E Hz.
    split; last by split=> //; exists c, i.
    have [t1 [t2 [_ S]]] := at_step _ _ _ _ _ _ _ _ _ R E. move: S. rewrite /= /irq_register.
    case: (ack) => //. case: (cb) => [f|]; last by move=> [_ Hz' _]; subst z.
    by case: find_by_interrupt => [e|] [_ Hz' _]; subst z.
  - move=> [Hk [Hc [c [i [Hi [Hf Hb]]]]]]. have [t1 [t2 [R1 S]]] := at_step _ _ _ _ _ _ _ _ _ R E.
    have C := closed_form _ _ _ _ Hnd R1. move: S. rewrite /= /irq_register Hk.
    case: cb Hc E => // f _ E.
    case: (find_interrupt_cases q t1) => [[k1 [e [k2 [Et [Ha [_ ->]]]]]]|[H ->]].
    + move=> [_ <- _]. exact: N2Z.is_nonneg.
    + have Hin' : In (entry_of h1 (c, i)) t1 by rewrite C; apply: in_map.
      case: (H _ Hin') => //=. by rewrite Hb.
Qed.
Lemma unregister_ack irqs l t h h1 ack id z a h2 :
  run irqs l = (t, h) -> h = h1 ++ (OUnregister ack id, z, a) :: h2 ->
  z = 0%Z -> a = [Z.to_N id].
Proof.
  move=> R E. have [t1 [t2 [R1 S]]] := at_step _ _ _ _ _ _ _ _ _ R E.
  move: S => /=. rewrite /irq_unregister.
  case: Z.ltb_spec => Hid; first by move=> [_ <- _].
  case: (find_cptr_cases (Z.to_N id) t1) => [[k1 [e [k2 [Et [Ha [Hh ->]]]]]]|[H ->]].
  - case: (ack) => [[_ <- <-]|[_ <- _]] // _. by rewrite Hh.
  - by move=> [_ <- _].
Qed.
Lemma unregister_full irqs l t h h1 ack id z a h2 :
  NoDup (map fst irqs) -> run irqs l = (t, h) -> h = h1 ++ (OUnregister ack id, z, a) :: h2 ->
  (z = 0%Z <-> ack = true /\ exists c i, id = Z.of_N c /\ In (c, i) irqs /\ bound h1 c <> None) /\
  (z = 0%Z -> exists c, id = Z.of_N c /\ a = [c]).
Proof.
  move=> Hnd R E. have U := unregister_ok _ _ _ _ _ _ _ _ _ _ Hnd R E. split=> // Hz.
  have [_ [c [i [Ei _]]]] := proj1 U Hz. exists c. split=> //.
  by rewrite (unregister_ack _ _ _ _ _ _ _ _ _ _ R E Hz) Ei N2Z.id.
Qed.
