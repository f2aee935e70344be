From Coq Require Import List String Bool NArith Lia Arith Permutation FinFun Sorted.
From Coq Require Import ssreflect ssrbool.
From Verif Require Import Prelude Pages_Proofs Badges_Model Badges_Spec Badges_Proofs.
Import ListNotations.
Open Scope N_scope.

(** * The RPC allocator: successive values within the mask *)
Lemma sub_within mask x : sub mask x = true <-> within mask x.
Proof.
  rewrite /sub N.eqb_eq. split.
  - move=> E i T. rewrite -E N.land_spec in T. by case/andP: T.
  - move=> W. apply: N.bits_inj => i. rewrite N.land_spec.
    case T: (N.testbit x i) => //=. exact: W.
Qed.

Definition inv (mask y q : N) : Prop :=
  (exists h, y = 2 ^ q * (2 * h + 1)) /\
  forall i, q < i -> N.testbit y i = true -> N.testbit mask i = true.

Lemma bits_mul_pow2 q a i : N.testbit (2 ^ q * a) i = (q <=? i) && N.testbit a (i - q).
Proof.
  rewrite N.mul_comm. case: N.leb_spec => L /=.
  - by rewrite N.mul_pow2_bits_high.
  - by rewrite N.mul_pow2_bits_low.
Qed.

(** adding one at position [q] to a number whose bits above [q]... *)
Lemma bump_inv mask q a : (forall i, q <= i -> N.testbit (2 ^ q * a) i = true -> N.testbit mask i = true \/ i = q) ->
  exists q', q <= q' /\ inv mask (2 ^ q * (a + 1)) q' /\ (N.odd a = true -> q < q').
Proof.
  move=> H. have [|j [h [_ E]]] := ctz_ok (a + 1); first lia.
  exists (q + j). split; first lia. split; last first.
  { move=> O. case: (N.eq_dec j 0) => Z; last lia. exfalso. subst j.
    rewrite N.pow_0_r N.mul_1_l in E. have X : a = 2 * h by lia.
    by rewrite X N.odd_mul in O. }
  split; first by exists h; rewrite N.pow_add_r -N.mul_assoc -E.
  move=> i Li T.
  suff T' : N.testbit (2 ^ q * a) i = true.
  { have [//|X] := H i ltac:(lia) T'. lia. }
  move: T. rewrite !bits_mul_pow2. case: N.leb_spec => //= _.
  have P := pow2_pos j.
  have D1 : (a + 1) / 2 ^ (j + 1) = h.
  { rewrite E N.pow_add_r N.pow_1_r. symmetry. apply: (N.div_unique _ _ _ (2 ^ j)); lia. }
  have D2 : a / 2 ^ (j + 1) = h.
  { rewrite N.pow_add_r N.pow_1_r. symmetry. apply: (N.div_unique _ _ _ (2 ^ j - 1)); lia. }
  have -> : i - q = (i - q - (j + 1)) + (j + 1) by lia.
  by rewrite -!N.div_pow2_bits D1 D2.
Qed.

Lemma inv_ldiff mask y q : inv mask y q -> N.ldiff y mask = if N.testbit mask q then 0 else 2 ^ q.
Proof.
  move=> [[h E] H]. apply: N.bits_inj => i. rewrite N.ldiff_spec.
  have Y : N.testbit y i = (q <=? i) && N.testbit (2 * h + 1) (i - q) by rewrite E bits_mul_pow2.
  case: (N.lt_trichotomy i q) => [L|[->|L]].
  - rewrite Y. case: N.leb_spec => [|_] /=; first lia.
    case: (N.testbit mask q); rewrite ?N.bits_0 // N.pow2_bits_false //. lia.
  - rewrite E bits_mul_pow2 N.leb_refl N.sub_diag N.testbit_odd_0 andb_true_l.
    case: (N.testbit mask q); rewrite ?N.bits_0 // N.pow2_bits_true //.
  - have -> : N.testbit (if N.testbit mask q then 0 else 2 ^ q) i = false.
    { case: (N.testbit mask q); rewrite ?N.bits_0 // N.pow2_bits_false //. lia. }
    case T: (N.testbit y i) => //=. by rewrite (H i).
Qed.
Lemma sub_ldiff mask y : (N.land y mask =? y) = (N.ldiff y mask =? 0).
Proof.
  apply/N.eqb_spec/N.eqb_spec => E.
  - apply: N.bits_inj_0 => i. rewrite N.ldiff_spec -E N.land_spec. by do 2 case: N.testbit.
  - apply: N.bits_inj => i. have := f_equal (fun z => N.testbit z i) E.
    rewrite N.land_spec N.ldiff_spec N.bits_0. by do 2 case: N.testbit.
Qed.

Lemma rpc_set_next_spec bits mask fuel y q : inv mask y q ->
  (1 <= fuel)%nat -> (N.to_nat bits + 1 <= fuel + N.to_nat q)%nat ->
  match rpc_set_next bits mask fuel y with
  | Ok z => sub mask z = true /\ y <= z < N.min (2 ^ bits) mask /\
            forall z', sub mask z' = true -> y <= z' -> z <= z'
  | Err x => x = OtherException /\
            forall z', sub mask z' = true -> y <= z' -> N.min (2 ^ bits) mask <= z'
  end.
Proof.
  elim: fuel y q => [|fuel IH] y q I F1 F2; first lia. cbn [rpc_set_next].
  case: N.leb_spec => L; first by split=> // z' _ ?; lia.
  case S: (N.land y mask =? y); first by split=> //; split; [lia|].
  rewrite sub_ldiff (inv_ldiff _ _ _ I) in S *.
  case T: (N.testbit mask q) S => S //.
  have [[h E] H] := I. have P := pow2_pos q.
  have Q : q < bits.
  { case: (N.lt_ge_cases q bits) => // X.
    have := N.pow_le_mono_r 2 bits q. nia. }
  have [q' [_ [I' Q']]] : exists q', q <= q' /\ inv mask (2 ^ q * (2 * h + 1 + 1)) q' /\
      (N.odd (2 * h + 1) = true -> q < q').
  { apply: bump_inv. move=> i Li. rewrite -E. case: (N.eq_dec i q) => [|NE Ti]; first by right.
    left. apply: H => //. lia. }
  have {}Q' : q < q' by apply: Q'; rewrite N.odd_add N.odd_mul.
  have E' : 2 ^ q + y = 2 ^ q * (2 * h + 1 + 1) by rewrite E; lia.
  rewrite -E' in I'.
  have STEP : forall z', sub mask z' = true -> y <= z' -> 2 ^ q + y <= z'.
  { move=> z' /sub_within W Lz.
    have D : y / 2 ^ q = 2 * h + 1 by rewrite E N.mul_comm N.div_mul; lia.
    have Lq : 2 * h + 1 <= z' / 2 ^ q by rewrite -D; apply: N.div_le_mono; lia.
    have EV : N.testbit (z' / 2 ^ q) 0 = false.
    { rewrite N.div_pow2_bits N.add_0_l. case Z: (N.testbit z' q) => //. by rewrite (W q Z) in T. }
    have [k K] : exists k, z' / 2 ^ q = 2 * k.
    { rewrite N.bit0_odd -N.negb_even in EV. apply/N.even_spec. by case: N.even EV. }
    rewrite K in Lq.
    have := N.mul_div_le z' (2 ^ q). rewrite K. nia. }
  have := IH (2 ^ q + y) q' I'. 
  case R: rpc_set_next => [z|x] X.
  - have {X} [S1 [S2 S3]] := X ltac:(lia) ltac:(lia). split=> //. split; first lia.
    move=> z' Sz Lz. apply: S3 => //. exact: STEP.
  - have {X} [-> S1] := X ltac:(lia) ltac:(lia). split=> // z' Sz Lz. apply: S1 => //. exact: STEP.
Qed.

(** Entry points: the argument is one more than a value within the mask. *)
Lemma succ_inv mask x : sub mask x = true -> exists q, inv mask (x + 1) q.
Proof.
  move=> S. have [|q [_ [I _]]] := bump_inv mask 0 x.
  - rewrite N.pow_0_r N.mul_1_l. move=> i _ T. left. move: T. by have /sub_within := S; apply.
  - exists q. move: I. by rewrite N.pow_0_r N.mul_1_l.
Qed.


Lemma filter_hd (P : nat -> bool) a n :
  match filter P (seq a n) with
  | b :: _ => P b = true /\ (a <= b < a + n)%nat /\ forall c, P c = true -> (a <= c)%nat -> (b <= c)%nat
  | [] => forall c, P c = true -> (a <= c)%nat -> (a + n <= c)%nat
  end.
Proof.
  elim: n a => [|n IH] a /=; first by move=> c _; lia.
  case Pa: (P a).
  - split=> //. split; first lia. auto.
  - have X : forall c, P c = true -> (a <= c)%nat -> (S a <= c)%nat.
    { move=> c Pc L. case: (Nat.eq_dec a c) => [E|]; last lia. by rewrite -E Pa in Pc. }
    move: (IH (S a)). case: filter => [|b r].
    + move=> H c Pc L. have := H c Pc (X c Pc L). lia.
    + move=> [P1 [P2 P3]]. split=> //. split; first lia. move=> c Pc L. apply: P3 => //. exact: X.
Qed.

Lemma rsnb_step bits mask a n : (a + n + 1 = rpc_limit bits mask)%nat -> psub mask a = true ->
  rsnb bits mask (N.of_nat a + 1) =
  match filter (psub mask) (seq (S a) n) with b :: _ => Ok (N.of_nat b) | [] => Err OtherException end.
Proof.
  rewrite /rpc_limit => E HS. have [q I] := succ_inv _ _ HS.
  have := rpc_set_next_spec bits mask (N.to_nat bits + 2) _ _ I. rewrite -/(rsnb bits mask (N.of_nat a + 1)).
  have := filter_hd (psub mask) (S a) n.
  case: rsnb => [z|x] F H.
  - have {H} [S1 [S2 S3]] := H ltac:(lia) ltac:(lia).
    case: filter F => [|b r].
    + move=> F. have := F (N.to_nat z). rewrite /psub Nnat.N2Nat.id S1. lia.
    + move=> [F1 [F2 F3]]. f_equal.
      have := F3 (N.to_nat z). rewrite {1}/psub Nnat.N2Nat.id S1.
      have := S3 _ F1. lia.
  - have {H} [-> S1] := H ltac:(lia) ltac:(lia).
    case: filter F => [|b r] //. move=> [F1 [F2 F3]].
    have := S1 _ F1. lia.
Qed.

Lemma rsnb_chain bits mask : chain (fun x => rsnb bits mask (x + 1)) (rpc_enum bits mask).
Proof.
  rewrite /rpc_enum. case Z: (rpc_limit bits mask) => [|m] //.
  apply: (chain_filter _ _ _ (rpc_limit bits mask)); last lia.
  move=> a n E S. exact: rsnb_step.
Qed.
Lemma rsnb_start bits mask : rsnb bits mask 1 =
  match rpc_enum bits mask with x :: _ => Ok x | [] => Err OtherException end.
Proof.
  rewrite /rpc_enum. case Z: (rpc_limit bits mask) => [|m].
  - rewrite /rsnb Nat.add_comm /=.
    have -> : (N.min (2 ^ bits) mask <=? 1) = true by apply/N.leb_spec0; rewrite /rpc_limit in Z; lia. by [].
  - have -> : (S m - 1 = m)%nat by lia.
    have := rsnb_step bits mask 0 m. rewrite N.add_0_l => -> //; first lia. by case: filter.
Qed.

(** Walk equations *)
Lemma take_rpc_eq bits base mask n next : take_rpc bits base mask n next =
  gtake (fun x => rsnb bits mask (x + 1)) (fun x => N.lor x base) n next.
Proof. by elim: n next => [|n IH] next //=; case: rsnb => [x|] //=; rewrite ?IH. Qed.
Lemma rpc_loop_eq bits base mask e l o next :
  rpc_loop bits base mask e l o next =
  gseg (fun x => rsnb bits mask (x + 1)) (fun x => N.lor x base) (e_id e)
    (map (fun i => (e_id i, true, N.of_nat o)) (of_inst (e_inst e) l)) next.
Proof.
  elim: l next => [|i l IH] next //=. case: String.eqb => //=.
  cbn. rewrite Nnat.Nat2N.id take_rpc_eq. case: gtake => [r|] //=. case: N.eqb => //.
Qed.
Lemma rpc_eq bits base mask e cs :
  global_rpc_endpoint_badges bits base mask e cs =
  run (fun x => rsnb bits mask (x + 1)) (fun x => N.lor x base) (e_id e)
    (rpc_users (e_inst e) cs) (rsnb bits mask 1).
Proof.
  rewrite /global_rpc_endpoint_badges /run. case: (rsnb bits mask 1) => [next|] //=.
  elim: cs next => [|c cs IH] next //=. rewrite /rpc_conn !gseg_app.
  case: (c_from_rpc c).
  - rewrite rpc_loop_eq /andthen. case: gseg => [[v|s]|x] //=.
    case: (c_to_rpc c) => //=. rewrite rpc_loop_eq. case: gseg => [[v|s']|x] //=.
  - cbn. case: (c_to_rpc c) => //=. rewrite rpc_loop_eq /andthen. case: gseg => [[v|s']|x] //=.
Qed.
Lemma rpc_users_irq inst cs u : In u (rpc_users inst cs) -> u_irq u = true.
Proof.
  rewrite /rpc_users in_flat_map => -[c [_]]. rewrite in_app_iff => -[|].
  - case: c_from_rpc => // /in_map_iff [i [<- _]] //.
  - case: c_to_rpc => // /in_map_iff [i [<- _]] //.
Qed.
Lemma rpc_users_ones inst cs : ones (rpc_users inst cs).
Proof. apply/Forall_forall => u /rpc_users_irq ->. by []. Qed.

Lemma rpc_enum_In bits mask x : In x (rpc_enum bits mask) <->
  0 < x /\ within mask x /\ x < N.min (2 ^ bits) mask.
Proof.
  rewrite /rpc_enum in_map_iff. split.
  - move=> [k [<- /filter_In [/in_seq I /sub_within S]]]. rewrite /rpc_limit in I. repeat split=> //; lia.
  - move=> [P [/sub_within S L]]. exists (N.to_nat x). split; first lia. apply/filter_In.
    split; first by apply/in_seq; rewrite /rpc_limit; lia. by rewrite /psub Nnat.N2Nat.id.
Qed.
Lemma rpc_enum_NoDup bits mask : NoDup (rpc_enum bits mask).
Proof.
  apply: Injective_map_NoDup; first by move=> x y; lia.
  apply: NoDup_filter. exact: seq_NoDup.
Qed.

Lemma rpc_enum_sorted bits mask : StronglySorted N.lt (rpc_enum bits mask).
Proof.
  rewrite /rpc_enum. move: (rpc_limit bits mask - 1)%nat => n. move: 1%nat => a.
  elim: n a => [|n IH] a; first by constructor. cbn [seq filter].
  case: psub => //. cbn [map]. constructor=> //.
  apply/Forall_forall => x /in_map_iff [k [<- /filter_In [/in_seq I _]]]. lia.
Qed.
Lemma rpc_exact bits base mask e cs l :
  global_rpc_endpoint_badges bits base mask e cs = Ok l <->
  exists pre u post, rpc_users (e_inst e) cs = pre ++ u :: post /\ u_end u = e_id e /\
    ~ In (e_id e) (map u_end pre) /\
    demand pre + u_count u < N.of_nat (List.length (rpc_enum bits mask)) /\
    l = map (fun x => N.lor x base)
          (firstn (N.to_nat (u_count u)) (skipn (N.to_nat (demand pre)) (rpc_enum bits mask))).
Proof.
  rewrite rpc_eq.
  have [K _] := run_chain _ (fun x => N.lor x base) (e_id e) _ _ _ (rpc_users_ones (e_inst e) cs)
     (rsnb_chain bits mask) (rsnb_start bits mask).
  rewrite K. split.
  - move=> [pre [u [post [[E1 [E2 E3]] [D ->]]]]]. exists pre, u, post. do 3 (split=> //).
    split=> //. move: D. rewrite /need (rpc_users_irq (e_inst e) cs) //.
    rewrite E1 in_app_iff; right; by left.
  - move=> [pre [u [post [E1 [E2 [E3 [D ->]]]]]]]. exists pre, u, post. split=> //. split=> //.
    rewrite /need (rpc_users_irq (e_inst e) cs) //. rewrite E1 in_app_iff; right; by left.
Qed.
Lemma rpc_value bits base mask e cs l b :
  global_rpc_endpoint_badges bits base mask e cs = Ok l -> In b l ->
  exists x, 0 < x < 2 ^ bits /\ within mask x /\ b = N.lor x base.
Proof.
  move=> /rpc_exact [pre [u [post [_ [_ [_ [_ ->]]]]]]].
  move=> /in_map_iff [x [<- I]]. have /rpc_enum_In [P [W L]] := slice_In _ _ _ _ I.
  exists x. split=> //. lia.
Qed.
Lemma rpc_count bits base mask e cs l :
  global_rpc_endpoint_badges bits base mask e cs = Ok l ->
  exists u, In u (rpc_users (e_inst e) cs) /\ u_end u = e_id e /\ N.of_nat (List.length l) = u_count u.
Proof.
  move=> /rpc_exact [pre [u [post [E1 [E2 [_ [D ->]]]]]]].
  exists u. split; first by rewrite E1 in_app_iff; right; left.
  split=> //. rewrite map_length firstn_length skipn_length. lia.
Qed.
Lemma rpc_distinct bits base mask e e' cs l l' : N.land base mask = 0 ->
  e_inst e = e_inst e' -> e_id e <> e_id e' ->
  global_rpc_endpoint_badges bits base mask e cs = Ok l ->
  global_rpc_endpoint_badges bits base mask e' cs = Ok l' -> NoDup (l ++ l').
Proof.
  move=> D I NE. rewrite !rpc_eq -I.
  apply: (run_distinct _ _ _ _ _ _ _ _ _ _ (rpc_users_ones (e_inst e) cs)
     (rsnb_chain bits mask) (rsnb_start bits mask)) => //.
  - exact: rpc_enum_NoDup.
  - move=> x y /rpc_enum_In [_ [X _]] /rpc_enum_In [_ [Y _]]. exact: (lor_base_inj _ mask).
Qed.
(** Success exactly when enough values remain (one more than needed, because the
    next badge is computed eagerly). *)
Lemma rpc_error bits base mask e cs x :
  global_rpc_endpoint_badges bits base mask e cs = Err x -> x = OtherException.
Proof.
  rewrite rpc_eq.
  have [_ K] := run_chain _ (fun x => N.lor x base) (e_id e) _ _ _ (rpc_users_ones (e_inst e) cs)
     (rsnb_chain bits mask) (rsnb_start bits mask).
  exact: K.
Qed.
Lemma geb_error bits base mask e cs x :
  global_endpoint_badges bits base mask e cs = Err x -> x = OtherException.
Proof.
  rewrite geb_eq.
  have [_ K] := run_chain _ (fun x => N.lor x base) (e_id e) _ _ _ (users_ones (e_inst e) cs)
     (snb_chain bits mask) (snb_start bits mask).
  exact: K.
Qed.

(** * allocate_badges and client ids *)
Lemma NoDup_cons_swap {A} (x : A) l r : NoDup (x :: l ++ r) -> NoDup (l ++ x :: r).
Proof. move=> H. apply: (Permutation_NoDup _ H). exact: Permutation_middle. Qed.
Lemma has_In x l : has x l = true <-> In (Some x) l.
Proof.
  rewrite /has existsb_exists. split.
  - move=> [[y|] [I E]] //. by move: E => /N.eqb_spec ->.
  - move=> I. exists (Some x). split=> //. exact: N.eqb_refl.
Qed.
Lemma set_at_length {A} i (v : A) l : List.length (set_at i v l) = List.length l.
Proof. elim: l i => [|x l IH] [|i] //=. by rewrite IH. Qed.
Lemma set_at_same {A} i (v d : A) l : (i < List.length l)%nat -> nth i (set_at i v l) d = v.
Proof. elim: l i => [|x l IH] [|i] /= L; try lia; auto. apply: IH. lia. Qed.
Lemma set_at_other {A} i j (v d : A) l : i <> j -> nth j (set_at i v l) d = nth j l d.
Proof. elim: l i j => [|x l IH] [|i] [|j] N //=. apply: IH. lia. Qed.

(** pigeonhole: a list with a None cannot contain [length] consecutive values *)
Lemma no_full_run (l : list (option N)) c : In None l ->
  ~ (forall k, (k < List.length l)%nat -> In (Some (c + N.of_nat k)) l).
Proof.
  move=> HN H.
  have I : incl (None :: map (fun k => Some (c + N.of_nat k)) (seq 0 (List.length l))) l.
  { move=> x [<-|/in_map_iff [k [<- /in_seq K]]] //. apply: H. lia. }
  have ND : NoDup (None :: map (fun k => Some (c + N.of_nat k)) (seq 0 (List.length l))).
  { constructor; first by move=> /in_map_iff [k [E _]].
    apply: Injective_map_NoDup; last exact: seq_NoDup. move=> x y []. lia. }
  have := NoDup_incl_length ND I. rewrite /= map_length seq_length. lia.
Qed.

Lemma skip_used_spec n l c : exists k, (k <= n)%nat /\ skip_used n l c = c + N.of_nat k /\
  (forall j, (j < k)%nat -> In (Some (c + N.of_nat j)) l) /\
  ((k < n)%nat -> ~ In (Some (c + N.of_nat k)) l).
Proof.
  elim: n c => [|n IH] c /=.
  - exists O. repeat split; try lia.
  - case E: (has c l).
    + have [k [L [-> [H1 H2]]]] := IH (c + 1). exists (S k). split; first lia. split; first lia. split.
      * move=> [|j] Lj; first by rewrite N.add_0_r; apply/has_In.
        have := H1 j ltac:(lia). by have -> : c + 1 + N.of_nat j = c + N.of_nat (S j) by lia.
      * move=> Lk. have := H2 ltac:(lia). by have -> : c + 1 + N.of_nat k = c + N.of_nat (S k) by lia.
    + exists O. have N : ~ In (Some c) l by move=> /has_In; rewrite E.
      have -> : skip_used n l c = c.
      { clear IH. elim: n => //= n IH. by rewrite E. }
      rewrite N.add_0_r. repeat split=> //; lia.
Qed.
Lemma skip_used_free l c : In None l -> ~ In (Some (skip_used (List.length l) l c)) l.
Proof.
  move=> HN. have [k [L [-> [H1 H2]]]] := skip_used_spec (List.length l) l c.
  case: (Nat.eq_dec k (List.length l)) => [E|NE]; last by apply: H2; lia.
  exfalso. apply: (no_full_run l c HN). rewrite -E. exact: H1.
Qed.
Lemma skip_used_ge n l c : c <= skip_used n l c.
Proof. have [k [_ [-> _]]] := skip_used_spec n l c. lia. Qed.
Lemma find_id_free l c : In None l -> exists v, find_id (List.length l) l c = (Some v, v + 1) /\
  c <= v /\ ~ In (Some v) l.
Proof.
  move=> HN.
  have H : forall n c, (exists v, find_id n l c = (Some v, v + 1) /\ c <= v /\ ~ In (Some v) l) \/
    forall k, (k < n)%nat -> In (Some (c + N.of_nat k)) l.
  { elim=> [|n IH] d /=; first by right; lia.
    case E: (has d l).
    - case: (IH (d + 1)) => [[v [E1 [L Nv]]]|H].
      + left. exists v. repeat split=> //. lia.
      + right. move=> [|k] L; first by rewrite N.add_0_r; apply/has_In.
        have := H k ltac:(lia). by have -> : d + 1 + N.of_nat k = d + N.of_nat (S k) by lia.
    - left. exists d. repeat split=> //; first lia. by move=> /has_In; rewrite E. }
  case: (H (List.length l) c) => // F. case: (no_full_run l c HN F).
Qed.

(** Shared invariant of the two filling loops. *)
Definition filled (orig final : list (option N)) (done : list nat) : Prop :=
  List.length final = List.length orig /\
  (forall i x, nth i orig None = Some x -> nth i final None = Some x) /\
  (forall i, (i < List.length orig)%nat -> nth i orig None = None -> In i done ->
     exists v, nth i final None = Some v /\
       forall j, (j < List.length orig)%nat -> j <> i -> nth j final None <> Some v) /\
  (forall i, ~ In i done -> nth i final None = nth i orig None).
Lemma filled_step orig cur dn i v : filled orig cur dn -> (i < List.length orig)%nat ->
  nth i cur None = None -> ~ In i dn -> ~ In (Some v) cur -> filled orig (set_at i (Some v) cur) (i :: dn).
Proof.
  move=> [L [K [F U]]] Li Hi Ni Nv. split; first by rewrite set_at_length.
  have IN : forall j, (j < List.length orig)%nat -> nth j cur None <> Some v.
  { move=> j Lj E. apply: Nv. rewrite -E. apply: nth_In. lia. }
  split; last split.
  - move=> j x E. rewrite set_at_other; first by move=> X; subst j; rewrite (K _ _ E) in Hi. exact: K.
  - move=> j Lj Oj [X|Ij].
    + subst j. exists v. rewrite set_at_same; first lia. split=> // j Lj' NE.
      rewrite set_at_other; [by move=> X; apply: NE|exact: IN].
    + have NE : i <> j by move=> X; subst.
      have [w [E W]] := F j Lj Oj Ij. exists w. rewrite set_at_other //. split=> // k Lk NEk.
      case: (Nat.eq_dec i k) => [<-|X].
      * rewrite set_at_same; first lia. move=> [Y]. subst w. exact: (IN j Lj E).
      * rewrite set_at_other //. exact: W.
  - move=> j Nj. have [N1 N2] : i <> j /\ ~ In j dn by split=> X; apply: Nj; [left|right].
    rewrite set_at_other //. exact: U.
Qed.
Lemma filled_skip orig cur dn i x : filled orig cur dn -> nth i cur None = Some x -> ~ In i dn ->
  filled orig cur (i :: dn).
Proof.
  move=> [L [K [F U]]] E Ni. split=> //. split=> //. split.
  - move=> j Lj Oj [X|Ij]; last exact: F. subst j. by rewrite (U _ Ni) Oj in E.
  - move=> j Nj. apply: U => X. apply: Nj. by right.
Qed.

Lemma fill_badges_filled orig ix cur dn c : filled orig cur dn -> NoDup (ix ++ dn) ->
  (forall i, In i ix -> (i < List.length orig)%nat) ->
  filled orig (fill_badges ix cur c) (rev ix ++ dn).
Proof.
  elim: ix cur dn c => [|i ix IH] cur dn c F ND LT //=.
  rewrite -app_assoc /=. inversion ND as [|? ? N1 N2]; subst.
  have Ni : ~ In i dn by move=> X; apply: N1; rewrite in_app_iff; right.
  have ND' : NoDup (ix ++ i :: dn) by apply: NoDup_cons_swap.
  have LT' : forall j, In j ix -> (j < List.length orig)%nat by move=> j Ij; apply: LT; right.
  have Li : (i < List.length orig)%nat by apply: LT; left.
  case E: (nth i cur None) => [x|].
  - apply: IH => //. exact: (filled_skip _ _ _ _ _ F E).
  - apply: IH => //. apply: filled_step => //. apply: skip_used_free.
    rewrite -E. apply: nth_In. by case: F => ->.
Qed.
Lemma fill_ids_filled orig ix cur dn c : filled orig cur dn -> NoDup (ix ++ dn) ->
  (forall i, In i ix -> (i < List.length orig)%nat) ->
  filled orig (fill_ids ix cur c) (rev ix ++ dn).
Proof.
  elim: ix cur dn c => [|i ix IH] cur dn c F ND LT //=.
  rewrite -app_assoc /=. inversion ND as [|? ? N1 N2]; subst.
  have Ni : ~ In i dn by move=> X; apply: N1; rewrite in_app_iff; right.
  have ND' : NoDup (ix ++ i :: dn) by apply: NoDup_cons_swap.
  have LT' : forall j, In j ix -> (j < List.length orig)%nat by move=> j Ij; apply: LT; right.
  have Li : (i < List.length orig)%nat by apply: LT; left.
  case E: (nth i cur None) => [x|].
  - apply: IH => //. exact: (filled_skip _ _ _ _ _ F E).
  - have [|v [-> [_ Nv]]] := find_id_free cur c.
    { rewrite -E. apply: nth_In. by case: F => ->. }
    apply: IH => //. exact: filled_step.
Qed.
Lemma filled_final orig final : filled orig final (rev (seq 0 (List.length orig)) ++ []) ->
  List.length final = List.length orig /\
  (forall i x, nth i orig None = Some x -> nth i final None = Some x) /\
  (forall i, (i < List.length orig)%nat -> nth i orig None = None ->
     exists v, nth i final None = Some v /\
       forall j, (j < List.length orig)%nat -> j <> i -> nth j final None <> Some v).
Proof.
  move=> [L [K [F _]]]. split=> //. split=> // i Li Oi. apply: F => //.
  rewrite app_nil_r -in_rev. apply/in_seq. lia.
Qed.
Lemma filled_start l : filled l l [].
Proof. by do 3 (split=> //). Qed.
Lemma allocate_badges_ok l :
  List.length (allocate_badges l) = List.length l /\
  (forall i x, nth i l None = Some x -> nth i (allocate_badges l) None = Some x) /\
  (forall i, (i < List.length l)%nat -> nth i l None = None ->
     exists v, nth i (allocate_badges l) None = Some v /\
       forall j, (j < List.length l)%nat -> j <> i -> nth j (allocate_badges l) None <> Some v).
Proof.
  apply: filled_final. apply: fill_badges_filled; first exact: filled_start.
  - rewrite app_nil_r. exact: seq_NoDup.
  - move=> i /in_seq. lia.
Qed.
Lemma assign_ids_ok l :
  List.length (assign_ids l) = List.length l /\
  (forall i x, nth i l None = Some x -> nth i (assign_ids l) None = Some x) /\
  (forall i, (i < List.length l)%nat -> nth i l None = None ->
     exists v, nth i (assign_ids l) None = Some v /\
       forall j, (j < List.length l)%nat -> j <> i -> nth j (assign_ids l) None <> Some v).
Proof.
  apply: filled_final. apply: fill_ids_filled; first exact: filled_start.
  - rewrite app_nil_r. exact: seq_NoDup.
  - move=> i /in_seq. lia.
Qed.

Lemma index_of_spec e l i : index_of e l = Some i ->
  (i < List.length l)%nat /\ exists x, nth_error l i = Some x /\ e_id x = e.
Proof.
  elim: l i => [|x l IH] i //=. case: N.eqb_spec => [E|NE].
  - move=> [<-]. split; first lia. by exists x.
  - case E: index_of => [j|] //= [<-]. have [L H] := IH j E. split; first lia. exact: H.
Qed.
Lemma index_of_some e l : (exists x, In x l /\ e_id x = e) -> exists i, index_of e l = Some i.
Proof.
  elim: l => [|x l IH] /= [y [I E]] //. case: N.eqb_spec => [_|NE]; first by exists O.
  have [|i ->] := IH; last by exists (S i). case: I => [X|I]; last by exists y. by subst.
Qed.
Lemma vq_some conf cs e : In e (vq_ends (e_inst e) cs) ->
  exists v, virtqueue_get_client_id conf cs e = Ok (Some v).
Proof.
  move=> I. rewrite /virtqueue_get_client_id.
  have [|i E] := index_of_some (e_id e) (vq_ends (e_inst e) cs); first by exists e.
  rewrite E. have [L _] := index_of_spec _ _ _ E.
  have [L1 [K F]] := assign_ids_ok (map conf (vq_ends (e_inst e) cs)).
  rewrite map_length in L1 F.
  case C: (nth i (map conf (vq_ends (e_inst e) cs)) None) => [x|].
  - exists x. by rewrite (K _ _ C).
  - have [v [-> _]] := F i L C. by exists v.
Qed.
Lemma vq_keep conf cs e x : NoDup (map e_id (vq_ends (e_inst e) cs)) ->
  In e (vq_ends (e_inst e) cs) -> conf e = Some x -> virtqueue_get_client_id conf cs e = Ok (Some x).
Proof.
  move=> ND I C. rewrite /virtqueue_get_client_id.
  have [|i E] := index_of_some (e_id e) (vq_ends (e_inst e) cs); first by exists e.
  rewrite E. have [L [y [Hy Ey]]] := index_of_spec _ _ _ E.
  have Y : y = e.
  { have [j Hj] := In_nth_error _ _ I.
    have X : i = j; last by subst j; rewrite Hy in Hj; case: Hj.
    have H := proj1 (NoDup_nth_error _) ND. apply: H; first by rewrite map_length.
    by rewrite (map_nth_error _ _ _ Hy) (map_nth_error _ _ _ Hj) Ey. }
  subst y. have [_ [K _]] := assign_ids_ok (map conf (vq_ends (e_inst e) cs)).
  rewrite (K i x) //. apply: nth_error_nth. by rewrite (map_nth_error _ _ _ Hy) C.
Qed.
Lemma vq_distinct conf cs e e' v v' : NoDup (map e_id (vq_ends (e_inst e) cs)) ->
  In e (vq_ends (e_inst e) cs) -> e_inst e = e_inst e' -> e_id e <> e_id e' -> conf e = None ->
  virtqueue_get_client_id conf cs e = Ok (Some v) ->
  virtqueue_get_client_id conf cs e' = Ok (Some v') -> v <> v'.
Proof.
  move=> ND I EI NE C. rewrite /virtqueue_get_client_id -EI.
  case E: index_of => [i|] // [H]. case E': index_of => [j|] // [H'].
  have [L [y [Hy Ey]]] := index_of_spec _ _ _ E.
  have [L' [y' [Hy' Ey']]] := index_of_spec _ _ _ E'.
  have Y : y = e.
  { have [k Hk] := In_nth_error _ _ I.
    have X : i = k; last by subst k; rewrite Hy in Hk; case: Hk.
    have U := proj1 (NoDup_nth_error _) ND. apply: U; first by rewrite map_length.
    by rewrite (map_nth_error _ _ _ Hy) (map_nth_error _ _ _ Hk) Ey. }
  subst y. have [_ [_ F]] := assign_ids_ok (map conf (vq_ends (e_inst e) cs)).
  rewrite map_length in F.
  have [|w [W D]] := F i L.
  { apply: nth_error_nth. by rewrite (map_nth_error _ _ _ Hy) C. }
  move=> X. subst v'. apply: (D j L').
  - move=> X. subst j. rewrite Hy in Hy'. case: Hy' => Z. subst y'. exact: NE.
  - by rewrite H' -H W.
Qed.

(** ** in the specification's terms *)
Lemma vq_ends_eq inst cs : vq_ends inst cs = vq_interfaces inst cs.
Proof.
  rewrite /vq_interfaces /of_inst /vq_ends. elim: cs => [|c cs IH] //=. rewrite IH.
  case: (v_vq c) => //=. by rewrite !filter_app.
Qed.
Lemma vq_some' conf cs e : In e (vq_interfaces (e_inst e) cs) ->
  exists v, virtqueue_get_client_id conf cs e = Ok (Some v).
Proof. rewrite -vq_ends_eq. exact: vq_some. Qed.
Lemma vq_keep' conf cs e x : NoDup (map e_id (vq_interfaces (e_inst e) cs)) ->
  In e (vq_interfaces (e_inst e) cs) -> conf e = Some x -> virtqueue_get_client_id conf cs e = Ok (Some x).
Proof. rewrite -vq_ends_eq. exact: vq_keep. Qed.
Lemma vq_distinct' conf cs e e' v v' : NoDup (map e_id (vq_interfaces (e_inst e) cs)) ->
  In e (vq_interfaces (e_inst e) cs) -> e_inst e = e_inst e' -> e_id e <> e_id e' -> conf e = None ->
  virtqueue_get_client_id conf cs e = Ok (Some v) ->
  virtqueue_get_client_id conf cs e' = Ok (Some v') -> v <> v'.
Proof. rewrite -vq_ends_eq. exact: vq_distinct. Qed.
