From Coq Require Import List String Bool NArith Lia Arith Permutation FinFun.
From Coq Require Import ssreflect ssrbool.
From Verif Require Import Prelude Pages_Proofs Badges_Model Badges_Spec.
Import ListNotations.
Open Scope N_scope.

Lemma skipn_skipn' {A} (a b : nat) (l : list A) : skipn a (skipn b l) = skipn (a + b) l.
Proof. elim: b l => [|b IH] [|x l]; rewrite ?Nat.add_0_r ?Nat.add_succ_r ?skipn_nil //=. Qed.
Lemma skipn_nonempty {A} n (l : list A) : (n < List.length l)%nat -> skipn n l <> [].
Proof. move=> L E. have := skipn_length n l. rewrite E /=. lia. Qed.

(** * A generic allocator walking a list of users *)
Section walk.
Variables (nxt : N -> res N) (f : N -> N) (e : N).

Fixpoint gtake (n : nat) (next : N) : res (list N * N) :=
  match n with
  | O => Ok ([], next)
  | S n =>
    next' <- nxt next ;;
    ' r <- gtake n next' ;;
    Ok (f next :: fst r, snd r)
  end.

Fixpoint gseg (l : list user) (next : N) : res (flow (list N) N) :=
  match l with
  | [] => Ok (Continue next)
  | u :: l =>
    if u_irq u then
      ' r <- gtake (N.to_nat (u_count u)) next ;;
      if N.eqb e (u_end u) then Ok (Return (fst r)) else gseg l (snd r)
    else if N.eqb e (u_end u) then Ok (Return [f next])
    else next <- nxt next ;; gseg l next
  end.

Lemma gseg_app a b next : gseg (a ++ b) next = andthen (gseg a next) (gseg b).
Proof.
  elim: a next => [|u a IH] next //=. case: (u_irq u).
  - case: gtake => [r|x] //=. case: N.eqb => //.
  - case: N.eqb => //. case: nxt => [n|x] //=.
Qed.

Fixpoint chain (R : list N) : Prop :=
  match R with
  | [] => True
  | x :: R' =>
    match R' with
    | [] => nxt x = Err OtherException
    | y :: _ => nxt x = Ok y
    end /\ chain R'
  end.
Lemma chain_skipn n R : chain R -> chain (skipn n R).
Proof. elim: n R => [|n IH] [|x R] //= [_ H]. exact: IH. Qed.

Lemma gtake_chain n R : chain R -> R <> [] ->
  gtake n (hd 0 R) =
    if Nat.ltb n (List.length R) then Ok (map f (firstn n R), hd 0 (skipn n R))
    else Err OtherException.
Proof.
  elim: n R => [|n IH] [|x R] //= C _.
  move: C => [C1 C2]. case: R C1 C2 IH => [|y R] C1 C2 IH.
  - rewrite C1 /=. by case: n {IH}.
  - rewrite C1 [bind _ _]/=. have := IH (y :: R) C2. cbn [hd]. move=> -> //.
    rewrite [Nat.ltb (S n) _]/= /Nat.ltb. cbn [List.length].
    case E: (Nat.leb (S n) (S (Datatypes.length R))) => //=.
    all: move: E => /= -> //.
Qed.

Definition ones (l : list user) : Prop := Forall (fun u => u_irq u = false -> u_count u = 1) l.
Definition need (u : user) : N := if u_irq u then u_count u else 0.
Definition at_first (evs pre : list user) (u : user) (post : list user) : Prop :=
  evs = pre ++ u :: post /\ u_end u = e /\ ~ In e (map u_end pre).

Lemma hd_firstn R : R <> [] -> [f (hd 0 R)] = map f (firstn 1 R).
Proof. by case: R. Qed.

Lemma gseg_chain evs R : ones evs -> chain R -> R <> [] ->
  match gseg evs (hd 0 R) with
  | Ok (Return l) => exists pre u post, at_first evs pre u post /\
      demand pre + need u < N.of_nat (List.length R) /\
      l = map f (firstn (N.to_nat (u_count u)) (skipn (N.to_nat (demand pre)) R))
  | Ok (Continue s) => ~ In e (map u_end evs) /\ demand evs < N.of_nat (List.length R) /\
      s = hd 0 (skipn (N.to_nat (demand evs)) R)
  | Err x => x = OtherException /\ forall pre u post, at_first evs pre u post ->
      N.of_nat (List.length R) <= demand pre + need u
  end.
Proof.
  elim: evs R => [|v evs IH] R O C NE.
  { cbn. repeat split=> //. case: R NE {C} => //= *; lia. }
  inversion O as [|? ? O1 O2]; subst. cbn [gseg].
  have CONT : forall k, (N.to_nat (u_count v) = k) -> (k < List.length R)%nat -> e <> u_end v ->
    match gseg evs (hd 0 (skipn k R)) with
    | Ok (Return l) => exists pre u post, at_first (v :: evs) pre u post /\
        demand pre + need u < N.of_nat (List.length R) /\
        l = map f (firstn (N.to_nat (u_count u)) (skipn (N.to_nat (demand pre)) R))
    | Ok (Continue s) => ~ In e (map u_end (v :: evs)) /\ demand (v :: evs) < N.of_nat (List.length R) /\
        s = hd 0 (skipn (N.to_nat (demand (v :: evs))) R)
    | Err x => x = OtherException /\ forall pre u post, at_first (v :: evs) pre u post ->
        N.of_nat (List.length R) <= demand pre + need u
    end.
  { move=> k K L NEQ.
    have LEN := skipn_length k R.
    have := IH (skipn k R) O2 (chain_skipn _ _ C) (skipn_nonempty _ _ L).
    case: gseg => [[l|s]|x].
    - move=> [pre [u [post [[E1 [E2 E3]] [D ->]]]]].
      exists (v :: pre), u, post. split; last split.
      + split; first by rewrite E1. split=> //. cbn. move=> [X|X] //. by apply: NEQ.
      + cbn [demand fold_right]. rewrite -/(demand pre). lia.
      + rewrite skipn_skipn'. do 3 f_equal. cbn [demand fold_right]. rewrite -/(demand pre). lia.
    - move=> [E1 [D ->]]. split; last split.
      + cbn. move=> [X|X] //. by apply: NEQ.
      + cbn [demand fold_right]. rewrite -/(demand evs). lia.
      + rewrite skipn_skipn'. do 2 f_equal. cbn [demand fold_right]. rewrite -/(demand evs). lia.
    - move=> [-> H]. split=> // pre u post [E1 [E2 E3]].
      case: pre E1 E3 => [|w pre] [E1 E1'] E3; first by subst; case: NEQ.
      subst w. have := H pre u post. rewrite /at_first E1'.
      have N : ~ In e (map u_end pre) by move=> X; apply: E3; right.
      move=> /(_ (conj eq_refl (conj E2 N))).
      cbn [demand fold_right]. rewrite -/(demand pre). lia. }
  case I: (u_irq v).
  - rewrite gtake_chain //. case: Nat.ltb_spec => L; cbn [bind fst snd].
    + case: N.eqb_spec => EQ; last by apply: CONT.
      exists [], v, evs. split; first by split=> //; split=> // -[].
      split; last by rewrite /= .
      cbn. rewrite /need I. lia.
    + split=> // pre u post [E1 [E2 E3]].
      case: pre E1 E3 => [|w pre] [E1 E1'] E3.
      * subst u. cbn. rewrite /need I. lia.
      * subst w. cbn [demand fold_right]. rewrite -/(demand pre). lia.
  - have K := O1 I. case: N.eqb_spec => EQ.
    + exists [], v, evs. split; first by split=> //; split=> // -[].
      split; first by cbn; rewrite /need I; case: R NE {C CONT} => //= *; lia.
      rewrite K hd_firstn //.
    + move: (CONT 1%nat). rewrite K. case: R C NE {CONT} => [|x [|y R]] // [C1 C2] _.
      * move=> _. cbn [hd]. rewrite C1 /=. split=> // pre u post [E1 [E2 E3]].
        case: pre E1 E3 => [|w pre] [E1 E1'] E3; first by subst; case: EQ.
        subst w. cbn [demand fold_right]. rewrite -/(demand pre). lia.
      * cbn [hd]. rewrite C1. cbn [bind skipn hd]. apply=> //. cbn. lia.
Qed.

Definition run (evs : list user) (start : res N) : res (list N) :=
  next <- start ;; r <- gseg evs next ;;
  match r with Return v => Ok v | Continue _ => Err OtherException end.

Lemma run_chain evs start R : ones evs -> chain R ->
  start = match R with x :: _ => Ok x | [] => Err OtherException end ->
  (forall l, run evs start = Ok l <-> exists pre u post, at_first evs pre u post /\
      demand pre + need u < N.of_nat (List.length R) /\
      l = map f (firstn (N.to_nat (u_count u)) (skipn (N.to_nat (demand pre)) R))) /\
  (forall x, run evs start = Err x -> x = OtherException).
Proof.
  move=> O C ->. rewrite /run.
  have UNIQ : forall pre u post pre' u' post', at_first evs pre u post -> at_first evs pre' u' post' ->
     pre = pre' /\ u = u'.
  { move=> pre u post pre' u' post' [E1 [E2 E3]] [F1 [F2 F3]].
    rewrite E1 in F1. elim: pre pre' F1 F3 E3 {E1} => [|w pre IH] [|w' pre'] /= F1 F3 E3.
    - by case: F1.
    - case: F1 => [? _]; subst. by case: F3; left.
    - case: F1 => [? _]; subst. by case: E3; left.
    - case: F1 => [<- F1]. have [||-> ->] := IH _ F1; auto. }
  case: R C => [|x R] C.
  - cbn. split; last by move=> x [].
    move=> l. split=> //. move=> [pre [u [post [_ [D _]]]]]. lia.
  - cbn [bind]. have := gseg_chain evs (x :: R) O C. cbn [hd]. move=> /(_ ltac:(done)).
    case: gseg => [[l|s]|y] H; cbn [bind]; split=> //.
    + move=> l'. split.
      * move=> [<-]. exact: H.
      * move: H => [pre [u [post [A [D ->]]]]] [pre' [u' [post' [A' [D' ->]]]]].
        have [-> ->] := UNIQ _ _ _ _ _ _ A A'. by [].
    + move=> l'. split=> //. move: H => [N _] [pre [u [post [[E1 [E2 _]] _]]]].
      case: N. rewrite E1 map_app in_app_iff /= E2. auto.
    + by move=> z [].
    + move=> l'. split=> //. move: H => [_ H] [pre [u [post [A [D _]]]]].
      have := H _ _ _ A. lia.
    + by move=> z [<-]; case: H.
Qed.

(** chains from filters of an interval *)
Lemma chain_filter (P : nat -> bool) (v : nat -> N) M :
  (forall a n, a + n + 1 = M -> P a = true ->
    nxt (v a) = match filter P (seq (S a) n) with b :: _ => Ok (v b) | [] => Err OtherException end)%nat ->
  forall n a, (a + n = M)%nat -> chain (map v (filter P (seq a n))).
Proof.
  move=> H. elim=> [|n IH] a E //. cbn [seq filter].
  have IHa : chain (map v (filter P (seq (S a) n))) by apply: IH; lia.
  case Pa: (P a) => //. cbn [map chain]. split=> //.
  rewrite (H a n) //; first lia. by case: filter.
Qed.
End walk.

(** Two different ends get disjoint slices. *)
Lemma slices_NoDup {A} (E : list A) p n p' n' : NoDup E -> (p + n <= p')%nat ->
  NoDup (firstn n (skipn p E) ++ firstn n' (skipn p' E)).
Proof.
  move=> ND L.
  have -> : E = firstn p E ++ firstn n (skipn p E) ++ skipn n (skipn p E) by rewrite !firstn_skipn.
  move: (firstn_skipn n (skipn p E)) (firstn_skipn p E).
  set a := firstn p E. set b := firstn n (skipn p E). set c := skipn n (skipn p E).
  move=> E1 E2. rewrite E1 E2.
  rewrite -/b.
  have S : exists q, firstn n' (skipn p' E) = firstn n' (skipn q c).
  { exists (p' - p - n)%nat. rewrite /c !skipn_skipn'. do 2 f_equal. lia. }
  move: S => [q ->].
  have ND2 : NoDup (b ++ c).
  { rewrite E1. move: ND. rewrite -{1}E2. elim: (a) => [|x a' IH] //= H. inversion H. auto. }
  have SUB : forall x, In x (firstn n' (skipn q c)) -> In x c.
  { move=> x H. rewrite -(firstn_skipn q c) in_app_iff. right.
    rewrite -(firstn_skipn n' (skipn q c)) in_app_iff. by left. }
  have NDs : NoDup c -> NoDup (firstn n' (skipn q c)).
  { rewrite -{1}(firstn_skipn q c) -{1}(firstn_skipn n' (skipn q c)).
    elim: (firstn q c) => [|x l IH] //= H; last by inversion H; auto.
    elim: (firstn n' _) H => [|x l IH] /= H; first by constructor.
    inversion H; subst. constructor; last by auto. move=> X. apply: H2. rewrite in_app_iff. by left. }
  elim: (b) ND2 => [|x l IH] /= H; first by auto.
  inversion H; subst. constructor; last by auto.
  rewrite in_app_iff => -[X|/SUB X]; apply: H2; rewrite in_app_iff; auto.
Qed.

Lemma first_occ_order evs e e' pre u post pre' u' post' :
  at_first e evs pre u post -> at_first e' evs pre' u' post' -> e <> e' ->
  demand pre + u_count u <= demand pre' \/ demand pre' + u_count u' <= demand pre.
Proof.
  move=> [E1 [E2 E3]] [F1 [F2 F3]] NE. rewrite E1 in F1.
  elim: pre pre' F1 {E1 E3 F3} => [|w pre IH] [|w' pre'] /= F1.
  - case: F1 => [X _]. subst. by case: NE.
  - case: F1 => [<- _]. left. cbn. lia.
  - case: F1 => [<- _]. right. cbn. lia.
  - case: F1 => [<- F1]. have := IH _ F1. cbn. lia.
Qed.

Lemma app_NoDup_comm {A} (a b : list A) : NoDup (a ++ b) -> NoDup (b ++ a).
Proof. move=> H. apply: (Permutation.Permutation_NoDup _ H). exact: Permutation.Permutation_app_comm. Qed.

Lemma run_distinct nxt f e e' evs start start' R l l' : ones evs -> chain nxt R ->
  start = match R with x :: _ => Ok x | [] => Err OtherException end -> start' = start ->
  NoDup R -> (forall x y, In x R -> In y R -> f x = f y -> x = y) -> e <> e' ->
  run nxt f e evs start = Ok l -> run nxt f e' evs start' = Ok l' -> NoDup (l ++ l').
Proof.
  move=> O C S -> ND INJ NE H H'.
  have [K _] := run_chain nxt f e evs start R O C S.
  have [K' _] := run_chain nxt f e' evs start R O C S.
  move: H H' => /K [pre [u [post [A [D ->]]]]] /K' [pre' [u' [post' [A' [D' ->]]]]].
  rewrite -map_app.
  have SUB : forall n p x, In x (firstn n (skipn p R)) -> In x R.
  { move=> n p x H. rewrite -(firstn_skipn p R) in_app_iff. right.
    rewrite -(firstn_skipn n (skipn p R)) in_app_iff. by left. }
  have NDm : forall l, (forall x, In x l -> In x R) -> NoDup l -> NoDup (map f l).
  { elim=> [|x t IH] I N; first by constructor. inversion N; subst. constructor.
    - move=> /in_map_iff [y [E Iy]].
      have X : y = x by apply: INJ => //; apply: I; [right|left]. by subst.
    - apply: IH => //. move=> z Iz. apply: I. by right. }
  apply: NDm; first by move=> x /in_app_iff [/SUB|/SUB].
  have [L|L] := first_occ_order _ _ _ _ _ _ _ _ _ A A' NE.
  - apply: slices_NoDup => //. lia.
  - apply: app_NoDup_comm. apply: slices_NoDup => //. lia.
Qed.

(** * The notification allocator *)
Lemma take_irqs_eq bits base mask n next :
  take_irqs bits base mask n next = gtake (snb bits mask) (fun x => N.lor x base) n next.
Proof. by elim: n next => [|n IH] next //=; case: snb => [x|] //=; rewrite ?IH. Qed.

Lemma irq_loop_eq bits base mask e l next :
  irq_loop bits base mask e l next =
  gseg (snb bits mask) (fun x => N.lor x base) (e_id e) (irq_users l) next.
Proof.
  elim: l next => [|t l IH] next //=. case: (e_irqs t) => [n|] //=.
  cbn [irq_users flat_map] in *. cbn. rewrite take_irqs_eq.
  case: gtake => [r|] //=. case: N.eqb => //.
Qed.
Lemma ge_loop_eq bits base mask e l next :
  ge_loop bits base mask e l next =
  gseg (snb bits mask) (fun x => N.lor x base) (e_id e)
    (map (fun i => (e_id i, false, 1)) (of_inst (e_inst e) l)) next.
Proof.
  elim: l next => [|i l IH] next //=. case: String.eqb => //=.
  cbn. case: N.eqb => //. case: snb => [x|] //=.
Qed.
Lemma ge_conn_eq bits base mask e c next :
  ge_conn bits base mask e c next =
  gseg (snb bits mask) (fun x => N.lor x base) (e_id e) (conn_users (e_inst e) c) next.
Proof.
  rewrite /ge_conn /conn_users !gseg_app.
  case: (c_dtb c && _).
  - rewrite irq_loop_eq /andthen. case: gseg => [[v|s]|x] //=.
    rewrite gseg_app. case: (c_from_ge c).
    + rewrite ge_loop_eq /andthen. case: gseg => [[v|s']|x] //=.
      case: (c_to_ge c) => //. by rewrite ge_loop_eq.
    + cbn. case: (c_to_ge c) => //. by rewrite ge_loop_eq.
  - cbn. rewrite gseg_app. case: (c_from_ge c).
    + rewrite ge_loop_eq /andthen. case: gseg => [[v|s']|x] //=.
      case: (c_to_ge c) => //. by rewrite ge_loop_eq.
    + cbn. case: (c_to_ge c) => //. by rewrite ge_loop_eq.
Qed.
Lemma geb_eq bits base mask e cs :
  global_endpoint_badges bits base mask e cs =
  run (snb bits mask) (fun x => N.lor x base) (e_id e) (users (e_inst e) cs) (snb bits mask 0).
Proof.
  rewrite /global_endpoint_badges /run. case: (snb bits mask 0) => [next|] //=.
  elim: cs next => [|c cs IH] next //=. rewrite ge_conn_eq gseg_app /andthen.
  case: gseg => [[v|s]|x] //=.
Qed.

Lemma users_ones inst cs : ones (users inst cs).
Proof.
  apply/Forall_forall => u. rewrite /users in_flat_map => -[c [_]].
  rewrite /conn_users !in_app_iff => -[|[|]].
  - case: andb => //. rewrite /irq_users in_flat_map => -[t [_]]. case: e_irqs => //= n [<-|] //.
  - case: c_from_ge => // /in_map_iff [i [<- _]] //.
  - case: c_to_ge => // /in_map_iff [i [<- _]] //.
Qed.

Definition tb (mask : N) (k : nat) : bool := N.testbit mask (N.of_nat k).
Definition pw (k : nat) : N := 2 ^ N.of_nat k.

Lemma land_pow2 k mask : (N.land (2 ^ k) mask =? 0) = ~~ N.testbit mask k.
Proof.
  apply/idP/idP.
  - move=> /N.eqb_spec E. apply/negP => T.
    have := f_equal (fun x => N.testbit x k) E. rewrite N.land_spec N.pow2_bits_true T N.bits_0 //.
  - move=> /negbTE T. apply/N.eqb_spec. apply: N.bits_inj_0 => i.
    rewrite N.land_spec N.pow2_bits_eqb. case: N.eqb_spec => [<-|] //=. 
Qed.

Lemma snb_step bits mask n k fuel : (N.to_nat bits = k + n)%nat -> (n < fuel)%nat ->
  set_next_badge bits mask fuel (pw k) =
  match filter (tb mask) (seq (S k) n) with b :: _ => Ok (pw b) | [] => Err OtherException end.
Proof.
  elim: n k fuel => [|n IH] k [|fuel] E F; try lia; cbn [set_next_badge seq filter].
  - have -> : (2 ^ bits <=? pw k) = true; last by [].
    apply/N.leb_spec0. rewrite /pw. apply: N.pow_le_mono_r; lia.
  - have -> : (2 ^ bits <=? pw k) = false.
    { apply/N.leb_spec0. rewrite /pw. have : 2 ^ N.of_nat k < 2 ^ bits; last lia.
      apply: N.pow_lt_mono_r; lia. }
    have -> : (pw k =? 0) = false by apply/N.eqb_spec; rewrite /pw; have := pow2_pos (N.of_nat k); lia.
    have -> : N.shiftl (pw k) 1 = pw (S k).
    { rewrite /pw N.shiftl_mul_pow2 -N.pow_add_r. f_equal. lia. }
    rewrite {1}/pw land_pow2 -/(tb mask (S k)). case T: (tb mask (S k)) => //.
    apply: IH; lia.
Qed.

Definition all_bits (bits mask : N) : list nat := filter (tb mask) (seq 0 (N.to_nat bits + 1)).

Lemma snb_start bits mask : snb bits mask 0 =
  match map pw (all_bits bits mask) with x :: _ => Ok x | [] => Err OtherException end.
Proof.
  rewrite /snb /all_bits Nat.add_1_r. have -> : (N.to_nat bits + 3 = S (N.to_nat bits + 2))%nat by lia.
  cbn [set_next_badge seq filter].
  have -> : (2 ^ bits <=? 0) = false by apply/N.leb_spec0; have := pow2_pos bits; lia.
  cbn [N.eqb]. have -> : 1 = pw 0 by [].
  rewrite {1}/pw land_pow2 -/(tb mask 0). case: (tb mask 0) => //.
  cbn [negb]. rewrite (snb_step _ _ (N.to_nat bits)); try lia. by case: filter.
Qed.
Lemma snb_chain bits mask : chain (snb bits mask) (map pw (all_bits bits mask)).
Proof.
  rewrite /all_bits. apply: (chain_filter _ _ _ (N.to_nat bits + 1)); last lia.
  move=> a n E T. rewrite /snb. apply: snb_step; lia.
Qed.

Lemma filter_all_false {A} (P : A -> bool) l : (forall x, In x l -> P x = false) -> filter P l = [].
Proof. elim: l => [|x l IH] H //=. rewrite H; first by left. by apply: IH => y I; apply: H; right. Qed.
Lemma testbit_small mask k b : mask < 2 ^ b -> b <= k -> N.testbit mask k = false.
Proof.
  move=> L K. case: (N.eq_dec mask 0) => [->|Z]; first exact: N.bits_0.
  apply: N.bits_above_log2. have := N.log2_lt_pow2 mask b. lia.
Qed.
Lemma filter_map' {A B} (f : A -> B) (P : B -> bool) l : filter P (map f l) = map f (filter (fun x => P (f x)) l).
Proof. elim: l => [|x l IH] //=. case: (P (f x)) => /=; by rewrite IH. Qed.
Lemma all_bits_mask bits mask : mask < 2 ^ bits ->
  map pw (all_bits bits mask) = map (fun k => 2 ^ k) (mask_bits bits mask).
Proof.
  move=> L. rewrite /all_bits seq_app filter_app map_app /=.
  have -> : tb mask (N.to_nat bits) = false by apply: (testbit_small _ _ bits); lia.
  rewrite /= app_nil_r /mask_bits filter_map' map_map //.
Qed.
Lemma mask_bits_In bits mask k : In k (mask_bits bits mask) <-> k < bits /\ N.testbit mask k = true.
Proof.
  rewrite /mask_bits filter_In in_map_iff. split.
  - move=> [[n [<- /in_seq I]] T]. split=> //. lia.
  - move=> [L T]. split=> //. exists (N.to_nat k). split; first lia. apply/in_seq. lia.
Qed.
Lemma mask_bits_NoDup bits mask : NoDup (mask_bits bits mask).
Proof. apply: NoDup_filter. apply: FinFun.Injective_map_NoDup; [move=> x y; lia|exact: seq_NoDup]. Qed.

Lemma firstn_map' {A B} (f : A -> B) n l : firstn n (map f l) = map f (firstn n l).
Proof. elim: n l => [|n IH] [|x l] //=. by rewrite IH. Qed.
Lemma skipn_map' {A B} (f : A -> B) n l : skipn n (map f l) = map f (skipn n l).
Proof. elim: n l => [|n IH] [|x l] //=. Qed.

(** ** The theorems *)
Lemma geb_exact bits base mask e cs l : mask < 2 ^ bits ->
  global_endpoint_badges bits base mask e cs = Ok l <->
  exists pre u post, users (e_inst e) cs = pre ++ u :: post /\ u_end u = e_id e /\
    ~ In (e_id e) (map u_end pre) /\
    demand pre + (if u_irq u then u_count u else 0) < N.of_nat (List.length (mask_bits bits mask)) /\
    l = map (fun k => N.lor (2 ^ k) base)
          (firstn (N.to_nat (u_count u)) (skipn (N.to_nat (demand pre)) (mask_bits bits mask))).
Proof.
  move=> L. rewrite geb_eq.
  have C := snb_chain bits mask. have S := snb_start bits mask. rewrite all_bits_mask // in C, S.
  have [K _] := run_chain _ (fun x => N.lor x base) (e_id e) _ _ _ (users_ones (e_inst e) cs) C S.
  rewrite K map_length. split.
  - move=> [pre [u [post [[E1 [E2 E3]] [D ->]]]]]. exists pre, u, post. do 4 (split=> //).
    by rewrite skipn_map' firstn_map' map_map.
  - move=> [pre [u [post [E1 [E2 [E3 [D ->]]]]]]]. exists pre, u, post. do 2 (split=> //).
    by rewrite skipn_map' firstn_map' map_map.
Qed.

Lemma slice_In {A} n p (l : list A) x : In x (firstn n (skipn p l)) -> In x l.
Proof.
  move=> H. rewrite -(firstn_skipn p l) in_app_iff. right.
  rewrite -(firstn_skipn n (skipn p l)) in_app_iff. by left.
Qed.

Lemma geb_one_bit bits base mask e cs l b : mask < 2 ^ bits ->
  global_endpoint_badges bits base mask e cs = Ok l -> In b l ->
  exists k, k < bits /\ N.testbit mask k = true /\ b = N.lor (2 ^ k) base.
Proof.
  move=> L /(geb_exact _ _ _ _ _ _ L) [pre [u [post [_ [_ [_ [_ ->]]]]]]].
  move=> /in_map_iff [k [<- I]]. have /mask_bits_In [K T] := slice_In _ _ _ _ I. by exists k.
Qed.
Lemma geb_count bits base mask e cs l : mask < 2 ^ bits ->
  global_endpoint_badges bits base mask e cs = Ok l ->
  exists u, In u (users (e_inst e) cs) /\ u_end u = e_id e /\ N.of_nat (List.length l) = u_count u.
Proof.
  move=> L /(geb_exact _ _ _ _ _ _ L) [pre [u [post [E1 [E2 [_ [D ->]]]]]]].
  exists u. split; first by rewrite E1 in_app_iff; right; left.
  split=> //. rewrite map_length firstn_length skipn_length.
  have : u_irq u = false -> u_count u = 1.
  { have := users_ones (e_inst e) cs. rewrite /ones Forall_forall; apply. rewrite E1 in_app_iff. right; by left. }
  case: (u_irq u) D => D H; first lia. rewrite H //. lia.
Qed.

Lemma lor_base_inj base mask x y : N.land base mask = 0 -> within mask x -> within mask y ->
  N.lor x base = N.lor y base -> x = y.
Proof.
  move=> D X Y E. apply: N.bits_inj => i.
  have := f_equal (fun z => N.testbit z i) E. rewrite !N.lor_spec.
  have := f_equal (fun z => N.testbit z i) D. rewrite N.land_spec N.bits_0.
  case B: (N.testbit base i) => /=; last by rewrite !orb_false_r.
  move=> M _. have := X i. have := Y i. rewrite M.
  by case: (N.testbit x i); case: (N.testbit y i) => // a b; try (by have := a eq_refl); have := b eq_refl.
Qed.
Lemma within_pow2 mask k : N.testbit mask k = true -> within mask (2 ^ k).
Proof. move=> T i. rewrite N.pow2_bits_eqb. by move=> /N.eqb_spec <-. Qed.
Lemma pow2_inj a b : 2 ^ a = 2 ^ b -> a = b.
Proof. apply: N.pow_inj_r. lia. Qed.

Lemma geb_distinct bits base mask e e' cs l l' : mask < 2 ^ bits -> N.land base mask = 0 ->
  e_inst e = e_inst e' -> e_id e <> e_id e' ->
  global_endpoint_badges bits base mask e cs = Ok l ->
  global_endpoint_badges bits base mask e' cs = Ok l' -> NoDup (l ++ l').
Proof.
  move=> L D I NE. rewrite !geb_eq -I.
  have C := snb_chain bits mask. have S := snb_start bits mask. rewrite all_bits_mask // in C, S.
  apply: (run_distinct _ _ _ _ _ _ _ _ _ _ (users_ones (e_inst e) cs) C S) => //.
  - apply: FinFun.Injective_map_NoDup; last exact: mask_bits_NoDup. by move=> x y; apply: pow2_inj.
  - move=> x y /in_map_iff [a [<- /mask_bits_In [_ A]]] /in_map_iff [b [<- /mask_bits_In [_ B]]].
    apply: (lor_base_inj _ mask) => //; exact: within_pow2.
Qed.

Lemma ldiff_le a b : N.ldiff a b <= a.
Proof.
  have E : a = N.lor (N.ldiff a b) (N.land a b).
  { apply: N.bits_inj => i. rewrite N.lor_spec N.ldiff_spec N.land_spec. by do 2 case: N.testbit. }
  have D : N.land (N.ldiff a b) (N.land a b) = 0.
  { apply: N.bits_inj_0 => i. rewrite !N.land_spec N.ldiff_spec. by do 2 case: N.testbit. }
  rewrite {2}E -N.lxor_lor // -N.add_nocarry_lxor //. lia.
Qed.
Lemma default_mask_ok bits base : default_mask bits base < 2 ^ bits /\ N.land base (default_mask bits base) = 0.
Proof.
  rewrite /default_mask. have P := pow2_pos bits. split.
  - apply: (N.le_lt_trans _ (2 ^ bits - 1)); last lia.
    exact: ldiff_le.
  - apply: N.bits_inj_0 => i. rewrite N.land_spec N.ldiff_spec. by case: N.testbit; rewrite ?andb_false_r.
Qed.
