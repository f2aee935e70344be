From Coq Require Import List String Bool NArith Lia Sorted FinFun.
From Coq Require Import ssreflect ssrbool.
From Verif Require Import Prelude DecStr Pages_Model Pages_Spec.
Import ListNotations.
Open Scope N_scope.

(** * ctz *)
Lemma ctz_pos_spec p : exists m, Npos p = 2 ^ ctz_pos p * (2 * m + 1).
Proof.
  elim: p => [p IH|p [m E]|].
  - exists (Npos p). cbn [ctz_pos]. rewrite N.pow_0_r. lia.
  - exists m. cbn [ctz_pos]. have -> : 1 + ctz_pos p = N.succ (ctz_pos p) by lia.
    rewrite N.pow_succ_r'. have -> : N.pos (p~0) = 2 * N.pos p by [].
    rewrite {1}E. lia.
  - exists 0. cbn [ctz_pos]. rewrite N.pow_0_r. lia.
Qed.
Lemma pow2_pos k : 0 < 2 ^ k. Proof. by have := N.pow_nonzero 2 k; lia. Qed.
Lemma odd_split k k' m m' :
  2 ^ k * (2 * m + 1) = 2 ^ k' * (2 * m' + 1) -> k = k'.
Proof.
  have H : forall k k' m m', 2 ^ k * (2 * m + 1) = 2 ^ k' * (2 * m' + 1) -> k < k' -> False.
  { move=> {}k {}k' {}m {}m' E L.
    have E' : 2 ^ k' = 2 ^ k * (2 * 2 ^ (k' - k - 1)).
    { rewrite -N.pow_succ_r' -N.pow_add_r. f_equal. lia. }
    rewrite E' -N.mul_assoc in E.
    apply N.mul_cancel_l in E; last by have := pow2_pos k; lia. lia. }
  move=> E. case: (N.lt_trichotomy k k') => [L|[//|L]].
  - by case: (H _ _ _ _ E L).
  - by case: (H _ _ _ _ (eq_sym E) L).
Qed.
Lemma ctz_ok n : 0 < n -> exists c m, ctz n = Ok c /\ n = 2 ^ c * (2 * m + 1).
Proof.
  case: n => [|p] L; first lia. have [m E] := ctz_pos_spec p. by exists (ctz_pos p), m.
Qed.
Lemma ctz_val n k m : n = 2 ^ k * (2 * m + 1) -> ctz n = Ok k.
Proof.
  move=> E. have P := pow2_pos k.
  have [|c [m' [-> E']]] := ctz_ok n; first nia.
  f_equal. rewrite E in E'. exact: (eq_sym (odd_split _ _ _ _ E')).
Qed.
Lemma ctz_pow k : ctz (2 ^ k) = Ok k.
Proof. apply: (ctz_val _ _ 0). lia. Qed.

(** * the inner loop *)
Lemma shrink_spec k r fuel : 0 < r -> (N.to_nat k < fuel)%nat ->
  exists j, shrink fuel (2 ^ k) r = Ok (2 ^ j) /\ j <= k /\ 2 ^ j <= r /\
    (j < k -> r < 2 ^ (j + 1)).
Proof.
  move=> R. elim: fuel k => [|fuel IH] k F; first lia.
  cbn [shrink]. have P := pow2_pos k.
  case: N.eqb_spec => [|_]; first lia.
  case: N.leb_spec => L.
  - exists k. repeat split=> //; lia.
  - have K : k <> 0 by move=> K; rewrite K N.pow_0_r in L; lia.
    have E : 2 ^ k = 2 * 2 ^ (k - 1) by rewrite -N.pow_succ_r'; f_equal; lia.
    have -> : 2 ^ k / 2 = 2 ^ (k - 1) by rewrite E N.mul_comm N.div_mul.
    have [|j [Ej [L1 [L2 L3]]]] := IH (k - 1); first lia.
    exists j. repeat split=> //; first lia.
    move=> Lj. case: (N.eq_dec j (k - 1)) => [->|]; last by move=> ?; apply: L3; lia.
    have -> : k - 1 + 1 = k by lia. lia.
Qed.

(** * number of bits *)
Lemma size_nat_log n : 0 < n -> N.size_nat n = S (N.to_nat (N.log2 n)).
Proof.
  move=> L. have -> : N.size_nat n = N.to_nat (N.size n).
  { case: n L => [|p] // _ /=. elim: p => [p IH|p IH|] //=; rewrite IH; lia. }
  rewrite N.size_log2; lia.
Qed.
Lemma size_nat_le a b : a < 2 ^ b -> (N.size_nat a <= N.to_nat b)%nat.
Proof.
  move=> L. case: (N.eq_dec a 0) => [->|Z] /=; first lia.
  rewrite size_nat_log; first lia.
  have := N.log2_lt_pow2 a b. lia.
Qed.
Lemma size_nat_mono a b : a <= b -> (N.size_nat a <= N.size_nat b)%nat.
Proof.
  move=> L. case: (N.eq_dec a 0) => [->|Z] /=; first lia.
  rewrite !size_nat_log; try lia. have := N.log2_le_mono a b L. lia.
Qed.
Lemma size_nat_gt a k : 2 ^ k <= a -> (N.to_nat k < N.size_nat a)%nat.
Proof.
  move=> L. have := pow2_pos k => P. rewrite size_nat_log; first lia.
  have := N.log2_le_pow2 a k. lia.
Qed.

(** * the outer loop *)
Lemma untypeds_spec fuel cur r c m :
  cur = 2 ^ c * (2 * m + 1) ->
  (N.size_nat r - N.to_nat c + N.size_nat r <= fuel)%nat ->
  exists l, untypeds fuel cur r = Ok l /\ partition cur r l.
Proof.
  elim: fuel cur r c m => [|fuel IH] cur r c m E F.
  - have Z : r = 0.
    { case: (N.eq_dec r 0) => // Z. rewrite size_nat_log in F; lia. }
    rewrite Z /=. exists []. split=> //. by constructor.
  - cbn [untypeds]. case: N.eqb_spec => [->|Z].
    { exists []. split=> //. by constructor. }
    rewrite (ctz_val _ _ _ E) /=.
    have R : 0 < r by lia.
    have [|j [-> [Lj [Lr Hj]]]] := shrink_spec c r (N.to_nat c + 2) R; first lia.
    cbn [bind]. rewrite ctz_pow. cbn [bind].
    have Pj := pow2_pos j.
    have DIV : (2 ^ j | cur).
    { rewrite E. apply: N.divide_mul_l. exists (2 ^ (c - j)). rewrite -N.pow_add_r. f_equal. lia. }
    have [c' [m' [E' F']]] : exists c' m', cur + 2 ^ j = 2 ^ c' * (2 * m' + 1) /\
      (N.size_nat (r - 2 ^ j) - N.to_nat c' + N.size_nat (r - 2 ^ j) <= fuel)%nat.
    { case: (N.eq_dec j c) => [J|J].
      - subst j.
        have [|c' [m' [_ E']]] := ctz_ok (cur + 2 ^ c); first lia.
        exists c', m'. split=> //.
        have C : c < c'.
        { case: (N.lt_ge_cases c c') => // C.
          exfalso. have : 2 ^ c' * (2 * m' + 1) = 2 ^ N.succ c * (m + 1) by rewrite N.pow_succ_r' -E'; nia.
          have -> : N.succ c = c' + N.succ (c - c') by lia.
          rewrite N.pow_add_r -N.mul_assoc => X.
          apply N.mul_cancel_l in X; last by have := pow2_pos c'; lia.
          rewrite N.pow_succ_r' in X. move: X. set u := 2 ^ (c - c'). nia. }
        have := size_nat_mono (r - 2 ^ c) r. have := size_nat_gt r c Lr. lia.
      - have {}Hj : r < 2 ^ (j + 1) by apply: Hj; lia.
        exists j, ((2 * m + 1) * 2 ^ (c - j - 1)). split.
        + rewrite E. have -> : 2 ^ c = 2 ^ j * (2 * 2 ^ (c - j - 1)).
          { rewrite -N.pow_succ_r' -N.pow_add_r. f_equal. lia. }
          nia.
        + have : (N.size_nat (r - 2 ^ j) <= N.to_nat j)%nat.
          { apply: size_nat_le. rewrite N.pow_add_r N.pow_1_r in Hj. lia. }
          have := size_nat_gt r j Lr.
          have := size_nat_le r (j + 1) Hj. lia. }
    have [l [-> P]] := IH _ _ _ _ E' F'.
    exists ((cur, j) :: l). split=> //. by constructor.
Qed.
Lemma get_untypeds_ok start size : 0 < start ->
  exists l, get_untypeds_from_range start size = Ok l /\ partition start size l.
Proof.
  move=> L. have [c [m [_ E]]] := ctz_ok start L.
  apply: (untypeds_spec _ _ _ _ _ E). lia.
Qed.

(** Coverage read off pointwise. *)
Lemma partition_point a size l : partition a size l -> forall x,
  (a <= x < a + size <-> exists p b, In (p, b) l /\ p <= x < p + 2 ^ b).
Proof.
  elim=> {a size l} [a|a size b l Lb D P IH] x.
  - split; first lia. by move=> [p [b [[]]]].
  - have Pb := pow2_pos b. split.
    + move=> H. case: (N.lt_ge_cases x (a + 2 ^ b)) => L.
      * exists a, b. split; [by left|lia].
      * have [|p [b' [I X]]] := proj1 (IH x); first lia.
        exists p, b'. split=> //. by right.
    + move=> [p [b' [[[<- <-]|I] X]]]; first lia.
      have := proj2 (IH x) (ex_intro _ p (ex_intro _ b' (conj I X))). lia.
Qed.

(** * pages *)
Lemma bump_spec fuel p0 k size :
  (forall j, j < k -> p0 + j * 4096 < size) ->
  size <= p0 + (k + N.of_nat fuel) * 4096 ->
  exists n, bump fuel (p0 + k * 4096) size = Ok (p0 + n * 4096) /\
    size <= p0 + n * 4096 /\ forall j, j < n -> p0 + j * 4096 < size.
Proof.
  elim: fuel k => [|fuel IH] k B F; cbn [bump]; case: N.leb_spec => L.
  - by exists k.
  - lia.
  - by exists k.
  - have -> : p0 + k * 4096 + 4096 = p0 + (k + 1) * 4096 by lia.
    apply: IH; last lia.
    move=> j Lj. case: (N.eq_dec j k) => [->|N] //. apply: B. lia.
Qed.
Lemma next_page_multiple_ok p0 size :
  exists n, next_page_multiple p0 size = Ok (p0 + n * 4096) /\
    size <= p0 + n * 4096 /\ forall j, j < n -> p0 + j * 4096 < size.
Proof.
  rewrite /next_page_multiple.
  have [||n H] := bump_spec (N.to_nat (size / 4096 + 1)) p0 0 size; first lia.
  - have := N.div_mod' size 4096. have := N.mod_lt size 4096. lia.
  - exists n. move: H. by rewrite N.mul_0_l N.add_0_r.
Qed.

Lemma fits_spec size p : 0 < p -> fits size p = true <-> p <= size /\ (p | size).
Proof.
  move=> P. rewrite /fits andb_true_iff N.leb_le N.eqb_eq.
  by rewrite N.mod_divide; first lia.
Qed.

Lemma find_app' {A} (f : A -> bool) l1 l2 : find f (l1 ++ l2) =
  match find f l1 with Some x => Some x | None => find f l2 end.
Proof. elim: l1 => [|x l1 IH] //=. by case: (f x). Qed.
Lemma find_rev_largest (f : N -> bool) l : StronglySorted N.lt l ->
  match find f (rev l) with
  | Some b => In b l /\ f b = true /\ forall p, In p l -> f p = true -> p <= b
  | None => forall p, In p l -> f p = false
  end.
Proof.
  elim: l => [|x l IH] S //=. inversion S as [|? ? Sl Fx]; subst.
  move: (IH Sl). rewrite find_app' /=.
  case E: (find f (rev l)) => [b|].
  - move=> [I [Fb M]]. repeat split=> //; first by right.
    move=> p [<-|Ip] Fp; last exact: M.
    rewrite Forall_forall in Fx. have := Fx _ I. lia.
  - move=> No. case Ef: (f x).
    + repeat split=> //; first by left. move=> p [<-|Ip] Fp; first lia.
      by rewrite (No _ Ip) in Fp.
    + by move=> p [<-|/No].
Qed.

Lemma get_page_size_some sizes size : StronglySorted N.lt sizes ->
  (forall p, In p sizes -> 0 < p) ->
  (get_page_size sizes size <> 0 -> largest_page sizes size (get_page_size sizes size)) /\
  (get_page_size sizes size = 0 -> forall p, In p sizes -> p <= size -> ~ (p | size)).
Proof.
  move=> S P. rewrite /get_page_size. have := find_rev_largest (fits size) _ S.
  case: find => [b|] H.
  - have [I [F M]] := H. split.
    + move=> _. have [L D] := proj1 (fits_spec size b (P _ I)) F.
      split=> //. split=> //. split=> // p Ip Lp Dp.
      apply: M => //. by apply/fits_spec; auto.
    + have := P _ I. lia.
  - split=> // _ p Ip Lp Dp.
    have := H _ Ip. rewrite (proj2 (fits_spec size p (P _ Ip))) //.
Qed.

Lemma calc_frame_size_search sizes size fs : StronglySorted N.lt sizes ->
  (forall p, In p sizes -> 0 < p) ->
  calc_frame_size sizes size None = Ok fs -> largest_page sizes size fs.
Proof.
  move=> S P. rewrite /calc_frame_size. have [H _] := get_page_size_some sizes size S P.
  case: N.eqb_spec => // Z [<-]. exact: H.
Qed.
Lemma calc_frame_size_none sizes size : StronglySorted N.lt sizes ->
  (forall p, In p sizes -> 0 < p) ->
  (exists p, In p sizes /\ p <= size /\ (p | size)) <->
  exists fs, calc_frame_size sizes size None = Ok fs.
Proof.
  move=> S P. rewrite /calc_frame_size. have [H1 H2] := get_page_size_some sizes size S P.
  case: N.eqb_spec => Z; split.
  - move=> [p [I [L D]]]. by case: (H2 Z p I L).
  - by move=> [].
  - by eauto.
  - move=> _. have [I [L [D _]]] := H1 Z. by eauto.
Qed.

Lemma nseq_length n : List.length (nseq n) = N.to_nat n.
Proof. by rewrite /nseq map_length seq_length. Qed.
Lemma nseq_nth n i : i < n -> nth_error (nseq n) (N.to_nat i) = Some i.
Proof.
  move=> L. rewrite /nseq. erewrite map_nth_error.
  2:{ rewrite (nth_error_nth' _ 0%nat) ?seq_length; first lia. rewrite seq_nth; first lia. reflexivity. }
  f_equal. lia.
Qed.
Lemma nseq_NoDup n : NoDup (nseq n).
Proof.
  rewrite /nseq. apply: FinFun.Injective_map_NoDup; last exact: seq_NoDup.
  move=> x y. lia.
Qed.
Lemma frame_name_inj g d i j : frame_name g d i = frame_name g d j -> i = j.
Proof.
  rewrite /frame_name => /string_app_inj_l /string_app_inj_l /string_app_inj_r. exact: decpad_inj.
Qed.

Lemma shared_frames_ok sizes g size fso pa frames :
  shared_frames sizes g size fso pa = Ok frames ->
  exists fs, calc_frame_size sizes size fso = Ok fs /\ 0 < fs /\
    List.length frames = N.to_nat (size / fs) /\
    NoDup (map fr_name frames) /\
    (forall i, i < size / fs -> exists f, nth_error frames (N.to_nat i) = Some f /\
        fr_size f = fs /\ fr_paddr f = option_map (fun p => p + i * fs) pa).
Proof.
  rewrite /shared_frames. case E: calc_frame_size => [fs|] //= [<-].
  exists fs. split=> //. split.
  { move: E. rewrite /calc_frame_size. case: N.eqb_spec => // Z [<-]. lia. }
  split; first by rewrite map_length nseq_length.
  split.
  { rewrite map_map /=. apply: FinFun.Injective_map_NoDup; last exact: nseq_NoDup.
    move=> i j. exact: frame_name_inj. }
  move=> i L. eexists. split; first by rewrite (map_nth_error _ _ _ (nseq_nth _ _ L)).
  by [].
Qed.


Lemma total_const l fs : (forall f, In f l -> fr_size f = fs) ->
  total_size l = N.of_nat (List.length l) * fs.
Proof.
  elim: l => [|x l IH] H //. cbn [total_size fold_right List.length].
  have {}IH := IH (fun f I => H f (or_intror I)).
  rewrite -/(total_size l) IH (H x (or_introl eq_refl)). lia.
Qed.
Lemma shared_frames_total sizes g size fso pa frames fs :
  shared_frames sizes g size fso pa = Ok frames ->
  calc_frame_size sizes size fso = Ok fs -> (fs | size) -> total_size frames = size.
Proof.
  move=> H E [k D]. have [fs' [E' [P [Len [_ Nth]]]]] := shared_frames_ok _ _ _ _ _ _ H.
  rewrite E in E'. move: E' => [X]. subst fs'.
  rewrite (total_const _ fs); last first.
  - rewrite Len D N.div_mul; first lia. lia.
  - move=> f I. have [n Hn] := In_nth_error _ _ I.
    have L : (n < List.length frames)%nat by apply nth_error_Some; rewrite Hn.
    have [|f' [F' [S' _]]] := Nth (N.of_nat n); first lia.
    rewrite Nnat.Nat2N.id Hn in F'. by move: F' => [->].
Qed.

Lemma round_up_ok x y : 0 < y -> exists r, round_up x y = Ok r /\ (y | r) /\ x <= r /\
  forall m, (y | m) -> x <= m -> r <= m.
Proof.
  move=> P. rewrite /round_up. case: N.eqb_spec => [|_]; first lia.
  eexists. split=> //. split; first by exists ((x + y - 1) / y).
  have D := N.div_mod' (x + y - 1) y. have M := N.mod_lt (x + y - 1) y.
  split; first by nia.
  move=> m [k ->] L. apply: N.mul_le_mono_r.
  have : (x + y - 1) / y < k + 1; last lia.
  apply: N.div_lt_upper_bound; lia.
Qed.
Lemma round_down_ok x y : 0 < y -> exists r, round_down x y = Ok r /\ (y | r) /\ r <= x /\
  forall m, (y | m) -> m <= x -> m <= r.
Proof.
  move=> P. rewrite /round_down. case: N.eqb_spec => [|_]; first lia.
  eexists. split=> //. split; first by exists (x / y).
  split; first by rewrite N.mul_comm; apply: N.mul_div_le; lia.
  move=> m [k ->] L. apply: N.mul_le_mono_r.
  apply: N.div_le_lower_bound; lia.
Qed.
Lemma align_ok k a : let p := 2 ^ k in
  (p | align_page_address p a) /\ align_page_address p a <= a /\
  forall m, (p | m) -> m <= a -> m <= align_page_address p a.
Proof.
  move=> p. have P := pow2_pos k. rewrite /align_page_address.
  have -> : p - 1 = N.ones k by rewrite N.ones_equiv -N.sub_1_r.
  rewrite N.ldiff_ones_r N.shiftl_mul_pow2 N.shiftr_div_pow2 -/p.
  have [r [E H]] := round_down_ok a p P. move: E. rewrite /round_down.
  case: N.eqb_spec => [|_]; first lia. by move=> [->].
Qed.

Lemma shared_frames_short :
  exists sizes g size fso frames, StronglySorted N.lt sizes /\
    (forall p, In p sizes -> 0 < p) /\ (exists p, In p sizes /\ (p | size)) /\
    shared_frames sizes g size fso None = Ok frames /\ total_size frames < size.
Proof.
  exists [4096; 65536], "buf"%string, 69632, (Some 65536), [mk_frame "buf_0_obj" 65536 None].
  split; first by repeat constructor; lia.
  split; first by move=> p [<-|[<-|[]]]; lia.
  split; first by exists 4096; split; [left|exists 17].
  by [].
Qed.

Lemma calc_frame_size_explicit sizes size f : 0 < f -> calc_frame_size sizes size (Some f) = Ok f.
Proof. move=> P. rewrite /calc_frame_size. by case: f P. Qed.

(** ** Integer types *)
Lemma type_fits n w : type_to_fit_integer n = Ok w ->
  (forall i, i < n -> i < 2 ^ w) /\ In w [8; 16; 32; 64] /\
  forall k, In k [8; 16; 32; 64] -> (forall i, i < n -> i < 2 ^ k) -> w <= k.
Proof.
  rewrite /type_to_fit_integer => H.
  have B: 0 < 2 ^ 8 /\ 2 ^ 8 < 2 ^ 16 /\ 2 ^ 16 < 2 ^ 32 /\ 2 ^ 32 < 2 ^ 64 by repeat split.
  have R: forall k, In k [8; 16; 32; 64] -> k = 8 \/ k = 16 \/ k = 32 \/ k = 64.
  { move=> k [<-|[<-|[<-|[<-|[]]]]]; tauto. }
  have I: forall k, 0 < n -> (forall i, i < n -> i < 2 ^ k) -> n <= 2 ^ k.
  { move=> k P F. have := F (n - 1) ltac:(lia). lia. }
  move: H.
  destruct (N.leb_spec n (2 ^ 8)) as [L1|L1]; [|destruct (N.leb_spec n (2 ^ 16)) as [L2|L2];
    [|destruct (N.leb_spec n (2 ^ 32)) as [L3|L3]; [|destruct (N.leb_spec n (2 ^ 64)) as [L4|L4]; [|discriminate]]]].
  all: move=> [<-]; split; [move=> i; lia|split; [cbn; tauto|]].
  all: move=> k /R [->|[->|[->|->]]] F; try lia; exfalso.
  all: have := I _ ltac:(lia) F; lia.
Qed.
Lemma type_none v : (exists w, type_to_fit_integer v = Ok w) <-> v <= 2 ^ 64.
Proof.
  rewrite /type_to_fit_integer. have B: 2 ^ 8 < 2 ^ 16 /\ 2 ^ 16 < 2 ^ 32 /\ 2 ^ 32 < 2 ^ 64 by repeat split.
  destruct (N.leb_spec v (2 ^ 8)) as [L1|L1]; [|destruct (N.leb_spec v (2 ^ 16)) as [L2|L2];
    [|destruct (N.leb_spec v (2 ^ 32)) as [L3|L3]; [|destruct (N.leb_spec v (2 ^ 64)) as [L4|L4]]]].
  all: split; [move=> [w H]|move=> ?]; try (by eexists); try lia; try discriminate.
Qed.
