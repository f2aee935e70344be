(** Proofs about numeric expressions. *)
From Coq Require Import ssreflect ssrbool String Ascii List Bool Arith NArith ZArith Lia.
From Coq Require Import DecimalString DecimalN.
From Coq Require Decimal DecimalFacts.
From Verif Require Import Prelude DecStr Numeric_Model Numeric_Spec.
Import ListNotations.
Open Scope string_scope.
Open Scope list_scope.

Scheme node_mut := Induction for node Sort Prop
  with tail_mut := Induction for tail Sort Prop.

Lemma rule_level o : rule_of o = level o.
Proof. by case: o. Qed.
Lemma level_range o : 1 <= level o <= 10.
Proof. case: o => /=; lia. Qed.

(** * The grammar is unambiguous *)
Definition stops (k : nat) (r : list token) : Prop :=
  match r with
  | TOp o :: _ => k < rule_of o
  | TQuest :: _ => k <= 10
  | _ => True
  end.
Lemma stops_le j k r : j <= k -> stops k r -> stops j r.
Proof. case: r => [|[] ?] //=; lia. Qed.
Lemma stops_tail n tl r : 1 <= n -> derived_tail n tl = true -> stops n r ->
  stops (n - 1) (text_of_tail tl ++ r).
Proof.
  case: tl => [|o e tl] /= Hn.
  - move=> _ H. apply: (stops_le _ n) => //. lia.
  - case/andP => /andP [/Nat.eqb_spec E _] _ _. lia.
Qed.
Lemma stops0 r : stops 0 r.
Proof.
  case: r => [|[|| o | | | | | | ] ?] //=.
  - move: (level_range o). rewrite rule_level. lia.
  - lia.
Qed.

Ltac bools := repeat match goal with
  | H : _ && _ = true |- _ => apply andb_prop in H; destruct H
  | H : Nat.eqb _ _ = true |- _ => apply Nat.eqb_eq in H
  | H : Nat.leb _ _ = true |- _ => apply Nat.leb_le in H
  | H : match ?n with 0 => false | S _ => true end = true |- _ =>
      assert (1 <= n) by (destruct n; [discriminate H|lia]); clear H
  end.
Definition tail_unambiguous tl1 := forall n tl2 r1 r2, 1 <= n <= 10 ->
  derived_tail n tl1 = true -> derived_tail n tl2 = true ->
  text_of_tail tl1 ++ r1 = text_of_tail tl2 ++ r2 -> stops n r1 -> stops n r2 ->
  tl1 = tl2 /\ r1 = r2.
Lemma unambiguous t1 : forall k t2 r1 r2, derived k t1 = true -> derived k t2 = true ->
  text_of t1 ++ r1 = text_of t2 ++ r2 -> stops k r1 -> stops k r2 -> t1 = t2 /\ r1 = r2.
Proof.
  apply (node_mut (fun t1 => forall k t2 r1 r2, derived k t1 = true -> derived k t2 = true ->
    text_of t1 ++ r1 = text_of t2 ++ r2 -> stops k r1 -> stops k r2 -> t1 = t2 /\ r1 = r2)
    tail_unambiguous).
  - move=> s k t2 r1 r2 /=. case: t2 => //= *; bools; try lia; try congruence; split; congruence.
  - move=> s k t2 r1 r2 /=. case: t2 => //= *; bools; try lia; try congruence; split; congruence.
  - move=> e IH k t2 r1 r2 /=. case: t2 => //= [e2|n2 f2 tl2|e2|c2 a2 b2] D1 D2 E S1 S2; bools; try lia.
    move: E => [E]. rewrite -!app_assoc /= in E.
    have [-> [->]] : e = e2 /\ TRpar :: r1 = TRpar :: r2 by apply: (IH 11).
    by [].
  - move=> e IH k t2 r1 r2 /=. case: t2 => //= [e2|n2 f2 tl2|e2|c2 a2 b2] D1 D2 E S1 S2; bools; try lia.
    move: E => [E]. have [-> ->] : e = e2 /\ r1 = r2 by apply: (IH 0) => //; apply: stops0. by [].
  - move=> e IH k t2 r1 r2 /=. case: t2 => //= [e2|n2 f2 tl2|e2|c2 a2 b2] D1 D2 E S1 S2; bools; try lia.
    move: E => [E]. have [-> ->] : e = e2 /\ r1 = r2 by apply: (IH 0) => //; apply: stops0. by [].
  - move=> e IH k t2 r1 r2 /=. case: t2 => //= [e2|n2 f2 tl2|e2|c2 a2 b2] D1 D2 E S1 S2; bools; try lia.
    move: E => [E]. have [-> ->] : e = e2 /\ r1 = r2 by apply: (IH 0) => //; apply: stops0. by [].
  - move=> e IH k t2 r1 r2 /=. case: t2 => //= [e2|n2 f2 tl2|e2|c2 a2 b2] D1 D2 E S1 S2; bools; try lia.
    move: E => [E]. have [-> ->] : e = e2 /\ r1 = r2 by apply: (IH 0) => //; apply: stops0. by [].
  - move=> n f IHf tl IHt k t2 r1 r2 /= D1. bools. subst k.
    case: t2 => //= [s|s|e2|e2|e2|e2|e2|n2 f2 tl2|e2|c2 a2 b2] D2 E S1 S2; bools; try lia. subst n2.
    rewrite -!app_assoc in E.
    have [-> E2] : f = f2 /\ text_of_tail tl ++ r1 = text_of_tail tl2 ++ r2.
    { apply: (IHf (n - 1)) => //; by apply: stops_tail. }
    by have [-> ->] : tl = tl2 /\ r1 = r2 by apply: (IHt n).
  - move=> e IH k t2 r1 r2 /= D1. bools.
    case: t2 => //= [s|s|e2|e2|e2|e2|e2|n2 f2 tl2|e2|c2 a2 b2] D2 E S1 S2; bools; try lia; subst k.
    + have [-> ->] : e = e2 /\ r1 = r2; last by [].
      apply: (IH 10) => //; by apply: (stops_le _ 11) => //; lia.
    + rewrite -app_assoc /= in E.
      have [_ E2] : e = c2 /\ r1 = TQuest :: (text_of a2 ++ TColon :: text_of b2) ++ r2.
      { apply: (IH 10) => //. apply: (stops_le _ 11) => //; lia. }
      subst r1. exfalso. move: S1 => /=. lia.
  - move=> c IHc a IHa b IHb k t2 r1 r2 /= D1. bools.
    case: t2 => //= [s|s|e2|e2|e2|e2|e2|n2 f2 tl2|e2|c2 a2 b2] D2 E S1 S2; bools; try lia; subst k.
    + rewrite -app_assoc /= in E.
      have [_ E2] : c = e2 /\ TQuest :: (text_of a ++ TColon :: text_of b) ++ r1 = r2.
      { apply: (IHc 10) => //. apply: (stops_le _ 11) => //; lia. }
      subst r2. exfalso. move: S2 => /=. lia.
    + rewrite -!app_assoc /= -!app_assoc /= in E.
      have [-> [E2]] : c = c2 /\ TQuest :: text_of a ++ TColon :: text_of b ++ r1 =
                                TQuest :: text_of a2 ++ TColon :: text_of b2 ++ r2
        by apply: (IHc 10).
      have [-> [E3]] : a = a2 /\ TColon :: text_of b ++ r1 = TColon :: text_of b2 ++ r2
        by apply: (IHa 11).
      have [-> ->] : b = b2 /\ r1 = r2; last by [].
      apply: (IHb 10) => //; by apply: (stops_le _ 11) => //; lia.
  - move=> n [|o2 e2 tl2] r1 r2 /= Hn D1 D2 E S1 S2 //. bools.
    subst r1. exfalso. move: S1 => /=. lia.
  - move=> o e IHe tl IHt n [|o2 e2 tl2] r1 r2 /= Hn D1 D2 E S1 S2; bools.
    + subst r2. exfalso. move: S2 => /=. lia.
    + move: E => [-> E]. rewrite -!app_assoc in E.
      have [-> E2] : e = e2 /\ text_of_tail tl ++ r1 = text_of_tail tl2 ++ r2.
      { apply: (IHe (n - 1)) => //; apply: stops_tail => //; lia. }
      by have [-> ->] : tl = tl2 /\ r1 = r2 by apply: (IHt n).
Qed.
Corollary one_derivation t1 t2 : derived 11 t1 = true -> derived 11 t2 = true ->
  text_of t1 = text_of t2 -> t1 = t2.
Proof.
  move=> D1 D2 E. have [//] : t1 = t2 /\ @nil token = [].
  apply: (unambiguous _ 11) => //. by rewrite E.
Qed.

(** * The derivation of the text of an expression *)
Fixpoint raise (k n : nat) (t : node) : node :=
  match n with
  | O => t
  | S n' => if Nat.eqb k n then t
            else let t' := raise k n' t in
                 if Nat.eqb n 11 then NOne t' else NRule n t' TNil
  end.
Lemma raise_ok k n t : k <= n <= 11 -> derived k t = true ->
  derived n (raise k n t) = true /\ text_of (raise k n t) = text_of t /\
  lift (raise k n t) = lift t.
Proof.
  elim: n => [|n IH] Hk D.
  - have E : k = 0 by lia. by subst k.
  - cbn [raise]. case: (Nat.eqb_spec k (S n)) => E; first by subst k.
    have [//|D' [T' L']] := IH _ D; first lia.
    case: (Nat.eqb_spec (S n) 11) => E11.
    + have En : n = 10 by lia. subst n. cbn [derived text_of lift]. by rewrite D' T' L'.
    + cbn [derived text_of lift derived_tail text_of_tail lift_tail].
      rewrite Nat.eqb_refl. have -> : S n - 1 = n by lia.
      rewrite D' T' L' app_nil_r (proj2 (Nat.leb_le _ _)) ?(proj2 (Nat.leb_le (S n) 10)) //=; try lia.
      split=> //. split=> //. by case: (lift t).
Qed.

Definition place (k l : nat) (t : node) : node :=
  if Nat.leb l k then raise l k t else raise 0 k (NParen (raise l 11 t)).
Fixpoint tsnoc (r : tail) (o : binop) (e : node) : tail :=
  match r with TNil => TCons o e TNil | TCons o' e' r => TCons o' e' (tsnoc r o e) end.
Definition snoc (t : node) (o : binop) (e : node) : node :=
  match t with NRule n f r => NRule n f (tsnoc r o e) | _ => t end.
Fixpoint natural (e : expr) : node :=
  match e with
  | ENum s _ => NNum s
  | EBool s _ => NBool s
  | EParen e => NParen (place 11 (expr_level e) (natural e))
  | EPlus e => NPlus (place 0 (expr_level e) (natural e))
  | ENeg e => NMinus (place 0 (expr_level e) (natural e))
  | ENot e => NNot (place 0 (expr_level e) (natural e))
  | EInv e => NInv (place 0 (expr_level e) (natural e))
  | EBin o a b => snoc (place (level o) (expr_level a) (natural a)) o
                       (place (level o - 1) (expr_level b) (natural b))
  | ECond c a b => NCond (place 10 (expr_level c) (natural c))
                         (place 11 (expr_level a) (natural a))
                         (place 10 (expr_level b) (natural b))
  end.

Lemma expr_level_le e : expr_level e <= 11.
Proof. case: e => [t n|t b|e|e|e|e|e|o a b|c a b] /=; try lia. have := level_range o. lia. Qed.

Lemma place_ok k l t : k <= 11 -> l <= 11 -> derived l t = true ->
  derived k (place k l t) = true /\ text_of (place k l t) = bracket k l (text_of t) /\
  lift (place k l t) = lift t.
Proof.
  move=> Hk Hl D. rewrite /place /bracket. case: (Nat.leb_spec l k) => C.
  - exact: raise_ok.
  - have [//|D1 [T1 L1]] := raise_ok l 11 t _ D.
    have [||D2 [T2 L2]] := raise_ok 0 k (NParen (raise l 11 t)); [lia|by cbn; rewrite D1|].
    rewrite D2 T2 L2. split=> //. cbn [text_of lift]. by rewrite T1 L1.
Qed.

Lemma tsnoc_derived n r o e : derived_tail n (tsnoc r o e) =
  derived_tail n r && (Nat.eqb (rule_of o) n && derived (n - 1) e).
Proof. elim: r => [|o' e' r IH] /=; first by rewrite andb_true_r. by rewrite IH !andb_assoc. Qed.
Lemma tsnoc_text r o e : text_of_tail (tsnoc r o e) = text_of_tail r ++ TOp o :: text_of e.
Proof. elim: r => [|o' e' r IH] /=; first by rewrite app_nil_r. by rewrite IH -app_assoc. Qed.
Lemma tsnoc_lift r o e : lift_tail (tsnoc r o e) =
  (l <- lift_tail r ;; v <- lift e ;; Ok (l ++ [(o, v)])).
Proof.
  elim: r => [|o' e' r IH] /=; first by case: (lift e).
  rewrite IH. case: (lift e') => //= v. case: (lift_tail r) => //= l. by case: (lift e).
Qed.
Lemma foldM_app {A B} (f : A -> B -> res A) l1 l2 a :
  foldM f (l1 ++ l2) a = (x <- foldM f l1 a ;; foldM f l2 x).
Proof. elim: l1 a => [|b l1 IH] a //=. by case: (f a b) => //=. Qed.

Lemma derived_rule n t : 1 <= n <= 10 -> derived n t = true -> exists f r, t = NRule n f r.
Proof.
  case: t => [s|s|e|e|e|e|e|m f r|e|c a b] Hn /= D; bools; try lia. subst m. by exists f, r.
Qed.

Lemma apply_meaning x o y : answers (wrap (apply_op x o y)) (meaning py_and py_or o x y).
Proof.
  rewrite /py_and /py_or /is_true.
  case: o => //=; try (by case: Z.eqb); try (by rewrite /truth /int_of_bool; case: Z.eqb).
  - case: Z.ltb_spec => //= H. rewrite Z.shiftl_mul_pow2 //.
  - case: Z.ltb_spec => //= H. rewrite Z.shiftr_div_pow2 //.
  - case: Z.ltb => //=. by case: Z.eqb.
Qed.

Lemma snoc_ok n t o e x y : 1 <= n <= 10 -> level o = n -> derived n t = true ->
  derived (n - 1) e = true -> answers (lift t) x -> answers (lift e) y ->
  derived n (snoc t o e) = true /\ text_of (snoc t o e) = text_of t ++ TOp o :: text_of e /\
  answers (lift (snoc t o e)) (map2 (meaning py_and py_or o) x y).
Proof.
  move=> Hn Ho Dt De At Ae. have [f [r E]] := derived_rule _ _ Hn Dt. subst t.
  cbn [snoc derived text_of lift] in *. rewrite tsnoc_derived tsnoc_text tsnoc_lift rule_level.
  split; [|split].
  - bools. rewrite De Ho !Nat.eqb_refl. 
    repeat match goal with H : _ = true |- _ => rewrite H end.
    by rewrite (proj2 (Nat.leb_le 1 n)) // (proj2 (Nat.leb_le n 10)).
  - by rewrite app_assoc.
  - case: (lift f) At => [v|z] /=; last by case: x => //; case: y Ae.
    case: (lift_tail r) => [l|z] /=; last by case: x => //; case: y Ae.
    rewrite /lift_numeric_expr. move=> At.
    case: x At => [x| |] /= At; last by [].
    + case: y Ae => [y| |] //= ->; last by [].
      rewrite /= foldM_app. case: (foldM _ l v) At => [a|z] /=; last by case: z.
      case=> ->. have := apply_meaning x o y. by case: (apply_op x o y).
    + case: y Ae => [y| |] //= -> /=; last by [].
      rewrite foldM_app. by case: (foldM _ l v) At => [a|z] /=.
Qed.

(** * Literals *)
Lemma digits_no_dot s : all_chars is_digit s = true -> has_dot s = false.
Proof.
  elim: s => [|c s IH] //= /andP [D /IH ->]. rewrite orb_false_r.
  case: (Ascii.eqb_spec c ".") => // E. by subst c.
Qed.
Lemma digits_acc u acc : digits_value 10 (Npos acc) (NilEmpty.string_of_uint u) =
  Ok (Npos (Pos.of_uint_acc u acc)).
Proof.
  elim: u acc => [|u IH|u IH|u IH|u IH|u IH|u IH|u IH|u IH|u IH|u IH] acc //.
  all: cbn [NilEmpty.string_of_uint digits_value Pos.of_uint_acc]; rewrite -IH.
  all: match goal with |- context [digit_of ?c] =>
         let d := eval vm_compute in (digit_of c) in change (digit_of c) with d end.
  all: cbv iota beta; match goal with |- context [N.ltb ?a ?b] =>
         let d := eval vm_compute in (N.ltb a b) in change (N.ltb a b) with d end.
  all: cbv iota; f_equal; lia.
Qed.
Lemma digits_of_uint u : digits_value 10 0 (NilEmpty.string_of_uint u) = Ok (N.of_uint u).
Proof.
  elim: u => [|u IH|u IH|u IH|u IH|u IH|u IH|u IH|u IH|u IH|u IH] //; exact: digits_acc.
Qed.
Lemma to_uint_normal n : Decimal.unorm (N.to_uint n) = N.to_uint n.
Proof. by rewrite -DecimalN.Unsigned.to_of DecimalN.Unsigned.of_to. Qed.

Lemma lift_number_dec n : lift_number (dec n) = Ok (Z.of_N n).
Proof.
  rewrite /lift_number (digits_no_dot _ (dec_digits n)).
  have V := digits_of_uint (N.to_uint n). rewrite DecimalN.Unsigned.of_to -/(dec n) in V.
  suff -> : int_base0 (dec n) = Ok n by [].
  have NZ := to_uint_normal n. move: V NZ. rewrite /dec.
  case: (N.to_uint n) => [|u|u|u|u|u|u|u|u|u|u] V NZ; try exact: V.
  - by [].
  - rewrite /Decimal.unorm in NZ. cbn [Decimal.nzhead] in NZ.
    case E: (Decimal.nzhead u) NZ => [|w|w|w|w|w|w|w|w|w|w] // NZ.
    + move: NZ => [NZ]. subst u. cbn in V. move: V => [V]. by subst n.
    + by have := DecimalFacts.nzhead_nonzero u w.
Qed.

Lemma hex_table : forallb (fun p =>
  match digit_of (fst p) with
  | Some d => (d =? snd p)%N && (d <? 16)%N && negb (Ascii.eqb (fst p) ".")
  | None => false
  end) hex_digits = true.
Proof. by []. Qed.
Lemma hex_digit_ok p : In p hex_digits ->
  digit_of (fst p) = Some (snd p) /\ (snd p < 16)%N /\ Ascii.eqb (fst p) "." = false.
Proof.
  move=> H. have := hex_table. rewrite forallb_forall => /(_ p H).
  case: (digit_of (fst p)) => [d|] // /andP [/andP [/N.eqb_eq -> /N.ltb_lt Hd] /negbTE ->].
  done.
Qed.
Lemma hex_digits_value l acc : Forall (fun d => In d hex_digits) l ->
  digits_value 16 acc (digits_text l) = Ok (fold_left (fun v d => 16 * v + snd d)%N l acc) /\
  has_dot (digits_text l) = false.
Proof.
  move=> H. elim: H acc => [|p l' Hp _ IH] acc; first by split.
  have [E [L ND]] := hex_digit_ok p Hp. have [V D] := IH (16 * acc + snd p)%N.
  rewrite /digits_text in V, D |- *.
  cbn [map string_of_list_ascii digits_value has_dot fold_left]. rewrite E D V ND.
  by rewrite (proj2 (N.ltb_lt _ _) L).
Qed.
Lemma lift_number_literal s n : literal s n -> lift_number s = Ok (Z.of_N n).
Proof.
  case=> {n} [n|l Hl Hd]; first exact: lift_number_dec.
  have [V D] := hex_digits_value l 0 Hd. rewrite /lift_number.
  cbn [append has_dot]. rewrite D. cbn -[digits_value digits_text].
  case: l Hl Hd V D => [|d l] // _ _ V _. by rewrite V.
Qed.
Lemma lift_boolean_literal s b : truth_literal s b -> lift_boolean s = truth b.
Proof. by case=> [[<- <-]|[[<- <-]|[[<- <-]|[[<- <-]|[]]]]]. Qed.

(** A decimal literal must not start with zeros, unless it is zero. *)
Lemma digits_value_app base acc l : (base <= 10)%N ->
  Forall (fun d => In d hex_digits /\ (snd d < base)%N) l ->
  digits_value base acc (digits_text l) = Ok (fold_left (fun v d => base * v + snd d)%N l acc) /\
  has_dot (digits_text l) = false.
Proof.
  move=> Hb H. elim: H acc => [|p l' [Hp Hs] _ IH] acc; first by split.
  have [E [L ND]] := hex_digit_ok p Hp. have [V D] := IH (base * acc + snd p)%N.
  rewrite /digits_text in V, D |- *.
  cbn [map string_of_list_ascii digits_value has_dot fold_left]. rewrite E D V ND.
  by rewrite (proj2 (N.ltb_lt _ _) Hs).
Qed.
Lemma leading_zero l : l <> [] -> Forall (fun d => In d hex_digits /\ (snd d < 10)%N) l ->
  lift (NNum ("0" ++ digits_text l)) =
  if (digits_number 10 l =? 0)%N then Ok 0%Z else Err ParseError.
Proof.
  move=> Hl Hd. cbn [lift]. rewrite /lift_number.
  have [V D] := digits_value_app 10 0 l (N.le_refl _) Hd. rewrite -/(digits_number 10 l) in V.
  cbn [append has_dot]. rewrite D. cbn -[digits_value digits_text digits_number].
  case: l Hl Hd V D => [|d l] // _ Hd V _.
  have Hx : Ascii.eqb (fst d) "x" = false.
  { inversion Hd as [|? ? [Hin _] _]; subst. cbn in Hin.
    by repeat (case: Hin => [<-|Hin] //). }
  have Ed : digits_text (d :: l) = String (fst d) (digits_text l) by [].
  rewrite Ed Hx -Ed V /=. by case: N.eqb.
Qed.

(** * Every expression *)
Lemma natural_ok e : well_written e ->
  derived (expr_level e) (natural e) = true /\ text_of (natural e) = body e /\
  answers (lift (natural e)) (py_value e).
Proof.
  rewrite /py_value.
  elim: e => [s n|s b|e IH|e IH|e IH|e IH|e IH|o a IHa b IHb|c IHc a IHa b IHb];
    cbn [expr_level natural body value well_written].
  - move=> H. split=> //. split=> //. cbn [lift]. by rewrite (lift_number_literal _ _ H).
  - move=> H. split=> //. split=> //. cbn [lift answers].
    by rewrite (lift_boolean_literal _ _ H).
  - move=> /IH [D [T A]].
    have [D' [T' L']] := place_ok 11 _ _ (Nat.le_refl _) (expr_level_le e) D.
    cbn [derived text_of lift]. rewrite D' T' T L' /bracket.
    by rewrite (proj2 (Nat.leb_le _ _) (expr_level_le e)).
  - move=> /IH [D [T A]].
    have [D' [T' L']] := place_ok 0 _ _ (Nat.le_0_l _) (expr_level_le e) D.
    cbn [derived text_of lift]. rewrite D' T' T L'. by split.
  - move=> /IH [D [T A]]. have [D' [T' L']] := place_ok 0 _ _ (Nat.le_0_l _) (expr_level_le e) D.
    cbn [derived text_of lift]. rewrite D' T' T L'. split=> //. split=> //.
    by case: value A => [z| |] //= ->.
  - move=> /IH [D [T A]]. have [D' [T' L']] := place_ok 0 _ _ (Nat.le_0_l _) (expr_level_le e) D.
    cbn [derived text_of lift]. rewrite D' T' T L'. split=> //. split=> //.
    case: value A => [z| |] //= -> //=. rewrite /is_true. by case: Z.eqb.
  - move=> /IH [D [T A]]. have [D' [T' L']] := place_ok 0 _ _ (Nat.le_0_l _) (expr_level_le e) D.
    cbn [derived text_of lift]. rewrite D' T' T L'. split=> //. split=> //.
    case: value A => [z| |] //; cbn [answers map1] => ->; cbn [bind]; last by [].
    rewrite /Z.lnot. f_equal. lia.
  - move=> [/IHa [Da [Ta Aa]] /IHb [Db [Tb Ab]]]. have R := level_range o.
    have [|Da' [Ta' La']] := place_ok (level o) _ _ _ (expr_level_le a) Da; try lia.
    have [|Db' [Tb' Lb']] := place_ok (level o - 1) _ _ _ (expr_level_le b) Db; try lia.
    rewrite -La' in Aa. rewrite -Lb' in Ab.
    have [D [T A]] := snoc_ok _ _ _ _ _ _ R eq_refl Da' Db' Aa Ab.
    rewrite T Ta' Ta Tb' Tb. by split.
  - move=> [/IHc [Dc [Tc Ac]] [/IHa [Da [Ta Aa]] /IHb [Db [Tb Ab]]]].
    have [|Dc' [Tc' Lc']] := place_ok 10 _ _ _ (expr_level_le c) Dc; try lia.
    have [|Da' [Ta' La']] := place_ok 11 _ _ _ (expr_level_le a) Da; try lia.
    have [|Db' [Tb' Lb']] := place_ok 10 _ _ _ (expr_level_le b) Db; try lia.
    cbn [derived text_of lift]. rewrite Dc' Da' Db' Tc' Tc Ta' Ta Tb' Tb Lc' La' Lb'.
    split=> //. split=> //. rewrite /is_true /lift_ternary.
    case: (value _ _ c) Ac => [x| |] //= Hc; case: (value _ _ a) Aa => [y| |] //= Ha;
      case: (value _ _ b) Ab => [z| |] //= Hb; rewrite ?Hc ?Ha ?Hb //=.
    by case: Z.eqb.
Qed.
Lemma expression_text e : well_written e -> text_evaluates (bracket 11 (expr_level e) (body e)) (py_value e).
Proof.
  move=> W. have [D [T A]] := natural_ok e W.
  have [|D' [T' L']] := place_ok 11 _ _ _ (expr_level_le e) D; try lia.
  rewrite T in T'. split; first by eexists; split; [exact D'|].
  move=> t Dt Tt. have -> : t = place 11 (expr_level e) (natural e)
    by apply: one_derivation => //; rewrite Tt.
  by rewrite L'.
Qed.
Lemma top_text e : bracket 11 (expr_level e) (body e) = body e.
Proof. by rewrite /bracket (proj2 (Nat.leb_le _ _) (expr_level_le e)). Qed.
Lemma python_value e : well_written e -> text_evaluates (body e) (py_value e).
Proof. rewrite -(top_text e). exact: expression_text. Qed.

(** * C's logical operators *)
Definition bit (z : Z) : bool := (z =? 0)%Z || (z =? 1)%Z.
Lemma condition_bit e z : is_condition e = true -> c_value e = Int z -> bit z = true.
Proof.
  rewrite /c_value. case: e => //= [s b _ [<-]|e _|o a b]; first by case: b.
  - case: (value _ _ e) => //= x [<-]. by case: (is_true x).
  - case: o => //= _; case: (value _ _ a) => //= [x|] ; case: (value _ _ b) => //= y [<-];
      rewrite /c_and /c_or; match goal with |- bit (truth ?b) = true => by case: b end.
Qed.
Lemma py_and_bits x y : bit x = true -> bit y = true -> py_and x y = c_and x y.
Proof. by rewrite /bit => /orP [/Z.eqb_spec ->|/Z.eqb_spec ->] /orP [/Z.eqb_spec ->|/Z.eqb_spec ->]. Qed.
Lemma py_or_bits x y : bit x = true -> bit y = true -> py_or x y = c_or x y.
Proof. by rewrite /bit => /orP [/Z.eqb_spec ->|/Z.eqb_spec ->] /orP [/Z.eqb_spec ->|/Z.eqb_spec ->]. Qed.
Lemma c_is_py e : logical_on_conditions e = true -> py_value e = c_value e.
Proof.
  rewrite /py_value /c_value.
  elim: e => [s n|s b|e IH|e IH|e IH|e IH|e IH|o a IHa b IHb|c IHc a IHa b IHb] //= H.
  - by rewrite IH. - by rewrite IH. - by rewrite IH.
  - move: H => /andP [/andP [/IHa -> /IHb ->] Ho].
    case Ea: (value _ _ a) => [x| |]; case Eb: (value _ _ b) => [y| |] //=.
    case: o Ho => //= /andP [Ca Cb]; f_equal.
    + apply: py_or_bits; [exact: (condition_bit a)|exact: (condition_bit b)].
    + apply: py_and_bits; [exact: (condition_bit a)|exact: (condition_bit b)].
  - move: H => /andP [/andP [/IHc -> /IHa ->] /IHb ->]. by [].
Qed.
Lemma c_expression_text e : well_written e -> logical_on_conditions e = true ->
  text_evaluates (body e) (c_value e).
Proof. move=> W H. rewrite -(c_is_py e H). exact: python_value. Qed.

(** Every derivation gives an integer, a ParseError, or leaves the model. *)
Definition only_parse_error {A} (r : res A) : Prop :=
  forall x, r = Err x -> x = ParseError \/ x = OtherException.
Lemma digits_error base acc s x : digits_value base acc s = Err x -> x = ValueError.
Proof.
  elim: s acc => [|c s IH] acc //=. case: digit_of => [d|]; last by case.
  case: N.ltb; [exact: IH|by case].
Qed.
Lemma number_error s : only_parse_error (wrap (lift_number s)).
Proof.
  move=> x. rewrite /lift_number. case: has_dot; first by case=> <-; right.
  have H : forall y, int_base0 s = Err y -> y = ValueError.
  { move=> y. case: s => [|c s] /=; first by case.
    case: Ascii.eqb; last exact: (digits_error 10 0 (String c s)).
    case: s => [|d s] //. case: Ascii.eqb.
    - case: String.eqb; [by case|exact: digits_error].
    - case E: (digits_value 10 0 (String d s)) => [v|z] //=; first by case: N.eqb => // [[<-]].
      move=> [<-]. exact: (digits_error _ _ _ _ E). }
  case: (int_base0 s) H => [v|y] //= H. rewrite (H _ eq_refl). case=> <-. by left.
Qed.
Lemma fold_error l v : only_parse_error (lift_numeric_expr v l).
Proof.
  rewrite /lift_numeric_expr. elim: l v => [|[o y] l IH] v x //=.
  case E: (apply_op v o y) => [w|z] /=; first exact: IH.
  move=> [<-]. move: E. case: o => //=; repeat case: ifP => // _; case=> <-; by auto.
Qed.
Lemma wrap_fold_error l v : only_parse_error (wrap (lift_numeric_expr v l)).
Proof.
  move=> x. have := fold_error l v. case: lift_numeric_expr => [w|z] //= H.
  have [-> | ->] := H _ eq_refl; case=> <-; by auto.
Qed.
Lemma errors_are_parse_errors t : only_parse_error (lift t).
Proof.
  apply (node_mut (fun t => only_parse_error (lift t)) (fun r => only_parse_error (lift_tail r)))
    => //=; rewrite /only_parse_error.
  - exact: number_error.
  - move=> e IH x. case: (lift e) IH => [v|z] IH //=. case=> <-; exact: IH.
  - move=> e IH x. case: (lift e) IH => [v|z] IH //=. case=> <-; exact: IH.
  - move=> e IH x. case: (lift e) IH => [v|z] IH //=. case=> <-; exact: IH.
  - move=> n f IHf r IHr x. case: (lift f) IHf => [v|z] IHf //=; last by (case=> <-; exact: IHf).
    case: (lift_tail r) IHr => [l|z] IHr //=; last by (case=> <-; exact: IHr). exact: wrap_fold_error.
  - move=> c IHc a IHa b IHb x. case: (lift c) IHc => [v|z] IHc //=; last by (case=> <-; exact: IHc).
    case: (lift a) IHa => [w|z] IHa //=; last by (case=> <-; exact: IHa).
    case: (lift b) IHb => [u|z] IHb //=. case=> <-; exact: IHb.
  - move=> o e IHe r IHr x. case: (lift e) IHe => [v|z] IHe //=; last by (case=> <-; exact: IHe).
    case: (lift_tail r) IHr => [l|z] IHr //=. case=> <-; exact: IHr.
Qed.

(** * Uses *)
Lemma dataport_size t v : lift_dataport_size t = Ok v <-> lift t = Ok v /\ (0 < v)%Z.
Proof.
  rewrite /lift_dataport_size. case: (lift t) => [w|z] /=; last by split; [|case].
  case: Z.leb_spec => H; split=> //.
  - move=> [[E] P]. subst w. lia.
  - by move=> [<-].
  - by move=> [[->] _].
Qed.
Lemma thread_count t v : lift_thread_count t = Ok v <-> lift t = Ok v /\ (0 <= v)%Z.
Proof.
  rewrite /lift_thread_count. case: (lift t) => [w|z] /=; last by split; [|case].
  case: Z.ltb_spec => H; split=> //.
  - move=> [[E] P]. subst w. lia.
  - by move=> [<-].
  - by move=> [[->] _].
Qed.

Lemma and_refuted : exists e, text_evaluates (body e) (Int 3) /\ c_value e = Int 1.
Proof.
  exists (EBin OLand (ENum "2" 2) (ENum "3" 3)). split=> //. apply: python_value.
  by split; [exact: (lit_decimal 2)|exact: (lit_decimal 3)].
Qed.
Lemma placed k e : well_written e -> k <= 11 ->
  derived k (place k (expr_level e) (natural e)) = true /\
  text_of (place k (expr_level e) (natural e)) = bracket k (expr_level e) (body e).
Proof.
  move=> W Hk. have [D [T _]] := natural_ok e W.
  have [|D' [T' _]] := place_ok k _ _ _ (expr_level_le e) D; first by [].
  by rewrite T' T.
Qed.
Lemma conditional_chain c a e x : well_written c -> well_written a -> well_written e ->
  forall t,
  text_of t = bracket 10 (expr_level c) (body c) ++ TQuest :: bracket 11 (expr_level a) (body a) ++
              TColon :: bracket 10 (expr_level e) (body e) ++ TQuest :: x ->
  derived 11 t = false.
Proof.
  move=> Wc Wa We t E. case D: (derived 11 t) => //. exfalso.
  have [Dc Tc] := placed 10 c Wc (le_S _ _ (le_n _)).
  have [Da Ta] := placed 11 a Wa (le_n _).
  have [De Te] := placed 10 e We (le_S _ _ (le_n _)).
  rewrite -Tc -Ta -Te in E. set C := place 10 _ _ in E Dc. set A := place 11 _ _ in E Da.
  set X := place 10 (expr_level e) _ in E De.
  case: t D E => [s|s|t|t|t|t|t|m f r|t|c2 a2 b2] //; cbn [derived text_of] => D E.
  - bools. lia.
  - have [_ //] : t = C /\ [] = TQuest :: text_of A ++ TColon :: text_of X ++ TQuest :: x.
    apply: (unambiguous t 10) => //; first by rewrite app_nil_r.
  - bools.
    have [_ [E2]] : c2 = C /\ TQuest :: text_of a2 ++ TColon :: text_of b2 = TQuest :: text_of A ++ TColon :: text_of X ++ TQuest :: x
      by apply: (unambiguous c2 10).
    have [_ [E3]] : a2 = A /\ TColon :: text_of b2 = TColon :: text_of X ++ TQuest :: x
      by apply: (unambiguous a2 11).
    have [_ //] : b2 = X /\ [] = TQuest :: x.
    apply: (unambiguous b2 10) => //. by rewrite app_nil_r.
Qed.
