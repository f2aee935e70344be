From Coq Require Import ZArith List Bool PeanoNat Lia ssreflect.
From Verif Require Import Emit_Model Emit_Spec.
Import ListNotations.
Open Scope Z_scope.

Lemma upd_same A (f : nat -> A) k x : upd f k x k = x.
Proof. by rewrite /upd Nat.eqb_refl. Qed.
Lemma upd_other A (f : nat -> A) k x n : n <> k -> upd f k x n = f n.
Proof. move=> N. rewrite /upd. by case: (Nat.eqb_spec n k). Qed.

Lemma times_cons_same e l : times e (e :: l) = S (times e l).
Proof. rewrite /times /=. by case: (ev_dec e e). Qed.
Lemma times_cons_other e e' l : e' <> e -> times e (e' :: l) = times e l.
Proof. move=> N. rewrite /times /=. by case: (ev_dec e' e). Qed.
Lemma times_cons e e' l : times e (e' :: l) = ((match ev_dec e' e with left _ => 1 | right _ => 0 end) + times e l)%nat.
Proof. rewrite /times /=. by case: (ev_dec e' e). Qed.
#[local] Arguments times : simpl never.
Lemma arrivals_reached i k j l : arrivals j (Reached i k :: l) = ((if Nat.eqb k j then 1 else 0) + arrivals j l)%nat.
Proof. rewrite /arrivals /=. by case: (Nat.eqb k j). Qed.
Lemma arrivals_other j e l : (forall i k, e <> Reached i k) -> arrivals j (e :: l) = arrivals j l.
Proof. case: e => [i k H|i k _|k _] //. by case: (H i k). Qed.

#[local] Arguments arrivals : simpl never.
(** What one call has done, by its program point *)
Definition progress (n : nat) (c : epc) (l : list ev) (i : nat) : Prop :=
  match c with
  | NotStarted => emitted l i 0
  | At k => (k <= n)%nat /\ emitted l i k
  | Returned => emitted l i n
  | GaveUp k => (k < n)%nat /\ emitted l i (S k) /\ times (Failed i k) l = 1%nat
  end.
Lemma emitted_other l i k e : (forall j, e <> Reached i j) -> (forall j, e <> Failed i j) -> emitted l i k -> emitted (e :: l) i k.
Proof. move=> N1 N2 E j. rewrite !times_cons_other //. Qed.
Lemma progress_other n c l i e : (forall j, e <> Reached i j) -> (forall j, e <> Failed i j) -> progress n c l i -> progress n c (e :: l) i.
Proof.
  move=> N1 N2. case: c => [|k||k] /=; try exact: emitted_other.
  - move=> [L E]. split=> //. exact: emitted_other.
  - move=> [L [E T]]. split=> //. split; first exact: emitted_other. by rewrite times_cons_other.
Qed.
Lemma emitted_reached l i j : emitted l i j -> emitted (Reached i j :: l) i (S j).
Proof.
  move=> E k. have := E k. rewrite !times_cons.
  case: (ev_dec (Reached i j) (Failed i k)) => // _.
  case: (ev_dec (Reached i j) (Reached i k)) => [[->]|N].
  - rewrite Nat.ltb_irrefl. have -> : Nat.ltb k (S k) = true by apply/Nat.ltb_lt; lia. lia.
  - have NK: k <> j by move=> X; apply: N; rewrite X.
    have -> : Nat.ltb k (S j) = Nat.ltb k j; last by [].
    case: (Nat.ltb_spec k (S j)); case: (Nat.ltb_spec k j) => //; lia.
Qed.
Lemma emitted_failed l i j : emitted l i j -> emitted (Failed i j :: l) i (S j) /\ times (Failed i j) (Failed i j :: l) = 1%nat.
Proof.
  move=> E. split.
  - move=> k. have := E k. rewrite !times_cons.
    case: (ev_dec (Failed i j) (Reached i k)) => // _.
    case: (ev_dec (Failed i j) (Failed i k)) => [[->]|N].
    + rewrite Nat.ltb_irrefl. have -> : Nat.ltb k (S k) = true by apply/Nat.ltb_lt; lia. lia.
    + have NK: k <> j by move=> X; apply: N; rewrite X.
      have -> : Nat.ltb k (S j) = Nat.ltb k j; last by [].
      case: (Nat.ltb_spec k (S j)); case: (Nat.ltb_spec k j) => //; lia.
  - rewrite times_cons_same. have := E j. rewrite Nat.ltb_irrefl. lia.
Qed.

(** * The queue *)
Record qinv (n : nat) (s : qst) : Prop := {
  qi_calls : forall i, progress n (calls s i) (log s) i;
  qi_count : forall j, Z.of_nat (arrivals j (log s)) =
     Z.of_nat (times (Got j) (log s)) + Z.max (value s j) 0 + Z.of_nat (wakes s j);
  qi_value : forall j, -1 <= value s j <= INT_MAX;
  qi_sleep : forall j, if asleep s j then (value s j = -1 /\ wakes s j = O) \/ (0 <= value s j /\ wakes s j = 1%nat)
     else 0 <= value s j /\ wakes s j = O }.
Lemma qinv_init n : qinv n qinit.
Proof. constructor=> //=; rewrite /INT_MAX; lia. Qed.

Lemma qinv_post n s i j a : qinv n s -> calls s i = At j -> (j < n)%nat -> qinv n (post s i j a).
Proof.
  move=> [C K V Sl] E J. rewrite /post. have P := C i. rewrite E in P. case: P => L P.
  case: (Z.eqb_spec (value s j) INT_MAX) => F.
  - constructor=> //= i'. case: (Nat.eq_dec i' i) => [->|NI].
    + rewrite upd_same. case: (emitted_failed _ _ _ P) => P1 P2. by case: a => /=.
    + rewrite upd_other //. apply: progress_other => // k; congruence.
  - constructor=> /=.
    + move=> i'. case: (Nat.eq_dec i' i) => [->|NI].
      * rewrite upd_same /=. split; first lia. exact: emitted_reached.
      * rewrite upd_other //. apply: progress_other => // k; congruence.
    + move=> k. rewrite arrivals_reached times_cons_other //. have := K k. have := Sl k. have := V k.
      case: (Nat.eqb_spec j k) => [<-|NK].
      * rewrite upd_same. case: (Z.ltb_spec (value s j) 0) => LT; [rewrite upd_same|];
          case: (asleep s j); lia.
      * rewrite upd_other; first by move=> X; apply: NK.
        case: (value s j <? 0); [rewrite upd_other; [by move=> X; apply: NK|]|]; lia.
    + move=> k. case: (Nat.eq_dec k j) => [->|NK]; [rewrite upd_same|by rewrite upd_other].
      have := V j. lia.
    + move=> k. have := Sl k. case: (Nat.eq_dec k j) => [->|NK].
      * rewrite upd_same. case: (Z.ltb_spec (value s j) 0) => LT; [rewrite upd_same|]; case: (asleep s j); lia.
      * rewrite upd_other //. case: (value s j <? 0) => //. by rewrite upd_other.
Qed.
Lemma qinv_recv n s j s' : qinv n s -> qrecv s j = Some s' -> qinv n s'.
Proof.
  move=> [C K V Sl]. rewrite /qrecv. have := Sl j. have VJ := V j. have KJ := K j. case A: (asleep s j) => SJ.
  - case W: (wakes s j) => [|w] // [<-]. rewrite W in SJ KJ. constructor=> /=.
    + move=> i. exact: progress_other.
    + move=> k. rewrite arrivals_other // times_cons. case: (ev_dec (Got j) (Got k)) => [[<-]|NK].
      * rewrite upd_same. lia.
      * rewrite upd_other; first by move=> X; apply: NK; rewrite X. exact: K.
    + exact: V.
    + move=> k. case: (Nat.eq_dec k j) => [->|NK]; [rewrite !upd_same|rewrite !upd_other //; exact: Sl]. lia.
  - case: (Z.eqb_spec (value s j) INT_MIN) => F; first by rewrite /INT_MIN in F; lia.
    case: (Z.ltb_spec 0 (value s j)) => LT [<-]; constructor=> /=.
    + move=> i. exact: progress_other.
    + move=> k. rewrite arrivals_other // times_cons. case: (ev_dec (Got j) (Got k)) => [[<-]|NK].
      * rewrite upd_same. lia.
      * rewrite upd_other; first by move=> X; apply: NK; rewrite X. exact: K.
    + move=> k. case: (Nat.eq_dec k j) => [->|NK]; [rewrite upd_same|by rewrite upd_other]. lia.
    + move=> k. case: (Nat.eq_dec k j) => [->|NK]; [rewrite upd_same A|rewrite upd_other //; exact: Sl]. lia.
    + exact: C.
    + move=> k. have := K k. case: (Nat.eq_dec k j) => [->|NK]; [rewrite upd_same|by rewrite upd_other]. lia.
    + move=> k. case: (Nat.eq_dec k j) => [->|NK]; [rewrite upd_same|by rewrite upd_other]. lia.
    + move=> k. case: (Nat.eq_dec k j) => [->|NK]; [rewrite !upd_same|rewrite !upd_other //; exact: Sl]. lia.
Qed.
Lemma qinv_step n s a s' : qinv n s -> qstep n s a = Some s' -> qinv n s'.
Proof.
  move=> I. case: a => [i|i h|j] /=.
  - case E: (calls s i) => // -[<-]. case: I => C K V Sl. constructor=> //= i'.
    case: (Nat.eq_dec i' i) => [->|NI]; [rewrite upd_same|by rewrite upd_other].
    have := C i. rewrite E /= => P. split=> //. lia.
  - case E: (calls s i) => [|j||] //. case: (Nat.ltb_spec j n) => L [<-]; first exact: qinv_post.
    case: I => C K V Sl. constructor=> //= i'.
    case: (Nat.eq_dec i' i) => [->|NI]; [rewrite upd_same|by rewrite upd_other].
    have := C i. rewrite E /= => -[L' P]. by have -> : n = j by lia.
  - case: (Nat.ltb j n) => //. exact: qinv_recv.
Qed.
Lemma qreachable_inv n s : qreachable n s -> qinv n s.
Proof.
  move=> [l]. have := qinv_init n. move: qinit. elim: l => [|a l IH] s0 I /=; first by case=> <-.
  case E: (qstep n s0 a) => [s1|] // /IH. apply. exact: qinv_step E.
Qed.

Lemma queue_emitted n s i : qreachable n s ->
  match calls s i with
  | NotStarted => emitted (log s) i 0
  | At k => emitted (log s) i k
  | Returned => emitted (log s) i n
  | GaveUp k => emitted (log s) i (S k) /\ times (Failed i k) (log s) = 1%nat
  end.
Proof. move=> /qreachable_inv /qi_calls /(_ i). case: (calls s i) => [|k||k] //=; tauto. Qed.
Lemma queue_full n s i h s' j : qreachable n s -> qstep n s (Emit i h) = Some s' ->
  times (Failed i j) (log s') <> times (Failed i j) (log s) -> value s j = INT_MAX.
Proof.
  move=> _ /=. case: (calls s i) => [|k||] //. case: (Nat.ltb k n) => -[<-] //=. rewrite /post.
  case: (Z.eqb_spec (value s k) INT_MAX) => F /=; last by rewrite times_cons_other.
  rewrite times_cons. by case: (ev_dec (Failed i k) (Failed i j)) => [[<-]|].
Qed.
Lemma queue_counts n s j : qreachable n s -> (j < n)%nat ->
  Z.of_nat (arrivals j (log s)) = Z.of_nat (times (Got j) (log s)) + Z.max (value s j) 0 + Z.of_nat (wakes s j).
Proof. move=> /qreachable_inv I _. exact: qi_count I j. Qed.
Lemma queue_receive n s j : qreachable n s -> (j < n)%nat -> (times (Got j) (log s) < arrivals j (log s))%nat ->
  exists s', qstep n s (Recv j) = Some s' /\ log s' = Got j :: log s.
Proof.
  move=> /qreachable_inv I J LT /=. have -> : Nat.ltb j n = true by apply/Nat.ltb_lt.
  have := qi_count _ _ I j. have := qi_sleep _ _ I j. rewrite /qrecv. case: (asleep s j) => SJ CJ.
  - case W: (wakes s j) => [|w]; first by lia. by eexists.
  - case: (Z.eqb_spec (value s j) INT_MIN) => F; first by rewrite /INT_MIN in F; lia.
    case: (Z.ltb_spec 0 (value s j)) => L; first by eexists. lia.
Qed.
Lemma queue_no_more n s j : qreachable n s -> (times (Got j) (log s) <= arrivals j (log s))%nat.
Proof. move=> /qreachable_inv I. have := qi_count _ _ I j. lia. Qed.
Lemma queue_range n s j : qreachable n s -> -1 <= value s j <= INT_MAX.
Proof. move=> /qreachable_inv I. exact: qi_value I j. Qed.

#[local] Arguments upd : simpl never.
(** A full counter *)
Lemma qexec_app n l l' s : qexec n s (l ++ l') = match qexec n s l with Some s' => qexec n s' l' | None => None end.
Proof. elim: l s => [|a l IH] s //=. case: (qstep n s a) => //. Qed.
Lemma qreach_step n s a s' : qreachable n s -> qstep n s a = Some s' -> qreachable n s'.
Proof. move=> [l E] H. exists (l ++ [a]). by rewrite qexec_app E /= H. Qed.
Lemma filling k : Z.of_nat k <= INT_MAX -> exists s, qreachable 2 s /\ value s 0%nat = Z.of_nat k /\ value s 1%nat = 0 /\
  asleep s 1%nat = false /\ (forall i, (k <= i)%nat -> calls s i = NotStarted) /\ (times (Got 1) (log s) = k).
Proof.
  elim: k => [|k IH] B.
  - exists qinit. split; first by exists []. done.
  - case: IH => [|s [R [V0 [V1 [A [C T]]]]]]; first lia.
    have CK := C k (le_n k).
    have R1: qstep 2 s (Start k) = Some (mkq (value s) (wakes s) (asleep s) (upd (calls s) k (At 0)) (log s)) by rewrite /= CK.
    set s1 := mkq _ _ _ _ _ in R1.
    have N0: (value s 0%nat =? INT_MAX) = false by apply/Z.eqb_neq; lia.
    have N0': (value s 0%nat <? 0) = false by apply/Z.ltb_ge; lia.
    have R2: qstep 2 s1 (Emit k Discard) = Some (post s1 k 0 Discard) by rewrite /= upd_same.
    set s2 := post s1 k 0 Discard in R2.
    have E2: s2 = mkq (upd (value s) 0 (value s 0%nat + 1)) (wakes s) (asleep s) (upd (upd (calls s) k (At 0)) k (At 1)) (Reached k 0 :: log s).
    { by rewrite /s2 /post /= N0 N0'. }
    have R3: qstep 2 s2 (Emit k Discard) = Some (post s2 k 1 Discard) by rewrite E2 /= upd_same.
    set s3 := post s2 k 1 Discard in R3.
    have E3: s3 = mkq (upd (upd (value s) 0 (value s 0%nat + 1)) 1 1) (wakes s) (asleep s)
        (upd (upd (upd (calls s) k (At 0)) k (At 1)) k (At 2)) (Reached k 1 :: Reached k 0 :: log s).
    { rewrite /s3 /post E2 /= upd_other // V1. done. }
    have R4: qstep 2 s3 (Emit k Discard) = Some (mkq (value s3) (wakes s3) (asleep s3) (upd (calls s3) k Returned) (log s3)).
    { by rewrite E3 /= upd_same. }
    set s4 := mkq (value s3) _ _ _ _ in R4.
    have R5: qstep 2 s4 (Recv 1) = Some (mkq (upd (value s4) 1 (value s4 1%nat - 1)) (wakes s4) (asleep s4) (calls s4) (Got 1 :: log s4)).
    { rewrite /qstep /= /qrecv /s4 E3 /= A. reflexivity. }
    eexists. split; first exact: (qreach_step _ _ _ _ (qreach_step _ _ _ _ (qreach_step _ _ _ _ (qreach_step _ _ _ _ (qreach_step _ _ _ _ R R1) R2) R3) R4) R5).
    cbn [value wakes asleep calls log]. split.
    { rewrite /s4 E3 /upd /=. lia. }
    split; first by rewrite /s4 E3 /upd /=.
    split; first by rewrite /s4 E3 /=.
    split.
    + move=> i L. rewrite /s4 E3 /= !upd_other; try lia. apply: C. lia.
    + by rewrite times_cons_same /s4 E3 /= !times_cons_other // T.
Qed.
Lemma queue_blocked : exists s i s', qreachable 2 s /\ calls s i = At 0 /\ value s 1%nat = 0 /\
  qstep 2 s (Emit i Discard) = Some s' /\ calls s' i = GaveUp 0 /\
  forall l s'', qexec 2 s' l = Some s'' -> times (Reached i 1) (log s'') = O.
Proof.
  have [i HK]: exists i, Z.of_nat i = INT_MAX by exists (Z.to_nat INT_MAX); rewrite Z2Nat.id.
  case: (filling i) => [|s [R [V0 [V1 [A [C T]]]]]]; first by rewrite HK.
  rewrite HK in V0.
  have CI := C i (le_n i).
  have R1: qstep 2 s (Start i) = Some (mkq (value s) (wakes s) (asleep s) (upd (calls s) i (At 0)) (log s)) by rewrite /= CI.
  set s1 := mkq _ _ _ _ _ in R1.
  have RS1 := qreach_step _ _ _ _ R R1.
  have R2: qstep 2 s1 (Emit i Discard) = Some (post s1 i 0 Discard) by rewrite /qstep /= upd_same.
  exists s1, i, (post s1 i 0 Discard). split=> //. split; first by rewrite /= upd_same. split=> //. split=> //.
  have E: calls (post s1 i 0 Discard) i = GaveUp 0 by rewrite /post /= V0 Z.eqb_refl /= upd_same.
  split=> // l. have := qreach_step _ _ _ _ RS1 R2. move: (post s1 i 0 Discard) E.
  have X: forall l s0, calls s0 i = GaveUp 0 -> qreachable 2 s0 -> forall s'', qexec 2 s0 l = Some s'' -> times (Reached i 1) (log s'') = O.
  { elim=> [|a l' IH] s0 E RS s'' /=.
    - case=> <-. have := queue_emitted _ _ i RS. rewrite E => -[H _]. have := H 1%nat. cbn. lia.
    - case H: (qstep 2 s0 a) => [s3|] //. apply: IH; last exact: qreach_step H.
      move: H. case: a => [i'|i' h|j] /=.
      + case Q: (calls s0 i') => // -[<-] /=. rewrite upd_other //. congruence.
      + case Q: (calls s0 i') => [|k||] //.
        have NI: i <> i' by congruence.
        case: (Nat.ltb k 2) => -[<-] /=; rewrite ?upd_other //. rewrite /post. by case: (value s0 k =? INT_MAX) => /=; rewrite upd_other.
      + case: (Nat.ltb j 2) => //. rewrite /qrecv. case: (asleep s0 j).
        * by case: (wakes s0 j) => [|w] // [<-].
        * case: (value s0 j =? INT_MIN); first by case=> <-. by case: (0 <? value s0 j) => -[<-]. }
  move=> s0 E RS s''. exact: X.
Qed.

(** * Notifications *)
Definition nprogress (n : nat) (c : epc) (l : list ev) (i : nat) : Prop :=
  match c with GaveUp _ => False | c => progress n c l i end.
#[local] Arguments nprogress : simpl never.
Record ninv (n : nat) (s : nst) : Prop := {
  ni_calls : forall i, nprogress n (ncalls s i) (nlog s) i;
  ni_failed : forall i j, ~ In (Failed i j) (nlog s);
  ni_news : forall j, flag s j = true <-> news (nlog s) j;
  ni_count : forall j, (times (Got j) (nlog s) + (if flag s j then 1 else 0) <= arrivals j (nlog s))%nat }.
Lemma news_cons l j e : news (e :: l) j <-> (exists i, e = Reached i j) \/ (e <> Got j /\ news l j).
Proof.
  split.
  - move=> [[|e' new] [i [old [E N]]]] /=; simpl in E; case: E => -> E2; first by left; exists i.
    right. split; first by move=> X; apply: N; left. exists new, i, old. split=> // X. apply: N. by right.
  - case=> [[i ->]|[N [new [i [old [-> NI]]]]]]; first by exists [], i, l; split=> [|[]].
    exists (e :: new), i, old. split=> //. by case.
Qed.
Lemma nprogress_other n c l i e : (forall j, e <> Reached i j) -> (forall j, e <> Failed i j) ->
  nprogress n c l i -> nprogress n c (e :: l) i.
Proof. move=> N1 N2. have := progress_other n c l i e N1 N2. by case: c. Qed.
Lemma ninv_init n : ninv n ninit.
Proof.
  constructor=> //=.
  - move=> i j [].
  - move=> j. split=> //. move=> [new [i [old [E _]]]]. by case: new E.
Qed.
Lemma ninv_step n s a s' : ninv n s -> nstep n s a = Some s' -> ninv n s'.
Proof.
  move=> [C FA NW CT]. case: a => [i|i h|j] /=.
  - case E: (ncalls s i) => // -[<-]. constructor=> //= i'.
    case: (Nat.eq_dec i' i) => [->|NI]; [rewrite upd_same|rewrite upd_other //; exact: C].
    have := C i. rewrite E /= => P. split=> //. lia.
  - case E: (ncalls s i) => [|j||] //. have P := C i. rewrite E in P. case: P => L' P.
    case: (Nat.ltb_spec j n) => L [<-]; constructor=> //=.
    + move=> i'. case: (Nat.eq_dec i' i) => [->|NI].
      * rewrite upd_same /=. split; first lia. exact: emitted_reached.
      * rewrite upd_other //. apply: nprogress_other (C i') => // k; congruence.
    + move=> i' j' [|]; [done|exact: FA].
    + move=> k. rewrite news_cons. case: (Nat.eq_dec k j) => [->|NK].
      * rewrite upd_same. split=> // _. left. by exists i.
      * rewrite upd_other // NW. split; first by right. case=> [[i' [_ X]]|[_ X]] //. by case: NK.
    + move=> k. rewrite times_cons_other // arrivals_reached. have := CT k.
      case: (Nat.eqb_spec j k) => [<-|NK]; [rewrite upd_same|rewrite upd_other; [by move=> X; apply: NK|]].
      * case: (flag s j); lia.
      * lia.
    + move=> i'. case: (Nat.eq_dec i' i) => [->|NI]; [rewrite upd_same|rewrite upd_other //; exact: C].
      by have -> : n = j by lia.
  - case: (Nat.ltb j n) => //=. case FJ: (flag s j) => // -[<-]. constructor=> //=.
    + move=> i' j' [|]; [done|exact: FA].
    + move=> k. rewrite news_cons. case: (Nat.eq_dec k j) => [->|NK].
      * rewrite upd_same. split=> //. by case=> [[i' X]|[X _]].
      * rewrite upd_other // NW. split.
        -- move=> X. right. split=> //. congruence.
        -- by case=> [[i' X]|[_ X]].
    + move=> k. rewrite arrivals_other // times_cons. have := CT k. case: (ev_dec (Got j) (Got k)) => [[<-]|NK].
      * rewrite upd_same FJ. lia.
      * rewrite upd_other; first by move=> X; apply: NK; rewrite X. lia.
Qed.
Lemma nreachable_inv n s : nreachable n s -> ninv n s.
Proof.
  move=> [l]. have := ninv_init n. move: ninit. elim: l => [|a l IH] s0 I /=; first by case=> <-.
  case E: (nstep n s0 a) => [s1|] // /IH. apply. exact: ninv_step E.
Qed.
Lemma times_0 e l : ~ In e l -> times e l = O.
Proof. move=> H. rewrite /times. exact/count_occ_not_In. Qed.
Lemma notification_emitted n s i : nreachable n s ->
  match ncalls s i with
  | NotStarted => forall j, times (Reached i j) (nlog s) = O
  | At k => forall j, times (Reached i j) (nlog s) = if Nat.ltb j k then 1%nat else 0%nat
  | Returned => forall j, times (Reached i j) (nlog s) = if Nat.ltb j n then 1%nat else 0%nat
  | GaveUp _ => False
  end.
Proof.
  move=> /nreachable_inv I. have := ni_calls _ _ I i. have F := ni_failed _ _ I i.
  case: (ncalls s i) => [|k||k] //=; [move=> H j|move=> [_ H] j|move=> H j];
    have := H j; rewrite (times_0 _ _ (F j)); cbn; lia.
Qed.
Lemma notification_pending n s j : nreachable n s -> (j < n)%nat ->
  (news (nlog s) j <-> exists s', nstep n s (Recv j) = Some s' /\ nlog s' = Got j :: nlog s).
Proof.
  move=> /nreachable_inv I J. rewrite -(ni_news _ _ I) /=. have -> : Nat.ltb j n = true by apply/Nat.ltb_lt.
  rewrite /=. case: (flag s j); split=> //; by [move=> _; eexists|case=> s' []].
Qed.
Lemma notification_no_more n s j : nreachable n s -> (times (Got j) (nlog s) <= arrivals j (nlog s))%nat.
Proof. move=> /nreachable_inv I. have := ni_count _ _ I j. lia. Qed.
