(** Memory locking and select: proofs. *)
From Coq Require Import List Bool ZArith Lia.
From Verif Require Import Posix_Model Posix_Spec.
Import ListNotations.
Open Scope Z_scope.

Lemma inside_spec x v : inside x v = true <-> v_start v <= x < v_end v.
Proof. unfold inside. rewrite andb_true_iff, Z.leb_le, Z.ltb_lt. reflexivity. Qed.
Definition closed (v : vma) : bool := negb (v_read v) && negb (v_write v) && negb (v_execute v).
Lemma closed_spec v : closed v = true <-> ~ accessible v.
Proof.
  unfold closed, accessible. destruct (v_read v), (v_write v), (v_execute v); cbn; split; (congruence || tauto || intuition congruence).
Qed.

Lemma loop_sound vmas : forall fuel addr len, covered_loop fuel vmas addr len = Some true ->
  forall x, addr <= x <= addr + len -> mapped vmas x.
Proof.
  induction fuel as [|fuel IH]; intros addr len; cbn [covered_loop]; [discriminate|].
  destruct (find (inside addr) vmas) as [v|] eqn:F; [|discriminate].
  apply find_some in F as (F1 & F2). apply inside_spec in F2.
  fold (closed v). destruct (closed v) eqn:C; [discriminate|].
  assert (A : accessible v).
  { unfold closed in C. unfold accessible. destruct (v_read v), (v_write v), (v_execute v); cbn in C; tauto || discriminate. }
  destruct (Z.ltb_spec len (v_end v - addr)) as [L|L].
  - intros _ x Hx. exists v. repeat split; [assumption|lia|lia|assumption].
  - intros H x Hx. destruct (Z.lt_ge_cases x (v_end v)) as [Lt|Ge].
    + exists v. repeat split; [assumption|lia|lia|assumption].
    + apply (IH _ _ H). lia.
Qed.
Definition ahead (addr : Z) (vmas : list vma) : nat := length (filter (fun v => addr <? v_end v) vmas).
Lemma ahead_less vmas v addr : In v vmas -> addr < v_end v -> (ahead (v_end v) vmas < ahead addr vmas)%nat.
Proof.
  intros I L. unfold ahead.
  assert (Le : forall l : list vma, le (length (filter (fun u => v_end v <? v_end u) l)) (length (filter (fun u => addr <? v_end u) l))).
  { induction l as [|u l IH]; cbn [filter]; [lia|].
    destruct (Z.ltb_spec (v_end v) (v_end u)), (Z.ltb_spec addr (v_end u)); cbn [length]; lia. }
  induction vmas as [|u l IH]; [easy|]. cbn [filter]. specialize (Le l). destruct I as [->|I].
  - destruct (Z.ltb_spec (v_end v) (v_end v)), (Z.ltb_spec addr (v_end v)); cbn [length]; lia.
  - specialize (IH I). destruct (Z.ltb_spec (v_end v) (v_end u)), (Z.ltb_spec addr (v_end u)); cbn [length]; lia.
Qed.
Lemma loop_ends vmas : forall fuel addr len, (ahead addr vmas < fuel)%nat -> covered_loop fuel vmas addr len <> None.
Proof.
  induction fuel as [|fuel IH]; intros addr len H; [lia|]. cbn [covered_loop].
  destruct (find (inside addr) vmas) as [v|] eqn:F; [|discriminate].
  apply find_some in F as (F1 & F2). apply inside_spec in F2.
  destruct (_ && _); [discriminate|]. destruct (_ <? _); [discriminate|].
  apply IH. pose proof (ahead_less vmas v addr F1). lia.
Qed.
Lemma filter_le {A} (f : A -> bool) l : (length (filter f l) <= length l)%nat.
Proof. induction l as [|x l IH]; cbn [filter]; [lia|]. destruct (f x); cbn [length]; lia. Qed.
Lemma covered_ends w vmas addr len : covered w vmas addr len <> None.
Proof.
  unfold covered. destruct (_ <? _); [discriminate|]. apply loop_ends.
  pose proof (filter_le (fun v => addr <? v_end v) vmas). unfold ahead. lia.
Qed.
Lemma loop_complete vmas : forall fuel addr len, 0 <= len ->
  (forall x, addr <= x <= addr + len -> mapped vmas x /\ ~ unmapped vmas x) ->
  covered_loop fuel vmas addr len <> Some false.
Proof.
  induction fuel as [|fuel IH]; intros addr len L H; cbn [covered_loop]; [discriminate|].
  destruct (H addr) as ((v & V1 & V2 & _) & N); [lia|].
  destruct (find (inside addr) vmas) as [u|] eqn:F.
  - apply find_some in F as (F1 & F2). apply inside_spec in F2. fold (closed u). destruct (closed u) eqn:C.
    + apply closed_spec in C. exfalso. apply N. now exists u.
    + destruct (Z.ltb_spec len (v_end u - addr)); [discriminate|]. apply IH; [lia|]. intros x Hx. apply H. lia.
  - exfalso. pose proof (find_none _ _ F _ V1) as X. apply inside_spec in V2. congruence.
Qed.
Lemma covered_sound w vmas addr len : covered w vmas addr len = Some true -> whole vmas addr len.
Proof.
  unfold covered. destruct (_ <? _); [discriminate|]. intros H x Hx. apply (loop_sound _ _ _ _ H). lia.
Qed.
Lemma covered_complete w vmas addr len : 0 <= len -> addr + len < 2 ^ w ->
  (forall x, addr <= x <= addr + len -> mapped vmas x /\ ~ unmapped vmas x) -> covered w vmas addr len = Some true.
Proof.
  intros L W H. pose proof (covered_ends w vmas addr len) as E. unfold covered in *.
  destruct (Z.ltb_spec (2 ^ w - 1 - len) addr); [lia|].
  pose proof (loop_complete vmas (S (length vmas)) addr len L H) as C.
  destruct (covered_loop _ _ _ _) as [[|]|]; congruence.
Qed.

Lemma mlock_sound w page vmas addr len : mlock w page vmas addr len = Zero ->
  addr mod page = 0 /\ whole vmas addr len.
Proof.
  unfold mlock, if_covered. destruct (_ <? _); [discriminate|]. destruct (page =? 0); [discriminate|].
  destruct (Z.eqb_spec (addr mod page) 0); cbn [negb]; [|discriminate].
  destruct (covered w vmas addr len) as [[|]|] eqn:C; try discriminate. intros _. split; [assumption|]. now apply (covered_sound w).
Qed.
Lemma madvise_sound w page vmas addr len a : madvise w page vmas addr len a = Zero ->
  addr mod page = 0 /\ len <> 0 /\ a <> OtherAdvice /\ whole vmas addr len.
Proof.
  unfold madvise, if_covered. destruct (page =? 0); [discriminate|].
  destruct (Z.eqb_spec (addr mod page) 0); cbn [negb]; [|discriminate].
  destruct (Z.eqb_spec len 0); [discriminate|].
  destruct a; try discriminate; (destruct (covered w vmas addr len) as [[|]|] eqn:C; try discriminate);
    intros _; (repeat split; [assumption|assumption|discriminate|]); now apply (covered_sound w).
Qed.
Lemma mincore_sound w page vmas addr len vec bytes : 0 < page -> 0 <= len -> mincore w page vmas addr len vec = (Zero, bytes) ->
  addr mod page = 0 /\ whole vmas addr len /\
  exists n, bytes = repeat 1 n /\ Z.of_nat n * page - page < len <= Z.of_nat n * page.
Proof.
  intros P L. unfold mincore. destruct (page =? 0); [discriminate|].
  destruct (Z.eqb_spec (addr mod page) 0); cbn [negb]; [|discriminate].
  destruct (_ <? _); [discriminate|]. destruct (_ || _); [discriminate|].
  destruct (covered w vmas addr len) as [[|]|] eqn:C; try discriminate. intros [= <-].
  split; [assumption|]. split; [now apply (covered_sound w)|]. eexists. split; [reflexivity|].
  pose proof (Z.div_mod len page). pose proof (Z.mod_pos_bound len page P). pose proof (Z.div_pos len page L P).
  destruct (Z.eqb_spec (len mod page) 0); cbn [negb]; rewrite Z2Nat.id by lia; nia.
Qed.

Lemma mlock_complete w page vmas addr len : 0 < page -> 0 <= addr -> 0 <= len -> addr + len < 2 ^ w -> addr mod page = 0 ->
  (forall x, addr <= x <= addr + len -> mapped vmas x /\ ~ unmapped vmas x) ->
  mlock w page vmas addr len = Zero.
Proof.
  intros P A L W M H. unfold mlock. rewrite Z.mod_small by lia. destruct (Z.ltb_spec (addr + len) addr); [lia|].
  destruct (Z.eqb_spec page 0); [lia|]. rewrite M. cbn [Z.eqb negb]. now rewrite covered_complete.
Qed.
Lemma madvise_complete w page vmas addr len a : 0 < page -> 0 < len -> addr + len < 2 ^ w -> addr mod page = 0 ->
  a <> OtherAdvice -> (forall x, addr <= x <= addr + len -> mapped vmas x /\ ~ unmapped vmas x) ->
  madvise w page vmas addr len a = Zero.
Proof.
  intros P L W M N H. unfold madvise. destruct (Z.eqb_spec page 0); [lia|]. rewrite M. cbn [Z.eqb negb].
  destruct (Z.eqb_spec len 0); [lia|]. rewrite covered_complete by (assumption || lia). now destruct a.
Qed.
Lemma mincore_complete w page vmas addr len vec : 0 < page -> 0 <= len -> addr + len < 2 ^ w -> addr mod page = 0 ->
  0 < vec -> vec + len < 2 ^ w -> (forall x, addr <= x <= addr + len -> mapped vmas x /\ ~ unmapped vmas x) ->
  fst (mincore w page vmas addr len vec) = Zero.
Proof.
  intros P L W M V VL H. unfold mincore. destruct (Z.eqb_spec page 0); [lia|]. rewrite M. cbn [Z.eqb negb].
  destruct (Z.ltb_spec (2 ^ w - 1 - len) addr); [lia|].
  set (pages := if negb (len mod page =? 0) then _ else _).
  assert (B : 0 <= pages <= len).
  { unfold pages. pose proof (Z.div_mod len page). pose proof (Z.mod_pos_bound len page P). pose proof (Z.div_pos len page L P).
    destruct (Z.eqb_spec (len mod page) 0); cbn [negb]; nia. }
  rewrite Z.mod_small by lia. destruct (Z.eqb_spec vec 0); [lia|]. cbn [orb].
  destruct (Z.ltb_spec (vec + pages) vec); [lia|]. rewrite covered_complete by (assumption || lia). reflexivity.
Qed.

Lemma mlock_einval w page vmas addr len : 0 < page -> 0 <= addr < 2 ^ w -> 0 <= len < 2 ^ w ->
  mlock w page vmas addr len = EINVAL <-> 2 ^ w <= addr + len \/ addr mod page <> 0.
Proof.
  intros P A L. unfold mlock. pose proof (covered_ends w vmas addr len) as E.
  assert (X : ((addr + len) mod 2 ^ w <? addr) = (2 ^ w <=? addr + len)).
  { destruct (Z.leb_spec (2 ^ w) (addr + len)).
    - apply Z.ltb_lt. rewrite <- (Z.mod_unique (addr + len) (2 ^ w) 1 (addr + len - 2 ^ w)); lia.
    - apply Z.ltb_ge. rewrite Z.mod_small; lia. }
  rewrite X. destruct (Z.leb_spec (2 ^ w) (addr + len)); [split; auto|].
  destruct (Z.eqb_spec page 0); [lia|]. destruct (Z.eqb_spec (addr mod page) 0); cbn [negb].
  - unfold if_covered. destruct (covered w vmas addr len) as [[|]|]; split; try discriminate; try congruence; lia.
  - split; auto.
Qed.

(** ** select *)
Open Scope nat_scope.
Lemma to_sock_spec first t : (forall i k, first <= i -> t i = Some k -> k < first) -> forall n i s, first <= i ->
  (forall k, k < first -> (to_sock t n i s k = true <-> s k = true \/ exists j, i <= j < i + n /\ t j = Some k /\ s j = true)) /\
  (forall j, first <= j -> to_sock t n i s j = if (i <=? j) && (j <? i + n) && match t j with Some _ => true | None => false end then false else s j).
Proof.
  intros Low. induction n as [|n IH]; intros i s Hi; cbn [to_sock].
  - split.
    + intros k _. split; [now left|]. intros [H|(j & H & _)]; [exact H|lia].
    + intros j _. destruct (Nat.leb_spec i j); cbn [andb]; [|reflexivity]. destruct (Nat.ltb_spec j (i + 0)); [lia|reflexivity].
  - set (s1 := match t i with Some k => if s i then fd_set k (fd_clr i s) else s | None => s end).
    destruct (IH (S i) s1) as (I1 & I2); [lia|].
    assert (Hi1 : forall j, first <= j -> j <> i -> s1 j = s j).
    { intros j Hj N. unfold s1. destruct (t i) as [k|] eqn:T; [|reflexivity]. destruct (s i); [|reflexivity].
      unfold fd_set, fd_clr. pose proof (Low i k Hi T). destruct (Nat.eqb_spec j k); [lia|]. destruct (Nat.eqb_spec j i); [contradiction|reflexivity]. }
    assert (Hi2 : s1 i = match t i with Some _ => false | None => s i end).
    { unfold s1. destruct (t i) as [k|] eqn:T; [|reflexivity]. destruct (s i) eqn:E; [|exact E].
      unfold fd_set, fd_clr. pose proof (Low i k Hi T). destruct (Nat.eqb_spec i k); [lia|]. now rewrite Nat.eqb_refl. }
    assert (Lo : forall k, k < first -> (s1 k = true <-> s k = true \/ (t i = Some k /\ s i = true))).
    { intros k Hk. unfold s1. destruct (t i) as [k'|] eqn:T.
      - destruct (s i) eqn:E.
        + unfold fd_set, fd_clr. destruct (Nat.eqb_spec k k') as [->|N]; [tauto|].
          destruct (Nat.eqb_spec k i); [lia|]. split; [now left|]. intros [H|([= H] & _)]; congruence.
        + split; [now left|]. intros [H|(_ & H)]; [exact H|discriminate].
      - split; [now left|]. intros [H|(H & _)]; [exact H|discriminate]. }
    split.
    + intros k Hk. rewrite I1 by assumption. rewrite Lo by assumption. split.
      * intros [[H|(H1 & H2)]|(j & J1 & J2 & J3)].
        -- now left.
        -- right. exists i. repeat split; [lia|lia|assumption|assumption].
        -- right. exists j. rewrite Hi1 in J3 by lia. repeat split; [lia|lia|assumption|assumption].
      * intros [H|(j & J1 & J2 & J3)]; [now left; left|].
        destruct (Nat.eq_dec j i) as [->|N]; [left; right; now split|].
        right. exists j. rewrite Hi1 by lia. repeat split; [lia|lia|assumption|assumption].
    + intros j Hj. rewrite I2 by assumption. destruct (Nat.eq_dec j i) as [->|N].
      * rewrite Hi2. destruct (Nat.leb_spec (S i) i); [lia|]. cbn [andb].
        rewrite Nat.leb_refl. destruct (Nat.ltb_spec i (i + S n)); [|lia]. cbn [andb]. destruct (t i); reflexivity.
      * rewrite (Hi1 j Hj N). destruct (Nat.leb_spec (S i) j), (Nat.leb_spec i j); try lia; cbn [andb]; try reflexivity.
        destruct (Nat.ltb_spec j (S i + n)), (Nat.ltb_spec j (i + S n)); try lia; reflexivity.
Qed.

Lemma from_sock_out t : forall n i s j, (j < i \/ i + n <= j) -> (forall i' , i <= i' < i + n -> t i' <> Some j) ->
  from_sock t n i s j = s j.
Proof.
  induction n as [|n IH]; intros i s j Hj N; cbn [from_sock]; [reflexivity|].
  rewrite IH; [|lia|intros i' Hi'; apply N; lia].
  destruct (t i) as [k|] eqn:T; [|reflexivity]. destruct (s k); [|reflexivity].
  unfold fd_set, fd_clr. destruct (Nat.eqb_spec j i); [lia|]. destruct (Nat.eqb_spec j k) as [->|]; [|reflexivity].
  exfalso. apply (N i); [lia|exact T].
Qed.
Lemma from_sock_spec first t : forall n i s, first <= i ->
  (forall j k, i <= j < i + n -> t j = Some k -> k < first) ->
  (forall j j' k, i <= j < i + n -> i <= j' < i + n -> t j = Some k -> t j' = Some k -> j = j') ->
  forall j k, i <= j < i + n -> t j = Some k -> from_sock t n i s j = s k || s j.
Proof.
  induction n as [|n IH]; intros i s Hi Low Inj j k Hj T; [lia|]. cbn [from_sock].
  set (s1 := match t i with Some k => if s k then fd_set i (fd_clr k s) else s | None => s end).
  destruct (Nat.eq_dec j i) as [->|N].
  - rewrite from_sock_out.
    + unfold s1. rewrite T. destruct (s k) eqn:E; [|reflexivity]. unfold fd_set. now rewrite Nat.eqb_refl.
    + lia.
    + intros i' Hi' T'. apply Low in T'; lia.
  - rewrite (IH (S i) s1) with (k := k); [|lia| | |lia|exact T].
    + assert (Ek : s1 k = s k).
      { unfold s1. destruct (t i) as [k'|] eqn:T'; [|reflexivity]. destruct (s k'); [|reflexivity].
        unfold fd_set, fd_clr. assert (k < first) by (apply (Low j); assumption).
        destruct (Nat.eqb_spec k i); [lia|]. destruct (Nat.eqb_spec k k') as [->|]; [|reflexivity].
        exfalso. apply N. apply (Inj j i k'); [lia|lia|assumption|assumption]. }
      assert (Ej : s1 j = s j).
      { unfold s1. destruct (t i) as [k'|] eqn:T'; [|reflexivity]. destruct (s k'); [|reflexivity].
        unfold fd_set, fd_clr. assert (k' < first) by (apply (Low i); [lia|assumption]).
        destruct (Nat.eqb_spec j i); [lia|]. destruct (Nat.eqb_spec j k'); [lia|reflexivity]. }
      now rewrite Ek, Ej.
    + intros j' k' Hj'. apply Low. lia.
    + intros a b c Ha Hb. apply Inj; lia.
Qed.

(** Outside the range of descriptors the table does not matter. *)
Definition restrict (first nfds : nat) (t : table) : table :=
  fun i => if (first <=? i) && (i <? nfds) then t i else None.
Lemma restrict_spec first nfds t i k : restrict first nfds t i = Some k <-> socket first nfds t i k.
Proof.
  unfold restrict, socket. destruct (Nat.leb_spec first i); cbn [andb]; [|split; [discriminate|lia]].
  destruct (Nat.ltb_spec i nfds); [|split; [discriminate|lia]]. split; [intros ->; split; [lia|reflexivity]|now intros (_ & ->)].
Qed.
Lemma to_sock_restrict first nfds t : forall n i s, first <= i -> i + n <= nfds ->
  to_sock (restrict first nfds t) n i s = to_sock t n i s.
Proof.
  induction n as [|n IH]; intros i s Hi Hn; cbn [to_sock]; [reflexivity|]. rewrite IH by lia.
  replace (restrict first nfds t i) with (t i); [reflexivity|]. unfold restrict.
  destruct (Nat.leb_spec first i); [|lia]. destruct (Nat.ltb_spec i nfds); [|lia]. reflexivity.
Qed.
Lemma into_spec first nfds t s : separate first nfds t -> (forall k, k < first -> s k = false) ->
  stands_for first nfds t s (fdset_to_sockset first t nfds s) /\
  forall i k, socket first nfds t i k -> fdset_to_sockset first t nfds s i = false.
Proof.
  intros (Inj & Low) U. unfold fdset_to_sockset.
  destruct (Nat.le_gt_cases nfds first) as [G|G].
  { replace (nfds - first) with 0 by lia. cbn [to_sock]. split.
    - intros k Hk. rewrite (U k Hk). split; [discriminate|]. intros (i & ((X & _) & _)). unfold socket in *. lia.
    - intros i k (X & _). lia. }
  rewrite <- (to_sock_restrict first nfds t) by lia.
  destruct (to_sock_spec first (restrict first nfds t)) with (n := nfds - first) (i := first) (s := s) as (S1 & S2).
  - intros i k Hi T. apply restrict_spec in T. now apply (Low i).
  - lia.
  - split.
    + intros k Hk. rewrite S1 by assumption. rewrite (U k Hk). split.
      * intros [H|(j & J1 & J2 & J3)]; [discriminate|]. exists j. split; [now apply restrict_spec|assumption].
      * intros (i & I1 & I2). right. exists i. split; [|split; [now apply restrict_spec|assumption]]. destruct I1; lia.
    + intros i k K. pose proof K as K0. destruct K as (R & T). rewrite S2 by lia. apply restrict_spec in K0. rewrite K0.
      destruct (Nat.leb_spec first i); [|lia]. destruct (Nat.ltb_spec i (first + (nfds - first))); [reflexivity|lia].
Qed.
Lemma out_spec first nfds t s i k : separate first nfds t -> socket first nfds t i k ->
  sockset_to_fdset first t nfds s i = s k || s i.
Proof.
  intros (Inj & Low) K. pose proof K as (R & T). unfold sockset_to_fdset.
  apply (from_sock_spec first t); [lia| | |lia|exact T].
  - intros j k' Hj Tj. apply (Low j). split; [lia|exact Tj].
  - intros j j' k' Hj Hj' Tj Tj'. apply (Inj j j' k'); (split; [lia|assumption]).
Qed.
Lemma max_sock_spec t : forall n i max, max <= max_sock t n i max /\
  (forall j k, i <= j < i + n -> t j = Some k -> k <= max_sock t n i max) /\
  (max_sock t n i max = max \/ exists j, i <= j < i + n /\ t j = Some (max_sock t n i max)).
Proof.
  induction n as [|n IH]; intros i max; cbn [max_sock].
  - split; [lia|]. split; [intros; lia|now left].
  - set (m := match t i with Some k => if max <? k then k else max | None => max end).
    destruct (IH (S i) m) as (I1 & I2 & I3).
    assert (Hm : max <= m /\ (forall k, t i = Some k -> k <= m) /\ (m = max \/ t i = Some m)).
    { unfold m. destruct (t i) as [k|]; [|split; [lia|split; [discriminate|now left]]].
      destruct (Nat.ltb_spec max k); (split; [lia|split; [intros k' [= <-]; lia|]]); [now right|now left]. }
    destruct Hm as (M1 & M2 & M3). split; [lia|]. split.
    + intros j k Hj T. destruct (Nat.eq_dec j i) as [->|N]; [apply M2 in T; lia|]. apply (I2 j); [lia|exact T].
    + destruct I3 as [I3|(j & J1 & J2)]; [|right; exists j; split; [lia|exact J2]].
      destruct M3 as [M3|M3]; [left; lia|]. right. exists i. split; [lia|]. congruence.
Qed.

Lemma select_spec first t server nfds r w e b : separate first nfds t -> modest server ->
  user_only first r -> user_only first w -> user_only first e ->
  forall ret r' w' e' b', newselect first t server nfds r w e b = (ret, (r', w', e'), b') ->
  exists n seen, server n seen = (ret, b') /\ (forall i k, socket first nfds t i k -> k < n) /\
    served first nfds t r r' (b_read seen) (b_read b') /\
    served first nfds t w w' (b_write seen) (b_write b') /\
    served first nfds t e e' (b_except seen) (b_except b').
Proof.
  intros Sep Mod Ur Uw Ue ret r' w' e' b'. unfold newselect.
  set (into := option_map (fdset_to_sockset first t nfds)). set (out := option_map (sockset_to_fdset first t nfds)).
  set (seen := mk_shared (put (into r) (b_read b)) (put (into w) (b_write b)) (put (into e) (b_except b))).
  set (n := find_max_sockfd first t nfds + 1). pose proof (Mod n seen) as M.
  destruct (server n seen) as [ret0 b0] eqn:Sv. cbn [snd] in M. intros [= <- <- <- <- <-].
  exists n, seen. split; [exact Sv|].
  assert (Mx : forall i k, socket first nfds t i k -> k < n).
  { intros i k (R & T). unfold n, find_max_sockfd. destruct (max_sock_spec t (nfds - first) first 0) as (_ & X & _).
    assert (k <= max_sock t (nfds - first) first 0) by (apply (X i); [lia|exact T]). lia. }
  split; [exact Mx|].
  assert (Hn : forall i k, socket first nfds t i k -> n <= i).
  { intros i k K. unfold n, find_max_sockfd. destruct (max_sock_spec t (nfds - first) first 0) as (_ & _ & [X|(j & J1 & J2)]).
    - rewrite X. destruct Sep as (_ & Low). specialize (Low i k K). destruct K. lia.
    - destruct Sep as (_ & Low). assert (socket first nfds t j (max_sock t (nfds - first) first 0)) by (split; [lia|exact J2]).
      specialize (Low _ _ H). destruct K. lia. }
  assert (G : forall o old reply, user_only first o ->
     (forall j, n <= j -> reply j = true -> put (into o) old j = true) ->
     served first nfds t o (out (get (into o) reply)) (put (into o) old) reply).
  { intros [s|] old reply U Mo; [|reflexivity]. cbn [into option_map put get out served] in *.
    destruct (into_spec first nfds t s Sep (fun k => U s k eq_refl)) as (I1 & I2). split; [exact I1|].
    eexists. split; [reflexivity|]. intros i k K. rewrite (out_spec first nfds t _ i k Sep K).
    destruct (reply i) eqn:E.
    - apply Mo in E; [|now apply (Hn i k)]. rewrite (I2 i k K) in E. discriminate.
    - now rewrite orb_false_r. }
  split; [|split]; apply G; try assumption; intros j Hj; apply (M j Hj).
Qed.
