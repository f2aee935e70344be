(** Virtqueues: proofs. *)
From Coq Require Import List Bool Arith NArith Permutation Lia.
From Verif Require Import Vq_Model Vq_Spec.
Import ListNotations.

(** Memory *)
Lemma read_length m o l : length (read m o l) = l.
Proof. unfold read. now rewrite map_length, seq_length. Qed.
Lemma read_ext m m' o l : (forall a, o <= a < o + l -> m a = m' a) -> read m o l = read m' o l.
Proof. intros H. apply map_ext_in. intros a Ha. apply in_seq in Ha. now apply H. Qed.
Lemma write_out m o d a : ~ (o <= a < o + length d) -> write m o d a = m a.
Proof.
  intros H. unfold write. destruct (Nat.leb_spec o a); cbn [andb]; [|reflexivity].
  destruct (Nat.ltb_spec a (o + length d)); [lia|reflexivity].
Qed.
Lemma write_in m o d i : i < length d -> write m o d (o + i) = nth i d 0%N.
Proof.
  intros H. unfold write. replace (o <=? o + i) with true by (symmetry; apply Nat.leb_le; lia).
  replace (o + i <? o + length d) with true by (symmetry; apply Nat.ltb_lt; lia). cbn [andb]. f_equal. lia.
Qed.
Lemma read_write m o d : read (write m o d) o (length d) = d.
Proof.
  apply (nth_ext _ _ 0%N 0%N); rewrite read_length; [reflexivity|]. intros i Hi.
  unfold read. rewrite (nth_indep _ 0%N (write m o d 0)) by now rewrite map_length, seq_length.
  rewrite map_nth, seq_nth by assumption. now apply write_in.
Qed.
Lemma read_firstn m o l n : firstn n (read m o l) = read m o (Nat.min n l).
Proof.
  unfold read. rewrite firstn_map. f_equal. revert o l. induction n as [|n IH]; intros o [|l]; try reflexivity.
  cbn [seq firstn Nat.min]. now rewrite IH.
Qed.
Lemma read_app m o l k : read m o (l + k) = read m o l ++ read m (o + l) k.
Proof. unfold read. now rewrite seq_app, map_app. Qed.

Section Block.
Context (B : nat) (HB : 0 < B).

Definition aligned (c : nat * nat) : Prop := (exists i, fst c = B * i) /\ snd c <= B.
Definition idx (c : chain) : list nat := map (fun x => fst x / B) c.
Definition contents (m : memory) (c : chain) : list N := concat (map (fun x => read m (fst x) (snd x)) c).

Lemma div_block i : B * i / B = i.
Proof. rewrite Nat.mul_comm. apply Nat.div_mul. lia. Qed.
Lemma div_in i a : B * i <= a < B * i + B -> a / B = i.
Proof.
  intros H. symmetry. apply (Nat.div_unique a B i (a - B * i)); lia.
Qed.

(** Memory that agrees outside some blocks. *)
Definition agree (taken : list nat) (m m' : memory) : Prop := forall a, ~ In (a / B) taken -> m' a = m a.
Lemma agree_refl t m : agree t m m.
Proof. now intros a _. Qed.
Lemma agree_trans t m1 m2 m3 : agree t m1 m2 -> agree t m2 m3 -> agree t m1 m3.
Proof. intros H1 H2 a Ha. rewrite H2 by assumption. now apply H1. Qed.
Lemma agree_mono t t' m m' : (forall i, In i t -> In i t') -> agree t m m' -> agree t' m m'.
Proof. intros H1 H2 a Ha. apply H2. intros H. now apply Ha, H1. Qed.
Lemma agree_write m i d : length d <= B -> agree [i] m (write m (B * i) d).
Proof.
  intros H a Ha. apply write_out. intros X. apply Ha. left. symmetry. apply div_in. lia.
Qed.
Lemma contents_agree t m m' c : agree t m m' -> Forall aligned c -> (forall i, In i (idx c) -> ~ In i t) ->
  contents m' c = contents m c.
Proof.
  intros A. induction 1 as [|[o l] c ((i & E) & L) F IH]; intros D; [reflexivity|].
  unfold contents in *. cbn [map concat fst snd] in *. subst o. rewrite IH.
  - f_equal. apply read_ext. intros a Ha. apply A. apply D. cbn [idx map fst]. left. rewrite div_block. symmetry. apply div_in. lia.
  - intros j Hj. apply D. now right.
Qed.
Lemma contents_cons m o l c : contents m ((o, l) :: c) = read m o l ++ contents m c.
Proof. reflexivity. Qed.

Lemma blocks_nil : blocks B [] = 0.
Proof. unfold blocks. cbn [length]. apply Nat.div_small. lia. Qed.
Lemma blocks_step (d : list N) : d <> [] ->
  blocks B d = S (blocks B (skipn (if length d <? B then length d else B) d)).
Proof.
  intros N. unfold blocks. rewrite skipn_length. assert (L : 0 < length d) by (destruct d; [congruence|cbn; lia]).
  destruct (Nat.ltb_spec (length d) B) as [H|H].
  - replace (length d - length d + (B - 1)) with (B - 1) by lia. rewrite (Nat.div_small (B - 1)) by lia.
    symmetry. apply (Nat.div_unique _ B 1 (length d - 1)); lia.
  - replace (length d + (B - 1)) with ((length d - B + (B - 1)) + 1 * B) by lia. rewrite Nat.div_add by lia. lia.
Qed.

Lemma extend_last_app c cs l : extend_last c (cs ++ [l]) = cs ++ [l ++ [c]].
Proof. unfold extend_last. rewrite rev_app_distr. cbn [rev app]. now rewrite rev_involutive. Qed.

(** Sending *)
Lemma scatter_spec : forall fuel first data q before last,
  length data <= fuel -> NoDup (q_free q) ->
  blocks B data <= length (q_free q) -> blocks B data <= q_ndesc q ->
  (first = false -> q_avail q = before ++ [last]) ->
  exists taken rest c m, q_free q = taken ++ rest /\ idx c = taken /\ length c = blocks B data /\ Forall aligned c /\
    agree taken (q_mem q) m /\ contents m c = data /\
    scatter B fuel first data q =
      (true, mk_vq m rest (q_ndesc q - blocks B data)
               (if first then match c with [] => q_avail q | _ => q_avail q ++ [c] end else before ++ [last ++ c]) (q_used q)).
Proof.
  induction fuel as [|fuel IH]; intros first data q before last Lf ND Hb Hd Hl.
  - destruct data as [|x data]; [|cbn in Lf; lia].
    exists [], (q_free q), [], (q_mem q). rewrite blocks_nil, Nat.sub_0_r. cbn [scatter].
    repeat split; auto using agree_refl. destruct q as [m f n av us]; cbn in *. destruct first; [reflexivity|].
    rewrite app_nil_r. now rewrite Hl.
  - destruct data as [|x data].
    + exists [], (q_free q), [], (q_mem q). rewrite blocks_nil, Nat.sub_0_r. cbn [scatter].
      repeat split; auto using agree_refl. destruct q as [m f n av us]; cbn in *. destruct first; [reflexivity|].
      rewrite app_nil_r. now rewrite Hl.
    + set (d := x :: data) in *. assert (Nd : d <> []) by discriminate.
      pose proof (blocks_step d Nd) as Bs. set (k := if length d <? B then length d else B) in *.
      assert (K : 0 < k <= B /\ k <= length d).
      { unfold k. destruct (Nat.ltb_spec (length d) B); unfold d in *; cbn [length] in *; lia. }
      destruct q as [m f n av us]. cbn [q_mem q_free q_ndesc q_avail q_used] in *.
      destruct f as [|i f]; [cbn [length] in Hb; lia|]. destruct n as [|n]; [lia|].
      apply NoDup_cons_iff in ND as (Ni & ND).
      change (scatter B (S fuel) first d (mk_vq m (i :: f) (S n) av us)) with
        (match buffer_alloc B (mk_vq m (i :: f) (S n) av us) k with
         | None => (false, mk_vq m (i :: f) (S n) av us)
         | Some (off, q) =>
             let q := mk_vq (write (q_mem q) off (firstn k d)) (q_free q) (q_ndesc q) (q_avail q) (q_used q) in
             match add_available_buf first (off, k) q with
             | None => (false, q)
             | Some q => scatter B fuel false (skipn k d) q
             end
         end).
      unfold buffer_alloc. destruct (Nat.ltb_spec B k) as [H|_]; [lia|].
      cbn [q_mem q_free q_ndesc q_avail q_used add_available_buf].
      set (m1 := write m (B * i) (firstn k d)).
      assert (Lk : length (firstn k d) = k) by (rewrite firstn_length; lia).
      set (av' := if first then av ++ [[(B * i, k)]] else extend_last (B * i, k) av).
      assert (AV : exists b l, av' = b ++ [l ++ [(B * i, k)]] /\
                (if first then b = av /\ l = [] else b = before /\ l = last)).
      { unfold av'. destruct first; [exists av, []; auto|]. exists before, last. rewrite (Hl eq_refl), extend_last_app. auto. }
      destruct AV as (b & l & AV & Hbl).
      destruct (IH false (skipn k d) (mk_vq m1 f n av' us) b (l ++ [(B * i, k)])) as (taken & rest & c & m2 & E1 & E2 & E3 & E4 & E5 & E6 & E7).
      * rewrite skipn_length. unfold d in *. cbn [length] in *. lia.
      * exact ND.
      * cbn [q_free]. cbn [length] in Hb. lia.
      * cbn [q_ndesc]. lia.
      * intros _. exact AV.
      * cbn [q_mem q_free q_ndesc q_avail q_used] in *. subst f.
        assert (Ai : aligned (B * i, k)) by (split; [now exists i|cbn [snd]; lia]).
        exists (i :: taken), rest, ((B * i, k) :: c), m2.
        split; [reflexivity|]. split; [cbn [idx map fst]; rewrite div_block; f_equal; exact E2|].
        split; [cbn [length]; rewrite E3; lia|]. split; [now constructor|].
        split.
        { apply (agree_trans _ _ m1).
          - apply (agree_mono [i]); [intros j [<-|[]]; now left|]. apply agree_write. lia.
          - apply (agree_mono taken); [intros j Hj; now right|]. exact E5. }
        split.
        { rewrite contents_cons, E6.
          replace (read m2 (B * i) k) with (firstn k d); [apply firstn_skipn|].
          transitivity (read m1 (B * i) k); [unfold m1; rewrite <- Lk at 3; now rewrite read_write|].
          symmetry. apply read_ext. intros a Ha. apply E5. rewrite (div_in i a) by lia.
          intros X. apply Ni. apply in_or_app. now left. }
        rewrite E7. f_equal. f_equal; [lia|].
        destruct first.
        -- destruct Hbl as (-> & ->). reflexivity.
        -- destruct Hbl as (-> & ->). now rewrite <- app_assoc.
Qed.

(** Reading by the device *)
Lemma gather_loop_spec m c : forall size,
  gather_loop m c size = (size <=? length (contents m c), firstn size (contents m c)).
Proof.
  induction c as [|[o l] c IH]; intros size.
  - destruct size; reflexivity.
  - destruct size as [|size]; [reflexivity|]. set (s := S size).
    change (gather_loop m ((o, l) :: c) s) with
      (let to_copy := if s <? l then s else l in
       let '(ok, data) := gather_loop m c (s - to_copy) in (ok, read m o to_copy ++ data)).
    cbv zeta. rewrite IH, contents_cons, app_length, read_length, firstn_app, read_length, read_firstn.
    destruct (Nat.ltb_spec s l) as [H|H].
    + rewrite Nat.sub_diag. replace (s - l) with 0 by lia. rewrite Nat.min_l by lia. f_equal.
      symmetry. apply Nat.leb_le. lia.
    + rewrite Nat.min_r by lia. f_equal.
      destruct (Nat.leb_spec (s - l) (length (contents m c))), (Nat.leb_spec s (l + length (contents m c))); lia || reflexivity.
Qed.

(** Writing by the device *)
Lemma overwrite_nil m : overwrite m [] = m.
Proof. unfold overwrite. now rewrite firstn_nil. Qed.
Lemma scatter_loop_spec : forall c m data, Forall aligned c -> NoDup (idx c) ->
  exists m', scatter_loop m c data = (length data <=? length (contents m c), Nat.min (length data) (length (contents m c)), m') /\
    agree (idx c) m m' /\ contents m' c = overwrite (contents m c) data.
Proof.
  induction c as [|[o l] c IH]; intros m data F ND.
  - exists m. destruct data; (split; [reflexivity|split; [apply agree_refl|]]); [reflexivity|].
    unfold overwrite. cbn. reflexivity.
  - destruct data as [|x data].
    + exists m. split; [reflexivity|]. split; [apply agree_refl|]. now rewrite overwrite_nil.
    + set (d := x :: data). apply Forall_cons_iff in F as (((i & E) & L) & F). cbn [fst snd] in E, L. subst o.
      cbn [idx map fst] in ND. fold (idx c) in ND. rewrite div_block in ND. apply NoDup_cons_iff in ND as (Ni & ND).
      set (k := if length d <? l then length d else l).
      change (scatter_loop m ((B * i, l) :: c) d) with
        (let '(ok, sent, m) := scatter_loop (write m (B * i) (firstn k d)) c (skipn k d) in (ok, k + sent, m)).
      assert (K : k = Nat.min (length d) l) by (unfold k; destruct (Nat.ltb_spec (length d) l); lia).
      assert (Lk : length (firstn k d) = k) by (rewrite firstn_length; lia).
      set (m1 := write m (B * i) (firstn k d)).
      assert (A1 : agree [i] m m1) by (apply agree_write; lia).
      destruct (IH m1 (skipn k d) F ND) as (m2 & E1 & E2 & E3). rewrite E1.
      assert (C1 : contents m1 c = contents m c).
      { apply (contents_agree [i]); [exact A1|exact F|]. intros j Hj [<-|[]]. contradiction. }
      rewrite C1, skipn_length in *. exists m2.
      rewrite contents_cons, app_length, read_length. split; [|split].
      * f_equal. f_equal.
        -- destruct (Nat.leb_spec (length d - k) (length (contents m c))), (Nat.leb_spec (length d) (l + length (contents m c))); lia || reflexivity.
        -- lia.
      * cbn [idx map fst]. fold (idx c). rewrite div_block. apply (agree_trans _ _ m1).
        -- apply (agree_mono [i]); [intros j [<-|[]]; now left|exact A1].
        -- apply (agree_mono (idx c)); [intros j Hj; now right|exact E2].
      * rewrite contents_cons, E3.
        assert (R2 : read m2 (B * i) l = firstn k d ++ read m (B * i + k) (l - k)).
        { replace l with (k + (l - k)) at 1 by lia. rewrite read_app. f_equal.
          - transitivity (read m1 (B * i) k).
            + apply read_ext. intros a Ha. apply E2. rewrite (div_in i a) by lia. exact Ni.
            + unfold m1. rewrite <- Lk at 2. apply read_write.
          - apply read_ext. intros a Ha. rewrite E2 by (rewrite (div_in i a) by lia; exact Ni).
            unfold m1. apply write_out. lia. }
        rewrite R2. unfold overwrite. rewrite app_length, read_length, skipn_length.
        destruct (Nat.le_gt_cases (length d) l) as [G|G].
        -- assert (k = length d) by lia. rewrite (skipn_all2 d) by lia. rewrite firstn_nil. cbn [app].
           replace (length d - k) with 0 by lia. cbn [skipn].
           rewrite skipn_app, read_length. replace (length d - l) with 0 by lia. cbn [skipn].
           rewrite (firstn_all2 (n := l + length (contents m c)) d) by lia. rewrite (firstn_all2 (n := k) d) by lia.
           rewrite <- app_assoc. f_equal. f_equal. unfold read. rewrite skipn_map. f_equal.
           rewrite H. clear. revert l. generalize (B * i). generalize (length d). intros n. induction n as [|n IH]; intros o [|l]; cbn [seq skipn Nat.sub]; rewrite ?Nat.add_0_r; try reflexivity.
           replace (o + S n) with (S o + n) by lia. apply IH.
        -- assert (k = l) by lia. replace (l - k) with 0 by lia. cbn [read]. unfold read at 1. cbn [seq map]. rewrite app_nil_r.
           rewrite skipn_app, read_length. rewrite (skipn_all2 (n := length d) (read m (B * i) l)) by (rewrite read_length; lia).
           cbn [app]. rewrite H. rewrite app_assoc. f_equal.
           rewrite <- (firstn_skipn l d) at 3. rewrite firstn_app, firstn_length.
           rewrite (firstn_all2 (n := l + length (contents m c)) (firstn l d)) by (rewrite firstn_length; lia).
           f_equal. f_equal. lia.
Qed.

(** Collecting by the driver *)
Lemma driver_gather_spec : forall c size q,
  driver_gather_copy B c size q =
    (firstn size (contents (q_mem q) c),
     mk_vq (q_mem q) (rev (idx c) ++ q_free q) (length c + q_ndesc q) (q_avail q) (q_used q)).
Proof.
  induction c as [|[o l] c IH]; intros size q.
  - cbn. rewrite firstn_nil. now destruct q.
  - cbn [driver_gather_copy]. rewrite IH. unfold buffer_free, free_desc. cbn [q_mem q_free q_ndesc q_avail q_used].
    rewrite contents_cons, firstn_app, read_length, read_firstn. f_equal.
    + destruct (Nat.ltb_spec size l) as [H|H].
      * rewrite Nat.sub_diag. replace (size - l) with 0 by lia. now rewrite Nat.min_l by lia.
      * now rewrite Nat.min_r by lia.
    + cbn [idx map rev fst length]. rewrite <- app_assoc. f_equal. lia.
Qed.
End Block.
