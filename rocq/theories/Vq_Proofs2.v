(** Virtqueues and message queues: every history. *)
From Coq Require Import List Bool Arith NArith Permutation Lia.
From Verif Require Import Vq_Model Vq_Spec Vq_Proofs.
Import ListNotations.

Lemma Forall2_impl {A B} (P Q : A -> B -> Prop) l l' : (forall a b, P a b -> Q a b) -> Forall2 P l l' -> Forall2 Q l l'.
Proof. intros H. induction 1; constructor; auto. Qed.
Lemma Forall2_impl_in {A B} (P Q : A -> B -> Prop) l l' : (forall a b, In a l -> P a b -> Q a b) -> Forall2 P l l' -> Forall2 Q l l'.
Proof.
  intros H F. induction F as [|a b l l' X F IH]; constructor.
  - apply H; [now left|exact X].
  - apply IH. intros a' b' I. apply H. now right.
Qed.
Lemma sum_cons x l : list_sum (x :: l) = x + list_sum l.
Proof. reflexivity. Qed.
Lemma sum_nil : list_sum [] = 0.
Proof. reflexivity. Qed.
Lemma Forall2_length {A B} (P : A -> B -> Prop) l l' : Forall2 P l l' -> length l = length l'.
Proof. induction 1; cbn [length]; congruence. Qed.
Lemma nodup_app_disjoint {A} (l l' : list A) x : NoDup (l ++ l') -> In x l -> ~ In x l'.
Proof.
  induction l as [|y l IH]; [easy|]. cbn [app]. intros N. apply NoDup_cons_iff in N as (N1 & N2).
  intros [->|H]; [intros X; apply N1, in_or_app; now right|]. now apply IH.
Qed.
Lemma nodup_app_r {A} (l l' : list A) : NoDup (l ++ l') -> NoDup l'.
Proof. induction l as [|y l IH]; [easy|]. cbn [app]. intros N. apply NoDup_cons_iff in N as (_ & N). auto. Qed.
Lemma nodup_app_l {A} (l l' : list A) : NoDup (l ++ l') -> NoDup l.
Proof.
  intros N. apply (nodup_app_r l'). eapply Permutation_NoDup; [apply Permutation_app_comm|exact N].
Qed.

Section Block.
Context (B : nat) (HB : 0 < B) (nblocks ndescs : nat).

Definition idxs (cs : list chain) : list nat := concat (map (idx B) cs).
Lemma idxs_app a b : idxs (a ++ b) = idxs a ++ idxs b.
Proof. unfold idxs. now rewrite map_app, concat_app. Qed.
Lemma idxs_one c : idxs [c] = idx B c.
Proof. unfold idxs. cbn. apply app_nil_r. Qed.
Lemma idxs_in c cs i : In c cs -> In i (idx B c) -> In i (idxs cs).
Proof. intros H1 H2. apply in_concat. exists (idx B c). split; [now apply in_map|exact H2]. Qed.

Definition rep (m : memory) (c : chain) (s : list N) : Prop :=
  Forall (aligned B) c /\ contents m c = s /\ length c = blocks B s.
Definition all (q : vq) : list nat := q_free q ++ idxs (q_avail q) ++ idxs (map fst (q_used q)).
Record inv (q : vq) (c : channel) : Prop := {
  i_nodup : NoDup (all q);
  i_blocks : length (all q) = nblocks;
  i_descs : q_ndesc q + in_flight B c = ndescs;
  i_pending : Forall2 (rep (q_mem q)) (q_avail q) (pending c);
  i_returned : Forall2 (fun u r => rep (q_mem q) (fst u) (fst r) /\ snd u = snd r) (q_used q) (returned c) }.

Lemma rep_agree t m m' c s : agree B t m m' -> (forall i, In i (idx B c) -> ~ In i t) -> rep m c s -> rep m' c s.
Proof.
  intros A D (R1 & R2 & R3). split; [exact R1|]. split; [|exact R3]. rewrite <- R2. now apply (contents_agree B HB t).
Qed.
Lemma idx_length c : length (idx B c) = length c.
Proof. apply map_length. Qed.
Lemma idxs_length m cs ms : Forall2 (rep m) cs ms -> length (idxs cs) = list_sum (map (blocks B) ms).
Proof.
  induction 1 as [|c s cs ms (_ & _ & R) F IH]; [reflexivity|].
  unfold idxs in *. cbn [map concat list_sum fold_right]. rewrite app_length, idx_length, R, IH. reflexivity.
Qed.
Lemma used_length m (us : list (chain * nat)) (rs : list (list N * nat)) : Forall2 (fun u r => rep m (fst u) (fst r) /\ snd u = snd r) us rs ->
  length (idxs (map fst us)) = list_sum (map (fun r => blocks B (fst r)) rs).
Proof.
  induction 1 as [|c s cs ms ((_ & _ & R) & _) F IH]; [reflexivity|].
  unfold idxs in *. cbn [map concat list_sum fold_right]. rewrite app_length, idx_length, R, IH. reflexivity.
Qed.
Lemma inv_free q c : inv q c -> length (q_free q) + in_flight B c = nblocks.
Proof.
  intros I. rewrite <- (i_blocks _ _ I). unfold all, in_flight. rewrite !app_length.
  rewrite (idxs_length _ _ _ (i_pending _ _ I)), (used_length _ _ _ (i_returned _ _ I)). reflexivity.
Qed.

Lemma overwrite_length (m d : list N) : length (overwrite m d) = length m.
Proof. unfold overwrite. rewrite app_length, firstn_length, skipn_length. lia. Qed.

Lemma step_spec q c o r c' : inv q c -> exchange B nblocks ndescs c o = Some (r, c') ->
  exists q', step B q o = (r, q') /\ inv q' c'.
Proof.
  intros I. pose proof (inv_free q c I) as Fr. destruct I as [I1 I2 I3 I4 I5]. destruct q as [m f n av us]. destruct c as [ps rs].
  unfold all in *. cbn [q_mem q_free q_ndesc q_avail q_used pending returned] in *.
  destruct o as [data|size|data|size]; cbn [exchange pending returned].
  - destruct (_ && _ && _) eqn:E; [|discriminate]. intros [= <- <-].
    apply andb_prop in E as (E & E3). apply andb_prop in E as (E1 & E2).
    apply Nat.leb_le in E1, E2, E3.
    destruct (scatter_spec B HB (length data) true data (mk_vq m f n av us) [] []) as (taken & rest & ch & m' & H1 & H2 & H3 & H4 & H5 & H6 & H7);
      cbn [q_mem q_free q_ndesc q_avail q_used] in *.
    + lia.
    + exact (nodup_app_l _ _ I1).
    + lia.
    + lia.
    + discriminate.
    + cbn [step]. unfold driver_scatter_send. rewrite H7. eexists. split; [reflexivity|].
      assert (Nc : ch <> []).
      { intros ->. cbn in H6. subst data. cbn in E1. lia. }
      replace (match ch with [] => av | _ :: _ => av ++ [ch] end) with (av ++ [ch]) by (destruct ch; congruence).
      assert (P : Permutation (rest ++ idxs (av ++ [ch]) ++ idxs (map fst us)) (f ++ idxs av ++ idxs (map fst us))).
      { rewrite idxs_app, idxs_one, H2, H1. rewrite <- app_assoc. rewrite !app_assoc.
        apply Permutation_app_tail. rewrite <- !app_assoc.
        rewrite (Permutation_app_comm (idxs av) taken). rewrite !app_assoc. apply Permutation_app_tail.
        apply Permutation_app_comm. }
      assert (D : forall i, In i (idxs av ++ idxs (map fst us)) -> ~ In i taken).
      { intros i Hi Ht. apply (nodup_app_disjoint _ _ i I1); [rewrite H1; apply in_or_app; now left|exact Hi]. }
      constructor; unfold all; cbn [q_mem q_free q_ndesc q_avail q_used pending returned].
      * eapply Permutation_NoDup; [apply Permutation_sym, P|exact I1].
      * rewrite (Permutation_length P). exact I2.
      * unfold in_flight in *. cbn [pending returned] in *. rewrite map_app, list_sum_app. cbn [map fst] in *. rewrite ?sum_cons, ?sum_nil in *. lia.
      * apply Forall2_app.
        -- revert I4. apply Forall2_impl_in. intros a b Ia. apply (rep_agree taken); [exact H5|].
           intros i Hi. apply D, in_or_app. left. now apply (idxs_in a).
        -- constructor; [|constructor]. split; [exact H4|]. split; assumption.
      * revert I5. apply Forall2_impl_in. intros a b Ia (Ra & Rb). split; [|exact Rb]. revert Ra.
        apply (rep_agree taken); [exact H5|].
        intros i Hi. apply D, in_or_app. right. apply (idxs_in (fst a)); [now apply in_map|exact Hi].
  - destruct ps as [|p ps].
    + intros [= <- <-]. inversion I4; subst. eexists. split; [reflexivity|]. now constructor.
    + intros [= <- <-]. inversion I4 as [|ch p' av' ps' R F]; subst. cbn [step get_available_buf q_avail].
      destruct R as (R1 & R2 & R3). unfold device_gather_copy. cbn [q_mem].
      rewrite (gather_loop_spec B HB), R2. eexists. split; [reflexivity|].
      assert (P : Permutation (f ++ idxs av' ++ idxs (map fst (us ++ [(ch, length (firstn size p))]))) (f ++ idxs (ch :: av') ++ idxs (map fst us))).
      { apply Permutation_app_head. rewrite map_app, idxs_app. cbn [map fst]. rewrite idxs_one.
        change (idxs (ch :: av')) with (idx B ch ++ idxs av'). rewrite <- !app_assoc.
        rewrite (Permutation_app_comm (idx B ch)). rewrite <- !app_assoc. reflexivity. }
      constructor; unfold all, add_used_buf; cbn [q_mem q_free q_ndesc q_avail q_used pending returned].
      * eapply Permutation_NoDup; [apply Permutation_sym, P|exact I1].
      * rewrite (Permutation_length P). exact I2.
      * unfold in_flight in *. cbn [pending returned] in *. rewrite map_app, list_sum_app. cbn [map fst] in *. rewrite ?sum_cons, ?sum_nil in *. lia.
      * exact F.
      * apply Forall2_app; [exact I5|]. constructor; [|constructor]. cbn [fst snd]. split; [now split|]. rewrite firstn_length. lia.
  - destruct ps as [|p ps].
    + intros [= <- <-]. inversion I4; subst. eexists. split; [reflexivity|]. now constructor.
    + intros [= <- <-]. inversion I4 as [|ch p' av' ps' R F]; subst. cbn [step get_available_buf q_avail].
      destruct R as (R1 & R2 & R3). unfold device_scatter_copy. cbn [q_mem q_free q_ndesc q_avail q_used].
      assert (N1 : NoDup (idx B ch ++ idxs av' ++ idxs (map fst us))).
      { apply nodup_app_r in I1. change (idxs (ch :: av')) with (idx B ch ++ idxs av') in I1. now rewrite <- app_assoc in I1. }
      destruct (scatter_loop_spec B HB ch m data R1 (nodup_app_l _ _ N1)) as (m' & S1 & S2 & S3).
      rewrite S1, R2. eexists. split; [reflexivity|].
      set (k := Nat.min (length data) (length p)).
      assert (P : Permutation (f ++ idxs av' ++ idxs (map fst (us ++ [(ch, k)]))) (f ++ idxs (ch :: av') ++ idxs (map fst us))).
      { apply Permutation_app_head. rewrite map_app, idxs_app. cbn [map fst]. rewrite idxs_one.
        change (idxs (ch :: av')) with (idx B ch ++ idxs av'). rewrite <- !app_assoc.
        rewrite (Permutation_app_comm (idx B ch)). rewrite <- !app_assoc. reflexivity. }
      assert (D : forall i, In i (idxs av' ++ idxs (map fst us)) -> ~ In i (idx B ch)).
      { intros i Hi Ht. exact (nodup_app_disjoint _ _ i N1 Ht Hi). }
      constructor; unfold all, add_used_buf; cbn [q_mem q_free q_ndesc q_avail q_used pending returned].
      * eapply Permutation_NoDup; [apply Permutation_sym, P|exact I1].
      * rewrite (Permutation_length P). exact I2.
      * unfold in_flight in *. cbn [pending returned] in *. rewrite map_app, list_sum_app. cbn [map fst] in *. rewrite ?sum_cons, ?sum_nil in *.
        assert (X : blocks B (overwrite p data) = blocks B p) by (unfold blocks; now rewrite overwrite_length). lia.
      * revert F. apply Forall2_impl_in. intros a b Ia. apply (rep_agree (idx B ch)); [exact S2|].
        intros i Hi. apply D, in_or_app. left. now apply (idxs_in a).
      * apply Forall2_app.
        -- revert I5. apply Forall2_impl_in. intros a b Ia (Ra & Rb). split; [|exact Rb]. revert Ra.
           apply (rep_agree (idx B ch)); [exact S2|].
           intros i Hi. apply D, in_or_app. right. apply (idxs_in (fst a)); [now apply in_map|exact Hi].
        -- constructor; [|constructor]. cbn [fst snd]. split; [|reflexivity]. split; [exact R1|]. split; [now rewrite S3, R2|].
           unfold blocks. rewrite overwrite_length. exact R3.
  - destruct rs as [|[p len] rs].
    + intros [= <- <-]. inversion I5; subst. eexists. split; [reflexivity|]. now constructor.
    + intros [= <- <-]. inversion I5 as [|[ch l] p' us' rs' (R & E) F]; subst. cbn [fst snd] in *. subst l.
      cbn [step get_used_buf q_used]. rewrite (driver_gather_spec B HB). cbn [q_mem q_free q_ndesc q_avail q_used].
      destruct R as (R1 & R2 & R3). rewrite R2. eexists. split; [reflexivity|].
      assert (P : Permutation ((rev (idx B ch) ++ f) ++ idxs av ++ idxs (map fst us')) (f ++ idxs av ++ idxs (map fst ((ch, len) :: us')))).
      { cbn [map fst]. change (idxs (ch :: map fst us')) with (idx B ch ++ idxs (map fst us')).
        rewrite <- Permutation_rev. rewrite (Permutation_app_comm (idx B ch) f). rewrite <- !app_assoc. apply Permutation_app_head.
        rewrite !app_assoc. apply Permutation_app_tail. apply Permutation_app_comm. }
      constructor; unfold all; cbn [q_mem q_free q_ndesc q_avail q_used pending returned].
      * eapply Permutation_NoDup; [apply Permutation_sym, P|exact I1].
      * rewrite (Permutation_length P). exact I2.
      * unfold in_flight in *. cbn [pending returned] in *. cbn [map fst] in *. rewrite ?sum_cons, ?sum_nil in *. lia.
      * exact I4.
      * exact F.
Qed.

Lemma fresh_inv m : inv (fresh m nblocks ndescs) (mk_channel [] []).
Proof.
  constructor; unfold all, fresh; cbn [q_mem q_free q_ndesc q_avail q_used pending returned idxs map concat app]; try constructor.
  - rewrite app_nil_r. apply seq_NoDup.
  - rewrite app_nil_r. apply seq_length.
  - unfold in_flight. cbn. lia.
Qed.

Lemma run_spec os : forall q c rs c', inv q c -> exchanges B nblocks ndescs c os = Some (rs, c') ->
  exists q', run B q os = (rs, q') /\ inv q' c'.
Proof.
  induction os as [|o os IH]; intros q c rs c' I; cbn [exchanges run].
  - intros [= <- <-]. now exists q.
  - destruct (exchange B nblocks ndescs c o) as [[r c1]|] eqn:E; [|discriminate].
    destruct (step_spec q c o r c1 I E) as (q1 & -> & I1).
    destruct (exchanges B nblocks ndescs c1 os) as [[rs1 c2]|] eqn:E2; [|discriminate]. intros [= <- <-].
    destruct (IH q1 c1 rs1 c2 I1 E2) as (q2 & -> & I2). now exists q2.
Qed.
Lemma run_fresh m os rs c : exchanges B nblocks ndescs (mk_channel [] []) os = Some (rs, c) ->
  fst (run B (fresh m nblocks ndescs) os) = rs.
Proof.
  intros E. destruct (run_spec os _ _ _ _ (fresh_inv m) E) as (q & -> & _). reflexivity.
Qed.

(** A message for which there is no room is refused. *)
Lemma scatter_refuses : forall fuel first data q,
  length (q_free q) < blocks B data \/ q_ndesc q < blocks B data ->
  fst (scatter B fuel first data q) = false.
Proof.
  induction fuel as [|fuel IH]; intros first data q H.
  - destruct data; [rewrite (blocks_nil B HB) in H; lia|reflexivity].
  - destruct data as [|x data]; [rewrite (blocks_nil B HB) in H; lia|].
    pose proof (blocks_step B HB (x :: data)) as Bs. specialize (Bs ltac:(discriminate)). cbn [scatter].
    set (d := x :: data) in *. set (k := if length d <? B then length d else B) in *.
    unfold buffer_alloc. destruct (B <? k); [reflexivity|].
    destruct (q_free q) as [|i f]; [reflexivity|]. cbn [add_available_buf q_ndesc q_mem q_free q_avail q_used].
    destruct (q_ndesc q) as [|n]; [reflexivity|]. apply IH. cbn [q_ndesc q_free]. cbn [length] in H. lia.
Qed.
Lemma run_refuses m os rs c data : exchanges B nblocks ndescs (mk_channel [] []) os = Some (rs, c) ->
  nblocks < in_flight B c + blocks B data \/ ndescs < in_flight B c + blocks B data ->
  fst (step B (snd (run B (fresh m nblocks ndescs) os)) (Send data)) = Sent false.
Proof.
  intros E H. destruct (run_spec os _ _ _ _ (fresh_inv m) E) as (q & -> & I). cbn [snd step].
  pose proof (inv_free _ _ I) as Fr. pose proof (i_descs _ _ I) as De.
  unfold driver_scatter_send. pose proof (scatter_refuses (length data) true data q) as S.
  destruct (scatter B (length data) true data q) as [ok q']. cbn [fst] in *. rewrite S; [reflexivity|lia].
Qed.

(** Message queues *)
Section Messages.
Context (limit : nat) (HL : limit <= B).

Definition mrep (m : memory) (c : chain) (s : list N) : Prop :=
  exists i, c = [(B * i, length s)] /\ read m (B * i) (length s) = s /\ length s <= limit.
Definition single (c : chain) : Prop := exists i l, c = [(B * i, l)].
Record minv (q : vq) (ms : list (list N)) : Prop := {
  j_nodup : NoDup (all q);
  j_blocks : length (all q) = nblocks;
  j_descs : q_ndesc q + length (q_avail q) + length (q_used q) = ndescs;
  j_pending : Forall2 (mrep (q_mem q)) (q_avail q) ms;
  j_used : Forall (fun u => single (fst u)) (q_used q) }.

Lemma mrep_agree i m m' c s : agree B [i] m m' -> ~ In i (idx B c) -> mrep m c s -> mrep m' c s.
Proof.
  intros A D (j & -> & R2 & R3). exists j. split; [reflexivity|]. split; [|exact R3]. rewrite <- R2 at 2.
  apply read_ext. intros a Ha. apply A. rewrite (div_in B HB j a) by lia. intros [<-|[]]. apply D. cbn. left.
  apply (div_block B HB).
Qed.
Lemma singles_length (cs : list chain) : Forall single cs -> length (idxs cs) = length cs.
Proof.
  induction 1 as [|c cs (i & l & ->) F IH]; [reflexivity|]. unfold idxs in *. cbn [map concat idx app length]. now rewrite IH.
Qed.
Lemma pending_single m av ms : Forall2 (mrep m) av ms -> Forall single av.
Proof. induction 1 as [|c s cs ms (i & -> & _) F IH]; constructor; [now exists i, (length s)|exact IH]. Qed.
Lemma minv_free q ms : minv q ms -> length (q_free q) + length ms + length (q_used q) = nblocks.
Proof.
  intros I. rewrite <- (j_blocks _ _ I). unfold all. rewrite !app_length.
  rewrite (singles_length (q_avail q)) by exact (pending_single _ _ _ (j_pending _ _ I)).
  rewrite (singles_length (map fst (q_used q))).
  - rewrite map_length. pose proof (Forall2_length _ _ _ (j_pending _ _ I)). lia.
  - apply Forall_map. exact (j_used _ _ I).
Qed.

(** Putting a message into block [i] that is not in use. *)
Lemma put_inv i m f n av us ms s : length s <= limit ->
  NoDup (i :: f ++ idxs av ++ idxs (map fst us)) -> S (length (f ++ idxs av ++ idxs (map fst us))) = nblocks ->
  S n + length av + length us = ndescs -> Forall2 (mrep m) av ms -> Forall (fun u => single (fst u)) us ->
  minv (mk_vq (write m (B * i) s) f n (av ++ [[(B * i, length s)]]) us) (ms ++ [s]).
Proof.
  intros Ls ND L D F U. apply NoDup_cons_iff in ND as (Ni & ND).
  assert (P : Permutation (f ++ idxs (av ++ [[(B * i, length s)]]) ++ idxs (map fst us)) (i :: f ++ idxs av ++ idxs (map fst us))).
  { rewrite idxs_app, idxs_one. cbn [idx map fst]. rewrite (div_block B HB).
    change (i :: f ++ idxs av ++ idxs (map fst us)) with ([i] ++ f ++ idxs av ++ idxs (map fst us)).
    rewrite !app_assoc. apply Permutation_app_tail. rewrite <- !app_assoc. 
    rewrite (Permutation_app_comm [i]). rewrite <- app_assoc. reflexivity. }
  constructor; unfold all; cbn [q_mem q_free q_ndesc q_avail q_used].
  - eapply Permutation_NoDup; [apply Permutation_sym, P|]. now constructor.
  - rewrite (Permutation_length P). exact L.
  - rewrite app_length. cbn [length]. lia.
  - apply Forall2_app.
    + revert F. apply Forall2_impl_in. intros a b Ia. apply (mrep_agree i); [apply agree_write; [exact HB|lia]|].
      intros X. apply Ni. apply in_or_app. right. apply in_or_app. left. now apply (idxs_in a).
    + constructor; [|constructor]. exists i. split; [reflexivity|]. split; [apply read_write|exact Ls].
  - exact U.
Qed.

Lemma mstep_spec q ms o : minv q ms ->
  exists q', mstep B limit q o = (fst (message_step limit nblocks ndescs ms o), q') /\
    minv q' (snd (message_step limit nblocks ndescs ms o)).
Proof.
  intros I. pose proof (minv_free q ms I) as Fr. pose proof I as I0. destruct I as [I1 I2 I3 I4 I5].
  pose proof (Forall2_length _ _ _ I4) as La.
  destruct q as [m f n av us]. unfold all in *. cbn [q_mem q_free q_ndesc q_avail q_used] in *.
  destruct o as [s|size]; cbn [mstep message_step].
  - unfold msgqueue_send. destruct (Nat.ltb_spec limit (length s)) as [H|H]; [eexists; split; [reflexivity|exact I0]|].
    unfold msgqueue_alloc_buffer, get_used_buf. cbn [q_used].
    destruct us as [|[ch l] us].
    + unfold buffer_alloc. destruct (Nat.ltb_spec B limit) as [H'|_]; [lia|]. cbn [q_mem q_free q_ndesc q_avail q_used length] in *.
      destruct f as [|i f].
      * cbn [length] in Fr. replace (length ms =? nblocks) with true by (symmetry; apply Nat.eqb_eq; lia).
        eexists. split; [reflexivity|exact I0].
      * cbn [length] in Fr. replace (length ms =? nblocks) with false by (symmetry; apply Nat.eqb_neq; lia).
        cbn [q_mem q_free q_ndesc q_avail q_used add_available_buf]. destruct n as [|n].
        -- replace (length ms =? ndescs) with true by (symmetry; apply Nat.eqb_eq; lia).
           eexists. split; [reflexivity|]. unfold buffer_free. cbn [q_mem q_free q_ndesc q_avail q_used fst snd]. rewrite (div_block B HB).
           constructor; unfold all; cbn [q_mem q_free q_ndesc q_avail q_used]; try assumption.
           revert I4. apply Forall2_impl_in. intros a b Ia Rab.
           assert (Ni : ~ In i (idx B a)).
           { cbn [app] in I1. apply NoDup_cons_iff in I1 as (Ni & _). intros X. apply Ni.
             apply in_or_app. right. apply in_or_app. left. now apply (idxs_in a). }
           apply (mrep_agree i (write m (B * i) s)); [apply agree_write; [exact HB|]|exact Ni|].
           { rewrite repeat_length. lia. }
           apply (mrep_agree i m); [apply agree_write; [exact HB|lia]|exact Ni|exact Rab].
        -- replace (length ms =? ndescs) with false by (symmetry; apply Nat.eqb_neq; lia).
           eexists. split; [reflexivity|]. cbn [snd]. apply put_inv; assumption.
    + apply Forall_cons_iff in I5 as ((i & l' & E) & I5). cbn [fst] in E. subst ch. cbn [length] in *.
      replace (length ms =? nblocks) with false by (symmetry; apply Nat.eqb_neq; lia).
      replace (length ms =? ndescs) with false by (symmetry; apply Nat.eqb_neq; lia).
      cbn [q_mem q_free q_ndesc q_avail q_used add_available_buf free_desc].
      eexists. split; [reflexivity|]. cbn [snd].
      assert (P : Permutation (f ++ idxs av ++ idxs (map fst (([(B * i, l')], l) :: us))) (i :: f ++ idxs av ++ idxs (map fst us))).
      { cbn [map fst]. unfold idxs at 2. cbn [map concat idx app fst]. rewrite (div_block B HB). fold (idxs (map fst us)).
        rewrite !app_assoc. symmetry. apply Permutation_middle. }
      apply put_inv; try assumption.
      * eapply Permutation_NoDup; [exact P|exact I1].
      * exact (eq_trans (eq_sym (Permutation_length P)) I2).
      * lia.
  - unfold msgqueue_get. destruct (Nat.ltb_spec size limit) as [H|H]; [eexists; split; [reflexivity|exact I0]|].
    cbn [get_available_buf q_avail]. inversion I4 as [|ch s av' ms' R F]; subst; cbn [get_available_buf q_avail].
    + eexists. split; [reflexivity|exact I0].
    + destruct R as (i & -> & R2 & R3). unfold get_available_buf; cbn [q_avail q_mem q_free q_ndesc q_used].
      destruct (Nat.ltb_spec size (length s)) as [H'|_]; [lia|].
      cbn [q_mem]. rewrite R2. eexists. split; [reflexivity|]. cbn [snd].
      set (u := ([(B * i, length s)], length s)).
      assert (P : Permutation (f ++ idxs av' ++ idxs (map fst (us ++ [u]))) (f ++ idxs ([(B * i, length s)] :: av') ++ idxs (map fst us))).
      { apply Permutation_app_head. rewrite map_app, idxs_app. cbn [map fst u]. rewrite idxs_one.
        change (idxs ([(B * i, length s)] :: av')) with (idx B [(B * i, length s)] ++ idxs av'). rewrite <- !app_assoc.
        rewrite (Permutation_app_comm (idx B [(B * i, length s)])). rewrite <- !app_assoc. reflexivity. }
      constructor; unfold all, add_used_buf; cbn [q_mem q_free q_ndesc q_avail q_used].
      * eapply Permutation_NoDup; [apply Permutation_sym, P|exact I1].
      * exact (eq_trans (Permutation_length P) I2).
      * rewrite app_length. cbn [length] in *. lia.
      * exact F.
      * apply Forall_app. split; [exact I5|]. constructor; [|constructor]. now exists i, (length s).
Qed.
Lemma mrun_spec os : forall q ms, minv q ms ->
  fst (mrun B limit q os) = message_steps limit nblocks ndescs ms os.
Proof.
  induction os as [|o os IH]; intros q ms I; [reflexivity|]. cbn [mrun message_steps].
  destruct (mstep_spec q ms o I) as (q' & -> & I').
  destruct (message_step limit nblocks ndescs ms o) as [r ms']. cbn [fst snd] in *.
  specialize (IH q' ms' I'). destruct (mrun B limit q' os) as [rs q'']. cbn [fst] in *. now rewrite IH.
Qed.
Lemma mrun_fresh m os : fst (mrun B limit (fresh m nblocks ndescs) os) = message_steps limit nblocks ndescs [] os.
Proof.
  apply mrun_spec. constructor; unfold all, fresh; cbn [q_mem q_free q_ndesc q_avail q_used idxs map concat app length]; try constructor.
  - rewrite app_nil_r. apply seq_NoDup.
  - rewrite app_nil_r. apply seq_length.
  - lia.
Qed.
End Messages.
End Block.
