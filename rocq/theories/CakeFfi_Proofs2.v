(** Proofs about the functions for CakeML: virtqueues. *)
From Coq Require Import ssreflect ssrbool List Bool Arith NArith ZArith Permutation Lia.
From Verif Require Import CakeFfi_Model CakeFfi_Spec CakeFfi_Proofs.
From Verif Require Vq_Model Vq_Proofs.
Import ListNotations.

Section Queue.
Variables (B : nat) (p : N) (nb nd : nat).
Hypothesis BP : 0 < B.
Hypothesis WP : word p.
Hypothesis BW : word (N.of_nat B).

Definition on_way (x : nat * bytes) : Vq_Model.chain := [(B * fst x, length (snd x))].
Definition back_way (x : nat * nat) : Vq_Model.chain * nat := ([(B * fst x, snd x)], 0).
Definition intact (m : Vq_Model.memory) (x : nat * bytes) : Prop :=
  length (snd x) <= B /\ Vq_Model.read m (B * fst x) (length (snd x)) = snd x.
Inductive inv : Vq_Model.vq -> cake_channel -> Prop :=
  Inv m free n fl us : NoDup (free ++ map fst fl ++ map fst us) -> length free + length fl + length us = nb ->
    n + length fl + length us = nd -> Forall (intact m) fl ->
    inv (Vq_Model.mk_vq m free n (map on_way fl) (map back_way us)) (Channel (map snd fl) (length us)).

Lemma put_same q qs : put p q qs p = Some q.
Proof. by rewrite /put N.eqb_refl. Qed.
Lemma arr_load x r : load (x :: little 8 p ++ r) 1 8 = Some (little 8 p).
Proof. apply: (load_app [x] (little 8 p) r) => //. Qed.
Lemma intact_write m i d x : length d <= B -> fst x <> i -> intact m x -> intact (Vq_Model.write m (B * i) d) x.
Proof.
  move=> L N [LX R]. split=> //. rewrite -[RHS]R. apply: Vq_Proofs.read_ext => a Ha.
  apply: (Vq_Proofs.agree_write B BP m i d L) => [[E|//]]. apply: N. rewrite E. symmetry. apply: Vq_Proofs.div_in => //. lia.
Qed.
Lemma send_step q c m qs : inv q c -> qs p = Some q -> word (N.of_nat (length m)) ->
  exists qs' q', call B p (CSend m) qs = Some (fst (cake_step B nb nd c (CSend m)), qs') /\ qs' p = Some q' /\ inv q' (snd (cake_step B nb nd c (CSend m))).
Proof.
  move=> IV Q W. cbn [call]. rewrite /ffivirtqueue_driver_send.
  have [H1 [H2 H3]] := head_load 0%N (little 8 p) (little 8 (N.of_nat (length m))) m [] (little_length _ _) (little_length _ _).
  rewrite app_nil_r in H1 H2 H3. rewrite H1. cbn [obind]. rewrite H2. cbn [obind]. rewrite !of_le_word // Q. cbn [obind]. rewrite Nat2N.id.
  have IV' := IV. case: IV' Q => mem free n fl us ND NB NDS DA Q. rewrite /Vq_Model.buffer_alloc /cake_step. cbn [pending received Vq_Model.q_free].
  rewrite map_length. case: Nat.ltb_spec => LB; cbn [orb].
  { rewrite store_status. cbn [obind]. exists qs. eexists. split; first by []. split; first exact: Q. cbn [snd]. by inversion IV. }
  destruct free as [|i free].
  { have -> : (length fl + length us =? nb) = true by apply/Nat.eqb_eq; move: NB => /= NB; lia.
    cbn [orb]. rewrite store_status. cbn [obind]. exists qs. eexists. split; first by []. split; first exact: Q. cbn [snd]. by inversion IV. }
  have -> : (length fl + length us =? nb) = false by apply/Nat.eqb_neq; move: NB => /= NB; lia. cbn [orb].
  rewrite H3. cbn [obind]. cbn [Vq_Model.q_mem Vq_Model.q_free Vq_Model.q_ndesc Vq_Model.q_avail Vq_Model.q_used].
  have NI : forall x, In x (free ++ map fst fl ++ map fst us) -> x <> i.
  { move=> x I E. subst x. cbn [app] in ND. by move/NoDup_cons_iff: ND => []. }
  have DA' : Forall (intact (Vq_Model.write mem (B * i) m)) fl.
  { apply/Forall_forall => x I. apply: intact_write => //; last by move/Forall_forall: DA; apply.
    apply: NI. apply/in_app_iff. right. apply/in_app_iff. left. by apply: in_map. }
  rewrite /Vq_Model.add_available_buf. cbn [Vq_Model.q_mem Vq_Model.q_free Vq_Model.q_ndesc Vq_Model.q_avail Vq_Model.q_used].
  destruct n as [|n].
  - have -> : (length fl + length us =? nd) = true by apply/Nat.eqb_eq; lia.
    rewrite store_status. cbn [obind]. eexists. eexists. split; first by []. rewrite put_same. split; first by [].
    by rewrite /Vq_Model.buffer_free Vq_Proofs.div_block.
  - have -> : (length fl + length us =? nd) = false by apply/Nat.eqb_neq; lia.
    rewrite store_status. cbn [obind]. eexists. eexists. split; first by []. rewrite put_same. split; first by []. cbn [snd].
    have -> : map on_way fl ++ [[(B * i, length m)]] = map on_way (fl ++ [(i, m)]) by rewrite map_app.
    have -> : map snd fl ++ [m] = map snd (fl ++ [(i, m)]) by rewrite map_app.
    constructor.
    + rewrite map_app. cbn [map fst]. apply: (Permutation_NoDup _ ND). rewrite -!app_assoc. cbn [app].
      rewrite app_assoc. rewrite [X in Permutation _ X]app_assoc. exact: Permutation_middle.
    + rewrite app_length. move: NB => /= NB. lia.
    + rewrite app_length /=. lia.
    + apply/Forall_app. split=> //. constructor=> //. split=> //=. exact: Vq_Proofs.read_write.
Qed.
Lemma read_back m l : word (N.of_nat (length m)) -> let a := 0%N :: little 8 (N.of_nat (length m)) ++ m ++ l in
  (if N.eqb (status a) 0 then Message (firstn (N.to_nat (of_le (firstn 8 (skipn 1 a)))) (skipn 9 a)) else Failed) = Message m.
Proof.
  move=> W a. have E : skipn 9 a = m ++ l by []. have F : firstn 8 (skipn 1 a) = little 8 (N.of_nat (length m)) by [].
  rewrite E F of_le_word // Nat2N.id firstn_app Nat.sub_diag firstn_O app_nil_r firstn_all. done.
Qed.
Lemma recv_step q c room qs : inv q c -> qs p = Some q -> B <= room ->
  exists qs' q', call B p (CRecv room) qs = Some (fst (cake_step B nb nd c (CRecv room)), qs') /\ qs' p = Some q' /\ inv q' (snd (cake_step B nb nd c (CRecv room))).
Proof.
  move=> IV Q R. cbn [call]. rewrite /ffivirtqueue_device_recv arr_load. cbn [obind]. rewrite !of_le_word // Q. cbn [obind].
  have IV' := IV. case: IV' Q => mem free n fl us ND NB NDS DA Q. rewrite /Vq_Model.get_available_buf /cake_step. cbn [pending received Vq_Model.q_avail].
  destruct fl as [|[i m] fl]; cbn [map].
  { rewrite store_status. cbn [obind]. exists qs. eexists. split; first by []. split; first exact: Q. cbn [snd]. by inversion IV. }
  inversion DA as [|? ? [LM RM] DA']; subst. cbn [fst snd] in LM, RM. rewrite /on_way. cbn [fst snd Vq_Model.q_mem]. rewrite RM.
  rewrite -[0%N :: little 8 p ++ _]/([0%N] ++ little 8 p ++ repeat 0%N room) le_little (store_app [0%N] (little 8 (N.of_nat (length m))) (little 8 p)) //.
  cbn [obind]. rewrite app_assoc store_firstn //; first by rewrite repeat_length; lia. cbn [obind app]. rewrite -app_comm_cons store_status. cbn [obind].
  eexists. eexists. split; [apply: (f_equal Some); apply: (f_equal2 pair); last by []|split; first by rewrite put_same].
  { apply: read_back. have BW1 := BW. unfold word in BW1 |- *. lia. }
  cbn [snd]. rewrite /Vq_Model.add_used_buf. cbn [Vq_Model.q_mem Vq_Model.q_free Vq_Model.q_ndesc Vq_Model.q_avail Vq_Model.q_used].
    have -> : map back_way us ++ [([(B * i, length m)], 0)] = map back_way (us ++ [(i, length m)]) by rewrite map_app.
    have -> : length us + 1 = length (us ++ [(i, length m)]) by rewrite app_length.
    constructor.
    + apply: (Permutation_NoDup _ ND). apply: Permutation_app_head. rewrite map_app. cbn [map fst]. rewrite app_assoc.
      apply: (Permutation_trans _ (Permutation_cons_append _ _)). done.
    + rewrite app_length /=. move: NB => /= NB. lia.
    + rewrite app_length /=. move: NDS => /= NDS. lia.
    + done.
Qed.
Lemma collect_step q c qs : inv q c -> qs p = Some q ->
  exists qs' q', call B p CCollect qs = Some (fst (cake_step B nb nd c CCollect), qs') /\ qs' p = Some q' /\ inv q' (snd (cake_step B nb nd c CCollect)).
Proof.
  move=> IV Q. cbn [call]. rewrite /ffivirtqueue_driver_recv. rewrite -[little 8 p]app_nil_r arr_load. cbn [obind]. rewrite !of_le_word // Q. cbn [obind].
  have IV' := IV. case: IV' Q => mem free n fl us ND NB NDS DA Q. rewrite /Vq_Model.get_used_buf /cake_step. cbn [pending received Vq_Model.q_used].
  destruct us as [|[i l] us]; cbn [map length].
  { rewrite store_status. cbn [obind]. exists qs. eexists. split; first by []. split; first exact: Q. cbn [snd]. by inversion IV. }
  rewrite /back_way. cbn [fst snd]. rewrite store_status. cbn [obind]. eexists. eexists. split; first by []. split; first by rewrite put_same.
  cbn [free_chain snd]. rewrite /Vq_Model.buffer_free /Vq_Model.free_desc Vq_Proofs.div_block //.
  cbn [Vq_Model.q_mem Vq_Model.q_free Vq_Model.q_ndesc Vq_Model.q_avail Vq_Model.q_used]. constructor=> //.
  - apply: (Permutation_NoDup _ ND). cbn [map fst app]. rewrite app_assoc. rewrite [in X in Permutation _ X]app_assoc. apply: Permutation_sym. exact: Permutation_middle.
  - move: NB => /= NB. lia.
  - move: NDS => /= NDS. lia.
Qed.
Lemma calls_ok os : forall q c qs, inv q c -> qs p = Some q -> Forall (sane B) os ->
  exists qs', calls B p os qs = Some (fst (cake_steps B nb nd c os), qs').
Proof.
  elim: os => [|o os IH] q c qs IV Q SA; first by exists qs. inversion SA as [|? ? S1 S2]; subst.
  have [qs1 [q1 [E [Q1 IV1]]]] : exists qs' q', call B p o qs = Some (fst (cake_step B nb nd c o), qs') /\ qs' p = Some q' /\ inv q' (snd (cake_step B nb nd c o)).
  { case: o S1 {SA} => [m|room|] S1; [exact: (send_step q c m qs IV Q S1)|exact: (recv_step q c room qs IV Q S1)|exact: (collect_step q c qs IV Q)]. }
  cbn [calls cake_steps]. rewrite E. case ES: (cake_step B nb nd c o) => [r c1]. rewrite ES in IV1. cbn [fst snd] in *.
  have [qs2 E2] := IH _ _ _ IV1 Q1 S2. rewrite E2. case: (cake_steps B nb nd c1 os) => [rs c2]. by exists qs2.
Qed.
End Queue.
Lemma virtqueue_ok B p nb nd q qs os : 0 < B -> word p -> word (N.of_nat B) -> qs p = Some q -> set_up nb nd q -> Forall (sane B) os ->
  exists qs', calls B p os qs = Some (fst (cake_steps B nb nd (Channel [] 0) os), qs').
Proof.
  move=> BP WP BW Q [L [ND [NE [A U]]]] SA. apply: (calls_ok B p nb nd BP WP BW os q) => //.
  case: q L ND NE A U {Q} => m f n a u /= <- ND <- -> ->. apply: (Inv B _ _ m f n [] []) => //=; rewrite ?app_nil_r //; lia.
Qed.
