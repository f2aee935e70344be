(** Proofs about the tables of channels. *)
From Coq Require Import String List Bool ZArith Lia ssreflect.
From Verif Require Import Chan_Model Chan_Spec.
Import ListNotations.
Open Scope Z_scope.

Lemma role_eqbP a b : role_eqb a b = true <-> a = b.
Proof. by destruct a, b. Qed.
Lemma mrole_eqbP a b : mrole_eqb a b = true <-> a = b.
Proof. by destruct a, b. Qed.

Lemma vq_run_app rs1 : forall s rs2,
  vq_run s (rs1 ++ rs2) = match vq_run s rs1 with Some s => vq_run s rs2 | None => None end.
Proof. induction rs1 as [|r rs1 IH]; intros s rs2; [done|]. cbn. destruct (vq_register s r) as [[z s']|]; [apply IH|done]. Qed.
Lemma mq_run_app rs1 : forall s rs2,
  mq_run s (rs1 ++ rs2) = match mq_run s rs1 with Some s => mq_run s rs2 | None => None end.
Proof. induction rs1 as [|r rs1 IH]; intros s rs2; [done|]. cbn. destruct (mq_register s r) as [[z s']|]; [apply IH|done]. Qed.

Definition chan_of (r : vreg) : vchan :=
  mk_vchan (vr_buf r) (vr_size r) (vr_len r) (vr_notify r) (vr_recv r) (vr_badge r) (vr_role r) 0 (Some (vr_name r)).

Lemma vq_register_cases s r z s' : vq_register s r = Returns (z, s') ->
  (vq_valid r /\ z = 0 /\ s' = mk_vqs (upd (vq_arr s) (vr_id r) (chan_of r)) (vq_num s + 1)) \/
  (~ vq_valid r /\ z = -1 /\ s' = s).
Proof.
  unfold vq_register, vq_valid, max_vq.
  destruct (Z.ltb_spec 100 (vr_id r)); [intros E; injection E as <- <-; right; split; [lia|done]|].
  destruct (Z.eqb_spec (vr_buf r) 0); cbn [orb]; [intros E; injection E as <- <-; right; split; [lia|done]|].
  destruct (Z.eqb_spec (vr_notify r) 0); [intros E; injection E as <- <-; right; split; [lia|done]|].
  destruct (Z.ltb_spec (vr_id r) 0); [done|]. intros E; injection E as <- <-. left. split; [lia|done].
Qed.
Lemma vq_register_valid s r : vq_valid r ->
  vq_register s r = Returns (0, mk_vqs (upd (vq_arr s) (vr_id r) (chan_of r)) (vq_num s + 1)).
Proof.
  unfold vq_valid, vq_register, max_vq. intros [H1 [H2 H3]].
  destruct (Z.ltb_spec 100 (vr_id r)); [lia|]. destruct (Z.eqb_spec (vr_buf r) 0); [done|].
  destruct (Z.eqb_spec (vr_notify r) 0); [done|]. cbn [orb]. destruct (Z.ltb_spec (vr_id r) 0); [lia|done].
Qed.

Lemma vq_invariant rs : forall s, vq_run vq_init rs = Some s -> forall id,
  (vq_arr s id = no_vchan /\ (forall q, In q rs -> vq_valid q -> vr_id q <> id)) \/
  (exists r, last_under rs id r /\ vq_arr s id = chan_of r).
Proof.
  induction rs as [|r rs IH] using rev_ind; intros s H id.
  - injection H as <-. by left.
  - rewrite vq_run_app in H. destruct (vq_run vq_init rs) as [s0|]; [|done]. cbn in H.
    destruct (vq_register s0 r) as [[z s']|] eqn:E; [|done]. injection H as <-.
    specialize (IH s0 eq_refl id).
    apply vq_register_cases in E as [[Hv [_ ->]]|[Hv [_ ->]]]; cbn [vq_arr].
    + unfold upd. destruct (Z.eqb_spec id (vr_id r)) as [->|Hne].
      * right. exists r. split; [|done]. by exists rs, [].
      * destruct IH as [[Ha Hq]|[q [[b [a [-> [Hqv [Hqi Hqa]]]]] Ha]]].
        -- left. split; [done|]. intros q Hq1 Hq2. apply in_app_iff in Hq1 as [Hq1|[<-|[]]]; [by apply Hq|congruence].
        -- right. exists q. split; [|done]. exists b, (a ++ [r]). rewrite -app_assoc. split; [done|].
           split; [done|]. split; [done|]. intros x Hx1 Hx2. apply in_app_iff in Hx1 as [Hx1|[<-|[]]]; [by apply Hqa|congruence].
    + destruct IH as [[Ha Hq]|[q [[b [a [-> [Hqv [Hqi Hqa]]]]] Ha]]].
      -- left. split; [done|]. intros q Hq1 Hq2. apply in_app_iff in Hq1 as [Hq1|[<-|[]]]; [by apply Hq|done].
      -- right. exists q. split; [|done]. exists b, (a ++ [r]). rewrite -app_assoc. split; [done|].
         split; [done|]. split; [done|]. intros x Hx1 Hx2. apply in_app_iff in Hx1 as [Hx1|[<-|[]]]; [by apply Hqa|done].
Qed.

(** There is one last registration. *)
Lemma last_unique rs : forall id r q, last_under rs id r -> last_under rs id q -> r = q.
Proof.
  induction rs as [|x rs IH] using rev_ind; intros id r q [b [a [E [Hv [Hi Ha]]]]] [b' [a' [E' [Hv' [Hi' Ha']]]]].
  - by destruct b.
  - destruct a as [|y a _] using rev_ind; destruct a' as [|y' a' _] using rev_ind.
    + apply app_inj_tail in E, E'. destruct E, E'; congruence.
    + apply app_inj_tail in E as [-> ->]. rewrite app_comm_cons app_assoc in E'. apply app_inj_tail in E' as [E' Ey].
      subst y'. by case (Ha' r); [apply in_app_iff; right; left| |].
    + apply app_inj_tail in E' as [-> ->]. rewrite app_comm_cons app_assoc in E. apply app_inj_tail in E as [E Ey].
      subst y. by case (Ha q); [apply in_app_iff; right; left| |].
    + rewrite app_comm_cons app_assoc in E. rewrite app_comm_cons app_assoc in E'.
      apply app_inj_tail in E as [E _]. apply app_inj_tail in E' as [E' _].
      apply (IH id); [exists b, a|exists b', a']; (split; [done|]; split; [done|]; split; [done|]);
        intros z Hz; [apply Ha|apply Ha']; apply in_app_iff; by left.
Qed.

Lemma is_chan_of r : is_channel (chan_of r) r.
Proof. by repeat split. Qed.
Lemma last_valid rs id r : last_under rs id r -> vq_valid r /\ vr_id r = id /\ In r rs.
Proof. intros [b [a [-> [Hv [Hi _]]]]]. split; [done|]. split; [done|]. apply in_app_iff. right. by left. Qed.

Lemma vq_get_found rs s id rl r : vq_run vq_init rs = Some s -> last_under rs id r -> vr_role r = rl ->
  rl <> Unassigned -> exists c, vq_get s rl id = Some c /\ is_channel c r.
Proof.
  intros Hr Hl Hro Hu. destruct (vq_invariant rs s Hr id) as [[_ Hq]|[q [Hq Ha]]].
  - destruct (last_valid _ _ _ Hl) as [Hv [Hi Hin]]. by case (Hq r).
  - rewrite (last_unique _ _ _ _ Hq Hl) in Ha. destruct (last_valid _ _ _ Hl) as [[Hid [Hb Hn]] [Hi Hin]].
    exists (chan_of r). split; [|apply is_chan_of]. unfold vq_get, max_vq. rewrite Ha. cbn.
    destruct (Z.ltb_spec 100 id); [lia|]. rewrite Hro.
    destruct (role_eqb rl Unassigned) eqn:E; [by apply role_eqbP in E|].
    destruct (Z.eqb_spec (vr_buf r) 0); [done|]. by rewrite (proj2 (role_eqbP rl rl)).
Qed.
Lemma vq_get_sound rs s id rl c : vq_run vq_init rs = Some s -> vq_get s rl id = Some c ->
  exists r, last_under rs id r /\ vr_role r = rl /\ is_channel c r.
Proof.
  intros Hr H. unfold vq_get in H.
  destruct (vq_invariant rs s Hr id) as [[Ha _]|[q [Hq Ha]]]; rewrite Ha in H; cbn in H.
  - by destruct (max_vq <? id).
  - destruct (max_vq <? id); [done|]. destruct (role_eqb (vr_role q) Unassigned); [done|].
    destruct (vr_buf q =? 0); [done|]. destruct (role_eqb (vr_role q) rl) eqn:E; [|done].
    injection H as <-. exists q. split; [done|]. split; [by apply role_eqbP|]. apply is_chan_of.
Qed.

Lemma vq_init_ok rs s id r : vq_run vq_init rs = Some s -> last_under rs id r ->
  vq_driver_init s id = (if role_eqb (vr_role r) Driver
    then Some (vr_buf r, vr_len r, vr_size r, vr_notify r, (vr_recv r, vr_badge r)) else None) /\
  vq_device_init s id = (if role_eqb (vr_role r) Device
    then Some (vr_buf r, vr_len r, vr_notify r, (vr_recv r, vr_badge r)) else None).
Proof.
  intros Hr Hl.
  assert (G : forall rl, rl <> Unassigned -> vq_get s rl id = if role_eqb (vr_role r) rl then Some (chan_of r) else None).
  { intros rl Hrl. destruct (vq_invariant rs s Hr id) as [[_ Hq]|[q [Hq Ha]]].
    - destruct (last_valid _ _ _ Hl) as [Hv [Hi Hin]]. by case (Hq r).
    - rewrite (last_unique _ _ _ _ Hq Hl) in Ha. destruct (last_valid _ _ _ Hl) as [[Hid [Hb Hn]] [Hi Hin]].
      unfold vq_get, max_vq. rewrite Ha. cbn.
      destruct (Z.ltb_spec 100 id); [lia|].
      destruct (role_eqb (vr_role r) Unassigned) eqn:E.
      + apply role_eqbP in E. rewrite E. by destruct rl.
      + destruct (Z.eqb_spec (vr_buf r) 0); [done|]. by destruct (role_eqb (vr_role r) rl). }
  unfold vq_driver_init, vq_device_init. rewrite !G; try done.
  split; by destruct (role_eqb _ _).
Qed.

Lemma vq_result rs s r : vq_run vq_init rs = Some s -> 0 <= vr_id r ->
  exists z s', vq_register s r = Returns (z, s') /\ (z = 0 <-> vq_valid r) /\ (z = 0 \/ z = -1 /\ s' = s).
Proof.
  intros _ Hid. destruct (vq_register s r) as [[z s']|] eqn:E.
  - exists z, s'. split; [done|]. apply vq_register_cases in E as [[Hv [-> ->]]|[Hv [-> ->]]]; split; try tauto.
    split; [done|]. intros Hc; by case (Hv Hc).
  - exfalso. unfold vq_register in E. destruct (max_vq <? vr_id r); [done|].
    destruct (_ || _); [done|]. destruct (Z.ltb_spec (vr_id r) 0); [lia|done].
Qed.

(** *** Names *)
Lemma vq_find_ok s name n : forall i, (forall j, i <= j < i + Z.of_nat n -> vc_name (vq_arr s j) <> None) ->
  (exists k, i <= k < i + Z.of_nat n /\ vq_find s name n i = Returns k /\
     (exists x, vc_name (vq_arr s k) = Some x /\ same_name name x = true) /\
     forall j x, i <= j < k -> vc_name (vq_arr s j) = Some x -> same_name name x = false) \/
  (vq_find s name n i = Returns (-1) /\
     forall j x, i <= j < i + Z.of_nat n -> vc_name (vq_arr s j) = Some x -> same_name name x = false).
Proof.
  induction n as [|n IH]; intros i H.
  - right. split; [done|]. intros; lia.
  - cbn [vq_find]. destruct (vc_name (vq_arr s i)) as [x|] eqn:Ex; [|by case (H i); [lia|]].
    destruct (same_name name x) eqn:Es.
    + left. exists i. split; [lia|]. split; [done|]. split; [by exists x|]. intros; lia.
    + destruct (IH (i + 1)) as [[k [Hk [Hf [Hx Hl]]]]|[Hf Hl]].
      * intros j Hj. apply H. lia.
      * left. exists k. split; [lia|]. split; [done|]. split; [done|]. intros j y Hj Hy.
        destruct (Z.eq_dec j i) as [->|]; [congruence|]. apply (Hl j); [lia|done].
      * right. split; [done|]. intros j y Hj Hy. destruct (Z.eq_dec j i) as [->|]; [congruence|].
        apply (Hl j); [lia|done].
Qed.
(** The search stops at the first match. *)
Lemma vq_find_first s name k n : forall i, i <= k < i + Z.of_nat n ->
  (forall j, i <= j < k -> exists x, vc_name (vq_arr s j) = Some x /\ same_name name x = false) ->
  (exists x, vc_name (vq_arr s k) = Some x /\ same_name name x = true) ->
  vq_find s name n i = Returns k.
Proof.
  induction n as [|n IH]; intros i Hk Hl [x [Hx Hs]]; [lia|]. cbn [vq_find].
  destruct (Z.eq_dec i k) as [->|Hne].
  - by rewrite Hx Hs.
  - destruct (Hl i) as [y [Hy Hy']]; [lia|]. rewrite Hy Hy'. apply IH; [lia| |by exists x].
    intros j Hj. apply Hl. lia.
Qed.

Lemma same_name_short a b : (String.length a <= 200)%nat -> (String.length b <= 200)%nat -> same_name a b = true <-> a = b.
Proof.
  intros Ha Hb.
  assert (G : forall s n, (String.length s <= n)%nat -> substring 0 n s = s).
  { induction s as [|c s IH]; intros [|n] Hs; cbn in *; try done; try lia. rewrite IH; [lia|done]. }
  unfold same_name. rewrite !G; try done. apply String.eqb_eq.
Qed.

Lemma chan_name rs s id r : vq_run vq_init rs = Some s -> last_under rs id r -> vc_name (vq_arr s id) = Some (vr_name r).
Proof.
  intros Hr Hl. destruct (vq_invariant rs s Hr id) as [[_ Hq]|[q [Hq Ha]]].
  - destruct (last_valid _ _ _ Hl) as [Hv [Hi Hin]]. by case (Hq r).
  - by rewrite Ha (last_unique _ _ _ _ Hq Hl).
Qed.

Lemma vq_name_found rs s id r : vq_run vq_init rs = Some s -> id < 100 -> last_under rs id r ->
  (String.length (vr_name r) <= 200)%nat ->
  (forall j, 0 <= j < id -> exists q, last_under rs j q /\ vr_name q <> vr_name r /\ (String.length (vr_name q) <= 200)%nat) ->
  vq_id_from_name s (vr_name r) = Returns id.
Proof.
  intros Hr Hid Hl Hs Hj. destruct (last_valid _ _ _ Hl) as [[Hid' _] [Hi _]].
  unfold vq_id_from_name. apply vq_find_first; [unfold max_vq; lia| |].
  - intros j Hj'. destruct (Hj j Hj') as [q [Hq [Hn Hs']]]. exists (vr_name q).
    split; [by apply (chan_name rs)|]. destruct (same_name (vr_name r) (vr_name q)) eqn:E; [|done].
    apply same_name_short in E; [congruence|done|done].
  - exists (vr_name r). split; [by apply (chan_name rs)|]. by apply same_name_short.
Qed.
Lemma vq_name_absent rs s name : vq_run vq_init rs = Some s -> (String.length name <= 200)%nat ->
  (forall j, 0 <= j < 100 -> exists q, last_under rs j q /\ vr_name q <> name /\ (String.length (vr_name q) <= 200)%nat) ->
  vq_id_from_name s name = Returns (-1).
Proof.
  intros Hr Hs Hj. unfold vq_id_from_name.
  destruct (vq_find_ok s name (Z.to_nat max_vq) 0) as [[k [Hk [Hf [[x [Hx Hx']] _]]]]|[Hf _]]; [| |done].
  - intros j Hj'. destruct (Hj j) as [q [Hq _]]; [unfold max_vq in *; lia|]. by rewrite (chan_name rs s j q).
  - exfalso. destruct (Hj k) as [q [Hq [Hn Hs']]]; [unfold max_vq in *; lia|].
    rewrite (chan_name rs s k q Hr Hq) in Hx. injection Hx as <-. apply (proj1 (same_name_short _ _ Hs Hs')) in Hx'. congruence.
Qed.

Lemma vq_count rs : forall s, vq_run vq_init rs = Some s ->
  exists valid, vq_num s = Z.of_nat (List.length valid) /\
    (forall r, In r valid <-> In r rs /\ vq_valid r) /\ (NoDup rs -> NoDup valid).
Proof.
  induction rs as [|r rs IH] using rev_ind; intros s H.
  - injection H as <-. exists []. split; [done|]. split; [|constructor]. intros r. split; [done|]. by intros [].
  - rewrite vq_run_app in H. destruct (vq_run vq_init rs) as [s0|]; [|done]. cbn in H.
    destruct (vq_register s0 r) as [[z s']|] eqn:E; [|done]. injection H as <-.
    destruct (IH s0 eq_refl) as [v [Hn [Hv Hd]]].
    apply vq_register_cases in E as [[Hval [_ ->]]|[Hval [_ ->]]].
    + exists (v ++ [r]). rewrite app_length. cbn. split; [lia|]. split.
      * intros q. rewrite !in_app_iff Hv. cbn. intuition congruence.
      * intros H. apply NoDup_remove in H as [H1 H2]. rewrite app_nil_r in H1, H2.
        apply (proj2 (NoDup_Add (Add_app r v []))). rewrite app_nil_r. split; [by apply Hd|].
        rewrite Hv. tauto.
    + exists v. split; [done|]. split.
      * intros q. rewrite !in_app_iff Hv. cbn. intuition congruence.
      * intros H. apply NoDup_remove in H as [H1 _]. rewrite app_nil_r in H1. by apply Hd.
Qed.

(** *** Message queues *)
Definition mchan_of (r : mreg) : mchan := mk_mchan (mr_funcs r) (mr_buf r) (mr_len r) (mr_size r) (mr_msg r).
Lemma given_valid r : mq_given (mr_funcs r) = true <->
  match mr_funcs r with NoFuncs => False | Sender n => n <> 0 | Receiver p w => p <> 0 /\ w <> 0 end.
Proof.
  destruct (mr_funcs r) as [|n|p w]; cbn; [done| |].
  - destruct (Z.eqb_spec n 0); cbn; split; congruence.
  - destruct (Z.eqb_spec p 0), (Z.eqb_spec w 0); cbn; split; try done; intros []; congruence.
Qed.

Lemma mq_register_cases s r b s' : mq_num s = 0 -> mq_register s r = Returns (b, s') ->
  (mq_valid r /\ mrole_of (mc_funcs (mq_arr s (mr_id r))) = MUnassigned /\ b = true /\
     s' = mk_mqs (upd (mq_arr s) (mr_id r) (mchan_of r)) (mq_num s)) \/
  (~ (mq_valid r /\ mrole_of (mc_funcs (mq_arr s (mr_id r))) = MUnassigned) /\ b = false /\ s' = s).
Proof.
  intros Hn. unfold mq_register, mq_check, mq_valid, max_mq. rewrite Hn -given_valid.
  destruct (Z.leb_spec 100 (mr_id r)); [intros E; injection E as <- <-; right; split; [lia|done]|].
  cbn [Z.leb Z.compare].
  destruct (Z.ltb_spec (mr_id r) 0); [done|].
  destruct (mrole_eqb (mrole_of (mc_funcs (mq_arr s (mr_id r)))) MUnassigned) eqn:Er; cbn [negb].
  2:{ intros E; injection E as <- <-. right. split; [|done]. intros [_ Hx]. by rewrite Hx in Er. }
  apply mrole_eqbP in Er.
  destruct (Z.eqb_spec (mr_buf r) 0); [intros E; injection E as <- <-; right; split; [lia|done]|].
  destruct (Z.leb_spec (mr_size r) (mr_msg r)); [intros E; injection E as <- <-; right; split; [lia|done]|].
  destruct (mq_given (mr_funcs r)) eqn:Eg; cbn [negb]; intros E; injection E as <- <-.
  - left. split; [done|]. done.
  - right. split; [|done]. by intros [[_ [_ [_ Hx]]] _].
Qed.
Lemma mq_register_fault s r : mq_num s = 0 -> mq_register s r = Fault -> mr_id r < 0.
Proof.
  intros Hn. unfold mq_register, mq_check, max_mq. rewrite Hn.
  destruct (Z.leb_spec 100 (mr_id r)); [done|]. cbn [Z.leb Z.compare].
  destruct (Z.ltb_spec (mr_id r) 0); [done|].
  destruct (negb _); [done|]. destruct (_ =? _); [done|]. destruct (_ <=? _); [done|]. by destruct (negb _).
Qed.
Lemma valid_role r : mq_valid r -> mrole_of (mr_funcs r) <> MUnassigned.
Proof. unfold mq_valid. destruct (mr_funcs r); cbn; intros (H1 & H2 & H3 & H4); done. Qed.

Lemma mq_invariant rs : forall s, mq_run mq_init rs = Some s -> mq_num s = 0 /\ forall id,
  (mq_arr s id = no_mchan /\ (forall q, In q rs -> mq_valid q -> mr_id q <> id)) \/
  (exists r, first_under rs id r /\ mq_arr s id = mchan_of r).
Proof.
  induction rs as [|r rs IH] using rev_ind; intros s H.
  - injection H as <-. split; [done|]. intros id. by left.
  - rewrite mq_run_app in H. destruct (mq_run mq_init rs) as [s0|]; [|done]. cbn in H.
    destruct (mq_register s0 r) as [[z s']|] eqn:E; [|done]. injection H as <-.
    destruct (IH s0 eq_refl) as [Hn0 IH'].
    assert (Hmore : forall id q, first_under rs id q -> first_under (rs ++ [r]) id q).
    { intros id q [b [a [-> H]]]. exists b, (a ++ [r]). by rewrite -app_assoc. }
    apply mq_register_cases in E as [[Hv [Hu [_ ->]]]|[Hv [_ ->]]]; [| |done]; (split; [done|]); intros id; cbn [mq_arr].
    + unfold upd. destruct (Z.eqb_spec id (mr_id r)) as [->|Hne].
      * right. exists r. split; [|done]. exists rs, []. split; [done|]. split; [done|]. split; [done|].
        destruct (IH' (mr_id r)) as [[_ Hq]|[q [Hq Ha]]]; [done|].
        rewrite Ha in Hu. destruct Hq as [b [a [-> [Hqv _]]]]. by case (valid_role _ Hqv).
      * destruct (IH' id) as [[Ha Hq]|[q [Hq Ha]]].
        -- left. split; [done|]. intros q Hq1 Hq2. apply in_app_iff in Hq1 as [Hq1|[<-|[]]]; [by apply Hq|congruence].
        -- right. exists q. split; [by apply Hmore|done].
    + destruct (IH' id) as [[Ha Hq]|[q [Hq Ha]]].
      -- left. split; [done|]. intros q Hq1 Hq2. apply in_app_iff in Hq1 as [Hq1|[<-|[]]]; [by apply Hq|].
         intros Hid. subst id. apply Hv. split; [done|]. by rewrite Ha.
      -- right. exists q. split; [by apply Hmore|done].
Qed.

Lemma first_unique rs : forall id r q, first_under rs id r -> first_under rs id q -> r = q.
Proof.
  induction rs as [|x rs IH]; intros id r q [b [a [E [Hv [Hi Ha]]]]] [b' [a' [E' [Hv' [Hi' Ha']]]]].
  - by destruct b.
  - destruct b as [|y b], b' as [|y' b']; cbn in E, E'.
    + congruence.
    + injection E as E1 E2. injection E' as E1' E2'. exfalso. apply (Ha' r); [left; congruence|done|done].
    + injection E as E1 E2. injection E' as E1' E2'. exfalso. apply (Ha q); [left; congruence|done|done].
    + injection E as E1 E2. injection E' as E1' E2'. apply (IH id).
      * exists b, a. split; [done|]. split; [done|]. split; [done|]. intros z Hz. apply Ha. by right.
      * exists b', a'. split; [done|]. split; [done|]. split; [done|]. intros z Hz. apply Ha'. by right.
Qed.

Lemma mq_get_iff rs s id rl c : mq_run mq_init rs = Some s -> 0 <= id -> rl <> MUnassigned ->
  mq_get s id rl = Returns (Some c) <->
  exists r, first_under rs id r /\ mrole_of (mr_funcs r) = rl /\ is_mchannel c r.
Proof.
  intros Hr Hid Hrl. destruct (mq_invariant rs s Hr) as [Hn Hinv]. unfold mq_get, max_mq.
  destruct (mrole_eqb rl MUnassigned) eqn:Eu; [by apply mrole_eqbP in Eu|].
  destruct (Z.ltb_spec id 0); [lia|].
  destruct (Hinv id) as [[Ha Hq]|[q [Hq Ha]]]; rewrite Ha.
  - split.
    + destruct (100 <=? id); [done|]. cbn. by destruct rl.
    + intros [r [[b [a [-> [Hv [Hi _]]]]] _]]. exfalso. apply (Hq r); [|done|done]. apply in_app_iff. right. by left.
  - assert (Hv : mq_valid q /\ mr_id q = id) by (destruct Hq as [b [a [_ [Hv [Hi _]]]]]; done).
    destruct Hv as [[Hi' _] Hi]. destruct (Z.leb_spec 100 id); [lia|]. cbn [mchan_of mc_funcs].
    destruct (mrole_eqb (mrole_of (mr_funcs q)) rl) eqn:E; cbn [negb].
    + apply mrole_eqbP in E. split.
      * intros HH; injection HH as <-. exists q. by repeat split.
      * intros [r [Hf [_ Hc]]]. rewrite (first_unique _ _ _ _ Hf Hq) in Hc. do 2 f_equal.
        destruct c; unfold is_mchannel in Hc; cbn in Hc. destruct Hc as (-> & -> & -> & -> & ->). done.
    + split; [done|]. intros [r [Hf [Hro _]]]. rewrite (first_unique _ _ _ _ Hf Hq) in Hro.
      by rewrite (proj2 (mrole_eqbP _ _) Hro) in E.
Qed.

Lemma mq_accepts rs s r : mq_run mq_init rs = Some s -> 0 <= mr_id r ->
  exists b s', mq_register s r = Returns (b, s') /\
    (b = true <-> mq_valid r /\ forall q, In q rs -> mq_valid q -> mr_id q <> mr_id r) /\
    (b = false -> s' = s).
Proof.
  intros Hr Hid. destruct (mq_invariant rs s Hr) as [Hn Hinv].
  destruct (mq_register s r) as [[b s']|] eqn:E; [|apply mq_register_fault in E; [lia|done]].
  exists b, s'. split; [done|].
  apply mq_register_cases in E as [[Hv [Hu [-> ->]]]|[Hv [-> ->]]]; [| |done].
  - split; [|done]. split; [|done]. intros _. split; [done|].
    destruct (Hinv (mr_id r)) as [[_ Hq]|[q [[b [a [-> [Hqv _]]]] Ha]]]; [done|].
    rewrite Ha in Hu. by case (valid_role _ Hqv).
  - split; [|done]. split; [done|]. intros [Hv1 Hq]. exfalso. apply Hv. split; [done|].
    destruct (Hinv (mr_id r)) as [[-> _]|[q [[b [a [-> [Hqv [Hqi _]]]]] Ha]]]; [done|].
    exfalso. apply (Hq q); [|done|done]. apply in_app_iff. right. by left.
Qed.
