(** Tables of channels: the properties. *)
From Coq Require Import String List Bool ZArith Lia.
From Verif Require Import Chan_Model Chan_Spec Chan_Proofs.
Import ListNotations.
Open Scope Z_scope.

(** ** C83: virtqueue channels *)
(** After any registrations a channel is found exactly by the id and the role of the last valid
    registration under that id, and it is as it was registered. *)
Theorem C83_found : forall rs s id rl r, vq_run vq_init rs = Some s -> last_under rs id r -> vr_role r = rl ->
  rl <> Unassigned -> exists c, vq_get s rl id = Some c /\ is_channel c r.
Proof. exact vq_get_found. Qed.
Print Assumptions C83_found.
Theorem C83_only : forall rs s id rl c, vq_run vq_init rs = Some s -> vq_get s rl id = Some c ->
  exists r, last_under rs id r /\ vr_role r = rl /\ is_channel c r.
Proof. exact vq_get_sound. Qed.
Print Assumptions C83_only.
(** A driver and a device are set up with what was registered for that role. *)
Theorem C83_init : forall rs s id r, vq_run vq_init rs = Some s -> last_under rs id r ->
  vq_driver_init s id = (if role_eqb (vr_role r) Driver
    then Some (vr_buf r, vr_len r, vr_size r, vr_notify r, (vr_recv r, vr_badge r)) else None) /\
  vq_device_init s id = (if role_eqb (vr_role r) Device
    then Some (vr_buf r, vr_len r, vr_notify r, (vr_recv r, vr_badge r)) else None).
Proof. exact vq_init_ok. Qed.
Print Assumptions C83_init.
(** Registering reports failure exactly for invalid arguments, and then changes nothing.
    Partial: the id must not be negative. *)
Theorem C83_result_partial : forall rs s r, vq_run vq_init rs = Some s -> 0 <= vr_id r ->
  exists z s', vq_register s r = Returns (z, s') /\ (z = 0 <-> vq_valid r) /\ (z = 0 \/ z = -1 /\ s' = s).
Proof. exact vq_result. Qed.
Print Assumptions C83_result_partial.
(** The number of channels is the number of valid registrations. *)
Theorem C83_count_partial : forall rs s, vq_run vq_init rs = Some s ->
  exists valid, vq_num s = Z.of_nat (List.length valid) /\
    (forall r, In r valid <-> In r rs /\ vq_valid r) /\ (NoDup rs -> NoDup valid).
Proof. exact vq_count. Qed.
Print Assumptions C83_count_partial.
(** A channel is found by its name.  Partial: all ids before it must have been registered, and the id
    must be below the maximum. *)
Theorem C83_name_partial : forall rs s id r, vq_run vq_init rs = Some s -> id < 100 -> last_under rs id r ->
  (String.length (vr_name r) <= 200)%nat ->
  (forall j, 0 <= j < id -> exists q, last_under rs j q /\ vr_name q <> vr_name r /\ (String.length (vr_name q) <= 200)%nat) ->
  vq_id_from_name s (vr_name r) = Returns id.
Proof. exact vq_name_found. Qed.
Print Assumptions C83_name_partial.
Theorem C83_absent_partial : forall rs s name, vq_run vq_init rs = Some s -> (String.length name <= 200)%nat ->
  (forall j, 0 <= j < 100 -> exists q, last_under rs j q /\ vr_name q <> name /\ (String.length (vr_name q) <= 200)%nat) ->
  vq_id_from_name s name = Returns (-1).
Proof. exact vq_name_absent. Qed.
Print Assumptions C83_absent_partial.

(** A component with the ids 0 and 1, the second registered anew, and a failed registration *)
Definition reg (id : Z) (name : string) (buf : Z) (rl : role) : vreg := mk_vreg id name 16 4096 buf 0x100 7 1 rl.
Definition some_regs : list vreg :=
  [reg 0 "net" 0x1000 Driver; reg 1 "disk" 0x2000 Driver; reg 2 "none" 0 Device; reg 1 "log" 0x3000 Device].
Example regs_case : exists s, vq_run vq_init some_regs = Some s /\
  last_under some_regs 0 (reg 0 "net" 0x1000 Driver) /\ last_under some_regs 1 (reg 1 "log" 0x3000 Device) /\
  vq_num s = 3 /\ vq_get s Driver 1 = None /\ vq_get s Device 2 = None /\
  vq_id_from_name s "net" = Returns 0 /\ vq_id_from_name s "log" = Returns 1.
Proof.
  eexists. split; [reflexivity|].
  assert (V : forall id n b rl, 0 <= id <= 100 -> b <> 0 -> vq_valid (reg id n b rl)).
  { intros id n b rl Hi Hb. split; [exact Hi|]. split; [exact Hb|discriminate]. }
  split; [|split].
  - exists [], [reg 1 "disk" 0x2000 Driver; reg 2 "none" 0 Device; reg 1 "log" 0x3000 Device].
    split; [reflexivity|]. split; [apply V; [lia|discriminate]|]. split; [reflexivity|].
    intros q [<-|[<-|[<-|[]]]] _; discriminate.
  - exists [reg 0 "net" 0x1000 Driver; reg 1 "disk" 0x2000 Driver; reg 2 "none" 0 Device], [].
    split; [reflexivity|]. split; [apply V; [lia|discriminate]|]. split; [reflexivity|]. intros q [].
  - repeat split.
Qed.
(** All ids below 100 *)
Example all_case : exists rs s, vq_run vq_init rs = Some s /\ vq_id_from_name s "other" = Returns (-1) /\
  forall j, 0 <= j < 100 -> exists q, last_under rs j q /\ vr_name q <> "other"%string.
Proof.
  set (rs := map (fun i => reg (Z.of_nat i) "x" 0x1000 Driver) (seq 0 100)).
  assert (R : match vq_run vq_init rs with Some s => vq_id_from_name s "other" | None => Fault end = Returns (-1))
    by (vm_compute; reflexivity).
  exists rs. destruct (vq_run vq_init rs) as [s|]; [|discriminate]. exists s.
  split; [reflexivity|]. split; [exact R|]. subst rs. clear. intros j Hj.
  exists (reg j "x" 0x1000 Driver). split; [|discriminate].
  set (f := fun i => reg (Z.of_nat i) "x" 0x1000 Driver).
  exists (map f (seq 0 (Z.to_nat j))), (map f (seq (S (Z.to_nat j)) (99 - Z.to_nat j))).
  split; [|split; [|split]].
  - change (reg j "x" 0x1000 Driver) with (reg j "x" 0x1000 Driver).
    replace (reg j "x" 0x1000 Driver) with (f (Z.to_nat j)) by (unfold f; rewrite Z2Nat.id; [reflexivity|lia]).
    change (f (Z.to_nat j) :: map f (seq (S (Z.to_nat j)) (99 - Z.to_nat j)))
      with (map f (seq (Z.to_nat j) (S (99 - Z.to_nat j)))).
    rewrite <- map_app. f_equal. rewrite <- seq_app. f_equal. lia.
  - split; [exact (conj (proj1 Hj) (Z.lt_le_incl _ _ (proj2 Hj)))|]. split; discriminate.
  - reflexivity.
  - intros q Hq _. apply in_map_iff in Hq as [i [<- Hi]]. apply in_seq in Hi. unfold f, reg, vr_id. lia.
Qed.

(** An id that has not been registered stops the search by name at a NULL pointer, whether it comes
    before the id looked for or the name is not registered at all. *)
Theorem C83_gap_refuted : exists rs s r, vq_run vq_init rs = Some s /\ last_under rs (vr_id r) r /\
  vq_id_from_name s (vr_name r) = Fault /\ vq_id_from_name s "absent" = Fault.
Proof.
  exists [reg 1 "net" 0x1000 Driver]. eexists. exists (reg 1 "net" 0x1000 Driver). split; [reflexivity|].
  split; [|split; reflexivity]. exists [], []. split; [reflexivity|].
  split; [|split; [reflexivity|intros q []]]. split; [cbn; lia|split; discriminate].
Qed.
Print Assumptions C83_gap_refuted.
(** The greatest id is never found by name. *)
Theorem C83_last_refuted : exists rs s r, vq_run vq_init rs = Some s /\ last_under rs 100 r /\
  (exists c, vq_get s Driver 100 = Some c) /\ vq_id_from_name s (vr_name r) = Returns (-1).
Proof.
  set (rs := map (fun i => reg (Z.of_nat i) "x" 0x1000 Driver) (seq 0 100)).
  assert (R : match vq_run vq_init (rs ++ [reg 100 "y" 0x1000 Driver]) with
              | Some s => (match vq_get s Driver 100 with Some _ => true | None => false end, vq_id_from_name s "y")
              | None => (false, Fault) end = (true, Returns (-1)))
    by (vm_compute; reflexivity).
  exists (rs ++ [reg 100 "y" 0x1000 Driver]). destruct (vq_run vq_init _) as [s|]; [|discriminate].
  injection R as R1 R2. exists s, (reg 100 "y" 0x1000 Driver). split; [reflexivity|].
  split; [|split; [|exact R2]].
  2:{ destruct (vq_get s Driver 100) as [c|]; [exists c; reflexivity|discriminate]. }
  clear. exists rs, []. split; [reflexivity|]. split; [|split; [reflexivity|intros q []]].
  split; [cbn; lia|split; discriminate].
Qed.
Print Assumptions C83_last_refuted.
(** A negative id writes before the array. *)
Theorem C83_negative_refuted : exists r, vr_buf r <> 0 /\ vr_notify r <> 0 /\ vq_register vq_init r = Fault.
Proof. exists (reg (-1) "x" 0x1000 Driver). split; [discriminate|]. split; [discriminate|reflexivity]. Qed.
Print Assumptions C83_negative_refuted.
(** A second channel under one id is accepted: the first is lost, and two are counted. *)
Theorem C83_twice_refuted : exists r1 r2 s1 s2, vr_id r1 = vr_id r2 /\
  vq_register vq_init r1 = Returns (0, s1) /\ vq_register s1 r2 = Returns (0, s2) /\
  (exists c, vq_get s1 (vr_role r1) (vr_id r1) = Some c) /\ vq_get s2 (vr_role r1) (vr_id r1) = None /\
  vq_num s2 = 2 /\ forall id rl, vq_get s2 rl id <> None -> id = vr_id r2.
Proof.
  exists (reg 3 "a" 0x1000 Driver), (reg 3 "b" 0x2000 Device). do 2 eexists.
  split; [reflexivity|]. split; [reflexivity|]. split; [reflexivity|].
  split; [eexists; reflexivity|]. split; [reflexivity|]. split; [reflexivity|].
  intros id rl H. unfold vq_get in H. cbn [vq_arr] in H. unfold upd in H. cbn [vr_id reg] in *.
  destruct (Z.eqb_spec id 3) as [->|Hne]; [reflexivity|]. cbn in H.
  destruct (max_vq <? id); contradiction H; reflexivity.
Qed.
Print Assumptions C83_twice_refuted.

(** ** C84: message queue channels *)
(** After any registrations a channel is found exactly by the id and the role of the first valid
    registration under that id, and it is as it was registered. *)
Theorem C84_found : forall rs s id rl c, mq_run mq_init rs = Some s -> 0 <= id -> rl <> MUnassigned ->
  mq_get s id rl = Returns (Some c) <->
  exists r, first_under rs id r /\ mrole_of (mr_funcs r) = rl /\ is_mchannel c r.
Proof. exact mq_get_iff. Qed.
Print Assumptions C84_found.
(** A registration is accepted exactly if it is valid and the id is free; else nothing changes. *)
Theorem C84_accepts_partial : forall rs s r, mq_run mq_init rs = Some s -> 0 <= mr_id r ->
  exists b s', mq_register s r = Returns (b, s') /\
    (b = true <-> mq_valid r /\ forall q, In q rs -> mq_valid q -> mr_id q <> mr_id r) /\
    (b = false -> s' = s).
Proof. exact mq_accepts. Qed.
Print Assumptions C84_accepts_partial.
Definition some_mregs : list mreg :=
  [mk_mreg 0 0x1000 16 4096 64 (Sender 0x100); mk_mreg 0 0x2000 16 4096 64 (Receiver 0x200 0x300);
   mk_mreg 1 0x3000 16 64 64 (Sender 0x100); mk_mreg 1 0x3000 16 4096 64 (Receiver 0x200 0x300)].
Example mregs_case : exists s, mq_run mq_init some_mregs = Some s /\
  mq_get s 0 MSender = Returns (Some (mk_mchan (Sender 0x100) 0x1000 16 4096 64)) /\
  mq_get s 0 MReceiver = Returns None /\
  mq_get s 1 MReceiver = Returns (Some (mk_mchan (Receiver 0x200 0x300) 0x3000 16 4096 64)) /\
  mq_get s 2 MSender = Returns None /\ mq_get s 100 MSender = Returns None.
Proof. eexists. split; [reflexivity|]. repeat split. Qed.
(** A negative id reads before the array, in registering and in looking up. *)
Theorem C84_negative_refuted : exists r, mr_buf r <> 0 /\ mr_msg r < mr_size r /\ mq_given (mr_funcs r) = true /\
  mq_register mq_init r = Fault /\ mq_get mq_init (mr_id r) MSender = Fault.
Proof.
  exists (mk_mreg (-1) 0x1000 16 4096 64 (Sender 0x100)). split; [discriminate|]. split; [reflexivity|].
  split; [reflexivity|]. split; reflexivity.
Qed.
Print Assumptions C84_negative_refuted.
