(** Proofs about the event connector. *)
From Coq Require Import ZArith List Bool PeanoNat Lia.
From Verif Require Import Event_Model Event_Spec.
Import ListNotations.
Open Scope Z_scope.

Definition id_of (x : upc) : option nat :=
  match x with
  | UIdle | UBlocked => None
  | UPoll1 i | ULock i | UPoll2 i | UCheck i | USet i | UUnlock i _ | UInvoke i => Some i
  end.
Definition undec (x : upc) : bool :=
  match x with UPoll1 _ | ULock _ | UPoll2 _ | UCheck _ | USet _ => true | _ => false end.
Definition calling (x : upc) : bool := match x with UUnlock _ OInvoke | UInvoke _ => true | _ => false end.
Definition crit (x : upc) : bool := match x with UPoll2 _ | UCheck _ | USet _ | UUnlock _ _ => true | _ => false end.
Definition critr (x : rpc) : bool := match x with RRead | RClear _ | RCheck | RPost | RUnlock _ => true | _ => false end.
Definition ind (b : bool) : nat := if b then 1%nat else 0%nat.
Definition slot_is (s : option nat) (i : nat) : bool := match s with Some j => Nat.eqb i j | None => false end.
Definition rcall (r : rpc) : option nat := match r with RUnlock c | RInvoke c => c | _ => None end.

Record LockInv (s : st) : Prop := {
  LR : holder s = Some Run <-> critr (run s) = true;
  LU : forall u, holder s = Some (User u) <-> crit (users s u) = true }.

Record ValInv (s : st) : Prop := {
  V1 : INT_MIN <= hv s <= INT_MAX;
  V1' : run s = RPost -> hv s < INT_MAX;
  V2 : slot s <> None -> hv s <= 0;
  V3 : forall u i, users s u = UCheck i \/ users s u = USet i -> hv s <= 0;
  V4 : match run s with RCheck | RPost | RUnlock _ => slot s = None | RClear c => slot s = c | _ => True end;
  V5 : forall u i, users s u = USet i -> slot s = None }.

Record CntInv (s : st) : Prop := {
  B1 : NoDup (blocked s);
  B2 : forall u, In u (blocked s) <-> users s u = UBlocked;
  B3 : Z.of_nat (List.length (blocked s)) = Z.of_nat (wakeups s) + Z.max (- hv s) 0;
  C1 : Z.of_nat (cnt is_posted (log s)) = Z.max (hv s) 0 + Z.of_nat (wakeups s) +
         Z.of_nat (cnt is_polled (log s)) + Z.of_nat (cnt is_waited (log s)) + Z.of_nat (cnt is_claimed (log s));
  C2 : cnt is_delivered (log s) =
         (in_hand (run s) + cnt is_dropped (log s) + cnt is_posted (log s) + cnt is_taken (log s))%nat }.

Record IdInv (s : st) : Prop := {
  F1 : forall u i, id_of (users s u) = Some i -> (i < fresh s)%nat;
  F2 : forall u v i, id_of (users s u) = Some i -> id_of (users s v) = Some i -> u = v;
  F3 : forall i, (fresh s <= i)%nat ->
    (cnt (registered i) (log s) = 0 /\ cnt (claimed i) (log s) = 0 /\ cnt (refused i) (log s) = 0)%nat;
  D : forall u i, id_of (users s u) = Some i -> undec (users s u) = true ->
    (cnt (registered i) (log s) = 0 /\ cnt (claimed i) (log s) = 0 /\ cnt (refused i) (log s) = 0)%nat;
  E1 : forall i, (cnt (registered i) (log s) + cnt (claimed i) (log s) + cnt (refused i) (log s) <= 1)%nat;
  R1 : forall i, cnt (registered i) (log s) = (cnt (taken i) (log s) + ind (slot_is (slot s) i))%nat;
  J1 : forall i, rcall (run s) = Some i -> cnt (taken i) (log s) = 1%nat /\ cnt (invoked i) (log s) = 0%nat;
  J2 : forall u i, id_of (users s u) = Some i -> calling (users s u) = true ->
         cnt (claimed i) (log s) = 1%nat /\ cnt (invoked i) (log s) = 0%nat;
  J3 : forall i, (cnt (invoked i) (log s) <= cnt (taken i) (log s) + cnt (claimed i) (log s))%nat;
  J4 : forall i, (cnt (invoked i) (log s) < cnt (taken i) (log s) + cnt (claimed i) (log s))%nat ->
         rcall (run s) = Some i \/ exists u, id_of (users s u) = Some i /\ calling (users s u) = true }.

Lemma upd_eq f u x : upd f u x u = x.
Proof. unfold upd. now rewrite Nat.eqb_refl. Qed.
Lemma upd_ne f u x v : v <> u -> upd f u x v = f v.
Proof. unfold upd. intros H. now apply Nat.eqb_neq in H as ->. Qed.

(** Case analysis on a step: [H : step s a = Some s']. *)
Ltac cases H :=
  cbv beta iota zeta delta [step step_run step_user] in H;
  repeat lazymatch type of H with
  | context [match ?x with _ => _ end] => let E := fresh "E" in destruct x eqn:E
  | Some _ = Some ?s' => injection H as H; rewrite <- H; clear H
  | None = Some _ => discriminate H
  end.
Ltac proj := cbn [notif hv wakeups slot holder run users blocked fresh log logs at_run at_user with_hv with_wakeups
  with_slot with_holder with_blocked with_fresh with_notif take] in *.

Ltac usr := match goal with
  | |- context [upd _ ?u _ ?v] => destruct (Nat.eq_dec v u) as [->|]; [rewrite !upd_eq in *|rewrite !upd_ne in * by assumption]
  end.
Ltac usr_in H := match type of H with
  | context [upd _ ?u _ ?v] => destruct (Nat.eq_dec v u) as [->|]; [rewrite !upd_eq in H|rewrite !upd_ne in H by assumption]
  end.

Lemma lock_step s a s' : LockInv s -> step s a = Some s' -> LockInv s'.
Proof.
  intros [LR0 LU0] H. destruct a; cases H; proj; constructor; proj.
  all: try (intros v; try usr).
  all: try match goal with E : users _ ?u = _ |- _ => pose proof (LU0 u) as LUu; rewrite E in LUu end.
  all: try match goal with v : nat |- _ => pose proof (LU0 v) as LUv end.
  all: repeat match goal with E : ?f ?s = _, s : st |- _ => rewrite E in * end; cbn in *.
  all: try match goal with E : users _ _ = _ |- _ => rewrite E in * end.
  all: try destruct o.
  all: try match goal with E : is_idle (users ?s ?u) = true |- _ => pose proof (LU0 u); destruct (users s u); try discriminate E end.
  all: cbn in *.
  all: try solve [intuition (try discriminate; try congruence)].
Qed.


Lemma excl_run s u : LockInv s -> crit (users s u) = true -> critr (run s) = false.
Proof.
  intros [A B] H. apply B in H. destruct (critr (run s)); [|reflexivity].
  destruct A as [_ A]. rewrite (A eq_refl) in H. discriminate.
Qed.
Lemma excl_users s u v : LockInv s -> crit (users s u) = true -> crit (users s v) = true -> u = v.
Proof. intros [_ B] H1 H2. apply B in H1. apply B in H2. congruence. Qed.

Lemma val_step s a s' : LockInv s -> ValInv s -> step s a = Some s' -> ValInv s'.
Proof.
  intros L [V1a V1b V2a V3a V4a V5a] H.
  pose proof (fun u => excl_run s u L) as ME. pose proof (fun u v => excl_users s u v L) as MU. clear L.
  destruct a; cases H; proj; constructor; proj.
  all: unfold pending in *; rewrite ?Z.ltb_lt, ?Z.ltb_ge, ?Z.eqb_eq, ?Z.eqb_neq in *.
  all: repeat match goal with E : run _ = _ |- _ => rewrite E in V4a, V1b, ME; clear E end; cbn in V4a, ME.
  all: try solve [assumption | congruence | exact I | unfold INT_MIN, INT_MAX in *; lia].
  all: try solve [intros; try specialize (V2a ltac:(congruence)); try specialize (V1b eq_refl); unfold INT_MIN, INT_MAX in *; lia || congruence].
  all: try match goal with E : users _ ?u = _ |- _ => pose proof (ME u) as MEu; pose proof (fun v => MU u v) as MUu; pose proof (V3a u) as V3u; rewrite E in MEu, MUu, V3u; cbn in MEu, MUu end.
  all: try solve [specialize (MEu eq_refl); destruct (run _); cbn in *; congruence || assumption || exact I].
  all: try solve [intros v j [K|K]; try usr_in K; try discriminate;
    try (pose proof (V3a v j (or_introl K))); try (pose proof (V3a v j (or_intror K)));
    pose proof (ME v) as MEv; rewrite K in MEv; cbn in MEv; try specialize (MEv eq_refl); try discriminate; try lia;
    eapply V3u; eauto].
  all: try solve [intros v j K; try usr_in K; try discriminate; try (pose proof (V5a v j K)); try congruence; try assumption;
    exfalso; pose proof (MUu v) as MUv; rewrite K in MUv; cbn in MUv; specialize (MUv eq_refl eq_refl); congruence].
  all: intros; eapply V3u; eauto.
Qed.

Lemma cnt_cons p e l : cnt p (e :: l) = (ind (p e) + cnt p l)%nat.
Proof. unfold cnt. simpl. now destruct (p e). Qed.

Lemma remove_length u l : NoDup l -> In u l -> S (List.length (remove Nat.eq_dec u l)) = List.length l.
Proof.
  induction l as [|x l IH]; simpl; [easy|]. intros N [->|I]; inversion N; subst.
  - destruct (Nat.eq_dec u u); [|easy]. f_equal. now rewrite notin_remove.
  - destruct (Nat.eq_dec u x) as [->|]; [easy|]. simpl. f_equal. now apply IH.
Qed.
Lemma remove_NoDup u l : NoDup l -> NoDup (remove Nat.eq_dec u l).
Proof.
  induction l as [|x l IH]; simpl; [easy|]. intros N; inversion N; subst.
  destruct (Nat.eq_dec u x); [now apply IH|]. constructor; [|now apply IH].
  intros I. apply in_remove in I. tauto.
Qed.

Lemma cnt_step s a s' : ValInv s -> CntInv s -> step s a = Some s' -> CntInv s'.
Proof.
  intros V [B1a B2a B3a C1a C2a] H. destruct V as [V1a V1b _ _ _ _].
  assert (RL : forall u, users s u = UBlocked -> S (List.length (remove Nat.eq_dec u (blocked s))) = List.length (blocked s)).
  { intros u Hu. apply remove_length; [assumption|]. now apply B2a. }
  destruct a; cases H; proj; constructor; proj.
  all: unfold pending in *; rewrite ?Z.ltb_lt, ?Z.ltb_ge, ?Z.eqb_eq, ?Z.eqb_neq in *.
  all: rewrite ?cnt_cons; cbn [is_posted is_polled is_waited is_claimed is_delivered is_dropped is_taken ind in_hand Nat.add List.length] in *.
  all: try match goal with E : users _ ?u = UBlocked |- _ => specialize (RL u E) end.
  all: repeat match goal with E : run _ = _ |- _ => rewrite E in C2a; clear E end; cbn [in_hand] in *.
  all: try match goal with E : wakeups _ = _ |- _ => rewrite E in * end.
  all: try assumption.
  all: try lia.
  all: try solve [apply remove_NoDup; assumption].
  all: try match goal with E : is_idle (users _ ?u) = true |- _ =>
     let N := fresh "NB" in assert (N : ~ In u (blocked s)) by (rewrite B2a; destruct (users s u); discriminate) end.
  all: try solve [constructor; assumption].
  all: intros v; try usr; cbn [In]; rewrite ?B2a.
  all: try tauto.
  all: try solve [destruct (users s u); try discriminate; intuition congruence].
  - split; [|discriminate]. intros I. apply in_remove in I. tauto.
  - split.
    + intros I. apply in_remove in I. apply B2a. tauto.
    + intros I. apply in_in_remove; [assumption|]. now apply B2a.
Qed.

Ltac evs := rewrite ?cnt_cons in *; cbn [registered claimed refused taken invoked ind Nat.add slot_is rcall id_of undec calling] in *.
Ltac ev_dec := repeat match goal with
  | |- context [Nat.eqb ?a ?b] => destruct (Nat.eqb_spec a b); subst
  | H : context [Nat.eqb ?a ?b] |- _ => destruct (Nat.eqb_spec a b); subst
  end; cbn [ind Nat.add] in *; try lia; try congruence; try tauto.

Lemma id_step s a s' : LockInv s -> ValInv s -> IdInv s -> step s a = Some s' -> IdInv s'.
Proof.
  intros L V [F1a F2a F3a Da E1a R1a J1a J2a J3a J4a] H. destruct V as [_ _ _ _ V4a V5a].
  assert (FS : cnt (registered (fresh s)) (log s) = 0%nat /\ cnt (claimed (fresh s)) (log s) = 0%nat /\ cnt (refused (fresh s)) (log s) = 0%nat)
    by (apply F3a; lia).
  destruct a; cases H; proj.
  all: try (match goal with E : users _ ?u = _ |- _ =>
    pose proof (F1a u) as F1u; pose proof (fun v => F2a v u) as F2u; pose proof (Da u) as Du; pose proof (J2a u) as J2u; pose proof (V5a u) as V5u;
    rewrite E in F1u, F2u, Du, J2u, V5u end;
    cbn [id_of undec calling] in F1u, F2u, Du, J2u;
    try match type of F1u with forall i, Some ?j = Some i -> _ =>
      specialize (F1u j eq_refl); specialize (Du j eq_refl); specialize (J2u j eq_refl);
      pose proof (E1a j) as E1j; pose proof (R1a j) as R1j; pose proof (J3a j) as J3j; pose proof (J1a j) as J1j end).
  all: try (match goal with E : run _ = _ |- _ => rewrite E in V4a, J1a, J4a; cbn [rcall] in J1a, J4a end).
  all: constructor; proj.
  (* F1 *)
  all: try solve [intros v j K; try usr_in K; evs; try discriminate; try (injection K as <-); try (specialize (F1a _ _ K)); lia].
  (* F3 *)
  all: try solve [intros j K; specialize (F3a j ltac:(lia)); evs; try assumption; ev_dec].
  (* E1, R1, J3 *)
  all: try solve [intros j; specialize (E1a j); specialize (R1a j); specialize (J3a j); evs; try assumption;
    try specialize (Du eq_refl); try (specialize (V5u _ eq_refl); rewrite V5u in * ); try (rewrite V4a in * ); evs; ev_dec].
  (* F2 *)
  all: try solve [intros v w j K1 K2; try usr_in K1; try usr_in K2; evs; try discriminate; try reflexivity; try (injection K1 as <-); try (injection K2 as <-); eauto;
    try (specialize (F1a _ _ K2)); try (specialize (F1a _ _ K1)); try lia; symmetry; eauto].
  (* D, J2 *)
  all: try solve [intros v j K1 K2;
    try (match type of K1 with context [upd _ ?u _ v] => destruct (Nat.eq_dec v u) as [->|NE];
      [rewrite !upd_eq in K1, K2|rewrite !upd_ne in K1, K2 by assumption] end);
    evs; try discriminate; try (injection K1 as <-); try specialize (Du eq_refl);
    try (specialize (Da _ _ K1 K2)); try (specialize (J2a _ _ K1 K2)); try specialize (F1a _ _ K1); try assumption; try tauto;
    specialize (E1a j); specialize (R1a j); specialize (J3a j);
    try (match goal with NE : v <> _ |- _ => specialize (F2u v j K1); let X := fresh in (assert (X : forall i, j = i -> Some i = Some j) by congruence) end);
    ev_dec; exfalso; apply NE; apply F2u; reflexivity].
  all: try solve [intros v j K1 K2; evs; discriminate].
  (* J1 *)
  all: try solve [intros j K; evs; try discriminate; specialize (J1a j); try specialize (J1a K); specialize (E1a j); specialize (R1a j); specialize (J3a j); evs; try assumption; try specialize (Du eq_refl); try specialize (J2u eq_refl); ev_dec].
  (* R1 and J2 again *)
  all: try solve [intros j; specialize (R1a j); evs; lia].
  all: try solve [intros v j K1 K2; usr_in K1; [rewrite upd_eq in K2|rewrite upd_ne in K2 by assumption]; evs;
    [injection K1 as <-; specialize (Du eq_refl); rewrite Nat.eqb_refl; cbn [ind]; lia
    |specialize (J2a _ _ K1 K2); specialize (F2u v j K1); destruct (Nat.eqb_spec j i); [subst; exfalso; auto|cbn [ind]; lia]]].
  (* J4 *)
  all: try solve [intros j K; evs; specialize (J4a j);
    try specialize (J1a _ eq_refl); try (destruct (Nat.eqb_spec j n)); cbn [ind Nat.add] in *; subst; try (left; reflexivity);
    try specialize (J4a ltac:(lia)); evs; try assumption;
    try (destruct J4a as [J4a|J4a]; [try discriminate; congruence|right; exact J4a]);
    pose proof (E1a n); pose proof (R1a n); exfalso; lia].
  all: try solve [intros j K; evs;
    try (match goal with E : users _ ?u = _ |- _ => destruct (Nat.eqb_spec j i); cbn [ind Nat.add] in *; subst;
      [try solve [right; exists u; rewrite upd_eq; split; reflexivity]|] end);
    destruct (J4a j ltac:(lia)) as [X|[w [A B]]]; [left; assumption|right];
    match goal with |- context [upd _ ?u _ _] => destruct (Nat.eq_dec w u) as [->|NE] end;
    [|exists w; rewrite upd_ne by assumption; split; assumption];
    try match goal with E : users _ _ = _ |- _ => rewrite E in A, B; evs; discriminate end;
    destruct (users s u); discriminate].
  all: try solve [intros j K; evs; destruct (J4a j ltac:(lia)) as [X|[w [A B]]]; [left; assumption|right];
    match goal with E : users _ ?u = _ |- _ => destruct (Nat.eq_dec w u) as [->|NE];
      [rewrite E in A, B; evs; discriminate|exists w; rewrite upd_ne by assumption; split; assumption] end].

  - intros v j K1 K2. evs. specialize (J2a _ _ K1 K2). specialize (J1a n eq_refl).
    pose proof (E1a j). pose proof (R1a j). destruct (Nat.eqb_spec j n); subst; cbn [ind]; lia.
  - intros j. evs. specialize (J1a n eq_refl). specialize (J3a j). destruct (Nat.eqb_spec j n); subst; cbn [ind]; lia.
  - intros j. specialize (R1a j). match goal with E : slot _ = _ |- _ => rewrite E end. evs. lia.
  - intros j. specialize (R1a j). match goal with E : slot _ = _ |- _ => rewrite E end. evs. lia.
  - intros j K. destruct (J4a j K) as [X|[w [A B]]]; [left; assumption|right].
    destruct (Nat.eq_dec w u) as [->|NE]; [exists u; rewrite upd_eq; rewrite E in A; split; auto|exists w; rewrite upd_ne by assumption; split; assumption].
  - intros j K. evs. specialize (J2u eq_refl). destruct (Nat.eqb_spec j i); subst; cbn [ind] in K; [exfalso; lia|].
    destruct (J4a j ltac:(lia)) as [X|[w [A B]]]; [left; assumption|right].
    destruct (Nat.eq_dec w u) as [->|NE]; [rewrite E in A; evs; congruence|exists w; rewrite upd_ne by assumption; split; assumption].
Qed.

Record Inv (s : st) : Prop := { I_lock : LockInv s; I_val : ValInv s; I_cnt : CntInv s; I_id : IdInv s }.
Lemma inv_init : Inv init.
Proof.
  constructor; constructor; cbn; try (intros; discriminate); try (intros; now split); try (intros; now auto);
    try (unfold INT_MIN, INT_MAX; lia); try constructor; try easy.
Qed.
Lemma inv_step s a s' : Inv s -> step s a = Some s' -> Inv s'.
Proof.
  intros [L V C J] H. constructor; [eapply lock_step|eapply val_step|eapply cnt_step|eapply id_step]; eassumption.
Qed.
Lemma inv_exec l : forall s s', Inv s -> exec s l = Some s' -> Inv s'.
Proof.
  induction l as [|a l IH]; intros s s' I H; cbn in H; [now injection H as <-|].
  destruct (step s a) as [t|] eqn:E; [|discriminate]. eapply IH; [|exact H]. eapply inv_step; eassumption.
Qed.
Lemma inv_reachable s : reachable s -> Inv s.
Proof. intros [l H]. exact (inv_exec l _ _ inv_init H). Qed.

Lemma no_callback_with_pending s : reachable s -> slot s <> None -> hv s <= 0.
Proof. intros H. apply V2. now apply inv_reachable. Qed.

Lemma mutual_exclusion s t t' : reachable s -> in_critical s t -> in_critical s t' -> t = t'.
Proof.
  intros H. apply inv_reachable in H. destruct H as [[A B] _ _ _].
  assert (G : forall t, in_critical s t -> holder s = Some t).
  { intros [|u]; cbn; intros K; [apply A|apply B]; [destruct (run s)|destruct (users s u)]; easy. }
  intros K K'. apply G in K. apply G in K'. congruence.
Qed.

Lemma nat_zero n : Z.of_nat n = 0 -> n = O. Proof. lia. Qed.
Lemma register_empty s u i : reachable s -> users s u = USet i -> slot s = None.
Proof. intros H. apply V5. now apply inv_reachable. Qed.

Lemma events_accounted s : reachable s ->
  cnt is_delivered (log s) =
    (in_hand (run s) + cnt is_dropped (log s) + cnt is_posted (log s) + cnt is_taken (log s))%nat /\
  Z.of_nat (cnt is_posted (log s)) =
    Z.max (hv s) 0 + Z.of_nat (wakeups s) + Z.of_nat (cnt is_polled (log s)) +
    Z.of_nat (cnt is_waited (log s)) + Z.of_nat (cnt is_claimed (log s)).
Proof. intros H. apply inv_reachable in H. split; [apply C2|apply C1]; apply H. Qed.

Lemma waiters_served s : reachable s ->
  NoDup (blocked s) /\ (forall u, In u (blocked s) <-> users s u = UBlocked) /\
  Z.of_nat (List.length (blocked s)) = Z.of_nat (wakeups s) + Z.max (- hv s) 0.
Proof. intros H. apply inv_reachable in H. destruct H as [_ _ [] _]. auto. Qed.

Lemma callback_once s i : reachable s ->
  (cnt (invoked i) (log s) <= 1)%nat /\
  (cnt (registered i) (log s) + cnt (claimed i) (log s) + cnt (refused i) (log s) <= 1)%nat /\
  ((cnt (invoked i) (log s) = 1)%nat -> (cnt (taken i) (log s) + cnt (claimed i) (log s) = 1)%nat).
Proof.
  intros H. apply inv_reachable in H. destruct H as [_ _ _ J]. pose proof (E1 s J i). pose proof (J3 s J i).
  pose proof (R1 s J i). lia.
Qed.

Lemma callback_not_lost s i : reachable s ->
  ((cnt (registered i) (log s) = 1)%nat -> slot s = Some i \/ about_to_call s i \/ (cnt (invoked i) (log s) = 1)%nat) /\
  ((cnt (claimed i) (log s) = 1)%nat -> about_to_call s i \/ (cnt (invoked i) (log s) = 1)%nat) /\
  (slot s = Some i -> (cnt (invoked i) (log s) = 0)%nat /\ (cnt (registered i) (log s) = 1)%nat).
Proof.
  intros H. apply inv_reachable in H. destruct H as [_ _ _ J]. pose proof (E1 s J i). pose proof (J3 s J i).
  pose proof (R1 s J i).
  assert (G : (cnt (invoked i) (log s) < cnt (taken i) (log s) + cnt (claimed i) (log s))%nat -> about_to_call s i).
  { intros K. destruct (J4 s J i K) as [X|[u [A B]]]; unfold about_to_call.
    - destruct (run s); cbn in X; try discriminate; subst; auto.
    - right; right; exists u. destruct (users s u); cbn in A, B; try discriminate; injection A as ->; auto.
      destruct o; try discriminate. auto. }
  destruct (slot s) as [j|] eqn:ES; cbn in *.
  - destruct (Nat.eqb_spec i j) as [->|NE]; cbn in *.
    + split; [now left|]. split; [lia|]. intros _. lia.
    + split; [|split; [|congruence]].
      * intros K. right. destruct (Nat.eq_dec (cnt (invoked i) (log s)) 1) as [->|]; [now right|left; apply G; lia].
      * intros K. destruct (Nat.eq_dec (cnt (invoked i) (log s)) 1) as [->|]; [now right|left; apply G; lia].
  - split; [|split; [|discriminate]].
    + intros K. right. destruct (Nat.eq_dec (cnt (invoked i) (log s)) 1) as [->|]; [now right|left; apply G; lia].
    + intros K. destruct (Nat.eq_dec (cnt (invoked i) (log s)) 1) as [->|]; [now right|left; apply G; lia].
Qed.

(** An event is dropped only when the lock cannot be had or the counter is full. *)
Lemma drop_reason s a s' : reachable s -> step s a = Some s' ->
  cnt is_dropped (log s') <> cnt is_dropped (log s) ->
  (run s = RLock /\ a = ARun true) \/ (run s = RCheck /\ hv s = INT_MAX).
Proof.
  intros _ H. destruct a; cases H; proj; intros N; rewrite ?cnt_cons in N; cbn [is_dropped ind Nat.add] in N; try lia.
  - left. subst. auto.
  - right. split; [reflexivity|now apply Z.eqb_eq].
Qed.
Lemma counter_bounds s : reachable s -> INT_MIN <= hv s <= INT_MAX.
Proof. intros H. apply V1. now apply inv_reachable. Qed.

(** Progress of the holder of the lock. *)
Lemma lock_progress s t : reachable s -> holder s = Some t ->
  in_critical s t /\ exists s', step s (own_step t) = Some s'.
Proof.
  intros H K. apply inv_reachable in H. destruct H as [[A B] _ _ _]. destruct t as [|u]; cbn.
  - apply A in K. unfold step_run. destruct (run s); try discriminate K; split; auto; eauto.
    + destruct c; eauto.
    + destruct (hv s =? INT_MAX); eauto.
  - apply B in K. unfold step_user. destruct (users s u); try discriminate K; split; auto; eauto.
    + destruct (pending s); eauto.
    + destruct (slot s); eauto.
Qed.
Lemma wait_outcome s u s' : step s (AWait u) = Some s' ->
  (0 < hv s /\ hv s' = hv s - 1 /\ users s' u = UIdle /\ log s' = Waited :: log s) \/
  (hv s <= 0 /\ users s' u = UBlocked /\ log s' = log s) \/
  (hv s = INT_MIN /\ s' = s).
Proof.
  intros H. destruct (is_idle (users s u)) eqn:EI; cbn in H; rewrite EI in H; [|discriminate].
  assert (EU : users s u = UIdle) by (destruct (users s u); try discriminate; reflexivity).
  destruct (Z.eqb_spec (hv s) INT_MIN) as [E|E].
  - right; right. now injection H as <-.
  - unfold pending in H. destruct (Z.ltb_spec 0 (hv s)) as [L|L]; injection H as <-; cbn; [left|right; left].
    + auto.
    + rewrite upd_eq. auto.
Qed.
Lemma poll_outcome s u s' : step s (APoll u) = Some s' ->
  (0 < hv s /\ hv s' = hv s - 1 /\ log s' = Polled :: log s) \/ (hv s <= 0 /\ s' = s).
Proof.
  intros H. cbn in H. destruct (is_idle (users s u)); [|discriminate].
  unfold pending in H. destruct (Z.ltb_spec 0 (hv s)) as [L|L]; injection H as <-; cbn; [left|right]; auto.
Qed.
Lemma refuse_reason s a s' i : step s a = Some s' -> cnt (refused i) (log s') <> cnt (refused i) (log s) ->
  exists u, (users s u = ULock i /\ a = AUser u true) \/ (users s u = UCheck i /\ slot s <> None).
Proof.
  intros H. destruct a; cases H; proj; intros X; rewrite ?cnt_cons in X; cbn [refused ind Nat.add] in X; try lia.
  all: match type of X with context [Nat.eqb ?i ?j] => destruct (Nat.eqb_spec i j) as [->|]; cbn [ind] in X; [|lia] end.
  all: exists u; subst; auto.
  right. split; [assumption|]. congruence.
Qed.

Lemma begin_iff s u a : In a [APoll u; AWait u; AReg u] ->
  (users s u = UIdle <-> exists s', step s a = Some s').
Proof.
  intros I. split.
  - intros E. destruct I as [<-|[<-|[<-|[]]]]; simpl; rewrite E; simpl;
      repeat match goal with |- context [if ?b then _ else _] => destruct b end; eexists; reflexivity.
  - intros [s' E]. destruct I as [<-|[<-|[<-|[]]]]; simpl in E; destruct (users s u); try discriminate; reflexivity.
Qed.
