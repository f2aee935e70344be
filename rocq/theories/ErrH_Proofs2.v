(** Proofs about error handling: single events of a run, tidy programs. *)
From Coq Require Import List String Bool NArith Arith Lia.
From Verif Require Import Prelude ErrH_Model ErrH_Spec ErrH_Proofs.
Import ListNotations.
Open Scope string_scope. Open Scope list_scope.
Set Implicit Arguments.

Section events.
Variables (env : component) (debug : bool).

Definition cause (pre : list event) : Prop :=
  exists l0 p e,
    (pre = l0 ++ [ERaise p e] /\ responsible p l0 None)
    \/ (pre = l0 ++ [ERaise p e; ECall Default e] /\ ~ known (e_type e))
    \/ (exists f a regs rest, pre = l0 ++ ERaise p e :: ECall f e :: rest /\ replies env f e a regs /\ ~ an_answer a).

Definition right_event (pre : list event) (ev : event) (post : list event) (b : bool) : Prop :=
  match ev with
  | ERegister p h old => registered p pre old
  | ERaise p e => exists f, responsible p pre f /\
      match f with
      | None => post = [EOutcome Undefined] /\ b = false
      | Some f => exists l3, post = ECall f e :: l3
      end
  | ECall f e => (exists l0 p, pre = l0 ++ [ERaise p e] /\ responsible p l0 (Some f)) /\
      forall a regs o, replies env f e a regs -> meant debug a o ->
        exists lr l3, post = lr ++ EOutcome o :: l3 /\ noted regs lr /\
        (o = Continues \/ o = Acts \/ (l3 = [] /\ b = false))
  | EOutcome o => (o = Undefined -> cause pre) /\ (o = Continues \/ o = Acts \/ (post = [] /\ b = false))
  end.

Lemma meant_fun : forall a o o', meant debug a o -> meant debug a o' -> o = o'.
Proof. intros a o o' A B. inversion A; subst; inversion B; subst; congruence. Qed.
Lemma meant_an_answer : forall a o, meant debug a o -> an_answer a.
Proof. intros a o A. unfold an_answer. inversion A; subst; auto. Qed.
Lemma replies_fun : forall f e a regs a' regs', replies env f e a regs -> replies env f e a' regs' -> a = a' /\ regs = regs'.
Proof.
  intros [|n] e a regs a' regs' A B; cbn [replies] in *.
  - destruct A as [_ [-> ->]], B as [_ [-> ->]]. split; reflexivity.
  - rewrite A in B. injection B as <- <-. split; reflexivity.
Qed.
Lemma meant_not_undefined : forall a, ~ meant debug a Undefined.
Proof. intros a H. inversion H. Qed.
Lemma noted_regs : forall regs evs, noted regs evs -> forall ev, In ev evs -> exists p h old, ev = ERegister p h old.
Proof.
  intros regs evs N. induction N as [|r ev regs evs [old ->] N IH]; intros ev' I; [destruct I|].
  destruct I as [<-|I]; [do 3 eexists; reflexivity|apply IH; exact I].
Qed.

Lemma split_cons : forall (A : Type) (x y : A) r l1 l2, x :: r = l1 ++ y :: l2 ->
  (l1 = [] /\ x = y /\ r = l2) \/ exists l, l1 = x :: l /\ r = l ++ y :: l2.
Proof.
  intros A x y r [|z l1] l2 H; cbn [app] in H.
  - injection H as <- <-. left. repeat split.
  - injection H as <- ->. right. exists l1. split; reflexivity.
Qed.
Lemma split_app : forall (A : Type) (x y : A) s r l1 l2, s ++ x :: r = l1 ++ y :: l2 ->
  (exists l, s = l1 ++ y :: l /\ l2 = l ++ x :: r) \/ (l1 = s /\ x = y /\ r = l2) \/
  exists l, l1 = s ++ x :: l /\ r = l ++ y :: l2.
Proof.
  induction s as [|z s IH]; intros r l1 l2 H; cbn [app] in H.
  - destruct (@split_cons _ _ _ _ _ _ H) as [[-> [-> ->]]|[l [-> ->]]].
    + right. left. repeat split.
    + right. right. exists l. split; reflexivity.
  - destruct (@split_cons _ _ _ _ _ _ H) as [[-> [-> <-]]|[l [-> E]]].
    + left. exists s. split; reflexivity.
    + destruct (IH _ _ _ E) as [[l' [-> ->]]|[[-> [-> ->]]|[l' [-> ->]]]].
      * left. exists l'. split; reflexivity.
      * right. left. repeat split.
      * right. right. exists l'. split; reflexivity.
Qed.

Lemma good_event : forall l evs b, good env debug l evs b ->
  forall l1 ev l2, evs = l1 ++ ev :: l2 -> right_event (l ++ l1) ev l2 b.
Proof.
  intros l evs b G.
  induction G as [l|l p h old evs b R G IH|l p e R|l p e n R E|l p e R K
    |l p e f a regs evs R Rp NA Nt G IH|l p e f a regs evs o R Rp M Nt N1 N2 G IH
    |l p e f a regs evs o rest b R Rp M Nt O G IH G2 IH2]; intros l1 ev l2 H.
  - destruct l1; discriminate.
  - destruct (@split_cons _ _ _ _ _ _ H) as [[-> [<- <-]]|[m [-> ->]]].
    + rewrite app_nil_r. exact R.
    + specialize (IH m ev l2 eq_refl). rewrite <- app_assoc in IH. exact IH.
  - destruct (@split_cons _ _ _ _ _ _ H) as [[-> [<- <-]]|[m [-> H1]]].
    + rewrite app_nil_r. exists None. split; [exact R|split; reflexivity].
    + destruct (@split_cons _ _ _ _ _ _ H1) as [[-> [<- <-]]|[m' [-> H2]]]; [|destruct m'; discriminate].
      split; [|right; right; split; reflexivity]. intros _. exists l, p, e. left. split; [reflexivity|exact R].
  - destruct (@split_cons _ _ _ _ _ _ H) as [[-> [<- <-]]|[m [-> H1]]].
    + rewrite app_nil_r. eexists. split; [exact R|]. eexists. reflexivity.
    + destruct (@split_cons _ _ _ _ _ _ H1) as [[-> [<- <-]]|[m' [-> H2]]].
      * split; [exists l, p; split; [reflexivity|exact R]|]. intros a regs o Rp _. cbn [replies] in Rp. congruence.
      * destruct (@split_cons _ _ _ _ _ _ H2) as [[-> [<- <-]]|[m'' [-> H3]]]; [|destruct m''; discriminate].
        split; [discriminate|right; right; split; reflexivity].
  - destruct (@split_cons _ _ _ _ _ _ H) as [[-> [<- <-]]|[m [-> H1]]].
    + rewrite app_nil_r. eexists. split; [exact R|]. eexists. reflexivity.
    + destruct (@split_cons _ _ _ _ _ _ H1) as [[-> [<- <-]]|[m' [-> H2]]].
      * split; [exists l, p; split; [reflexivity|exact R]|]. intros a regs o [Rp _] _. contradiction.
      * destruct (@split_cons _ _ _ _ _ _ H2) as [[-> [<- <-]]|[m'' [-> H3]]]; [|destruct m''; discriminate].
        split; [|right; right; split; reflexivity]. intros _. exists l, p, e. right. left. split; [reflexivity|exact K].
  - destruct (@split_cons _ _ _ _ _ _ H) as [[-> [<- <-]]|[m [-> H1]]].
    + rewrite app_nil_r. eexists. split; [exact R|]. eexists. reflexivity.
    + destruct (@split_cons _ _ _ _ _ _ H1) as [[-> [<- <-]]|[m' [-> H2]]].
      * split; [exists l, p; split; [reflexivity|exact R]|]. intros a' regs' o Rp' M.
        destruct (@replies_fun _ _ _ _ _ _ Rp Rp') as [<- <-]. destruct (NA (meant_an_answer M)).
      * destruct (@split_app _ _ _ _ _ _ _ H2) as [[k [-> ->]]|[[-> [<- <-]]|[k [-> H3]]]]; [| |destruct k; discriminate].
        -- destruct (noted_regs Nt ev) as [q [h [old ->]]]; [apply in_elt|].
           specialize (IH _ _ _ eq_refl). cbn [right_event] in *. rewrite <- app_assoc in IH. exact IH.
        -- split; [|right; right; split; reflexivity]. intros _. exists l, p, e. right. right.
           exists f, a, regs, evs. split; [reflexivity|split; assumption].
  - destruct (@split_cons _ _ _ _ _ _ H) as [[-> [<- <-]]|[m [-> H1]]].
    + rewrite app_nil_r. eexists. split; [exact R|]. eexists. reflexivity.
    + destruct (@split_cons _ _ _ _ _ _ H1) as [[-> [<- <-]]|[m' [-> H2]]].
      * split; [exists l, p; split; [reflexivity|exact R]|]. intros a' regs' o' Rp' M'.
        destruct (@replies_fun _ _ _ _ _ _ Rp Rp') as [<- <-]. pose proof (meant_fun M M') as <-.
        exists evs, []. split; [reflexivity|]. split; [exact Nt|]. right. right. split; reflexivity.
      * destruct (@split_app _ _ _ _ _ _ _ H2) as [[k [-> ->]]|[[-> [<- <-]]|[k [-> H3]]]]; [| |destruct k; discriminate].
        -- destruct (noted_regs Nt ev) as [q [h [old ->]]]; [apply in_elt|].
           specialize (IH _ _ _ eq_refl). cbn [right_event] in *. rewrite <- app_assoc in IH. exact IH.
        -- split; [|right; right; split; reflexivity]. intros ->. destruct (meant_not_undefined M).
  - destruct (@split_cons _ _ _ _ _ _ H) as [[-> [<- <-]]|[m [-> H1]]].
    + rewrite app_nil_r. eexists. split; [exact R|]. eexists. reflexivity.
    + destruct (@split_cons _ _ _ _ _ _ H1) as [[-> [<- <-]]|[m' [-> H2]]].
      * split; [exists l, p; split; [reflexivity|exact R]|]. intros a' regs' o' Rp' M'.
        destruct (@replies_fun _ _ _ _ _ _ Rp Rp') as [<- <-]. pose proof (meant_fun M M') as <-.
        exists evs, rest. split; [reflexivity|]. split; [exact Nt|]. destruct O; auto.
      * destruct (@split_app _ _ _ _ _ _ _ H2) as [[k [-> ->]]|[[-> [<- <-]]|[k [-> H3]]]].
        -- destruct (noted_regs Nt ev) as [q [h [old ->]]]; [apply in_elt|].
           specialize (IH _ _ _ eq_refl). cbn [right_event] in *. rewrite <- app_assoc in IH. exact IH.
        -- split; [|destruct O; auto]. intros ->. destruct (meant_not_undefined M).
        -- specialize (IH2 _ _ _ H3).
           match type of IH2 with right_event ?A _ _ _ => match goal with |- right_event ?B _ _ _ =>
             replace B with A; [exact IH2|] end end.
           rewrite <- !app_assoc. cbn [app]. rewrite <- !app_assoc. reflexivity.
Qed.

Lemma good_stopped : forall l evs b, good env debug l evs b -> b = false ->
  exists l0 o, evs = l0 ++ [EOutcome o] /\ o <> Continues /\ o <> Acts.
Proof.
  intros l evs b G. induction G; intros B; try discriminate.
  - destruct (IHG B) as [l0 [o [-> C]]]. exists (ERegister p h old :: l0), o. split; [reflexivity|exact C].
  - exists [ERaise p e], Undefined. split; [reflexivity|split; discriminate].
  - exists [ERaise p e; ECall (User n) e], Hangs. split; [reflexivity|split; discriminate].
  - exists [ERaise p e; ECall Default e], Undefined. split; [reflexivity|split; discriminate].
  - exists (ERaise p e :: ECall f e :: evs), Undefined. split; [reflexivity|split; discriminate].
  - exists (ERaise p e :: ECall f e :: evs), o. split; [reflexivity|split; assumption].
  - destruct (IHG2 B) as [l0 [o' [-> C]]]. exists (ERaise p e :: ECall f e :: evs ++ EOutcome o :: l0), o'.
    split; [|exact C]. cbn [app]. rewrite <- app_assoc. reflexivity.
Qed.

Variables (ops : list op) (b : bool) (s : handlers) (evs : list event).
Hypothesis Hrun : run env Configurable debug ops initial = (b, s, evs).

Lemma event_right : forall l1 ev l2, evs = l1 ++ ev :: l2 -> right_event l1 ev l2 b.
Proof.
  intros l1 ev l2 H. destruct (good_program _ _ _ Hrun) as [G _].
  exact (good_event G _ _ _ H).
Qed.

Lemma c123_delivered : forall l1 p e l2, evs = l1 ++ ERaise p e :: l2 ->
  exists f, responsible p l1 f /\
  match f with None => l2 = [EOutcome Undefined] | Some f => exists l3, l2 = ECall f e :: l3 end.
Proof.
  intros l1 p e l2 H. destruct (event_right _ _ _ H) as [f [R Q]]. exists f. split; [exact R|].
  destruct f; [exact Q|exact (proj1 Q)].
Qed.
Lemma c123_called : forall l1 f e l2, evs = l1 ++ ECall f e :: l2 ->
  exists l0 p, l1 = l0 ++ [ERaise p e] /\ responsible p l0 (Some f).
Proof. intros l1 f e l2 H. exact (proj1 (event_right _ _ _ H)). Qed.
Lemma c123_answer : forall l1 f e l2 a regs o, evs = l1 ++ ECall f e :: l2 ->
  replies env f e a regs -> meant debug a o ->
  exists lr l3, l2 = lr ++ EOutcome o :: l3 /\ noted regs lr /\ (o = Continues \/ o = Acts \/ (l3 = [] /\ b = false)).
Proof. intros l1 f e l2 a regs o H R M. exact (proj2 (event_right _ _ _ H) a regs o R M). Qed.
Lemma c123_returned : forall l1 p h old l2, evs = l1 ++ ERegister p h old :: l2 -> registered p l1 old.
Proof. intros l1 p h old l2 H. exact (event_right _ _ _ H). Qed.
Lemma c123_stopped : b = false -> exists l0 o, evs = l0 ++ [EOutcome o] /\ o <> Continues /\ o <> Acts.
Proof. destruct (good_program _ _ _ Hrun) as [G _]. exact (good_stopped G). Qed.

Lemma never_null : forall l h, registered Component l h -> (forall old, ~ In (ERegister Component None old) l) -> h <> None.
Proof.
  intros l h R. induction R as [|l h old|l ev h R IH N]; intros D.
  - discriminate.
  - intros ->. apply (D old). apply in_or_app. right. left. reflexivity.
  - apply IH. intros old I. apply (D old). apply in_or_app. left. exact I.
Qed.
Lemma c123_defined :
  (forall old, ~ In (ERegister Component None old) evs) ->
  (forall p e, In (ERaise p e) evs -> known (e_type e)) ->
  (forall n e a regs, env n e = Some (a, regs) -> an_answer a) ->
  ~ In (EOutcome Undefined) evs.
Proof.
  intros D K A I. apply in_split in I. destruct I as [l1 [l2 E]].
  destruct (event_right _ _ _ E) as [C _]. destruct (C eq_refl) as [l0 [p [e [[E1 R]|[[E1 NK]|[f [a [regs [rest [E1 [Rp NA]]]]]]]]]]]; subst l1.
  - assert (RC : registered Component l0 None).
    { destruct p as [|i]; cbn [responsible] in R; [exact R|]. destruct R as [[_ N]|[_ R]]; [congruence|exact R]. }
    apply (never_null RC); [|reflexivity]. intros old I. apply (D old). rewrite E. apply in_or_app. left.
    apply in_or_app. left. exact I.
  - apply NK. apply (K p). rewrite E. apply in_or_app. left. apply in_or_app. right. left. reflexivity.
  - destruct f as [|n]; cbn [replies] in Rp.
    + destruct Rp as [_ [-> _]]. apply NA. unfold an_answer. auto.
    + exact (NA (A _ _ _ _ Rp)).
Qed.
End events.

(** The location *)
Lemma c123_location : forall env debug file line p e s, exists b s' rest,
  run_op env Configurable debug (ErrIf file line true p e) s =
  (b, s', ERaise p (mk_error (e_type e) (e_instance e) (e_interface e) file line (e_description e)) :: rest).
Proof.
  intros env debug file line p e s. cbn [run_op]. unfold err_if. cbn [err].
  destruct (handle env p _ s) as [[r s'] evs]. do 3 eexists. reflexivity.
Qed.
Lemma c123_no_error : forall env md debug file line p e s,
  run_op env md debug (ErrIf file line false p e) s = (true, s, []).
Proof. reflexivity. Qed.
Lemma c123_other_modes : forall env md debug file line p e s, md <> Configurable ->
  run_op env md debug (ErrIf file line true p e) s =
  match md with
  | Discard => (true, s, [EOutcome Acts])
  | Guard => (false, s, [EOutcome GuardFails])
  | _ => (false, s, [EOutcome Aborts])
  end.
Proof. intros env [| | |] debug file line p e s N; [congruence|reflexivity..]. Qed.

(** Tidy programs *)
Definition same (s s' : handlers) : Prop := forall p, at_place s p = at_place s' p.
Lemma register_same : forall p h s s', same s s' -> same (snd (register p h s)) (snd (register p h s')).
Proof.
  intros [|i] h s s' S [|j]; cbn [register snd at_place h_err h_fn].
  - reflexivity.
  - exact (S (Interface j)).
  - exact (S Component).
  - destruct (String.eqb i j); [reflexivity|exact (S (Interface j))].
Qed.
Lemma register_back : forall p h s s', same (snd (register p h s)) s' ->
  same s (snd (register p (fst (register p h s)) s')).
Proof.
  intros [|i] h s s' S [|j]; cbn [register fst snd at_place h_err h_fn] in *.
  - reflexivity.
  - exact (S (Interface j)).
  - exact (S Component).
  - destruct (String.eqb_spec i j) as [->|N]; [reflexivity|].
    pose proof (S (Interface j)) as E. cbn [at_place h_fn] in E. apply String.eqb_neq in N. rewrite N in E. exact E.
Qed.

Lemma quiet_call : forall env f e s, quiet env -> snd (fst (call env f e s)) = s.
Proof.
  intros env [[|n]|] e s Q; cbn [call]; [reflexivity| |reflexivity].
  destruct (env n e) as [[a regs]|] eqn:E; [|reflexivity]. rewrite (Q _ _ _ _ E). reflexivity.
Qed.
Lemma quiet_err_if : forall env md debug file line c p e s, quiet env ->
  snd (fst (err_if env md debug file line c p e s)) = s.
Proof.
  intros env md debug file line c p e s Q. unfold err_if. destruct c; [|reflexivity].
  destruct md; try reflexivity. cbn [err].
  set (e' := mk_error _ _ _ file line _). clearbody e'.
  destruct (handle_call env p e' s) as [f [E _]]. rewrite E.
  pose proof (quiet_call f e' s Q) as C. destruct (call env f e' s) as [[r s'] evs]. exact C.
Qed.

Lemma c123_restored : forall env md debug ops s s' evs, quiet env -> (forall o, In o ops -> tidy o) ->
  run env md debug ops s = (true, s', evs) -> h_err s' = h_err s /\ forall i, h_fn s' i = h_fn s i.
Proof.
  intros env md debug ops s s' evs Q T H.
  assert (all : forall ops, Forall (fun o => tidy o -> forall s s' evs, run_op env md debug o s = (true, s', evs) -> same s s') ops ->
    (forall o, In o ops -> tidy o) -> forall s s' evs, run env md debug ops s = (true, s', evs) -> same s s').
  { clear. induction ops as [|o ops IH]; intros F T s s' evs H; cbn [run] in H.
    - injection H as <- <-. intros p. reflexivity.
    - inversion F as [|? ? F1 F2]; subst.
      destruct (run_op env md debug o s) as [[b s1] e1] eqn:E. destruct b; [|discriminate].
      destruct (run env md debug ops s1) as [[b2 s2] e2] eqn:E2. injection H as -> -> <-.
      intros p. rewrite (F1 (T o (or_introl eq_refl)) _ _ _ E p). exact (IH F2 (fun x I => T x (or_intror I)) _ _ _ E2 p). }
  assert (one : forall o, tidy o -> forall s s' evs, run_op env md debug o s = (true, s', evs) -> same s s').
  { clear - Q all. apply (@op_rect' (fun o => tidy o -> forall s s' evs, run_op env md debug o s = (true, s', evs) -> same s s')).
    - intros p h T. inversion T.
    - intros file line c p e _ s s' evs H. cbn [run_op] in H.
      pose proof (quiet_err_if md debug file line c p e s Q) as C.
      destruct (err_if env md debug file line c p e s) as [[r s1] evs1]. injection H as _ <- _. cbn [fst snd] in C. subst. intros q. reflexivity.
    - intros p h body F T s s' evs H. inversion T as [|? ? ? Tb]; subst. rewrite run_during in H.
      pose proof (@register_back p h s) as B.
      destruct (register p h s) as [old s1]. cbn [fst snd] in B.
      destruct (run env md debug body s1) as [[b s2] e2] eqn:E. destruct b; [|discriminate].
      injection H as <- _. apply B. exact (all body F Tb _ _ _ E). }
  assert (F : Forall (fun o => tidy o -> forall s s' evs, run_op env md debug o s = (true, s', evs) -> same s s') ops)
    by (apply Forall_forall; intros; eapply one; eassumption).
  pose proof (all ops F T _ _ _ H) as S. split; [symmetry; exact (S Component)|intros i; symmetry; exact (S (Interface i))].
Qed.
