(** Proofs about the scheduling properties of threads (C87). *)
From Coq Require Import List String Ascii Bool ZArith Lia.
From Verif Require Import Prelude DecStr Sched_Model Sched_Spec.
Import ListNotations.
Open Scope string_scope.
Open Scope list_scope.

Lemma maybe_set_value c t property prefix default :
  specific t property = Some (prefix ++ property)%string ->
  value_for c t property default (maybe_set c prefix property default).
Proof.
  intros H. unfold maybe_set. destruct (c (prefix ++ property)%string) as [v|] eqn:E.
  - exact (of_thread c t property default _ v H E).
  - destruct (c property) as [v|] eqn:E'.
    + exact (of_instance c t property default _ v H E E').
    + exact (of_default c t property default _ H E E').
Qed.

Lemma specific_iface i p : specific (Interface i) p = Some ((i ++ "_") ++ p)%string.
Proof. cbn [specific]. rewrite string_app_assoc. reflexivity. Qed.

Lemma tcb_values o c t :
  t <> FaultHandler ->
  let p := thread_tcb o c t in
  value_for c t "priority" (default_priority o) (prio p) /\
  value_for c t "max_priority" (default_max_priority o) (max_prio p) /\
  value_for c t "affinity" (default_affinity o) (affinity p) /\
  (forall a, specific t "domain" = Some a -> domain p = c a).
Proof.
  intros Ht. destruct t as [|i|]; [| |contradiction]; cbn [thread_tcb];
    unfold set_tcb_properties; cbn [prio max_prio affinity domain].
  - repeat split; try (apply maybe_set_value; reflexivity).
    intros a Ha. injection Ha as <-. reflexivity.
  - repeat split; try (apply maybe_set_value; apply specific_iface).
    intros a Ha. rewrite specific_iface in Ha. injection Ha as <-. reflexivity.
Qed.

Lemma sc_values o c t s :
  t <> FaultHandler -> thread_sc o c t = Some s ->
  value_for c t "period" (default_period o) (period s) /\
  value_for c t "budget" (default_budget o) (budget s) /\
  value_for c t "data" (default_data o) (data s) /\
  value_for c t "size_bits" (default_size_bits o) (size_bits s).
Proof.
  intros Ht H. unfold thread_sc in H. destruct (realtime o); [|discriminate].
  destruct t as [|i|]; [| |contradiction].
  - injection H as <-. cbn. repeat split; apply maybe_set_value; reflexivity.
  - destruct (truthy _); [discriminate|]. injection H as <-. cbn.
    repeat split; apply maybe_set_value; apply specific_iface.
Qed.

Lemma sc_exists o c t :
  realtime o = true ->
  (thread_sc o c t = None <->
   exists i v, t = Interface i /\ c (i ++ "_passive")%string = Some v /\ v <> 0%Z).
Proof.
  intros R. unfold thread_sc. rewrite R. destruct t as [|i|].
  - split; [discriminate|]. intros (i & v & H & _). discriminate.
  - unfold truthy. destruct (c (i ++ "_passive")%string) as [v|] eqn:E.
    + destruct (Z.eqb_spec v 0) as [->|H]; cbn [negb].
      * split; [discriminate|]. intros (j & v & H & E' & Hv). injection H as <-. congruence.
      * split; [|reflexivity]. intros _. exists i, v. auto.
    + split; [discriminate|]. intros (j & v & H & E' & Hv). injection H as <-. congruence.
  - split; [discriminate|]. intros (i & v & H & _). discriminate.
Qed.

(** Which settings are read for one property of a thread. *)
Lemma suffix s : forall t x y : string,
  (x ++ s = y ++ t)%string -> String.length s <= String.length t ->
  exists u, t = (u ++ s)%string /\ x = (y ++ u)%string.
Proof.
  intros t x. revert t. induction x as [|c x IH]; intros t y H L.
  - cbn in H. destruct y as [|d y].
    + exists "". cbn in *. split; [symmetry; exact H|reflexivity].
    + exfalso. rewrite H in L. cbn in L. rewrite string_length_app in L. lia.
  - destruct y as [|d y].
    + cbn in H. exists (String c x). split; [symmetry; exact H|reflexivity].
    + cbn in H. injection H as -> H. destruct (IH t y H L) as (u & E1 & E2).
      exists u. rewrite E2. split; [exact E1|reflexivity].
Qed.

Definition strip (s t : string) : option string :=
  let u := substring 0 (String.length t - String.length s) t in
  if String.eqb (u ++ s)%string t then Some u else None.
Lemma substring_prefix u s : substring 0 (String.length u) (u ++ s)%string = u.
Proof. induction u as [|c u IH]; cbn; [destruct s; reflexivity|rewrite IH; reflexivity]. Qed.
Lemma strip_app u s : strip s (u ++ s)%string = Some u.
Proof.
  unfold strip. rewrite string_length_app.
  replace (String.length u + String.length s - String.length s)%nat with (String.length u) by lia.
  rewrite substring_prefix, String.eqb_refl. reflexivity.
Qed.

Definition names : list string := "passive" :: properties.
Definition suffix_ok (p p' : string) : bool :=
  match strip (String "_" p) (String "_" p') with
  | None => true
  | Some u => (String.eqb u "" && String.eqb p p') ||
              (String.eqb u "_max" && String.eqb p "priority" && String.eqb p' "max_priority")
  end.
Lemma suffix_all : forallb (fun p => forallb (suffix_ok p) names) names = true.
Proof. reflexivity. Qed.

(** Two attribute names coincide only for the same property, or for the priority of
    an interface with [_max] appended to its name. *)
Lemma name_clash x y p p' :
  In p names -> In p' names ->
  (x ++ String "_" p = y ++ String "_" p')%string ->
  (x = y /\ p = p') \/ x = (y ++ "_max")%string \/ y = (x ++ "_max")%string.
Proof.
  intros Hp Hp' H.
  assert (K : forall q q' z z', In q names -> In q' names ->
    (z ++ String "_" q = z' ++ String "_" q')%string ->
    String.length q <= String.length q' -> (z = z' /\ q = q') \/ z = (z' ++ "_max")%string).
  { clear. intros p p' x y Hp Hp' H L.
    destruct (suffix (String "_" p) (String "_" p') x y H ltac:(cbn; lia)) as (u & E & Ex).
    pose proof (proj1 (forallb_forall _ _) suffix_all p Hp) as A. cbn beta in A.
    pose proof (proj1 (forallb_forall _ _) A p' Hp') as B. unfold suffix_ok in B.
    rewrite E, strip_app in B. apply orb_true_iff in B as [B|B].
    - apply andb_true_iff in B as [B1 B2]. apply String.eqb_eq in B1, B2. subst.
      left. rewrite E, strip_app in * || idtac. split; [|reflexivity].
      clear. induction y as [|c y IH]; cbn; [reflexivity|rewrite IH; reflexivity].
    - right. apply andb_true_iff in B as [B _]. apply andb_true_iff in B as [B _].
      apply String.eqb_eq in B. subst. reflexivity. }
  destruct (Nat.le_ge_cases (String.length p) (String.length p')) as [L|L].
  - destruct (K p p' x y Hp Hp' H L) as [[-> ->]| ->]; auto.
  - destruct (K p' p y x Hp' Hp (eq_sym H) L) as [[-> ->]| ->]; auto.
Qed.

(** The attribute of a thread and the attribute of the instance. *)
Lemma general_all : forallb (fun q => forallb (fun p =>
   match strip (String "_" p) q with
   | None => true | Some u => String.eqb u "max" end) names) names = true.
Proof. reflexivity. Qed.
Lemma general_clash x p q :
  In p names -> In q names -> (x ++ String "_" p = q)%string -> x = "max".
Proof.
  intros Hp Hq H. pose proof (proj1 (forallb_forall _ _) general_all q Hq) as A. cbn beta in A.
  pose proof (proj1 (forallb_forall _ _) A p Hp) as B. cbn beta in B.
  rewrite <- H, strip_app in B. apply String.eqb_eq in B. exact B.
Qed.

(** The attribute of a thread and the one of the fault handler. *)
Lemma fault_all : forallb (fun q => forallb (fun p =>
   match strip (String "_" p) ("fault" ++ q)%string with
   | None => true | Some u => false end) names) ["period"; "budget"; "data"; "size_bits"] = true.
Proof. reflexivity. Qed.
Lemma fault_clash x p q :
  In p names -> In q ["period"; "budget"; "data"; "size_bits"] ->
  (x ++ String "_" p <> "fault" ++ q)%string.
Proof.
  intros Hp Hq H. pose proof (proj1 (forallb_forall _ _) fault_all q Hq) as A. cbn beta in A.
  pose proof (proj1 (forallb_forall _ _) A p Hp) as B. cbn beta in B.
  rewrite <- H, strip_app in B. discriminate.
Qed.

Definition owner (t : thread) : string := match t with Interface i => i | _ => "" end.
Lemma specific_owner t p a : specific t p = Some a ->
  a = (owner t ++ String "_" p)%string /\ t <> FaultHandler.
Proof. destruct t as [|i|]; cbn; intros H; try discriminate; injection H as <-; split; congruence. Qed.

Lemma append_nil s : (s ++ "" = s)%string.
Proof. induction s as [|c s IH]; cbn; [reflexivity|rewrite IH; reflexivity]. Qed.

Lemma owner_plain t : plain t -> t <> FaultHandler -> owner t <> "max" /\
  (forall y, owner t <> (y ++ "_max")%string).
Proof.
  destruct t as [|i|]; cbn [plain owner]; intros P F; [|destruct P as [_ P]|contradiction].
  - split; [discriminate|]. intros y. destruct y; discriminate.
  - split.
    + intros ->. apply P. left. reflexivity.
    + intros y ->. apply P. right. exists y. reflexivity.
Qed.
Lemma owner_inj t t' : plain t -> plain t' -> t <> FaultHandler -> t' <> FaultHandler ->
  owner t = owner t' -> t = t'.
Proof.
  destruct t as [|i|], t' as [|j|]; cbn [plain owner]; intros P P' F F' E; try contradiction.
  - reflexivity.
  - destruct P' as [P' _]. congruence.
  - destruct P as [P _]. congruence.
  - congruence.
Qed.

Lemma with_other c a v b : b <> a -> with_setting c a v b = c b.
Proof. intros H. unfold with_setting. apply String.eqb_neq in H. rewrite H. reflexivity. Qed.
Lemma maybe_set_other c a v prefix property old :
  (prefix ++ property)%string <> a -> property <> a ->
  maybe_set (with_setting c a v) prefix property old = maybe_set c prefix property old.
Proof. intros H1 H2. unfold maybe_set. rewrite !with_other by assumption. reflexivity. Qed.

Section Isolation.
Variables (t t' : thread) (p a : string) (c : conf) (v : option Z).
Hypotheses (Hp : In p properties) (Pt : plain t) (Pt' : plain t') (Sp : specific t p = Some a).

Let Hn : In p names := or_intror Hp.

Lemma a_shape : a = (owner t ++ String "_" p)%string /\ t <> FaultHandler.
Proof. exact (specific_owner t p a Sp). Qed.

Lemma a_general q : In q names -> q <> a.
Proof.
  intros Hq E. destruct a_shape as [Ea Ht].
  apply (proj1 (owner_plain t Pt Ht)). apply (general_clash _ p q Hn Hq). congruence.
Qed.
Lemma a_fault q : In q ["period"; "budget"; "data"; "size_bits"] -> ("fault" ++ q)%string <> a.
Proof.
  intros Hq E. destruct a_shape as [Ea Ht]. apply (fault_clash (owner t) p q Hn Hq). congruence.
Qed.
Lemma a_other q : In q names -> t' <> FaultHandler -> (t', q) <> (t, p) ->
  (owner t' ++ String "_" q)%string <> a.
Proof.
  intros Hq Ht' Hne E. destruct a_shape as [Ea Ht]. rewrite Ea in E.
  apply (name_clash _ _ q p Hq Hn) in E as [[E1 E2]|[E|E]].
  - apply Hne. rewrite (owner_inj t' t Pt' Pt Ht' Ht E1), E2. reflexivity.
  - exact (proj2 (owner_plain t' Pt' Ht') _ E).
  - exact (proj2 (owner_plain t Pt Ht) _ E).
Qed.

Lemma in_names q : In q properties -> In q names.
Proof. intros H. right. exact H. Qed.

Lemma maybe_same prefix q old :
  In q properties -> (t' , q) <> (t, p) -> t' <> FaultHandler ->
  (prefix ++ q)%string = (owner t' ++ String "_" q)%string ->
  maybe_set (with_setting c a v) prefix q old = maybe_set c prefix q old.
Proof.
  intros Hq Hne Ht' E. apply maybe_set_other.
  - rewrite E. apply a_other; [right; exact Hq|assumption|assumption].
  - apply a_general. right. exact Hq.
Qed.
Lemma maybe_same_fault q old :
  In q ["period"; "budget"; "data"; "size_bits"] -> In q properties ->
  maybe_set (with_setting c a v) "fault" q old = maybe_set c "fault" q old.
Proof.
  intros Hq Hq'. apply maybe_set_other; [apply a_fault; exact Hq|apply a_general; right; exact Hq'].
Qed.
End Isolation.

Lemma in_properties p : In p properties ->
  p = "priority" \/ p = "max_priority" \/ p = "affinity" \/ p = "domain" \/
  p = "period" \/ p = "budget" \/ p = "data" \/ p = "size_bits".
Proof.
  cbn. intros H. repeat (destruct H as [<-|H]; [tauto|]). contradiction.
Qed.
Ltac inp := repeat (first [left; reflexivity | right]).

Lemma isolation o c v t t' p p' a :
  In p properties -> In p' properties -> plain t -> plain t' ->
  specific t p = Some a -> (t', p') <> (t, p) ->
  property_of o (with_setting c a v) t' p' = property_of o c t' p'.
Proof.
  intros Hp Hp' Pt Pt' Sp Hne.
  assert (Hpre : forall i q, ((i ++ "_") ++ q)%string = (i ++ String "_" q)%string)
    by (intros; rewrite string_app_assoc; reflexivity).
  assert (Hpass : forall i, t' = Interface i ->
    with_setting c a v (i ++ "_passive")%string = c (i ++ "_passive")%string).
  { intros i ->. apply with_other.
    apply (a_other t (Interface i) p a Hp Pt Pt' Sp "passive"); [left; reflexivity|discriminate|].
    intros E. injection E as _ E. subst p. cbn in Hp. intuition discriminate. }
  assert (Hgen : forall q, In q properties -> with_setting c a v q = c q).
  { intros q Hq. apply with_other. apply (a_general t p a Hp Pt Sp). right. exact Hq. }
  destruct t' as [|i|].
  - apply in_properties in Hp'.
    repeat (destruct Hp' as [->|Hp']); try subst p'; unfold property_of, thread_sc, thread_tcb;
      destruct (realtime o); try reflexivity;
      unfold set_tcb_properties, set_sc_properties;
      cbn [prio max_prio affinity domain period budget data size_bits option_map];
      first [ apply with_other;
              apply (a_other t Control p a Hp Pt Pt' Sp "domain"); [inp|discriminate|exact Hne]
            | f_equal; apply (maybe_same t Control p a c v Hp Pt Pt' Sp "_");
              [inp|exact Hne|discriminate|reflexivity] ].
  - specialize (Hpass i eq_refl). apply in_properties in Hp'.
    repeat (destruct Hp' as [->|Hp']); try subst p'; unfold property_of, thread_sc, thread_tcb;
      rewrite ?Hpass; destruct (realtime o), (truthy (c (i ++ "_passive")%string)); try reflexivity;
      unfold set_tcb_properties, set_sc_properties;
      cbn [prio max_prio affinity domain period budget data size_bits option_map];
      first [ rewrite Hpre; apply with_other;
              apply (a_other t (Interface i) p a Hp Pt Pt' Sp "domain"); [inp|discriminate|exact Hne]
            | f_equal; apply (maybe_same t (Interface i) p a c v Hp Pt Pt' Sp (i ++ "_")%string);
              [inp|exact Hne|discriminate|apply Hpre] ].
  - apply in_properties in Hp'.
    repeat (destruct Hp' as [->|Hp']); try subst p'; unfold property_of, thread_sc, thread_tcb;
      cbn [prio max_prio affinity domain]; try reflexivity;
      [rewrite (Hgen "affinity") by inp; reflexivity|..];
      destruct (realtime o); try reflexivity; unfold set_sc_properties;
      cbn [period budget data size_bits option_map]; f_equal;
      apply (maybe_same_fault t p a c v Hp Pt Sp); inp.
Qed.

Lemma fault_handler o c :
  prio (thread_tcb o c FaultHandler) = 255%Z /\
  max_prio (thread_tcb o c FaultHandler) = default_max_priority o /\
  domain (thread_tcb o c FaultHandler) = None /\
  (forall v, c "affinity" = Some v -> affinity (thread_tcb o c FaultHandler) = v) /\
  (c "affinity" = None -> affinity (thread_tcb o c FaultHandler) = default_affinity o).
Proof. cbn. repeat split; intros; rewrite ?H; reflexivity. Qed.

Lemma max_clash : exists o c v t' ,
  specific (Interface "max") "priority" = Some "max_priority" /\ t' <> Interface "max" /\
  max_prio (thread_tcb o (with_setting c "max_priority" (Some v)) t') <>
  max_prio (thread_tcb o c t').
Proof.
  exists (mk_options 254 254 0 10000 10000 0 8 false), (fun _ => None), 10%Z, Control.
  repeat split; try discriminate.
Qed.

Lemma suffix_clash o c v i :
  let a := (i ++ "_max_priority")%string in
  specific (Interface (i ++ "_max")) "priority" = Some a /\
  max_prio (thread_tcb o (with_setting c a (Some v)) (Interface i)) = v.
Proof.
  cbn zeta. split.
  - cbn [specific]. rewrite string_app_assoc. reflexivity.
  - cbn [thread_tcb]. unfold set_tcb_properties. cbn [max_prio]. unfold maybe_set, with_setting.
    rewrite string_app_assoc. cbn [append]. rewrite String.eqb_refl. reflexivity.
Qed.
