(** Proofs about the settings of hardware interrupts. *)
From Coq Require Import ZArith NArith String List Bool Lia ssreflect.
From Verif Require Import Prelude DecStr IrqConf_Model IrqConf_Spec.
From Verif Require Irq_Model Irq_Spec.
Import ListNotations.
Open Scope string_scope.
Open Scope list_scope.

Section Proofs.
Variables (instance interface : string) (c : settings).
Notation template := (template instance interface c).
Notation setting := (setting interface c).
Notation integer := (integer interface c).
Notation is_kind := (is_kind interface c).
Notation wrong := (wrong instance interface c).
Notation describes := (describes interface c).

Lemma kind_unique k k' : is_kind k -> is_kind k' -> k = k'.
Proof. rewrite /is_kind. move=> [A|[A ->]] [B|[B ->]]; rewrite A in B => //; case: B; by case: k {A}; case: k'. Qed.

Lemma app_a a b : ((interface ++ a) ++ b)%string = (interface ++ a ++ b)%string.
Proof. by rewrite string_app_assoc. Qed.

Lemma integer_setting_case k suffix what : is_kind k -> In (suffix, what) (needed k) ->
  (exists z, integer suffix z /\ integer_setting instance interface c suffix what = Done z) \/
  (exists m, integer_setting instance interface c suffix what = Failure m /\ wrong m /\ forall z, ~ integer suffix z).
Proof.
  move=> K I. rewrite /integer_setting /IrqConf_Spec.integer /IrqConf_Spec.setting !app_a. case E: (dget c _) => [[z|s|]|].
  - left. by exists z.
  - right. eexists. split; first reflexivity. split=> //. apply: w_integer K I E _. done.
  - right. eexists. split; first reflexivity. split=> //. apply: w_integer K I E _. done.
  - right. eexists. split; first reflexivity. split=> //. apply: w_missing K I E.
Qed.

(** Either the settings describe an interrupt and the template gives it, or something is
    wrong with them and the template says so. *)
Definition good (x : outcome (object * record)) : Prop :=
  match x with Done (o, r) => describes o /\ same o r | Failure m => wrong m end.
Ltac int K suffix what :=
  case: (integer_setting_case _ suffix what K ltac:(cbn; tauto)) => [[? [? ->]]|[? [-> [? ?]]]]; cbn [obind]; last done.
Lemma good_simple : is_kind Simple -> good (simple instance interface c).
Proof.
  move=> K. rewrite /simple. int K "_irq_number" "an IRQ number".
  cbn [good]. have S: forall y, dget c (interface ++ "_spi_number")%string = y -> setting "_spi_number" = y by [].
  case E: (dget c _) => [[z|s|]|]; move: (S _ E) => {}S.
  all: try (split; [apply: d_simple => //; rewrite /IrqConf_Spec.integer S //|by constructor]).
  case: Z.eqb_spec => [Z|N]; split; try by constructor.
  - apply: d_spi => //. by rewrite /IrqConf_Spec.integer S Z.
  - apply: d_simple => //. rewrite /IrqConf_Spec.integer S. by case.
Qed.
Lemma trigger_case : is_kind Arm -> 
  (exists t, trigger interface c t /\ trigger_setting instance interface c = Done t) \/
  (exists m, wrong m /\ trigger_setting instance interface c = Failure m).
Proof.
  move=> K. rewrite /trigger_setting !app_a.
  have S: forall y, dget c (interface ++ "_irq_trigger")%string = y -> setting "_irq_trigger" = y by [].
  case E: (dget c _) => [v|]; move: (S _ E) => {}S; last by left; exists 0%Z; split; [exact: trigger_default|].
  have W: v <> VStr "level" -> v <> VStr "edge" -> wrong (complaint instance interface "_irq_trigger" ("an IRQ trigger mode can only be ""edge"" or ""level"" but is set to: " ++ shown v)%string).
  { move=> A B. exact: w_trigger S A B. }
  case: v S W {E} => [z|s|] S W; try by right; eexists; split; [apply: W|].
  case: String.eqb_spec => [Z|N]; first by subst s; left; eexists; split; [exact: trigger_level|].
  case: String.eqb_spec => [Z|N']; first by subst s; left; eexists; split; [exact: trigger_edge|].
  right. eexists. split; [apply: W; congruence|done].
Qed.
Lemma target_case : is_kind Arm -> 
  (exists t, target interface c t /\ target_setting instance interface c = Done t) \/
  (exists m, wrong m /\ target_setting instance interface c = Failure m).
Proof.
  move=> K. rewrite /target_setting !app_a.
  have S: forall y, dget c (interface ++ "_irq_target")%string = y -> setting "_irq_target" = y by [].
  case E: (dget c _) => [[z|s|]|]; move: (S _ E) => {}S.
  - left. eexists. split; last by []. exact: target_set.
  - right. eexists. split; last by []. exact: w_target S _.
  - right. eexists. split; last by []. exact: w_target S _.
  - left. eexists. split; last by []. exact: target_default.
Qed.
Lemma good_arm : is_kind Arm -> good (arm instance interface c).
Proof.
  move=> K. rewrite /arm.
  case: (trigger_case K) => [[t [T ->]]|[m [W ->]]]; cbn [obind]; last done.
  int K "_irq_number" "an IRQ number".
  case: (target_case K) => [[k [Tk ->]]|[m [W ->]]]; cbn [obind]; last done.
  split; last by constructor. exact: d_arm.
Qed.
Lemma good_ioapic k : In k [Ioapic; Isa; Pci] -> is_kind k -> good (ioapic instance interface c (kind_name k)).
Proof.
  move=> I K. rewrite /ioapic.
  case: k I K => I K; try (by exfalso; cbn in I; intuition discriminate); cbn [kind_name String.eqb Ascii.eqb Bool.eqb obind].
  - int K "_irq_level" "an IOAPIC interrupt level".
    int K "_irq_polarity" "an IOAPIC interrupt polarity".
    int K "_irq_ioapic" "an IOAPIC controller number".
    int K "_irq_ioapic_pin" "an IOAPIC pin number".
    int K "_irq_vector" "an IRQ vector". split; last by constructor. exact: d_ioapic.
  - int K "_irq_ioapic" "an IOAPIC controller number".
    int K "_irq_ioapic_pin" "an IOAPIC pin number".
    int K "_irq_vector" "an IRQ vector". split; last by constructor. exact: d_isa.
  - int K "_irq_ioapic" "an IOAPIC controller number".
    int K "_irq_ioapic_pin" "an IOAPIC pin number".
    int K "_irq_vector" "an IRQ vector". split; last by constructor. exact: d_pci.
Qed.
Lemma good_msi : is_kind Msi -> good (msi instance interface c).
Proof.
  move=> K. rewrite /msi.
  int K "_irq_handle" "an MSI handle".
  int K "_irq_pci_bus" "a PCI bus".
  int K "_irq_pci_dev" "a PCI device".
  int K "_irq_pci_fun" "a PCI function".
  int K "_irq_vector" "an IRQ vector". split; last by constructor. exact: d_msi.
Qed.
Lemma template_good : good template.
Proof.
  rewrite /IrqConf_Model.template.
  have S: forall y, dget c (interface ++ "_irq_type")%string = y -> setting "_irq_type" = y by [].
  have W: (forall k, ~ is_kind k) -> good (Failure ("Unknown irq type specified by " ++ instance ++ "." ++ interface ++ "_irq_type")%string) by exact: w_kind.
  case E: (dget c _) => [v|]; move: (S _ E) => {}S; last by rewrite String.eqb_refl; apply: good_simple; right.
  case: v S {E} => [z|s|] S; try by apply: W => k [|[]]; rewrite S.
  case: String.eqb_spec => [Z|N1]; first by subst s; apply: good_simple; left.
  case: String.eqb_spec => [Z|N2]; first by subst s; apply: good_arm; left.
  cbn [existsb].
  case: String.eqb_spec => [Z|N3]; first by subst s; apply: (good_ioapic Ioapic); [by left|left].
  case: String.eqb_spec => [Z|N4]; first by subst s; apply: (good_ioapic Isa); [by right; left|left].
  case: String.eqb_spec => [Z|N5]; first by subst s; apply: (good_ioapic Pci); [by right; right; left|left].
  cbn [orb].
  case: String.eqb_spec => [Z|N6]; first by subst s; apply: good_msi; left.
  apply: W => k [|[]]; rewrite S //. case=> Z. by case: k Z => Z; rewrite /= in Z.
Qed.

Lemma integer_fun suffix z z' : integer suffix z -> integer suffix z' -> z = z'.
Proof. rewrite /IrqConf_Spec.integer => -> []. done. Qed.
Lemma trigger_fun t t' : trigger interface c t -> trigger interface c t' -> t = t'.
Proof. case=> A; case=> B; congruence. Qed.
Lemma target_fun t t' : target interface c t -> target interface c t' -> t = t'.
Proof. rewrite /IrqConf_Spec.integer. case=> [A|z A]; case=> [B|z' B]; rewrite /IrqConf_Spec.integer in A B; congruence. Qed.
Lemma describes_all o : describes o -> exists k, is_kind k /\
  (forall suffix what, In (suffix, what) (needed k) -> exists z, integer suffix z) /\
  (k = Arm -> (exists t, trigger interface c t) /\ exists t, target interface c t).
Proof.
  case=> *; eexists; (split; first eassumption); (split; last by [|move=> _; split; eexists; eassumption]);
  cbn [needed In]; intros;
  repeat match goal with H : _ \/ _ |- _ => destruct H | H : (_, _) = (_, _) |- _ => injection H as <- <- | H : False |- _ => destruct H end;
  eexists; eassumption.
Qed.
Lemma describes_not_wrong o m : describes o -> wrong m -> False.
Proof.
  move=> /describes_all [k [K [A B]]] W. case: W.
  - move=> k' suffix what K' I N. move: (kind_unique _ _ K' K) => Z. subst k'.
    move: (A _ _ I) => [z]. by rewrite /IrqConf_Spec.integer N.
  - move=> k' suffix what v K' I N V. move: (kind_unique _ _ K' K) => Z. subst k'.
    move: (A _ _ I) => [z]. rewrite /IrqConf_Spec.integer N. case=> Z. by move: (V z).
  - move=> v K' N V. move: (B (kind_unique _ _ K K')) => [_ [t T]]. case: T; rewrite /IrqConf_Spec.integer N // => z [Z]. by move: (V z).
  - move=> v K' N V1 V2. move: (B (kind_unique _ _ K K')) => [[t T] _]. case: T; rewrite N // => [[Z]]; by [move: V1; rewrite Z|move: V2; rewrite Z].
  - move=> X. exact: X K.
Qed.
Lemma describes_fun o o' : describes o -> describes o' -> o = o'.
Proof.
  case=> *; match goal with H : IrqConf_Spec.describes _ _ _ |- _ => destruct H end;
  try match goal with K : IrqConf_Spec.is_kind _ _ ?k, K' : IrqConf_Spec.is_kind _ _ ?k' |- _ => by move: (kind_unique _ _ K K') end;
  try (exfalso; match goal with H : ~ _ |- _ => by apply: H end);
  f_equal; eauto using integer_fun, trigger_fun, target_fun.
  f_equal. eauto using integer_fun.
Qed.

Theorem template_done o r : template = Done (o, r) <-> describes o /\ same o r.
Proof.
  move: template_good. case E: template => [[o' r']|m] /=.
  - move=> [D S]. split; first by case=> <- <-. move=> [D' S']. move: (describes_fun _ _ D D') => Z. subst o'.
    have -> //: r' = r. case: S S' => *; match goal with H : same _ _ |- _ => by inversion H end.
  - move=> W. split=> // [[D _]]. by move: (describes_not_wrong _ _ D W).
Qed.
Theorem template_failure m : template = Failure m -> wrong m.
Proof. move: template_good => /[swap] ->. done. Qed.
Theorem template_wrong m : wrong m -> exists m', template = Failure m'.
Proof.
  move=> W. move: template_good. case: template => [[o r]|m'] /=; last by exists m'.
  move=> [D _]. by move: (describes_not_wrong _ _ D W).
Qed.
End Proofs.

Theorem found o r q : same o r -> asks o q -> (forall n t k, q = Irq_Model.PerCpu n t k -> k = 0%N) -> Irq_Spec.fits (entry r) q.
Proof.
  move=> S A. case: A S => [n|n t k|n t k|n t k|v i p l q'|v h b d f] S P; inversion S; subst; cbn [entry]; rewrite !N2Z.id.
  - eapply Irq_Spec.fits_number. constructor.
  - eapply Irq_Spec.fits_number. constructor.
  - eapply Irq_Spec.fits_trigger. constructor.
  - move: (P _ _ _ eq_refl) => ->. eapply Irq_Spec.fits_cpu. constructor.
  - constructor.
  - constructor.
Qed.
Definition core1 : settings := [("i_irq_type", VStr "arm"); ("i_irq_number", VInt 40); ("i_irq_target", VInt 1)].
Theorem core_refuted : exists o r q, template "dev" "i" core1 = Done (o, r) /\ asks o q /\ ~ Irq_Spec.fits (entry r) q /\
  forall h cb, Irq_Model.irq_register true q (Some cb) (Irq_Model.initial [(h, entry r)]) = (Irq_Model.initial [(h, entry r)], Irq_Model.ENOENT, []).
Proof.
  exists (OArm 40 0 1), (PS_TRIGGER 40 0), (Irq_Model.PerCpu 40 0 1). split; first by vm_compute. split.
  - exact: (a_arm_cpu 40 0 1).
  - split=> //. move=> F. inversion F as [| |? ? ? ? L| |]; subst. by inversion L.
Qed.
