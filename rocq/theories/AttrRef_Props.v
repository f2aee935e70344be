(** C06, C07, C51: attribute references (camkes/parser/stage8.py). *)
From Coq Require Import List String ZArith Lia.
From Verif Require Import Prelude AttrRef_Model Flatten_Spec AttrRef_Spec AttrRef_Proofs.
Import ListNotations.
Open Scope string_scope.
Open Scope list_scope.

(** A chain a.x <- b.y <- c.z, an attribute only set by default, and a lookup. *)
Definition ex_insts : instances :=
  [("d", [("w", Some (Atom "dflt"))]); ("a", [("x", None)])].
Definition ex_settings : list setting :=
  [mk_setting "a" "x" (Ref "b.y" None);
   mk_setting "c" "z" (Conc (Atom "42"));
   mk_setting "b" "y" (Ref "c.z" None);
   mk_setting "n.a" "u" (Ref "d.w" None);
   mk_setting "e" "dict" (Conc (VDict [(KStr "k", Atom "v"); (KInt 1, VList [Atom "p"; Atom "q"])]));
   mk_setting "f" "g" (Ref "e.dict" (Some [KInt 1; KInt (-1)]))].
Definition loop_settings : list setting :=
  [mk_setting "z" "z" (Conc (Atom "0"));
   mk_setting "s" "s" (Ref "a.x" None);
   mk_setting "a" "x" (Ref "b.y" None);
   mk_setting "b" "y" (Ref "a.x" None)].

(** C06: resolution always terminates. *)
Theorem C06_terminates : forall insts S, resolve insts S <> Err OutOfFuel.
Proof. exact resolve_no_fuel. Qed.
Print Assumptions C06_terminates.

(** C06: success means every setting holds the value its reference chain
    denotes, concrete settings are untouched, and no setting is lost. *)
Theorem C06_resolved_values : forall insts S out,
  lookups_direct S -> resolve insts S = Ok out ->
  exists val, (forall j, j < List.length S -> denotes insts S j (val j)) /\
    out = resolved_as S val.
Proof. exact resolve_correct. Qed.
Print Assumptions C06_resolved_values.

(** Without any assumption: no reference is left, nothing is lost, concrete
    settings keep their value. *)
Theorem C06_no_reference_left : forall insts S out, resolve insts S = Ok out ->
  exists val, (forall j s v, nth_error S j = Some s -> s_val s = Conc v -> val j = v) /\
    out = resolved_as S val.
Proof. exact resolve_general. Qed.
Print Assumptions C06_no_reference_left.

Theorem C06_value_unique : forall insts S j v v',
  denotes insts S j v -> denotes insts S j v' -> v = v'.
Proof. exact denotes_det. Qed.
Print Assumptions C06_value_unique.

(** C06: if every setting denotes something, resolution succeeds. *)
Theorem C06_complete : forall insts S, lookups_direct S ->
  (forall j, j < List.length S -> exists v, denotes insts S j v) ->
  exists out, resolve insts S = Ok out.
Proof. exact resolve_complete. Qed.
Print Assumptions C06_complete.

(** C06: a chain that runs into a loop is rejected, whatever the order. *)
Theorem C06_loop_rejected : forall insts S j out, loops S j -> resolve insts S <> Ok out.
Proof. exact loop_rejected. Qed.
Print Assumptions C06_loop_rejected.

(** ... and with a parse error, if nothing else is wrong with the references. *)
Theorem C06_loop_parse_error : forall insts S j,
  only_loops insts S -> loops S j -> resolve insts S = Err ParseError.
Proof. exact loop_parse_error. Qed.
Print Assumptions C06_loop_parse_error.

Ltac cases_nth k H :=
  do 7 (try (destruct k as [|k]; [cbn in H; inversion H; subst; clear H; cbn in *; try discriminate|]));
  try (cbn in H; destruct k; discriminate H).
Example ex_lookups : lookups_direct ex_settings.
Proof.
  intros j s r ks H E. cases_nth j H. injection E as <- <-.
  exists 4. do 2 eexists. split; [|split; reflexivity].
  exists (mk_setting "f" "g" (Ref "e.dict" (Some [KInt 1; KInt (-1)]))), "e.dict", (Some [KInt 1; KInt (-1)]), "e", "dict".
  split; [reflexivity|split; [reflexivity|split; [split; reflexivity|split; [eexists; split; [reflexivity|split; reflexivity]|]]]].
  intros k [s [H [? ?]]]. cases_nth k H. reflexivity.
Qed.
Example ex_result : resolve ex_insts ex_settings = Ok
  [mk_setting "c" "z" (Conc (Atom "42"));
   mk_setting "e" "dict" (Conc (VDict [(KStr "k", Atom "v"); (KInt 1, VList [Atom "p"; Atom "q"])]));
   mk_setting "a" "x" (Conc (Atom "42"));
   mk_setting "b" "y" (Conc (Atom "42"));
   mk_setting "n.a" "u" (Conc (Atom "dflt"));
   mk_setting "f" "g" (Conc (Atom "q"))].
Proof. reflexivity. Qed.
Lemma loop_refers_1 : refers loop_settings 2 3.
Proof.
  do 3 eexists. exists "b", "y". split; [reflexivity|split; [reflexivity|split; [split; reflexivity|split]]].
  - eexists; split; [reflexivity|split; reflexivity].
  - intros k [s [H [? ?]]]. cases_nth k H. reflexivity.
Qed.
Lemma loop_refers_2 : refers loop_settings 3 2.
Proof.
  do 3 eexists. exists "a", "x". split; [reflexivity|split; [reflexivity|split; [split; reflexivity|split]]].
  - eexists; split; [reflexivity|split; reflexivity].
  - intros k [s [H [? ?]]]. cases_nth k H. reflexivity.
Qed.
Lemma loop_refers_0 : refers loop_settings 1 2.
Proof.
  do 3 eexists. exists "a", "x". split; [reflexivity|split; [reflexivity|split; [split; reflexivity|split]]].
  - eexists; split; [reflexivity|split; reflexivity].
  - intros k [s [H [? ?]]]. cases_nth k H. reflexivity.
Qed.
Example loop_loops : loops loop_settings 1 /\ only_loops [] loop_settings.
Proof.
  split.
  - right. exists 2. split; [apply re_one; exact loop_refers_0|].
    eapply re_step; [exact loop_refers_1|apply re_one; exact loop_refers_2].
  - intros j s r lk H E. cases_nth j H; injection E as <- <-; (split; [reflexivity|left]).
    + exists 2. exact loop_refers_0.
    + exists 3. exact loop_refers_1.
    + exists 2. exact loop_refers_2.
Qed.

(** C07 holds when the reference leads directly to a dictionary setting. *)
Theorem C07_direct_lookup_partial : forall insts S out j k s r ks t l,
  resolve insts S = Ok out ->
  nth_error S j = Some s -> s_val s = Ref r (Some ks) -> refers S j k ->
  nth_error S k = Some t -> s_val t = Conc (VDict l) ->
  exists v, lookup (VDict l) ks v /\ In (with_value s v) out.
Proof. exact direct_lookup. Qed.
Print Assumptions C07_direct_lookup_partial.

(** C07 fails through a chain: the lookup is dropped, so [a.x <- b.y["k"]] gets
    the whole dictionary when b.y is itself a reference. *)
Definition chain_settings : list setting :=
  [mk_setting "a" "x" (Ref "b.y" (Some [KStr "k"]));
   mk_setting "b" "y" (Ref "c.z" None);
   mk_setting "c" "z" (Conc (VDict [(KStr "k", Atom "v")]))].
Lemma chain_denotes : denotes [] chain_settings 0 (Atom "v").
Proof.
  eapply den_ref with (k := 1) (w := VDict [(KStr "k", Atom "v")]).
  - do 3 eexists. exists "b", "y". split; [reflexivity|split; [reflexivity|split; [split; reflexivity|split]]].
    + eexists; split; [reflexivity|split; reflexivity].
    + intros k [s [H [? ?]]]. cases_nth k H. reflexivity.
  - eapply den_ref with (k := 2).
    + do 3 eexists. exists "c", "z". split; [reflexivity|split; [reflexivity|split; [split; reflexivity|split]]].
      * eexists; split; [reflexivity|split; reflexivity].
      * intros k [s [H [? ?]]]. cases_nth k H. reflexivity.
    + eapply den_conc; reflexivity.
    + apply lk_nil.
  - eapply lk_dict; [exists [], []; split; [reflexivity|intros []]|apply lk_nil].
Qed.
Lemma chain_counterexample : exists insts S j s v out,
  nth_error S j = Some s /\ denotes insts S j v /\ resolve insts S = Ok out /\
  ~ In (with_value s v) out.
Proof.
  exists [], chain_settings, 0. do 3 eexists. split; [reflexivity|]. split; [exact chain_denotes|].
  split; [vm_compute; reflexivity|].
  cbn. intros H. repeat destruct H as [H|H]; discriminate H || contradiction.
Qed.
Theorem C07_chained_lookup_refuted : exists insts S j s v out,
  nth_error S j = Some s /\ denotes insts S j v /\ resolve insts S = Ok out /\
  ~ In (with_value s v) out.
Proof. exact chain_counterexample. Qed.
Print Assumptions C07_chained_lookup_refuted.

(** Worse, the outcome depends on the order of the settings: listing b.y before
    a.x makes the lookup happen. *)
Lemma order_counterexample : exists out out',
  resolve [] chain_settings = Ok out /\
  resolve [] (rev chain_settings) = Ok out' /\
  In (mk_setting "a" "x" (Conc (VDict [(KStr "k", Atom "v")]))) out /\
  In (mk_setting "a" "x" (Conc (Atom "v"))) out'.
Proof. do 2 eexists. split; [reflexivity|split; [reflexivity|cbn; tauto]]. Qed.
Theorem C07_order_dependent_refuted : exists out out',
  resolve [] chain_settings = Ok out /\
  resolve [] (rev chain_settings) = Ok out' /\
  In (mk_setting "a" "x" (Conc (VDict [(KStr "k", Atom "v")]))) out /\
  In (mk_setting "a" "x" (Conc (Atom "v"))) out'.
Proof. exact order_counterexample. Qed.
Print Assumptions C07_order_dependent_refuted.

(** C51: the documented "forget the alias" behaviour for a reference to an
    attribute with neither setting nor default never happens: every such
    configuration fails. *)
Theorem C51_dangling_never_accepted_partial : forall insts S j i a s out,
  dangles S j i a -> no_default insts i a ->
  nth_error S j = Some s -> no_default insts (s_inst s) (s_attr s) ->
  resolve insts S <> Ok out.
Proof. exact dangling_fails. Qed.
Print Assumptions C51_dangling_never_accepted_partial.
Lemma dangling_witness : exists S i a, dangles S 0 i a /\ resolve [] S = Err AssertionError.
Proof.
  exists [mk_setting "p" "q" (Ref "b.y" None)], "b", "y". split; [|reflexivity].
  do 3 eexists. split; [reflexivity|split; [reflexivity|split; [split; reflexivity|]]].
  intros k [s [H [? ?]]]. cases_nth k H.
Qed.
Theorem C51_forget_alias_refuted : exists S i a,
  dangles S 0 i a /\ resolve [] S = Err AssertionError.
Proof. exact dangling_witness. Qed.
Print Assumptions C51_forget_alias_refuted.
