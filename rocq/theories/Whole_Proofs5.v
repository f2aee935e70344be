(** Attribute values of the parsed system. *)
From Coq Require Import ssreflect ssrbool List String Ascii Bool Arith NArith Lia Permutation.
From Verif Require Import Prelude DecStr Flatten_Model Flatten_Spec Flatten_Proofs Flatten_Proofs2.
From Verif Require Merge_Model Freeze_Model Freeze_Spec Freeze_Proofs.
From Verif Require Import AttrRef_Model AttrRef_Spec AttrRef_Proofs.
From Verif Require Import Whole_Model Whole_Spec Whole_Proofs Whole_Proofs2 Whole_Proofs3 Whole_Proofs4.
Import ListNotations.
Open Scope string_scope.
Open Scope list_scope.

Lemma dotted_nested p l : l <> [] -> dotted (p ++ [dotted l]) = dotted (p ++ l).
Proof.
  move=> NE. elim: p => [|n p IH] //=. have: p ++ l <> [] by case: (p).
  have: p ++ [dotted l] <> [] by case: (p).
  move: IH. case: (p ++ [dotted l]) => [|x xs] // ; case: (p ++ l) => [|y ys] // E _ _. by rewrite E.
Qed.
Lemma filter_split A (f : A -> bool) l : Permutation (filter (fun x => negb (f x)) l ++ filter f l) l.
Proof.
  elim: l => [|x l IH] //=. case: (f x) => /=; last exact: perm_skip.
  apply: Permutation_trans (perm_skip x IH). apply: Permutation_sym. exact: Permutation_middle.
Qed.
Lemma combine_nth A (l : list A) : forall k j s, In (j, s) (combine (seq k (List.length l)) l) <->
  k <= j /\ nth_error l (j - k) = Some s.
Proof.
  elim: l => [|x l IH] k j s /=.
  - split=> //. move=> [_]. by case: (j - k).
  - rewrite IH. split.
    + case=> [[<- <-]|[L N]]; first by rewrite Nat.sub_diag.
      split; first lia. have -> : j - k = S (j - S k) by lia. exact: N.
    + move=> [L N]. case E: (j - k) N => [|n] /= N.
      * left. case: N => ->. f_equal. lia.
      * right. split; first lia. by have -> : j - S k = n by lia.
Qed.
Lemma first_entry_In K V (l : list (K * V)) k v : NoDup (map fst l) -> (first_entry l k v <-> In (k, v) l).
Proof.
  move=> N. split.
  - move=> [b [c [-> _]]]. apply/in_app_iff. right. by left.
  - move=> H. case: (in_split _ _ H) => b [c E]. exists b, c. split=> // I. subst l. rewrite map_app /= in N.
    apply: (NoDup_app_disjoint _ _ _ N k I). by left.
Qed.
Lemma mapM_concrete ss : forall vs, mapM concrete ss = Ok vs ->
  Forall2 (fun s v => exists w, s_val s = Conc w /\ v = (s_inst s, s_attr s, w)) ss vs.
Proof.
  elim: ss => [|s ss IH] vs /=; first by case=> <-; constructor.
  move=> /bind_Ok [v [V /bind_Ok [vs' [VS [<-]]]]]. constructor; last exact: IH.
  move: V. rewrite /concrete. case: (s_val s) => // w [<-]. by exists w.
Qed.

Section Attributes.
Variables (S : list item) (la lc : list (list string)) (S' : list item) (a : block) (rest : list block)
  (ts : list comp) (root : comp) (fl : flat).
Hypothesis G : stages S la lc S' a rest ts root.
Hypothesis W : scoped S.
Hypothesis F : transform root = Ok fl.
Hypothesis PR : plain_refs S.
Let SS := f_settings fl.
Let insts := attributes (f_insts fl).

Definition free (q : path) : Prop := Forall (fun s => dot_free s = true) q.
Lemma WF : wf root.
Proof. exact: root_wf G W. Qed.
Lemma setting_iff s' : In s' SS <-> exists p b s, place S p b /\ In s (bl_settings b) /\ s' = setting_at p s.
Proof.
  rewrite /SS (transform_settings _ _ F) in_map_iff. split.
  - move=> [[p s] [<- /(all_of_In _ settings_of) [c [A I]]]].
    move/(settings_iff _ _ _ _ _ _ _ _ G W _ _ _ A): I => [b [P I]]. by exists p, b, s.
  - move=> [p [b [s [P [I ->]]]]]. exists (p, s). split=> //. apply/(all_of_In _ settings_of).
    case: (has_path _ _ _ _ _ _ _ _ G _ _ P) => c A. exists c. split=> //.
    apply/(settings_iff _ _ _ _ _ _ _ _ G W _ _ _ A). by exists b.
Qed.
Lemma place_free p b : place S p b -> free p.
Proof. move=> P. case: (has_path _ _ _ _ _ _ _ _ G _ _ P) => c A. exact: at_path_dot_free WF A. Qed.
Lemma setting_ids p b s : place S p b -> In s (bl_settings b) ->
  free (p ++ [s_inst s]) /\ dot_free (s_attr s) = true.
Proof.
  move=> P I. case: (place_composition _ _ _ P) => bs [CO IB].
  case: (sc_ids _ W _ _ CO IB) => [_ [_ [_ [/Forall_forall H _]]]]. case: (H _ I) => H1 H2. split=> //.
  apply/Forall_app. split; first exact: place_free P. by constructor.
Qed.
Lemma attr_of q attrs : free q -> q <> [] ->
  (In (dotted q, attrs) insts <-> exists b, place S q b /\ attrs = bl_attrs b).
Proof.
  move=> FQ NE. rewrite /insts /attributes (transform_insts _ _ F) map_map in_map_iff. split.
  - move=> [[p x] [[E <-] I]] /=. have D := inst_path_dot_free _ _ _ WF I.
    have EQ: p ++ [iname x] = q by apply: dotted_inj E => //; case: (p).
    move/(all_of_In _ insts_of): I => [c [A X]]. have A' := at_path_snoc _ _ _ _ A X. rewrite EQ in A'.
    case: (path_has _ _ _ _ _ _ _ _ G _ _ A' NE) => b P. exists b. split=> //.
    exact: (attrs_eq _ _ _ _ _ _ _ _ G W _ _ _ A' P NE).
  - move=> [b [P ->]]. case: (has_path _ _ _ _ _ _ _ _ G _ _ P) => c A.
    case: (exists_last NE) => p [n E]. subst q.
    case: (at_path_snoc_inv _ _ _ _ A) => e [x [A' [X [E1 E2]]]].
    exists (p, x). split; last by apply/(all_of_In _ insts_of); exists e.
    rewrite /= E1 E2. f_equal. exact: (attrs_eq _ _ _ _ _ _ _ _ G W _ _ _ A P NE).
Qed.
Lemma insts_NoDup : NoDup (map fst insts).
Proof. rewrite /insts /attributes map_map. exact: flat_names_NoDup WF F. Qed.
Lemma attrs_NoDup i l : In (i, l) insts -> NoDup (map fst l).
Proof.
  move=> I. have J: In i (map fst insts) by exact: (in_map fst _ _ I).
  move: J. rewrite /insts /attributes map_map (transform_insts _ _ F) map_map /= => /in_map_iff [[p x] [E X]].
  have D := inst_path_dot_free _ _ _ WF X. simpl in E. subst i.
  case/(attr_of _ _ D): I; first by case: (p). move=> b [P ->].
  apply: sc_attrs W _ _. apply: place_comp P _. by case: (p).
Qed.
Lemma default_iff q x d : free q -> q <> [] -> (default_of insts (dotted q) x d <-> default S q x d).
Proof.
  move=> FQ NE. rewrite /default_of /default. split.
  - move=> [l [/(first_entry_In _ _ _ _ _ insts_NoDup) I J]].
    move/(first_entry_In _ _ _ _ _ (attrs_NoDup _ _ I)): J => J. case/(attr_of _ _ FQ NE): I => b [P E]. subst l.
    split=> //. by exists b.
  - move=> [_ [b [P I]]]. exists (bl_attrs b).
    have J: In (dotted q, bl_attrs b) insts by apply/(attr_of _ _ FQ NE); exists b.
    split; first by apply/(first_entry_In _ _ _ _ _ insts_NoDup). apply/first_entry_In => //. exact: attrs_NoDup J.
Qed.
Lemma has_default_iff q x d : free q -> q <> [] -> (Freeze_Spec.has_default insts (dotted q) x d <-> default S q x d).
Proof.
  move=> FQ NE. rewrite /Freeze_Spec.has_default /default. split.
  - move=> [l [/(attr_of _ _ FQ NE) [b [P ->]] I]]. split=> //. by exists b.
  - move=> [_ [b [P I]]]. exists (bl_attrs b). split=> //. apply/(attr_of _ _ FQ NE). by exists b.
Qed.

(** Settings of the flat system and those written *)
Lemma set_at_sets q x v p : set_at S q x v p -> exists j s, nth_error SS j = Some (setting_at p s) /\
  q = p ++ [s_inst s] /\ s_attr s = x /\ s_val s = v /\ free q /\ q <> [].
Proof.
  move=> [b [s [P [I [E1 [E2 E3]]]]]].
  have J: In (setting_at p s) SS by apply/setting_iff; exists p, b, s.
  case: (In_nth_error _ _ J) => j N. exists j, s. split=> //. split=> //. split=> //. split=> //. subst q.
  split; last by case: (p). by case: (setting_ids _ _ _ P I).
Qed.
Lemma sets_set_at j q x : free q -> q <> [] -> sets SS j (dotted q) x ->
  exists p s, nth_error SS j = Some (setting_at p s) /\ set_at S q x (s_val s) p.
Proof.
  move=> FQ NE [s' [N [E1 E2]]]. move/setting_iff: (nth_error_In _ _ N) => [p [b [s [P [I E]]]]]. subst s'.
  exists p, s. split=> //. exists b, s. split=> //. split=> //. split=> //.
  symmetry. apply: dotted_inj E1 => //; [by case: (setting_ids _ _ _ P I)|by case: (p)].
Qed.
Lemma none_set q x : free q -> q <> [] ->
  ((forall k, ~ sets SS k (dotted q) x) <-> (forall w p, ~ set_at S q x w p)).
Proof.
  move=> FQ NE. split.
  - move=> H w p SA. case: (set_at_sets _ _ _ _ SA) => j [s [N [E1 [E2 _]]]]. apply: (H j).
    exists (setting_at p s). split=> //. split=> //=. by rewrite E1.
  - move=> H k SE. case: (sets_set_at _ _ _ FQ NE SE) => p [s [_ SA]]. exact: H SA.
Qed.
(** A reference that is written, and its text after flattening *)
Lemma ref_names q x p r lk : set_at S q x (Ref r lk) p ->
  exists ns b, r = dotted (ns ++ [b]) /\ Forall id_ok (ns ++ [b]) /\
    free (p ++ ns) /\ p ++ ns <> [] /\ names (dotted (p ++ [r])) (dotted (p ++ ns)) b.
Proof.
  move=> SA. case: (PR _ _ _ _ _ SA) => ns [b [-> [ID [NE _]]]]. exists ns, b.
  case: SA => bl [s [P _]]. move/Forall_app: (ID) => [IN IB].
  have FR: free (p ++ ns) by apply/Forall_app; split=> //; exact: place_free P.
  split=> //. split=> //. split=> //. split=> //. split.
  - rewrite dotted_nested; first by case: (ns). by rewrite app_assoc dotted_snoc.
  - by inversion IB.
Qed.

Hypothesis U : forall i x j k, sets SS j i x -> sets SS k i x -> j = k.
Lemma setting_at_ref p s r lk : s_val (setting_at p s) = Ref r lk ->
  exists r0, s_val s = Ref r0 lk /\ r = dotted (p ++ [r0]).
Proof. rewrite /setting_at /=. case: (s_val s) => // r0 lk0 [<- <-]. by exists r0. Qed.
Lemma set_at_intro p b s : place S p b -> In s (bl_settings b) ->
  set_at S (p ++ [s_inst s]) (s_attr s) (s_val s) p.
Proof. move=> P I. by exists b, s. Qed.
Lemma no_default_iff q x : free q -> q <> [] ->
  (no_default insts (dotted q) x <-> forall d, ~ default S q x d).
Proof.
  move=> FQ NE. split=> H d D; apply: (H d); exact/(default_iff _ _ _ FQ NE).
Qed.
(** The only setting an unfolded reference can lead to *)
Lemma refers_inv p b s j i x : place S p b -> In s (bl_settings b) -> nth_error SS j = Some (setting_at p s) ->
  forall s' r lk, nth_error SS j = Some s' -> s_val s' = Ref r lk -> names r i x ->
  lookup_of SS j = keys_of lk /\
  exists ns, set_at S (p ++ [s_inst s]) (s_attr s) (Ref (dotted (ns ++ [x])) lk) p /\ Forall id_ok (ns ++ [x]) /\
    i = dotted (p ++ ns) /\ free (p ++ ns) /\ p ++ ns <> [].
Proof.
  move=> P I N s' r lk N' E NM. rewrite N in N'. case: N' => ?. subst s'.
  case: (setting_at_ref _ _ _ _ E) => r0 [E0 Er]. have SA := set_at_intro _ _ _ P I. rewrite E0 in SA.
  case: (ref_names _ _ _ _ _ SA) => ns [x' [Er0 [ID [FR [NE NM']]]]].
  rewrite Er in NM. case: (names_det _ _ _ _ _ NM NM') => ? ?. subst x'.
  split; first by rewrite /lookup_of N E.
  exists ns. rewrite -Er0. by split.
Qed.
Lemma denotes_value j v : denotes insts SS j v -> forall p b s, place S p b -> In s (bl_settings b) ->
  nth_error SS j = Some (setting_at p s) -> has_value S (p ++ [s_inst s]) (s_attr s) v.
Proof.
  elim=> {j v} [j s' v N E|j k w v R D IH LK|j i x d v DG DF LK|j s' i x d DG ND N0 DF] p b s P I NN.
  - rewrite NN in N. case: N => ?. subst s'. have SA := set_at_intro _ _ _ P I. apply: (hv_set _ _ _ _ p).
    move: E. rewrite /setting_at /=. case E: (s_val s) => [v0|] // [<-]. by rewrite -E.
  - case: R => s' [r [lk [i [x [N [E [NM [[s2 [N2 [E2 E3]]] _]]]]]]]].
    case: (refers_inv _ _ _ _ _ _ P I NN _ _ _ N E NM) => LO [ns [SA [ID [EI [FR NE]]]]].
    rewrite LO in LK. apply: hv_ref SA ID _ LK.
    move/setting_iff: (nth_error_In _ _ N2) => [p2 [b2 [s3 [P2 [I2 E4]]]]]. subst s2.
    have := IH _ _ _ P2 I2 N2. simpl in E2, E3. rewrite E3. rewrite EI in E2.
    have -> // : p ++ ns = p2 ++ [s_inst s3].
    apply: dotted_inj (eq_sym E2) => //; [by case: (setting_ids _ _ _ P2 I2)|by case: (p2)].
  - case: DG => s' [r [lk [N [E [NM NS]]]]].
    case: (refers_inv _ _ _ _ _ _ P I NN _ _ _ N E NM) => LO [ns [SA [ID [EI [FR NE]]]]].
    rewrite LO in LK. subst i. apply: hv_ref SA ID _ LK. apply: hv_default.
    + exact/(none_set _ _ FR NE).
    + exact/(default_iff _ _ _ FR NE).
  - case: DG => s2 [r [lk [N [E [NM NS]]]]].
    case: (refers_inv _ _ _ _ _ _ P I NN _ _ _ N E NM) => LO [ns [SA [ID [EI [FR NE]]]]]. subst i.
    rewrite NN in N0. case: N0 => ?. subst s'. simpl in DF.
    apply: hv_own SA ID _ _ _.
    + exact/(none_set _ _ FR NE).
    + exact/(no_default_iff _ _ FR NE).
    + apply/default_iff => //; [by case: (setting_ids _ _ _ P I)|by case: (p)].
Qed.
Lemma value_denotes q x v : has_value S q x v -> free q -> q <> [] ->
  (exists j, sets SS j (dotted q) x /\ denotes insts SS j v) \/
  ((forall k, ~ sets SS k (dotted q) x) /\ default S q x v).
Proof.
  elim=> {q x v} [q x v p SA|q x p ns b lk w v SA ID HV IH LK|q x p ns b lk d SA ID NS ND DF|q x d NS DF] FQ NE.
  - left. case: (set_at_sets _ _ _ _ SA) => j [s [N [E1 [E2 [E3 _]]]]]. exists j. split.
    + exists (setting_at p s). by rewrite E1.
    + apply: den_conc N _. by rewrite /setting_at /= E3.
  - left. case: (set_at_sets _ _ _ _ SA) => j [s [N [E1 [E2 [E3 _]]]]]. exists j. split.
    { exists (setting_at p s). by rewrite E1. }
    case: (ref_names _ _ _ _ _ SA) => ns' [b' [Er [ID' [FR [NE' NM]]]]].
    have [? ?] : ns = ns' /\ b = b'.
    { apply: app_inj_tail. apply: dotted_inj Er => //; [by case: (ns)|by case: (ns')]. }
    subst ns' b'.
    have LO: lookup_of SS j = keys_of lk by rewrite /lookup_of N /= E3.
    case: (IH FR NE') => [[k [SK D]]|[NS DF]].
    + apply: (den_ref _ _ j k w); [|exact: D|by rewrite LO].
      exists (setting_at p s), (dotted (p ++ [dotted (ns ++ [b])])), lk, (dotted (p ++ ns)), b.
      split=> //. split; first by rewrite /= E3. split=> //. split=> // k' SK'. exact: U SK' SK.
    + apply: (den_default _ _ j (dotted (p ++ ns)) b w); [|exact/default_iff|by rewrite LO].
      exists (setting_at p s), (dotted (p ++ [dotted (ns ++ [b])])), lk.
      split=> //. split; first by rewrite /= E3. by split.
  - left. case: (set_at_sets _ _ _ _ SA) => j [s [N [E1 [E2 [E3 _]]]]]. exists j. split.
    { exists (setting_at p s). by rewrite E1. }
    case: (ref_names _ _ _ _ _ SA) => ns' [b' [Er [ID' [FR [NE' NM]]]]].
    have [? ?] : ns = ns' /\ b = b'.
    { apply: app_inj_tail. apply: dotted_inj Er => //; [by case: (ns)|by case: (ns')]. }
    subst ns' b'.
    apply: (den_own _ _ j (setting_at p s) (dotted (p ++ ns)) b d) => //.
    + exists (setting_at p s), (dotted (p ++ [dotted (ns ++ [b])])), lk.
      split=> //. split; first by rewrite /= E3. split=> //. exact/none_set.
    + exact/no_default_iff.
    + rewrite /= -E1 E2. exact/default_iff.
  - right. split=> //. exact/none_set.
Qed.
Lemma direct_lookups : lookups_direct SS.
Proof.
  move=> j s' r ks N E. move/setting_iff: (nth_error_In _ _ N) => [p [b [s [P [I ES]]]]]. subst s'.
  case: (setting_at_ref _ _ _ _ E) => r0 [E0 Er]. have SA := set_at_intro _ _ _ P I. rewrite E0 in SA.
  case: (PR _ _ _ _ _ SA) => ns [x [Er0 [ID [NE H]]]]. case: H => // l [p' TA].
  case: (ref_names _ _ _ _ _ SA) => ns' [x' [Er1 [ID' [FR [NE' NM]]]]].
  have [? ?] : ns = ns' /\ x = x'.
  { apply: app_inj_tail. rewrite Er0 in Er1. apply: dotted_inj Er1 => //; [by case: (ns)|by case: (ns')]. }
  subst ns' x'. case: (set_at_sets _ _ _ _ TA) => k [t [NK [E1 [E2 [E3 _]]]]].
  exists k, (setting_at p' t), l. split; last by split=> //; rewrite /= E3.
  exists (setting_at p s), r, (Some ks), (dotted (p ++ ns)), x. split=> //. split=> //. rewrite Er. split=> //.
  have SK: sets SS k (dotted (p ++ ns)) x by exists (setting_at p' t); rewrite E1.
  split=> // k' SK'. exact: U SK' SK.
Qed.
End Attributes.

(** * What stage 8 and the freezing do with them *)
Lemma resolved_sets (SS : list setting) val vs : mapM concrete (resolved_as SS val) = Ok vs ->
  (forall i x v, Freeze_Spec.is_set vs i x v <-> exists j, sets SS j i x /\ v = val j) /\
  (NoDup (map fst vs) -> forall i x j k, sets SS j i x -> sets SS k i x -> j = k).
Proof.
  move=> H. have FA := mapM_concrete _ _ H. clear H.
  set numbered := combine (seq 0 (List.length SS)) SS.
  set order := filter (fun js => negb (holds_ref (snd js))) numbered ++ filter (fun js => holds_ref (snd js)) numbered.
  have E: vs = map (fun js => (s_inst (snd js), s_attr (snd js), val (fst js))) order.
  { move: FA. rewrite /resolved_as -/numbered -/order. move: order => o. elim: o vs => [|js o IH] vs FA; inversion FA as [|? ? ? ? [w [X ->]] FA']; subst=> //=.
    rewrite /= in X. case: X => <-. by rewrite (IH _ FA'). }
  have PM: Permutation order numbered by exact: filter_split.
  have IN: forall j s, In (j, s) order <-> nth_error SS j = Some s.
  { move=> j s. split.
    - move=> I. have := Permutation_in _ PM I. rewrite combine_nth Nat.sub_0_r. by case.
    - move=> N. apply: (Permutation_in _ (Permutation_sym PM)). rewrite combine_nth Nat.sub_0_r. split=> //. lia. }
  split.
  - move=> i x v. rewrite /Freeze_Spec.is_set E in_map_iff. split.
    + move=> [[j s] [[<- <- <-] /IN N]]. exists j. split=> //. by exists s.
    + move=> [j [[s [N [<- <-]]] ->]]. exists (j, s). split=> //. exact/IN.
  - move=> ND i x j k [s [N [E1 E2]]] [s' [N' [E1' E2']]].
    rewrite E map_map in ND. have := NoDup_map_In _ _ _ _ (j, s) (k, s') ND. move=> H.
    have: (j, s) = (k, s'); last by case.
    apply: H; [exact/IN|exact/IN|]. by rewrite /= E1 E2 E1' E2'.
Qed.
