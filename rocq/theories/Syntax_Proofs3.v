(** Proofs about the grammar: types of one identifier; texts that are not accepted. *)
From Coq Require Import String Ascii List Bool Lia.
From Verif Require Import Prelude Numeric_Model Lift_Model Lift_Spec Syntax_Model Syntax_Spec.
From Verif Require Import Lift_Proofs2 Lift_Proofs4 Syntax_Proofs Syntax_Proofs2.
Import ListNotations.
Open Scope string_scope.
Open Scope list_scope.

Lemma many_map {A} (P Q : A -> text_ -> text_ -> Prop) (g : A -> A) l :
  (forall a, In a l -> forall w r, P a w r -> Q (g a) w r) -> forall w r, many P l w r -> many Q (map g l) w r.
Proof.
  induction l as [|a l IH]; intros H w r; cbn; auto.
  intros (m & A1 & B1). exists m. split; [apply H; cbn; auto|]. apply IH; auto. intros b Hb. apply H. cbn. auto.
Qed.
Lemma more_map {A} (P Q : A -> text_ -> text_ -> Prop) (g : A -> A) l :
  (forall a, In a l -> forall w r, P a w r -> Q (g a) w r) -> forall w r, more P l w r -> more Q (map g l) w r.
Proof.
  induction l as [|a l IH]; intros H w r; cbn; auto.
  intros (m & m' & E & A1 & B1). exists m, m'. split; auto. split; [apply H; cbn; auto|]. apply IH; auto.
  intros b Hb. apply H. cbn. auto.
Qed.
Lemma commas_map {A} (P Q : A -> text_ -> text_ -> Prop) (g : A -> A) l :
  (forall a, In a l -> forall w r, P a w r -> Q (g a) w r) -> forall w r, commas P l w r -> commas Q (map g l) w r.
Proof.
  intros H w r. destruct l as [|a l]; cbn; auto. intros (m & A1 & B1). exists m. split; [apply H; cbn; auto|].
  apply (more_map P Q g l); auto. intros b Hb. apply H. cbn. auto.
Qed.

Section choices.
Variables k0 k : choice.
Lemma choose_types : (forall t w r, g_type k0 t w r -> g_type k (choose_type k t) w r) /\
  (forall f w r, g_attribute_decl k0 f w r -> g_attribute_decl k (choose_field k f) w r).
Proof.
  apply both_ind'; auto.
  - intros n w r (_ & B & ->). destruct k; cbn; repeat split; auto; try discriminate.
    exists r. split; reflexivity.
  - intros [n [|s l]] w r (K & H); cbn.
    + destruct k; cbn; repeat split; auto; try discriminate.
      destruct (String.eqb_spec n "Buf"); cbn; auto.
      repeat split; auto; try discriminate. destruct H as (m & -> & H). cbn in H. subst. reflexivity.
    + split; auto. intros _ H0. discriminate H0.
  - intros fs IH w r (m & -> & H). exists m. split; auto.
    exact (many_map (g_field k0) (g_field k) (choose_field k) fs (fun f Hf w r => IH f Hf w _) _ _ H).
  - intros t n a d IH w r (m & m' & H & A & D). exists m, m'. auto.
Qed.
Lemma choose_param_ok p w r : g_parameter k0 p w r -> g_parameter k (choose_param k p) w r.
Proof. destruct p as [d t n a]. intros (m & m' & H & T & A). exists m, m'. repeat split; auto. apply choose_types; auto. Qed.
Lemma choose_method_ok x w r : g_method k0 x w r -> g_method k (choose_method k x) w r.
Proof.
  destruct x as [t n ps]. intros (m & T & P). exists m. split.
  - destruct t as [t|]; cbn; auto. apply choose_types; auto.
  - destruct P as [P|[-> ->]]; [left|right; auto].
    exact (commas_map _ _ (choose_param k) ps (fun p _ => choose_param_ok p) _ _ P).
Qed.
Lemma choose_pitem_ok i w r : g_pitem k0 i w r -> g_pitem k (choose_pitem k i) w r.
Proof. destruct i as [m|f|i]; cbn; auto; [apply choose_method_ok|apply choose_types]. Qed.
Lemma choose_attribute_ok f w r : g_attribute k0 f w r -> g_attribute k (choose_field k f) w r.
Proof. intros (m & -> & H). exists m. split; auto. apply choose_types; auto. Qed.
Lemma choose_connector_ok c w r : g_connector k0 c w r -> g_connector k (choose_connector k c) w r.
Proof.
  destruct c as [f t fs]. intros (m & p & q & -> & H1 & H2 & H3). exists m, p, q. repeat split; auto.
  exact (many_map _ _ (choose_field k) fs (fun f _ => choose_attribute_ok f) _ _ H3).
Qed.
Lemma choose_conn_type_ok c w r : g_conn_type k0 c w r -> g_conn_type k (choose_conn_type k c) w r.
Proof. destruct c; cbn; auto. apply choose_connector_ok. Qed.
Lemma choose_citem_ok c w r : g_citem k0 c w r -> g_citem k (choose_citem k c) w r.
Proof. destruct c; cbn [choose_citem]; auto. apply choose_attribute_ok. Qed.
Lemma choose_bodies : (forall b w r, g_body k0 b w r -> g_body k (choose_body k b) w r) /\
  (forall x w r, g_comp_sing k0 x w r -> g_comp_sing k (choose_comp k x) w r) /\
  (forall s w r, g_stmt k0 s w r -> g_stmt k (choose_stmt k s) w r) /\
  (forall i w r, g_inst k0 i w r -> g_inst k (choose_inst k i) w r) /\
  (forall t w r, g_comp_type k0 t w r -> g_comp_type k (choose_comp_type k t) w r).
Proof.
  apply bodies_ind.
  - intros l x f b IH w r (m & m' & -> & C & R). exists m, m'. repeat split; auto.
    + exact (many_map _ _ (choose_citem k) l (fun c _ => choose_citem_ok c) _ _ C).
    + destruct x as [x|], f as [f|]; auto.
      * destruct R as (q & R). exists q. destruct b; intuition.
      * intuition.
  - intros p w r H. exact H.
  - intros n l IH w r (m & -> & m' & N & H). exists m. split; auto. exists m'. split; auto.
    exact (many_map _ _ (choose_stmt k) l IH _ _ H).
  - intros i IH w r H. exact (IH w r H).
  - intros t n l w r (m & m' & -> & T & E). exists m, m'. repeat split; auto. apply choose_conn_type_ok; auto.
  - intros n l IH w r (m & m' & -> & N & H). exists m, m'. repeat split; auto.
    exact (many_map _ _ (choose_inst k) l IH _ _ H).
  - intros p q w r H. exact H.
  - intros t n IH w r (m & -> & H). exists m. split; auto.
  - intros p w r H. exact H.
  - intros b IH w r H. exact (IH w r H).
Qed.
Lemma choose_part_ok p w r : g_part k0 p w r -> g_part k (choose_part k p) w r.
Proof. destruct p; cbn; auto. apply choose_bodies. Qed.
Lemma choose_ok d w r : g_decl k0 d w r -> g_decl k (choose k d) w r.
Proof.
  destruct d as [n ps|n b|n l|n l|n c|n l|n fs]; cbn [g_decl choose]; auto.
  - intros (m & m' & -> & N & E & H). exists m, m'. repeat split; auto.
    + destruct ps; [congruence|discriminate].
    + exact (many_map _ _ (choose_part k) ps (fun p _ => choose_part_ok p) _ _ H).
  - intros (m & m' & -> & N & H). exists m, m'. repeat split; auto. apply choose_bodies; auto.
  - intros (m & -> & m' & N & H). exists m. split; auto. exists m'. split; auto.
    exact (many_map _ _ (choose_stmt k) l (fun s _ => proj1 (proj2 (proj2 choose_bodies)) s) _ _ H).
  - intros (m & m' & -> & N & H). exists m, m'. repeat split; auto. apply choose_connector_ok; auto.
  - intros (m & m' & -> & N & H). exists m, m'. repeat split; auto.
    exact (many_map _ _ (choose_pitem k) l (fun i _ => choose_pitem_ok i) _ _ H).
  - intros (m & -> & m' & -> & H). exists (Sym "{" :: m'). split; auto. exists m'. split; auto.
    exact (many_map (g_field k0) (g_field k) (choose_field k) fs (fun f _ w r => proj2 choose_types f w _) _ _ H).
Qed.
Lemma choose_top_ok t w r : g_top k0 t w r -> g_top k (choose_top k t) w r.
Proof. destruct t; cbn [g_top choose_top]; auto. apply choose_ok. Qed.
Theorem chosen l w : g_start k0 l w -> g_start k (map (choose_top k) l) w.
Proof. exact (many_map _ _ (choose_top k) l (fun t _ => choose_top_ok t) w []). Qed.
End choices.

Theorem readings l l' k w : k <> Both -> g_start Both l w -> g_start Both l' w ->
  map (choose_top k) l = map (choose_top k) l'.
Proof. intros Hk H1 H2. exact (one_reading k Hk _ _ w (chosen Both k l w H1) (chosen Both k l' w H2)). Qed.

(** * Texts that are not accepted *)
Section refused.
Variable k : choice.
Hypothesis Hk : k <> Both.
Theorem configuration_alone l f m m' r : many (g_citem k) l m m' -> g_conf_sing f m' (Sym "}" :: r) ->
  forall b r', ~ g_body k b (Sym "{" :: m) r'.
Proof.
  intros H1 H2 [l' x f' b] r' (q & q' & E & C & R). injection E as <-. change (g_rest k x f' b q' r') in R.
  destruct (many_det (g_citem k) any_text is_citem (citem_starts k) (fun _ _ => eq_refl) l (fun c _ => citem_det k Hk c) l' m m' q' H1 C) as [-> ->].
  - apply conf_starts, is_word_inv in H2 as [? ->]. reflexivity.
  - rewrite (rest_not_citem _ _ _ _ _ _ R). reflexivity.
  - assert (Q := conf_starts _ _ _ H2). apply is_word_inv in Q as [z ->].
    destruct x as [x|], f' as [f'|]; cbn in R.
    + destruct R as (y & R). destruct b; destruct R as [A B].
      * destruct (conf_sing_det _ _ _ _ _ A H2 eq_refl eq_refl) as [-> ->]. apply comp_starts in B. discriminate.
      * apply comp_starts in A. discriminate.
    + destruct R as [_ A]. apply comp_starts in A. discriminate.
    + exact R.
    + destruct R as [_ E]. discriminate.
Qed.
Theorem one_slot s m r : g_slot s m (Sym "]" :: r) ->
  forall p r', ~ g_part k p (Word "schedule" :: Sym "{" :: Sym "[" :: m) r'.
Proof.
  intros H [x|f|l] r' P; cbn in P.
  - apply comp_starts in P. discriminate.
  - apply conf_starts in P. discriminate.
  - destruct P as (m' & E & L & P). injection E as <-. destruct l as [|a [|b l]]; cbn in L; try lia.
    destruct P as (q & A & (z & z' & E & _)). destruct (slot_det _ _ _ _ _ H A eq_refl eq_refl) as [_ E2]. congruence.
Qed.
Theorem procedure_semicolon l f m m' r : many (g_pitem k) l m m' -> g_attribute_decl k f m' (Sym ";" :: r) ->
  forall l' r', ~ many (g_pitem k) l' m (Sym "}" :: r').
Proof.
  intros H1 HF l' r' H2.
  assert (H : many (g_pitem k) (l ++ [PField f]) m (Sym ";" :: r)).
  { clear - H1 HF. revert m H1. induction l as [|a l IH]; cbn; intros m H1.
    - subst. exists (Sym ";" :: r). auto.
    - destruct H1 as (q & A & H1). exists q. auto. }
  destruct (many_det (g_pitem k) after_pitem is_pitem (pitem_starts k) pitem_after _ (fun i _ => pitem_det k Hk i) l' m _ _ H H2 eq_refl eq_refl) as [_ E].
  discriminate.
Qed.
End refused.
