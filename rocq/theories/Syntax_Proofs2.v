(** Proofs about the grammar: declarations and files. *)
From Coq Require Import String Ascii List Bool Lia.
From Verif Require Import Prelude Numeric_Model Lift_Model Lift_Spec Syntax_Model.
From Verif Require Import Lift_Proofs4 Syntax_Proofs.
Import ListNotations.
Open Scope string_scope.
Open Scope list_scope.

Definition any_text (r : text_) : bool := true.
Lemma opt_det {A} (P : A -> text_ -> text_ -> Prop) (F S : text_ -> bool) o : starts P S -> (forall a, det P F a) ->
  det (maybe_ P) (fun r => negb (S r) && F r) o.
Proof.
  intros HS D o' w r r' H1 H2 F1 F2. apply andb_prop in F1, F2. destruct F1 as [N1 F1], F2 as [N2 F2].
  apply negb_true_iff in N1, N2.
  destruct o as [a|], o' as [b|]; cbn in H1, H2.
  - destruct (D _ _ _ _ _ H1 H2 F1 F2) as [-> ->]. auto.
  - subst. apply HS in H1. congruence.
  - subst. apply HS in H2. congruence.
  - subst. auto.
Qed.
Lemma id_det s : det g_id any_text s.
Proof. intros s' w r r' -> E _ _. injection E as -> ->. auto. Qed.
Lemma opt_id_det n : det (maybe_ g_id) (fun r => negb (is_name r)) n.
Proof.
  eapply det_weak; [|apply (opt_det g_id any_text is_name)].
  - intros r H. cbn beta. rewrite H. reflexivity.
  - intros s w r ->. reflexivity.
  - apply id_det.
Qed.
Lemma flag_det b t b' w r r' : flag b t w r -> flag b' t w r' -> (forall m, r <> t :: m) -> (forall m, r' <> t :: m) -> b = b' /\ r = r'.
Proof. unfold flag. destruct b, b'; intros -> E N1 N2; subst; auto; [injection E as ->; auto|exfalso; eapply N2; eauto|exfalso; eapply N1; eauto]. Qed.
Lemma many_ends {A} (P : A -> text_ -> text_ -> Prop) S l (c : tok) : starts P S -> (forall r, S (c :: r) = false) ->
  (forall a, In a l -> det P any_text a) ->
  forall l' w r r', many P l w (c :: r) -> many P l' w (c :: r') -> l = l' /\ r = r'.
Proof.
  intros HS HN D l' w r r' H1 H2.
  destruct (many_det P any_text S HS (fun _ _ => eq_refl) l D l' w (c :: r) (c :: r') H1 H2) as [-> E].
  - rewrite HN. reflexivity.
  - rewrite HN. reflexivity.
  - injection E as ->. auto.
Qed.

Section grammar.
Variable k : choice.
Hypothesis Hk : k <> Both.

Lemma type_name_det t t' n n' w r r' : g_type k t w (Name n :: r) -> g_type k t' w (Name n' :: r') -> t = t' /\ n = n' /\ r = r'.
Proof. intros H1 H2. destruct (proj1 (type_decl_det k Hk) _ _ _ _ _ H1 H2 eq_refl eq_refl) as [-> E]. injection E as -> ->. auto. Qed.
Lemma field_det f : det (g_field k) any_text f.
Proof.
  intros g w r r' H1 H2 _ _. destruct (proj2 (type_decl_det k Hk) _ _ _ _ _ H1 H2 eq_refl eq_refl) as [-> E]. injection E as ->. auto.
Qed.
Lemma attribute_det f : det (g_attribute k) any_text f.
Proof.
  intros g w r r' (m & -> & H1) (m' & E & H2) _ _. injection E as <-. exact (field_det f g m r r' H1 H2 eq_refl eq_refl).
Qed.
Lemma struct_det fs : det (g_struct_defn k) any_text fs.
Proof.
  intros gs w r r' (m & -> & H1) (m' & E & H2) _ _. injection E as <-.
  apply (many_ends (g_field k) is_type fs (Sym "}")) with (w := m); auto.
  - intros f w0 r0 H. exact (decl_starts k _ _ _ H).
  - intros f _. apply field_det.
Qed.

(** * Procedures *)
Lemma file_det i : det g_file any_text i.
Proof.
  intros j w r r' H1 H2 _ _. destruct i as [t|s], j as [t'|s']; cbn in H1, H2.
  - destruct (string_det _ _ _ _ _ H1 H2 eq_refl eq_refl) as [-> E]. injection E as ->. auto.
  - subst. apply string_starts in H1. discriminate.
  - subst. apply string_starts in H2. discriminate.
  - subst. injection H2 as -> ->. auto.
Qed.
Lemma include_det i : det g_include any_text i.
Proof. intros j w r r' (m & -> & H1) (m' & E & H2) _ _. injection E as <-. exact (file_det i j m r r' H1 H2 eq_refl eq_refl). Qed.

Definition is_dir (w : text_) : bool :=
  match w with Word s :: _ => existsb (String.eqb s) ["in"; "inout"; "out"; "refin"] | _ => false end.
Lemma type_not_dir w : is_type w = true -> negb (is_dir w) = true.
Proof.
  destruct w as [|[s| | | | |] w]; auto. unfold is_type, is_dir. cbn [existsb].
  repeat (match goal with |- context [String.eqb s ?a] => destruct (String.eqb_spec s a) as [->|] end; cbn; auto; try discriminate).
Qed.
Lemma dir_det d : det g_direction any_text d.
Proof. intros d' w r r' -> E _ _. injection E as E ->. destruct d, d'; try discriminate; auto. Qed.
Definition is_param (w : text_) : bool := is_dir w || is_type w.
Lemma param_starts : starts (g_parameter k) is_param.
Proof.
  intros [d t n a] w r (m & m' & H & T & _). unfold is_param. destruct d as [d|]; cbn in H.
  - unfold g_direction in H. subst w. destruct d; reflexivity.
  - subst w. apply type_starts in T. rewrite T. apply orb_true_r.
Qed.
Definition after_param (r : text_) : bool := match r with Sym s :: _ => negb (String.eqb s "[") | _ => true end.
Lemma param_det p : det (g_parameter k) after_param p.
Proof.
  destruct p as [d t n a]. intros [d' t' n' a'] w r r' (m & p & D1 & T1 & A1) (m' & p' & D2 & T2 & A2) F1 F2.
  destruct (opt_det g_direction any_text is_dir d) with (b := d') (w := w) (r := m) (r' := m') as [-> ->]; auto.
  { intros x w0 r0 ->. destruct x; reflexivity. }
  { apply dir_det. }
  { rewrite andb_true_r. apply type_not_dir. exact (type_starts k _ _ _ T1). }
  { rewrite andb_true_r. apply type_not_dir. exact (type_starts k _ _ _ T2). }
  destruct (type_name_det _ _ _ _ _ _ _ T1 T2) as (-> & -> & ->).
  destruct a, a'; subst; try discriminate; auto. injection A2 as ->. auto.
Qed.
Lemma type_not_void w r : is_type w = true -> w <> Word "void" :: r.
Proof. intros H ->. discriminate. Qed.
Lemma method_det x : det (g_method k) any_text x.
Proof.
  destruct x as [t n ps]. intros [t' n' ps'] w r r' (m & T1 & P1) (m' & T2 & P2) _ _.
  assert (E : t = t' /\ n = n' /\ m = m').
  { destruct t as [t|], t' as [t'|].
    - destruct (type_name_det _ _ _ _ _ _ _ T1 T2) as (-> & -> & E). injection E as ->. auto.
    - subst w. apply type_starts in T1. discriminate.
    - subst w. apply type_starts in T2. discriminate.
    - subst w. injection T2 as -> ->. auto. }
  destruct E as (-> & -> & ->).
  assert (V : forall l q, commas (g_parameter k) l (Word "void" :: q) (Expr TRpar :: Sym ";" :: r) \/
                          commas (g_parameter k) l (Word "void" :: q) (Expr TRpar :: Sym ";" :: r') -> False).
  { intros [|a l] q [H|H]; cbn in H; try discriminate; destruct H as (z & H & _); apply param_starts in H; discriminate. }
  destruct P1 as [P1|[-> ->]], P2 as [P2|[-> E]].
  - destruct (list_det (g_parameter k) after_param is_param param_starts (fun w => eq_refl) ps (fun p _ => param_det p)
      ps' m' _ _ P1 P2 eq_refl eq_refl) as [-> E]. injection E as ->. auto.
  - subst m'. exfalso. eauto.
  - exfalso. eauto.
  - injection E as ->. auto.
Qed.
Definition is_pitem (w : text_) : bool :=
  is_type w || match w with Word s :: _ => String.eqb s "void" || String.eqb s "include" | _ => false end.
Definition after_pitem (r : text_) : bool := after_decl r && match r with Expr TLpar :: _ => false | _ => true end.
Lemma pitem_starts : starts (g_pitem k) is_pitem.
Proof.
  intros [[t n ps]|f|i] w r H; cbn in H; unfold is_pitem.
  - destruct H as (m & H & _). destruct t as [t|]; [apply type_starts in H; rewrite H; reflexivity|subst; reflexivity].
  - apply decl_starts in H. rewrite H. reflexivity.
  - destruct H as (m & -> & _). reflexivity.
Qed.
Lemma pitem_after w : is_pitem w = true -> after_pitem w = true.
Proof. destruct w as [|[s|s|s| | |] w]; auto; try discriminate. unfold is_pitem. cbn.
  destruct (String.eqb_spec s "{") as [->|]; cbn; auto. Qed.
Lemma after_pitem_inv r : after_pitem r = true -> after_decl r = true /\ forall m, r <> Expr TLpar :: m.
Proof. unfold after_pitem. intros H. apply andb_prop in H. destruct H as [H K]. split; auto. intros m ->. discriminate. Qed.
(** A method and an attribute begin alike. *)
Lemma method_not_field x f w r r' : g_method k x w r -> g_attribute_decl k f w r' -> after_pitem r' = true -> False.
Proof.
  destruct x as [t n ps], f as [t' n' a d]. intros (m & H1 & _) (p & p' & H2 & A & D) F. apply after_pitem_inv in F as [F N].
  destruct t as [t|].
  - destruct (type_name_det _ _ _ _ _ _ _ H1 H2) as (_ & _ & <-).
    destruct a; [discriminate|]. subst p'. destruct d as [i|]; [destruct D as (z & E & _); discriminate|]. exact (N _ (eq_sym D)).
  - subst w. apply type_starts in H2. discriminate.
Qed.
Lemma pitem_det i : det (g_pitem k) after_pitem i.
Proof.
  intros j w r r' H1 H2 F1 F2. destruct i as [x|f|i], j as [y|g|j]; cbn in H1, H2.
  - destruct (method_det _ _ _ _ _ H1 H2 eq_refl eq_refl) as [-> ->]. auto.
  - exfalso. exact (method_not_field _ _ _ _ _ H1 H2 F2).
  - destruct H2 as (m & -> & _), x as [[t|] n ps], H1 as (p & H1 & _); [apply type_starts in H1|]; discriminate.
  - exfalso. exact (method_not_field _ _ _ _ _ H2 H1 F1).
  - apply after_pitem_inv in F1, F2. destruct (proj2 (type_decl_det k Hk) _ _ _ _ _ H1 H2) as [-> ->]; tauto.
  - destruct H2 as (m & -> & _). apply decl_starts in H1. discriminate.
  - destruct H1 as (m & -> & _), y as [[t|] n ps], H2 as (p & H2 & _); [apply type_starts in H2|]; discriminate.
  - destruct H1 as (m & -> & _). apply decl_starts in H2. discriminate.
  - destruct (include_det _ _ _ _ _ H1 H2 eq_refl eq_refl) as [-> ->]. auto.
Qed.
Lemma pitems_det l l' w r r' : many (g_pitem k) l w (Sym "}" :: r) -> many (g_pitem k) l' w (Sym "}" :: r') -> l = l' /\ r = r'.
Proof.
  intros H1 H2.
  destruct (many_det (g_pitem k) after_pitem is_pitem pitem_starts pitem_after l (fun i _ => pitem_det i) l' w _ _ H1 H2 eq_refl eq_refl) as [-> E].
  injection E as ->. auto.
Qed.

(** * Configurations *)
Definition is_open (w : text_) : bool := match w with Sym s :: _ => String.eqb s "[" | _ => false end.
Lemma lookup_det ks : det g_lookup (fun r => negb (is_open r)) ks.
Proof.
  intros ks' w r r' H1 H2 F1 F2. unfold g_lookup in *.
  set (P := fun k w r => exists m, w = Sym "[" :: m /\ g_key k m (Sym "]" :: r)) in *.
  assert (HS : starts P is_open). { intros a w0 r0 (m & -> & _). reflexivity. }
  assert (D : forall a, det P any_text a).
  { intros a b w0 r0 r0' (m & -> & K1) (m' & E & K2) _ _. injection E as <-.
    destruct (key_det _ _ _ _ _ K1 K2 eq_refl eq_refl) as [-> E]. injection E as ->. auto. }
  destruct (many_det P any_text is_open HS (fun _ _ => eq_refl) (fst ks :: snd ks) (fun a _ => D a) (fst ks' :: snd ks') w r r' H1 H2) as [E ->].
  - rewrite F1. reflexivity.
  - rewrite F2. reflexivity.
  - injection E as E1 E2. destruct ks, ks'. cbn in *. subst. auto.
Qed.
Lemma lookup_starts : starts g_lookup is_open.
Proof. intros ks w r (m & (m' & -> & _) & _). reflexivity. Qed.
Lemma opt_lookup_det ks ks' w r r' : maybe_ g_lookup ks w (Sym ";" :: r) -> maybe_ g_lookup ks' w (Sym ";" :: r') -> ks = ks' /\ r = r'.
Proof.
  intros H1 H2.
  destruct (opt_det g_lookup (fun r => negb (is_open r)) is_open ks lookup_starts lookup_det ks' w _ _ H1 H2 eq_refl eq_refl) as [-> E].
  injection E as ->. auto.
Qed.
Lemma dict_det l : det g_dict after_item l.
Proof. intros l' w r r' H1 H2 F1 F2. destruct (item_det _ _ _ _ _ H1 H2 F1 F2) as [E ->]. injection E as ->. auto. Qed.
Definition is_brace (w : text_) : bool := match w with Sym s :: _ => String.eqb s "{" | _ => false end.
Lemma dict_starts : starts g_dict is_brace.
Proof. intros l w r (m & -> & _). reflexivity. Qed.
Lemma query_arg_det a : det g_query_arg after_item a.
Proof.
  intros b w r r' H1 H2 F1 F2. destruct a as [l|ls], b as [l'|ls']; cbn in H1, H2.
  - destruct (dict_det _ _ _ _ _ H1 H2 F1 F2) as [-> ->]. auto.
  - apply dict_starts in H1. destruct H2 as (m & -> & _). discriminate.
  - apply dict_starts in H2. destruct H1 as (m & -> & _). discriminate.
  - destruct H1 as (m & -> & H1), H2 as (m' & E & H2). injection E as <-.
    destruct (list_det g_dict after_item is_brace dict_starts (fun w => eq_refl) ls (fun l _ => dict_det l) ls' m _ _ H1 H2 eq_refl eq_refl) as [-> E].
    injection E as ->. auto.
Qed.
Lemma opt_lookup_after ks w r : maybe_ g_lookup ks w (Sym ";" :: r) -> after_path w = true.
Proof.
  destruct ks as [ks|]; cbn; [|intros ->; reflexivity]. intros H. apply lookup_starts in H.
  destruct w as [|[] ?]; try discriminate. cbn in *. apply String.eqb_eq in H. subst. reflexivity.
Qed.
Lemma value_det v v' w r r' : g_value v w (Sym ";" :: r) -> g_value v' w (Sym ";" :: r') -> v = v' /\ r = r'.
Proof.
  intros H1 H2. destruct v as [i|n a ks|p ks], v' as [i'|n' a' ks'|p' ks']; cbn in H1, H2.
  - destruct H1 as (m & -> & H1), H2 as (m' & E & H2). injection E as <-.
    destruct (item_det _ _ _ _ _ H1 H2 eq_refl eq_refl) as [-> E]. injection E as ->. auto.
  - destruct H1 as (m & -> & H1), H2 as (m' & q & E & _). injection E as ->. apply item_starts in H1. discriminate.
  - destruct H1 as (m & -> & H1), H2 as (m' & q & E & _). discriminate.
  - destruct H2 as (m & -> & H2), H1 as (m' & q & E & _). injection E as ->. apply item_starts in H2. discriminate.
  - destruct H1 as (m & q & -> & A1 & K1), H2 as (m' & q' & E & A2 & K2). injection E as -> <-.
    destruct (query_arg_det _ _ _ _ _ A1 A2 eq_refl eq_refl) as [-> E]. injection E as ->.
    destruct (opt_lookup_det _ _ _ _ _ K1 K2) as [-> ->]. auto.
  - destruct H1 as (m & q & -> & _), H2 as (m' & q' & E & _). discriminate.
  - destruct H2 as (m & -> & H2), H1 as (m' & q & E & _). discriminate.
  - destruct H1 as (m & q & -> & _), H2 as (m' & q' & E & _). discriminate.
  - destruct H1 as (m & q & -> & A1 & K1), H2 as (m' & q' & E & A2 & K2). injection E as <-.
    destruct (path_det _ _ _ _ _ A1 A2 (opt_lookup_after _ _ _ K1) (opt_lookup_after _ _ _ K2)) as [-> ->].
    destruct (opt_lookup_det _ _ _ _ _ K1 K2) as [-> ->]. auto.
Qed.
Lemma setting_det s : det g_setting any_text s.
Proof.
  destruct s as [i a v]. intros [i' a' v'] w r r' (m & -> & H1) (m' & E & H2) _ _. injection E as -> -> <-.
  destruct (value_det _ _ _ _ _ H1 H2) as [-> ->]. auto.
Qed.
Lemma setting_starts : starts g_setting is_name.
Proof. intros [i a v] w r (m & -> & _). reflexivity. Qed.
Lemma name_brace_det n n' w r r' : maybe_ g_id n w (Sym "{" :: r) -> maybe_ g_id n' w (Sym "{" :: r') -> n = n' /\ r = r'.
Proof. intros H1 H2. destruct (opt_id_det _ _ _ _ _ H1 H2 eq_refl eq_refl) as [-> E]. injection E as ->. auto. Qed.
Lemma configuration_det n l n' l' w r r' : g_configuration n l w r -> g_configuration n' l' w r' -> n = n' /\ l = l' /\ r = r'.
Proof.
  intros (m & N1 & H1) (m' & N2 & H2). destruct (name_brace_det _ _ _ _ _ N1 N2) as [-> ->].
  destruct (many_ends g_setting is_name l (Sym "}")) with (l' := l') (w := m') (r := r) (r' := r') as [-> ->]; auto.
  - apply setting_starts.
  - intros s _. apply setting_det.
Qed.
Lemma path_semi_det p p' w r r' : g_reference p w (Sym ";" :: r) -> g_reference p' w (Sym ";" :: r') -> p = p' /\ r = r'.
Proof. intros H1 H2. destruct (path_det _ _ _ _ _ H1 H2 eq_refl eq_refl) as [-> E]. injection E as ->. auto. Qed.
(** A reference ends with a semicolon where a definition has a brace. *)
Lemma path_not_brace p n w r r' : g_reference p w (Sym ";" :: r) -> maybe_ g_id n w (Sym "{" :: r') -> False.
Proof.
  intros (m & -> & H1) H2. destruct n as [n|]; cbn in H2; [|discriminate]. injection H2 as _ ->.
  destruct (snd p) as [|s l]; cbn in H1; [discriminate|]. destruct H1 as (q & E & _). discriminate.
Qed.
Lemma conf_sing_det f : det g_conf_sing any_text f.
Proof.
  intros f' w r r' (m & -> & H1) (m' & E & H2) _ _. injection E as <-. destruct f as [p|n l], f' as [p'|n' l'].
  - destruct (path_semi_det _ _ _ _ _ H1 H2) as [-> ->]. auto.
  - destruct H2 as (q & H2 & _). exfalso. exact (path_not_brace _ _ _ _ _ H1 H2).
  - destruct H1 as (q & H1 & _). exfalso. exact (path_not_brace _ _ _ _ _ H2 H1).
  - destruct (configuration_det _ _ _ _ _ _ _ H1 H2) as (-> & -> & ->). auto.
Qed.

(** * Connectors *)
Lemma threads_det e : det g_threads any_text e.
Proof.
  intros e' w r r' (m & -> & H1) (m' & E & H2) _ _. injection E as <-.
  destruct H1 as [H1|H1], H2 as [H2|H2]; destruct (numeric_det _ _ _ _ _ H1 H2 eq_refl eq_refl) as [-> E]; try discriminate;
    injection E as ->; auto.
Qed.
Lemma kind_det a b a' b' : (kind_text a ++ (if b : bool then "s" else ""))%string = (kind_text a' ++ (if b' : bool then "s" else ""))%string -> a = a' /\ b = b'.
Proof. destruct a, b, a', b'; cbn; intros; try discriminate; auto. Qed.
Lemma cend_det e : det g_cend any_text e.
Proof.
  destruct e as [h kd mu th]. intros [h' kd' mu' th'] w r r' (m & q & F1 & E1 & T1) (m' & q' & F2 & E2 & T2) _ _. cbn in *.
  destruct (flag_det _ _ _ _ _ _ F1 F2) as [-> E].
  - intros z ->. injection E1 as E1 _. destruct kd, mu; discriminate.
  - intros z ->. injection E2 as E2 _. destruct kd', mu'; discriminate.
  - rewrite E1, E2 in E. injection E as E <-. apply kind_det in E as [-> ->].
    destruct (opt_det g_threads any_text (fun w => match w with Word _ :: _ => true | _ => false end) th) with (b := th') (w := q) (r := Sym ";" :: r) (r' := Sym ";" :: r') as [-> E]; auto.
    + intros e w0 r0 (z & -> & _). reflexivity.
    + apply threads_det.
    + injection E as ->. auto.
Qed.
Definition is_word (s : string) (w : text_) : bool := match w with Word s' :: _ => String.eqb s' s | _ => false end.
Lemma attribute_starts : starts (g_attribute k) (is_word "attribute").
Proof. intros f w r (m & -> & _). reflexivity. Qed.
Lemma connector_det c : det (g_connector k) any_text c.
Proof.
  destruct c as [f t fs]. intros [f' t' fs'] w r r' (m & p & q & -> & C1 & D1 & A1) (m' & p' & q' & E & C2 & D2 & A2) _ _.
  injection E as <-. destruct (cend_det _ _ _ _ _ C1 C2 eq_refl eq_refl) as [-> E]. injection E as ->.
  destruct (cend_det _ _ _ _ _ D1 D2 eq_refl eq_refl) as [-> ->].
  destruct (many_ends (g_attribute k) (is_word "attribute") fs (Sym "}")) with (l' := fs') (w := q') (r := r) (r' := r') as [-> ->]; auto.
  - apply attribute_starts.
  - intros a _. apply attribute_det.
Qed.
Lemma conn_type_det c : det (g_conn_type k) after_path c.
Proof.
  intros c' w r r' H1 H2 F1 F2. destruct c as [p|c], c' as [p'|c']; cbn in H1, H2.
  - destruct (path_det _ _ _ _ _ H1 H2 F1 F2) as [-> ->]. auto.
  - apply path_starts in H1. destruct c' as [f t fs], H2 as (m & q & z & -> & _). discriminate.
  - apply path_starts in H2. destruct c as [f t fs], H1 as (m & q & z & -> & _). discriminate.
  - destruct (connector_det _ _ _ _ _ H1 H2 eq_refl eq_refl) as [-> ->]. auto.
Qed.

(** * Components *)
Lemma dtype_det d d' n n' w r r' : g_dtype d w (Name n :: Sym ";" :: r) -> g_dtype d' w (Name n' :: Sym ";" :: r') -> d = d' /\ n = n' /\ r = r'.
Proof.
  intros H1 H2. destruct d as [s|e], d' as [s'|e']; cbn in H1, H2; unfold g_id in *.
  - subst w. injection H2 as -> -> ->. auto.
  - destruct H2 as (m & -> & _). discriminate.
  - destruct H1 as (m & -> & _). discriminate.
  - destruct H1 as (m & -> & H1), H2 as (m' & E & H2). injection E as <-.
    destruct (numeric_det _ _ _ _ _ H1 H2 eq_refl eq_refl) as [-> E]. injection E as -> ->. auto.
Qed.
Lemma path_name_det p p' n n' w r r' : g_reference p w (Name n :: r) -> g_reference p' w (Name n' :: r') -> p = p' /\ n = n' /\ r = r'.
Proof. intros H1 H2. destruct (path_det _ _ _ _ _ H1 H2 eq_refl eq_refl) as [-> E]. injection E as -> ->. auto. Qed.
Definition citem_words := ["attribute"; "maybe"; "consumes"; "control"; "dataport"; "emits"; "hardware"; "include"; "has"; "provides"; "uses"].
Definition is_citem (w : text_) : bool := match w with Word s :: _ => existsb (String.eqb s) citem_words | _ => false end.
Ltac unflag := repeat match goal with H : flag ?b _ _ _ |- _ => is_var b; unfold flag in H; destruct b end.
Lemma citem_starts : starts (g_citem k) is_citem.
Proof.
  intros c w r H. destruct c; cbn in H; unfold g_attribute, g_include in H; open; unflag; subst; reflexivity.
Qed.
Lemma citem_det c : det (g_citem k) any_text c.
Proof.
  intros c' w r r' H1 H2 _ _.
  destruct c, c'; cbn in H1, H2;
    try (unfold g_attribute, g_include in H1, H2; open; unflag; subst; discriminate);
    try (subst; injection H2; intros; subst; auto; fail).
  - destruct (attribute_det _ _ _ _ _ H1 H2 eq_refl eq_refl) as [-> ->]. auto.
  - open. unflag; subst; try discriminate; eqs; auto.
  - open. unflag; subst; try discriminate; eqs;
      match goal with A : g_dtype _ _ _, B : g_dtype _ _ _ |- _ => destruct (dtype_det _ _ _ _ _ _ _ A B) as (-> & -> & ->) end; auto.
  - destruct (include_det _ _ _ _ _ H1 H2 eq_refl eq_refl) as [-> ->]. auto.
  - open. subst. eqs.
    match goal with A : g_reference _ _ _, B : g_reference _ _ _ |- _ => destruct (path_name_det _ _ _ _ _ _ _ A B) as (-> & -> & E) end. injection E as ->. auto.
  - open. unflag; subst; try discriminate; eqs;
      match goal with A : g_reference _ _ _, B : g_reference _ _ _ |- _ => destruct (path_name_det _ _ _ _ _ _ _ A B) as (-> & -> & E) end; injection E as ->; auto.
Qed.
Lemma end_det e : det g_end after_path e.
Proof.
  destruct e as [f p]. intros [f' p'] w r r' (m & -> & H1) (m' & E & H2) F1 F2. injection E as E <-.
  destruct (path_det _ _ _ _ _ H1 H2 F1 F2) as [-> ->]. destruct f, f'; try discriminate; auto.
Qed.
Lemma end_starts : starts g_end (fun w => match w with Word _ :: _ => true | _ => false end).
Proof. intros [f p] w r (m & -> & _). reflexivity. Qed.
Lemma ends_det l l' w r r' : commas g_end l w (Expr TRpar :: r) -> commas g_end l' w (Expr TRpar :: r') -> l = l' /\ r = r'.
Proof.
  intros H1 H2.
  destruct (list_det g_end after_path _ end_starts (fun w => eq_refl) l (fun e _ => end_det e) l' w _ _ H1 H2 eq_refl eq_refl) as [-> E].
  injection E as ->. auto.
Qed.
Lemma conf_starts : starts g_conf_sing (is_word "configuration").
Proof. intros f w r (m & -> & _). reflexivity. Qed.
Lemma comp_starts : starts (g_comp_sing k) (is_word "composition").
Proof. intros x w r H. destruct x; destruct H as (m & -> & _); reflexivity. Qed.
Lemma inst_starts : starts (g_inst k) (is_word "component").
Proof. intros [t n] w r (m & -> & _). reflexivity. Qed.
Definition is_stmt (w : text_) : bool :=
  match w with Word s :: _ => existsb (String.eqb s) ["component"; "connection"; "group"; "export"] | _ => false end.
Lemma stmt_starts : starts (g_stmt k) is_stmt.
Proof.
  intros [[t n]|t n e|n l|p q] w r H; cbn in H.
  - destruct H as (m & -> & _). reflexivity.
  - destruct H as (m & m' & -> & _). reflexivity.
  - destruct H as (m & m' & -> & _). reflexivity.
  - destruct H as (m & m' & -> & _). reflexivity.
Qed.
Lemma body_starts : starts (g_body k) is_brace.
Proof. intros [l x f b] w r (m & m' & -> & _). reflexivity. Qed.

(** The end of a component: its composition and its configuration. *)
Definition g_rest (x : option comp_sing) (f : option conf_sing) (first : bool) (w r : text_) : Prop :=
  match x, f with
  | None, None => first = false /\ w = Sym "}" :: r
  | Some x, None => first = false /\ g_comp_sing k x w (Sym "}" :: r)
  | Some x, Some f => exists m,
      if first then g_conf_sing f w m /\ g_comp_sing k x m (Sym "}" :: r)
      else g_comp_sing k x w m /\ g_conf_sing f m (Sym "}" :: r)
  | None, Some _ => False
  end.
Lemma is_word_inv s w : is_word s w = true -> exists r, w = Word s :: r.
Proof. destruct w as [|[s'| | | | |] w]; try discriminate. cbn. intros H. apply String.eqb_eq in H. subst. eauto. Qed.
Lemma rest_not_citem x f b w r : g_rest x f b w r -> is_citem w = false.
Proof.
  destruct x as [x|], f as [f|]; cbn.
  - intros (m & H). destruct b; destruct H as [H _]; [apply conf_starts in H|apply comp_starts in H];
      apply is_word_inv in H as [? ->]; reflexivity.
  - intros [_ H]. apply comp_starts in H. apply is_word_inv in H as [? ->]; reflexivity.
  - tauto.
  - intros [_ ->]. reflexivity.
Qed.
Ltac clash := repeat match goal with
  | H : g_conf_sing _ _ _ |- _ => apply conf_starts in H; apply is_word_inv in H as [? H]
  | H : g_comp_sing _ _ _ _ |- _ => apply comp_starts in H; apply is_word_inv in H as [? H]
  end; subst; discriminate.
Lemma rest_det x f b x' f' b' w r r' : (forall y, x = Some y -> det (g_comp_sing k) any_text y) ->
  g_rest x f b w r -> g_rest x' f' b' w r' -> x = x' /\ f = f' /\ b = b' /\ r = r'.
Proof.
  intros D H1 H2. destruct x as [x|], f as [f|], x' as [x'|], f' as [f'|]; cbn in H1, H2; try tauto.
  - destruct H1 as (m & H1), H2 as (m' & H2). specialize (D x eq_refl).
    destruct b, b'; destruct H1 as [A1 B1], H2 as [A2 B2].
    + destruct (conf_sing_det _ _ _ _ _ A1 A2 eq_refl eq_refl) as [-> ->].
      destruct (D _ _ _ _ B1 B2 eq_refl eq_refl) as [-> E]. injection E as ->. auto.
    + clash.
    + clash.
    + destruct (D _ _ _ _ A1 A2 eq_refl eq_refl) as [-> ->].
      destruct (conf_sing_det _ _ _ _ _ B1 B2 eq_refl eq_refl) as [-> E]. injection E as ->. auto.
  - destruct H1 as (m & H1), H2 as [-> H2]. destruct b; destruct H1 as [A1 B1]; [clash|].
    destruct (D x eq_refl _ _ _ _ A1 H2 eq_refl eq_refl) as [-> E]. clash.
  - destruct H1 as (m & H1), H2 as [-> H2]. destruct b; destruct H1 as [A1 B1]; clash.
  - destruct H2 as (m & H2), H1 as [-> H1]. destruct b'; destruct H2 as [A2 B2]; [clash|].
    destruct (D x eq_refl _ _ _ _ H1 A2 eq_refl eq_refl) as [-> E]. clash.
  - destruct H1 as [-> H1], H2 as [-> H2].
    destruct (D x eq_refl _ _ _ _ H1 H2 eq_refl eq_refl) as [-> E]. injection E as ->. auto.
  - destruct H1 as [-> H1], H2 as [-> H2]. clash.
  - destruct H2 as (m & H2), H1 as [-> H1]. destruct b'; destruct H2 as [A2 B2]; clash.
  - destruct H1 as [-> H1], H2 as [-> H2]. clash.
  - destruct H1 as [-> H1], H2 as [-> H2]. subst. injection H2 as ->. auto.
Qed.
Lemma bodies_det : (forall b, det (g_body k) any_text b) /\ (forall x, det (g_comp_sing k) any_text x) /\
  (forall s, det (g_stmt k) any_text s) /\ (forall i, det (g_inst k) any_text i) /\ (forall t, det (g_comp_type k) after_path t).
Proof.
  apply bodies_ind.
  - intros l x f b IH [l' x' f' b'] w r r' (m & q & -> & C1 & R1) (m' & q' & E & C2 & R2) _ _. injection E as <-.
    change (g_rest x f b q r) in R1. change (g_rest x' f' b' q' r') in R2.
    destruct (many_det (g_citem k) any_text is_citem citem_starts (fun _ _ => eq_refl) l (fun c _ => citem_det c) l' m q q' C1 C2) as [-> ->].
    + rewrite (rest_not_citem _ _ _ _ _ R1). reflexivity.
    + rewrite (rest_not_citem _ _ _ _ _ R2). reflexivity.
    + destruct (rest_det _ _ _ _ _ _ _ _ _ IH R1 R2) as (-> & -> & -> & ->). auto.
  - intros p x' w r r' (m & -> & H1) H2 _ _. destruct x' as [p'|n' l']; destruct H2 as (m' & E & H2); injection E as <-.
    + destruct (path_semi_det _ _ _ _ _ H1 H2) as [-> ->]. auto.
    + destruct H2 as (q & H2 & _). exfalso. exact (path_not_brace _ _ _ _ _ H1 H2).
  - intros n l IH x' w r r' (m & -> & q & N1 & H1) H2 _ _. destruct x' as [p'|n' l']; destruct H2 as (m' & E & H2); injection E as <-.
    + exfalso. exact (path_not_brace _ _ _ _ _ H2 N1).
    + destruct H2 as (q' & N2 & H2). destruct (name_brace_det _ _ _ _ _ N1 N2) as [-> ->].
      destruct (many_ends (g_stmt k) is_stmt l (Sym "}")) with (l' := l') (w := q') (r := r) (r' := r') as [-> ->]; auto.
      apply stmt_starts.
  - intros i IH s' w r r' H1 H2 _ _. destruct s' as [i'|t' n' e'|n' l'|p' q']; cbn in H1, H2.
    + destruct (IH _ _ _ _ H1 H2 eq_refl eq_refl) as [-> ->]. auto.
    + apply inst_starts in H1. destruct H2 as (m & m' & -> & _). discriminate.
    + apply inst_starts in H1. destruct H2 as (m & m' & -> & _). discriminate.
    + apply inst_starts in H1. destruct H2 as (m & m' & -> & _). discriminate.
  - intros t n e s' w r r' (m & q & -> & T1 & E1) H2 _ _. destruct s' as [i'|t' n' e'|n' l'|p' q']; cbn in H2.
    + apply inst_starts in H2. discriminate.
    + destruct H2 as (m' & q' & E & T2 & E2). injection E as <-.
      destruct (conn_type_det _ _ _ _ _ T1 T2 eq_refl eq_refl) as [-> E]. injection E as -> ->.
      destruct (ends_det _ _ _ _ _ E1 E2) as [-> E]. injection E as ->. auto.
    + destruct H2 as (m' & q' & E & _). discriminate.
    + destruct H2 as (m' & z' & E & _). discriminate.
  - intros n l IH s' w r r' (m & q & -> & N1 & H1) H2 _ _. destruct s' as [i'|t' n' e'|n' l'|p' q']; cbn in H2.
    + apply inst_starts in H2. discriminate.
    + destruct H2 as (m' & q' & E & _). discriminate.
    + destruct H2 as (m' & q' & E & N2 & H2). injection E as <-. destruct (name_brace_det _ _ _ _ _ N1 N2) as [-> ->].
      destruct (many_ends (g_inst k) (is_word "component") l (Sym "}")) with (l' := l') (w := q') (r := r) (r' := r') as [-> ->]; auto.
      apply inst_starts.
    + destruct H2 as (m' & z' & E & _). discriminate.
  - intros p p2 s' w r r' (m & q & -> & A1 & B1) H2 _ _. destruct s' as [i'|t' n' e'|n' l'|p' q']; cbn in H2.
    + apply inst_starts in H2. discriminate.
    + destruct H2 as (m' & z' & E & _). discriminate.
    + destruct H2 as (m' & z' & E & _). discriminate.
    + destruct H2 as (m' & z' & E & A2 & B2). injection E as <-.
      destruct (path_det _ _ _ _ _ A1 A2 eq_refl eq_refl) as [-> E]. injection E as ->.
      destruct (path_semi_det _ _ _ _ _ B1 B2) as [-> ->]. auto.
  - intros t n IH [t' n'] w r r' (m & -> & H1) (m' & E & H2) _ _. injection E as <-.
    destruct (IH _ _ _ _ H1 H2 eq_refl eq_refl) as [-> E]. injection E as -> ->. auto.
  - intros p t' w r r' H1 H2 F1 F2. destruct t' as [p'|b']; cbn in H1, H2.
    + destruct (path_det _ _ _ _ _ H1 H2 F1 F2) as [-> ->]. auto.
    + apply path_starts in H1. apply body_starts in H2. destruct w as [|[] ?]; discriminate.
  - intros b IH t' w r r' H1 H2 F1 F2. destruct t' as [p'|b']; cbn in H1, H2.
    + apply path_starts in H2. apply body_starts in H1. destruct w as [|[] ?]; discriminate.
    + destruct (IH _ _ _ _ H1 H2 eq_refl eq_refl) as [-> ->]. auto.
Qed.

(** * Assemblies and files *)
Lemma slot_det s : det g_slot any_text s.
Proof.
  destruct s as [a b u]. intros [a' b' u'] w r r' (m & -> & H1) (m' & E & H2) _ _. injection E as -> -> <-.
  destruct u as [[]|], u' as [[]|]; subst; try discriminate; injection H2 as ->; auto.
Qed.
Lemma slot_starts : starts g_slot is_expr.
Proof. intros [a b u] w r (m & -> & _). reflexivity. Qed.
Lemma part_det p : det (g_part k) any_text p.
Proof.
  intros p' w r r' H1 H2 _ _. destruct p as [x|f|l], p' as [x'|f'|l']; cbn in H1, H2;
    try (try destruct H1 as (? & H1 & _); try destruct H2 as (? & H2 & _); clash).
  - destruct (proj1 (proj2 bodies_det) _ _ _ _ _ H1 H2 eq_refl eq_refl) as [-> ->]. auto.
  - destruct (conf_sing_det _ _ _ _ _ H1 H2 eq_refl eq_refl) as [-> ->]. auto.
  - destruct H1 as (m & -> & _ & H1), H2 as (m' & E & _ & H2). injection E as <-.
    destruct (list_det g_slot any_text is_expr slot_starts (fun w => eq_refl) l (fun e _ => slot_det e) l' m _ _ H1 H2 eq_refl eq_refl) as [-> E].
    injection E as ->. auto.
Qed.
Definition is_part (w : text_) : bool :=
  match w with Word s :: _ => existsb (String.eqb s) ["composition"; "configuration"; "schedule"] | _ => false end.
Lemma part_starts : starts (g_part k) is_part.
Proof.
  intros [x|f|l] w r H; cbn in H.
  - apply comp_starts, is_word_inv in H as [? ->]. reflexivity.
  - apply conf_starts, is_word_inv in H as [? ->]. reflexivity.
  - destruct H as (m & -> & _). reflexivity.
Qed.
Lemma connector_starts : starts (g_connector k) is_brace.
Proof. intros [f t fs] w r (m & p & q & -> & _). reflexivity. Qed.
Lemma brace_no_name w : is_brace w = true -> negb (is_name w) = true.
Proof. destruct w as [|[] ?]; auto. Qed.
Lemma decl_det d : det (g_decl k) any_text d.
Proof.
  intros d' w r r' H1 H2 _ _.
  destruct d as [n ps|n b|n l|n l|n c|n l|n fs], d' as [n' ps'|n' b'|n' l'|n' l'|n' c'|n' l'|n' fs']; cbn in H1, H2;
    try (open; subst; discriminate).
  - destruct H1 as (m & q & -> & N1 & _ & H1), H2 as (m' & q' & E & N2 & _ & H2). injection E as <-.
    destruct (name_brace_det _ _ _ _ _ N1 N2) as [-> ->].
    destruct (many_ends (g_part k) is_part ps (Sym "}")) with (l' := ps') (w := q') (r := r) (r' := r') as [-> ->]; auto.
    + apply part_starts.
    + intros p _. apply part_det.
  - destruct H1 as (m & q & -> & N1 & H1), H2 as (m' & q' & E & N2 & H2). injection E as <-.
    destruct (opt_id_det _ _ _ _ _ N1 N2) as [-> ->].
    + apply brace_no_name. exact (body_starts _ _ _ H1).
    + apply brace_no_name. exact (body_starts _ _ _ H2).
    + destruct (proj1 bodies_det _ _ _ _ _ H1 H2 eq_refl eq_refl) as [-> ->]. auto.
  - destruct H1 as (m & -> & q & N1 & H1), H2 as (m' & E & q' & N2 & H2). injection E as <-.
    destruct (name_brace_det _ _ _ _ _ N1 N2) as [-> ->].
    destruct (many_ends (g_stmt k) is_stmt l (Sym "}")) with (l' := l') (w := q') (r := r) (r' := r') as [-> ->]; auto.
    + apply stmt_starts.
    + intros s _. apply bodies_det.
  - destruct H1 as (m & -> & H1), H2 as (m' & E & H2). injection E as <-.
    destruct (configuration_det _ _ _ _ _ _ _ H1 H2) as (-> & -> & ->). auto.
  - destruct H1 as (m & q & -> & N1 & H1), H2 as (m' & q' & E & N2 & H2). injection E as <-.
    destruct (opt_id_det _ _ _ _ _ N1 N2) as [-> ->].
    + apply brace_no_name. exact (connector_starts _ _ _ H1).
    + apply brace_no_name. exact (connector_starts _ _ _ H2).
    + destruct (connector_det _ _ _ _ _ H1 H2 eq_refl eq_refl) as [-> ->]. auto.
  - destruct H1 as (m & q & -> & N1 & H1), H2 as (m' & q' & E & N2 & H2). injection E as <-.
    destruct (name_brace_det _ _ _ _ _ N1 N2) as [-> ->].
    destruct (pitems_det _ _ _ _ _ H1 H2) as [-> ->]. auto.
  - destruct H1 as (m & -> & H1), H2 as (m' & E & H2). injection E as -> <-.
    destruct (struct_det _ _ _ _ _ H1 H2 eq_refl eq_refl) as [-> ->]. auto.
Qed.
Lemma top_det t : det (g_top k) any_text t.
Proof.
  intros t' w r r' H1 H2 _ _. destruct t as [d|i|], t' as [d'|i'|]; cbn in H1, H2.
  - destruct (decl_det _ _ _ _ _ H1 H2 eq_refl eq_refl) as [-> ->]. auto.
  - exfalso. destruct d; cbn in H1; open; subst; discriminate.
  - exfalso. destruct d; cbn in H1; open; subst; discriminate.
  - exfalso. destruct d'; cbn in H2; open; subst; discriminate.
  - destruct H1 as (m & -> & H1), H2 as (m' & E & H2). injection E as <-.
    destruct (file_det _ _ _ _ _ H1 H2 eq_refl eq_refl) as [-> ->]. auto.
  - open; subst; discriminate.
  - exfalso. destruct d'; cbn in H2; open; subst; discriminate.
  - open; subst; discriminate.
  - subst. injection H2 as ->. auto.
Qed.
Definition is_something (w : text_) : bool := match w with [] => false | _ => true end.
Lemma top_starts : starts (g_top k) is_something.
Proof.
  intros [d|i|] w r H; cbn in H.
  - destruct d; cbn in H; open; subst; reflexivity.
  - destruct H as (m & -> & _). reflexivity.
  - subst. reflexivity.
Qed.
Theorem one_reading l l' w : g_start k l w -> g_start k l' w -> l = l'.
Proof.
  intros H1 H2.
  destruct (many_det (g_top k) any_text is_something top_starts (fun _ _ => eq_refl) l (fun t _ => top_det t) l' w [] [] H1 H2 eq_refl eq_refl) as [E _].
  exact E.
Qed.
End grammar.
