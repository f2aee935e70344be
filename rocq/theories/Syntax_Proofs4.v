(** Proofs about the grammar: texts one after the other. *)
From Coq Require Import String Ascii List Bool Lia.
From Verif Require Import Prelude Numeric_Model Lift_Model Lift_Spec Syntax_Model Syntax_Spec.
From Verif Require Import Lift_Proofs Lift_Proofs2 Lift_Proofs4 Syntax_Proofs Syntax_Proofs2.
Import ListNotations.
Open Scope string_scope.
Open Scope list_scope.

(** More text can follow. *)
Definition ext {A} (P : A -> text_ -> text_ -> Prop) (a : A) : Prop :=
  forall z w r, P a w r -> P a (w ++ z) (r ++ z).
Lemma many_ext {A} (P : A -> text_ -> text_ -> Prop) l : (forall a, In a l -> ext P a) -> ext (many P) l.
Proof.
  intros D z. induction l as [|a l IH]; intros w r H; cbn in *.
  - subst. reflexivity.
  - destruct H as (m & H1 & H2). exists (m ++ z). split; [apply D; auto|]. apply IH; auto.
Qed.
Lemma more_ext {A} (P : A -> text_ -> text_ -> Prop) l : (forall a, In a l -> ext P a) -> ext (more P) l.
Proof.
  intros D z. induction l as [|a l IH]; intros w r H; cbn in *.
  - destruct H as [->| ->]; auto.
  - destruct H as (m & m' & -> & H1 & H2). exists (m ++ z), (m' ++ z). split; [reflexivity|]. split; [apply D; auto|]. apply IH; auto.
Qed.
Lemma commas_ext {A} (P : A -> text_ -> text_ -> Prop) l : (forall a, In a l -> ext P a) -> ext (commas P) l.
Proof.
  intros D z w r H. destruct l as [|a l]; cbn in *.
  - subst. reflexivity.
  - destruct H as (m & H1 & H2). exists (m ++ z). split; [apply D; auto|]. apply more_ext; auto.
Qed.
Lemma opt_ext {A} (P : A -> text_ -> text_ -> Prop) o : (forall a, ext P a) -> ext (maybe_ P) o.
Proof. intros D z w r H. destruct o as [a|]; cbn in *; [apply D; auto|]. subst. reflexivity. Qed.
Lemma id_ext s : ext g_id s.
Proof. intros z w r ->. reflexivity. Qed.
Lemma flag_ext b t z w r : flag b t w r -> flag b t (w ++ z) (r ++ z).
Proof. destruct b; cbn; intros ->; reflexivity. Qed.
Lemma dots_ext l : ext g_dots l.
Proof. apply many_ext. intros s _ z w r ->. reflexivity. Qed.
Lemma path_ext p : ext g_reference p.
Proof. intros z w r (m & -> & H). exists (m ++ z). split; [reflexivity|]. apply dots_ext; auto. Qed.
Lemma numeric_ext e : ext g_numeric e.
Proof. intros z w r [D ->]. split; auto. symmetry. apply app_assoc. Qed.
Lemma string_ext t : ext g_string t.
Proof. intros z w r (m & -> & H). exists (m ++ z). split; [reflexivity|]. apply many_ext; auto. intros s _ z' w' r' ->. reflexivity. Qed.
Lemma key_ext k : ext g_key k.
Proof. destruct k; [exact (numeric_ext e)|exact (string_ext t)]. Qed.
Lemma item_ext i : ext g_item i.
Proof.
  induction i as [e|t|l IH|l IH] using item_ind'.
  - exact (numeric_ext e).
  - exact (string_ext t).
  - intros z w r (m & -> & H). exists (m ++ z). split; [reflexivity|]. exact (commas_ext _ l IH z _ _ H).
  - intros z w r (m & -> & H). exists (m ++ z). split; [reflexivity|].
    refine (commas_ext g_pair l _ z _ _ H). intros p Hp z' w' r' (m' & K & I).
    exists (m' ++ z'). split; [exact (key_ext _ z' _ _ K)|]. apply IH; auto.
Qed.

Section grammar.
Variable k : choice.
Lemma types_ext : (forall t, ext (g_type k) t) /\ (forall f, ext (g_attribute_decl k) f).
Proof.
  apply both_ind'.
  1,2: intros ws z w r [H ->]; split; auto; symmetry; apply app_assoc.
  1-6: intros z w r ->; reflexivity.
  - intros n z w r ->. reflexivity.
  - intros n z w r (A & B & ->). repeat split; auto.
  - intros p z w r (A & B). split; auto. apply path_ext; auto.
  - intros fs IH z w r (m & -> & H). exists (m ++ z). split; [reflexivity|].
    refine (many_ext (g_field k) fs _ z _ _ H). intros f Hf z' w' r' F. exact (IH f Hf z' _ _ F).
  - intros t n a d IH z w r (m & m' & T & A & D). exists (m ++ z), (m' ++ z). split; [exact (IH z _ _ T)|]. split.
    + destruct a; subst; reflexivity.
    + destruct d as [i|]; [|subst; reflexivity]. destruct D as (q & -> & I). exists (q ++ z). split; [reflexivity|]. apply item_ext; auto.
Qed.
Lemma field_ext f : ext (g_field k) f.
Proof. intros z w r H. exact (proj2 types_ext f z _ _ H). Qed.
Lemma struct_ext fs : ext (g_struct_defn k) fs.
Proof. intros z w r (m & -> & H). exists (m ++ z). split; [reflexivity|]. exact (many_ext (g_field k) fs (fun f _ => field_ext f) z _ _ H). Qed.
Lemma attribute_ext f : ext (g_attribute k) f.
Proof. intros z w r (m & -> & H). exists (m ++ z). split; [reflexivity|]. exact (field_ext f z _ _ H). Qed.
Lemma file_ext i : ext g_file i.
Proof. intros z w r H. destruct i as [t|s]; cbn in *; [exact (string_ext t z _ _ H)|subst; reflexivity]. Qed.
Lemma include_ext i : ext g_include i.
Proof. intros z w r (m & -> & H). exists (m ++ z). split; [reflexivity|]. apply file_ext; auto. Qed.
Lemma param_ext p : ext (g_parameter k) p.
Proof.
  destruct p as [d t n a]. intros z w r (m & m' & D & T & A). exists (m ++ z), (m' ++ z). split.
  - apply opt_ext; auto. intros x z' w' r' ->. reflexivity.
  - split; [exact (proj1 types_ext t z _ _ T)|]. destruct a; subst; reflexivity.
Qed.
Lemma method_ext x : ext (g_method k) x.
Proof.
  destruct x as [t n ps]. intros z w r (m & T & P). exists (m ++ z). split.
  - destruct t as [t|]; [exact (proj1 types_ext t z _ _ T)|subst; reflexivity].
  - destruct P as [P|[-> ->]]; [left|right; auto]. exact (commas_ext _ ps (fun p _ => param_ext p) z _ _ P).
Qed.
Lemma pitem_ext i : ext (g_pitem k) i.
Proof. destruct i as [m|f|i]; [exact (method_ext m)|exact (proj2 types_ext f)|exact (include_ext i)]. Qed.
Lemma lookup_ext ks : ext g_lookup ks.
Proof. refine (many_ext _ _ _). intros x _ z w r (m & -> & H). exists (m ++ z). split; [reflexivity|]. exact (key_ext x z _ _ H). Qed.
Lemma query_arg_ext a : ext g_query_arg a.
Proof.
  intros z w r H. destruct a as [l|ls].
  - exact (item_ext (IDict l) z _ _ H).
  - destruct H as (m & -> & H). exists (m ++ z). split; [reflexivity|]. exact (commas_ext _ ls (fun l _ => item_ext (IDict l)) z _ _ H).
Qed.
Lemma value_ext v : ext g_value v.
Proof.
  intros z w r H. destruct v as [i|n a ks|p ks].
  - destruct H as (m & -> & H). exists (m ++ z). split; [reflexivity|]. apply item_ext; auto.
  - destruct H as (m & m' & -> & A & K). exists (m ++ z), (m' ++ z). split; [reflexivity|]. split.
    + exact (query_arg_ext a z _ _ A).
    + apply opt_ext; auto. exact lookup_ext.
  - destruct H as (m & m' & -> & A & K). exists (m ++ z), (m' ++ z). split; [reflexivity|]. split.
    + apply path_ext; auto.
    + apply opt_ext; auto. exact lookup_ext.
Qed.
Lemma setting_ext s : ext g_setting s.
Proof. destruct s as [i a v]. intros z w r (m & -> & H). exists (m ++ z). split; [reflexivity|]. exact (value_ext v z _ _ H). Qed.
Lemma name_ext n : ext (maybe_ g_id) n.
Proof. apply opt_ext, id_ext. Qed.
Lemma configuration_ext n l : ext (fun _ : unit => g_configuration n l) tt.
Proof.
  intros z w r (m & N & H). exists (m ++ z). split; [exact (name_ext n z _ _ N)|].
  exact (many_ext _ l (fun s _ => setting_ext s) z _ _ H).
Qed.
Lemma conf_sing_ext f : ext g_conf_sing f.
Proof.
  intros z w r (m & -> & H). exists (m ++ z). split; [reflexivity|]. destruct f as [p|n l].
  - exact (path_ext p z _ _ H).
  - exact (configuration_ext n l z _ _ H).
Qed.
Lemma threads_ext e : ext g_threads e.
Proof. intros z w r (m & -> & [H|H]); exists (m ++ z); (split; [reflexivity|]); [left|right]; exact (numeric_ext e z _ _ H). Qed.
Lemma cend_ext e : ext g_cend e.
Proof.
  intros z w r (m & m' & F & -> & T). eexists. exists (m' ++ z). split; [exact (flag_ext _ _ z _ _ F)|]. split; [reflexivity|].
  exact (opt_ext _ _ threads_ext z _ _ T).
Qed.
Lemma connector_ext c : ext (g_connector k) c.
Proof.
  destruct c as [f t fs]. intros z w r (m & p & q & -> & A & B & C). exists (m ++ z), (p ++ z), (q ++ z).
  split; [reflexivity|]. split; [exact (cend_ext f z _ _ A)|]. split; [apply cend_ext; auto|].
  exact (many_ext _ fs (fun f _ => attribute_ext f) z _ _ C).
Qed.
Lemma conn_type_ext c : ext (g_conn_type k) c.
Proof. destruct c; [exact (path_ext p)|exact (connector_ext c)]. Qed.
Lemma citem_ext c : ext (g_citem k) c.
Proof.
  intros z w r H. destruct c; cbn in H; try (subst; reflexivity).
  - apply attribute_ext; auto.
  - destruct H as (m & F & ->). eexists. split; [exact (flag_ext _ _ z _ _ F)|reflexivity].
  - destruct H as (m & m' & F & -> & T). eexists. exists (m' ++ z). split; [exact (flag_ext _ _ z _ _ F)|]. split; [reflexivity|].
    destruct type as [s|e]; cbn in *.
    + unfold g_id in *. subst. reflexivity.
    + destruct T as (q & -> & T). exists (q ++ z). split; [reflexivity|]. exact (numeric_ext e z _ _ T).
  - apply include_ext; auto.
  - destruct H as (m & -> & H). exists (m ++ z). split; [reflexivity|]. exact (path_ext _ z _ _ H).
  - destruct H as (m & m' & F & -> & T). eexists. exists (m' ++ z). split; [exact (flag_ext _ _ z _ _ F)|]. split; [reflexivity|].
    exact (path_ext _ z _ _ T).
Qed.
Lemma end_ext e : ext g_end e.
Proof. destruct e as [f p]. intros z w r (m & -> & H). exists (m ++ z). split; [reflexivity|]. apply path_ext; auto. Qed.
Lemma bodies_ext : (forall b, ext (g_body k) b) /\ (forall x, ext (g_comp_sing k) x) /\
  (forall s, ext (g_stmt k) s) /\ (forall i, ext (g_inst k) i) /\ (forall t, ext (g_comp_type k) t).
Proof.
  apply bodies_ind.
  - intros l x f b IH z w r (m & m' & -> & C & R). exists (m ++ z), (m' ++ z). split; [reflexivity|]. split.
    + exact (many_ext _ l (fun c _ => citem_ext c) z _ _ C).
    + destruct x as [x|], f as [f|]; auto.
      * destruct R as (q & R). exists (q ++ z). destruct b; destruct R as [A B]; split.
        -- apply conf_sing_ext; auto.
        -- exact (IH x eq_refl z _ _ B).
        -- exact (IH x eq_refl z _ _ A).
        -- exact (conf_sing_ext f z _ _ B).
      * destruct R as [-> R]. split; auto. exact (IH x eq_refl z _ _ R).
      * destruct R as [-> ->]. split; reflexivity.
  - intros p z w r (m & -> & H). exists (m ++ z). split; [reflexivity|]. exact (path_ext p z _ _ H).
  - intros n l IH z w r (m & -> & m' & N & H). exists (m ++ z). split; [reflexivity|]. exists (m' ++ z).
    split; [exact (name_ext n z _ _ N)|]. exact (many_ext _ l IH z _ _ H).
  - intros i IH z w r H. exact (IH z _ _ H).
  - intros t n l z w r (m & m' & -> & T & E). exists (m ++ z), (m' ++ z). split; [reflexivity|].
    split; [exact (conn_type_ext t z _ _ T)|]. exact (commas_ext _ l (fun e _ => end_ext e) z _ _ E).
  - intros n l IH z w r (m & m' & -> & N & H). exists (m ++ z), (m' ++ z). split; [reflexivity|].
    split; [exact (name_ext n z _ _ N)|]. exact (many_ext _ l IH z _ _ H).
  - intros p q z w r (m & m' & -> & A & B). exists (m ++ z), (m' ++ z). split; [reflexivity|].
    split; [exact (path_ext p z _ _ A)|exact (path_ext q z _ _ B)].
  - intros t n IH z w r (m & -> & H). exists (m ++ z). split; [reflexivity|]. exact (IH z _ _ H).
  - intros p. exact (path_ext p).
  - intros b IH. exact IH.
Qed.
Lemma slot_ext s : ext g_slot s.
Proof. destruct s as [a b u]. intros z w r (m & -> & H). exists (m ++ z). split; [reflexivity|]. destruct u; subst; reflexivity. Qed.
Lemma part_ext p : ext (g_part k) p.
Proof.
  destruct p as [x|f|l]; [exact (proj1 (proj2 bodies_ext) x)|exact (conf_sing_ext f)|].
  intros z w r (m & -> & L & H). exists (m ++ z). split; [reflexivity|]. split; auto.
  exact (commas_ext _ l (fun s _ => slot_ext s) z _ _ H).
Qed.
Lemma decl_ext d : ext (g_decl k) d.
Proof.
  destruct d as [n ps|n b|n l|n l|n c|n l|n fs]; intros z w r H; cbn [g_decl] in *.
  - destruct H as (m & m' & -> & N & E & H). exists (m ++ z), (m' ++ z). split; [reflexivity|]. split; [exact (name_ext n z _ _ N)|].
    split; auto. exact (many_ext _ ps (fun p _ => part_ext p) z _ _ H).
  - destruct H as (m & m' & -> & N & H). exists (m ++ z), (m' ++ z). split; [reflexivity|]. split; [exact (name_ext n z _ _ N)|].
    apply bodies_ext; auto.
  - destruct H as (m & -> & m' & N & H). exists (m ++ z). split; [reflexivity|]. exists (m' ++ z). split; [exact (name_ext n z _ _ N)|].
    exact (many_ext _ l (fun s _ => proj1 (proj2 (proj2 bodies_ext)) s) z _ _ H).
  - destruct H as (m & -> & H). exists (m ++ z). split; [reflexivity|]. exact (configuration_ext n l z _ _ H).
  - destruct H as (m & m' & -> & N & H). exists (m ++ z), (m' ++ z). split; [reflexivity|]. split; [exact (name_ext n z _ _ N)|].
    apply connector_ext; auto.
  - destruct H as (m & m' & -> & N & H). exists (m ++ z), (m' ++ z). split; [reflexivity|]. split; [exact (name_ext n z _ _ N)|].
    exact (many_ext _ l (fun i _ => pitem_ext i) z _ _ H).
  - destruct H as (m & -> & H). exists (m ++ z). split; [reflexivity|]. apply struct_ext; auto.
Qed.
Lemma top_ext t : ext (g_top k) t.
Proof.
  destruct t as [d|i|]; [exact (decl_ext d)| |].
  - intros z w r (m & -> & H). exists (m ++ z). split; [reflexivity|]. apply file_ext; auto.
  - intros z w r ->. reflexivity.
Qed.
Lemma many_app {A} (P : A -> text_ -> text_ -> Prop) l l' w m r : many P l w m -> many P l' m r -> many P (l ++ l') w r.
Proof.
  revert w. induction l as [|a l IH]; cbn; intros w H1 H2; [subst; auto|].
  destruct H1 as (q & A1 & H1). exists q. auto.
Qed.
Theorem concatenation l l' w w' : g_start k l w -> g_start k l' w' -> g_start k (l ++ l') (w ++ w').
Proof.
  intros H1 H2. apply (many_app _ l l' _ w').
  - exact (many_ext _ l (fun t _ => top_ext t) w' w [] H1).
  - exact H2.
Qed.
End grammar.
(** The text of a file put between the declarations of another. *)
Theorem inclusion k before l after u w v : k <> Both -> g_start k before u -> g_start k l w -> g_start k after v ->
  forall f, g_start k f (u ++ w ++ v) <-> f = before ++ l ++ after.
Proof.
  intros Hk H1 H2 H3 f.
  assert (H : g_start k (before ++ l ++ after) (u ++ w ++ v)) by (apply concatenation; auto; apply concatenation; auto).
  split; [|intros ->; exact H]. intros H'. exact (one_reading k Hk _ _ _ H' H).
Qed.
