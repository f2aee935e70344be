(** Proofs about the grammar: expressions, values, types. *)
From Coq Require Import String Ascii List Bool Lia.
From Verif Require Import Prelude Numeric_Model Lift_Model Lift_Spec Syntax_Model.
From Verif Require Numeric_Proofs.
From Verif Require Import Lift_Proofs Lift_Proofs2.
Import ListNotations.
Open Scope string_scope.
Open Scope list_scope.

(** At [a], the relation determines what is read and what is left, if what is left satisfies [F]. *)
Definition det {A} (P : A -> text_ -> text_ -> Prop) (F : text_ -> bool) (a : A) : Prop :=
  forall b w r r', P a w r -> P b w r' -> F r = true -> F r' = true -> a = b /\ r = r'.
Definition starts {A} (P : A -> text_ -> text_ -> Prop) (S : text_ -> bool) : Prop :=
  forall a w r, P a w r -> S w = true.

Ltac open := repeat match goal with
  | H : exists _, _ |- _ => destruct H
  | H : _ /\ _ |- _ => destruct H
  end.
Ltac bools := repeat match goal with H : _ && _ = true |- _ => apply andb_prop in H; destruct H end.
Ltac eqs := repeat match goal with
  | H : _ :: _ = _ :: _ |- _ => injection H; clear H; intros
  | H : ?x = _ |- _ => is_var x; subst x
  | H : _ = ?x |- _ => is_var x; subst x
  end.

Section many.
Context {A : Type} (P : A -> text_ -> text_ -> Prop) (F S : text_ -> bool).
Hypothesis HS : starts P S.
Hypothesis HF : forall w, S w = true -> F w = true.

Lemma many_first l w r : many P l w r -> F r = true -> F w = true.
Proof. destruct l as [|a l]; cbn; [intros ->; auto|]. intros (m & H & _) _. apply HF, (HS _ _ _ H). Qed.
Lemma many_det l : (forall a, In a l -> det P F a) -> det (many P) (fun r => negb (S r) && F r) l.
Proof.
  induction l as [|a l IH]; intros D [|b l'] w r r' H1 H2 F1 F2; cbn in H1, H2;
    apply andb_prop in F1, F2; destruct F1 as [N1 F1], F2 as [N2 F2]; apply negb_true_iff in N1, N2.
  - subst. auto.
  - destruct H2 as (m & H2 & _). subst. apply HS in H2. congruence.
  - destruct H1 as (m & H1 & _). subst. apply HS in H1. congruence.
  - destruct H1 as (m & H1 & K1), H2 as (m' & H2 & K2).
    destruct (D a (or_introl eq_refl) b w m m' H1 H2 (many_first _ _ _ K1 F1) (many_first _ _ _ K2 F2)) as [-> ->].
    destruct (IH (fun x Hx => D x (or_intror Hx)) l' m' r r' K1 K2) as [-> ->];
      [rewrite N1, F1; auto|rewrite N2, F2; auto|auto].
Qed.

Definition no_comma (r : text_) : bool :=
  match r with Sym s :: _ => negb (String.eqb s ",") | _ => true end.
Hypothesis HC : forall w, F (Sym "," :: w) = true.
Lemma more_first l w r : more P l w r -> F r = true -> F w = true.
Proof.
  destruct l as [|a l]; cbn.
  - intros [->| ->]; auto.
  - intros (m & m' & -> & _) _. apply HC.
Qed.
Definition closes (r : text_) : bool := negb (S r) && F r && no_comma r.
Lemma closes_inv r : closes r = true -> S r = false /\ F r = true /\ no_comma r = true.
Proof. unfold closes. destruct (S r), (F r), (no_comma r); cbn; auto; discriminate. Qed.
Lemma more_det l : (forall a, In a l -> det P F a) -> det (more P) closes l.
Proof.
  induction l as [|a l IH]; intros D [|b l'] w r r' H1 H2 F1 F2; cbn in H1, H2;
    apply closes_inv in F1 as C1; apply closes_inv in F2 as C2; destruct C1 as (N1 & G1 & M1), C2 as (N2 & G2 & M2).
  - destruct H1 as [->| ->], H2 as [E|E]; subst; auto; try discriminate; split; auto; congruence.
  - destruct H2 as (m & m' & -> & H2 & _). apply HS in H2.
    destruct H1 as [<-|E]; [discriminate|injection E as <-; congruence].
  - destruct H1 as (m & m' & -> & H1 & _). apply HS in H1.
    destruct H2 as [<-|E]; [discriminate|injection E as <-; congruence].
  - destruct H1 as (m & n & E1 & H1 & K1), H2 as (m' & n' & E2 & H2 & K2). subst w. injection E2 as <-.
    destruct (D a (or_introl eq_refl) b m n n' H1 H2 (more_first _ _ _ K1 G1) (more_first _ _ _ K2 G2)) as [-> ->].
    destruct (IH (fun x Hx => D x (or_intror Hx)) l' n' r r' K1 K2 F1 F2) as [-> ->]. auto.
Qed.
Lemma commas_det l : (forall a, In a l -> det P F a) -> det (commas P) closes l.
Proof.
  intros D [|b l'] w r r' H1 H2 F1 F2.
  all: destruct l as [|a l]; cbn in H1, H2.
  all: apply closes_inv in F1 as C1; apply closes_inv in F2 as C2; destruct C1 as (N1 & G1 & M1), C2 as (N2 & G2 & M2).
  - subst; auto.
  - destruct H1 as (m & H1 & _). subst. apply HS in H1. congruence.
  - destruct H2 as (m & H2 & _). subst. apply HS in H2. congruence.
  - destruct H1 as (m & H1 & K1), H2 as (m' & H2 & K2).
    destruct (D a (or_introl eq_refl) b w m m' H1 H2 (more_first _ _ _ K1 G1) (more_first _ _ _ K2 G2)) as [-> ->].
    destruct (more_det l (fun x Hx => D x (or_intror Hx)) l' m' r r' K1 K2 F1 F2) as [-> ->]. auto.
Qed.
End many.

Lemma det_weak {A} (P : A -> text_ -> text_ -> Prop) F G a :
  (forall r, G r = true -> F r = true) -> det P F a -> det P G a.
Proof. intros H D b w r r' H1 H2 G1 G2. apply (D b w); auto. Qed.

(** * Names, paths, strings and expressions *)
Definition after_path (r : text_) : bool := match r with Sym s :: _ => negb (String.eqb s ".") | _ => true end.
Lemma dots_det l : det g_dots after_path l.
Proof.
  unfold g_dots. eapply det_weak; [|apply (many_det _ (fun _ => true) (fun w => negb (after_path w)))].
  - cbn. intros r ->. reflexivity.
  - intros s w r ->. reflexivity.
  - reflexivity.
  - intros s _ s' w r r' -> E _ _. injection E as -> ->. auto.
Qed.
Lemma path_det p : det g_reference after_path p.
Proof.
  intros q w r r' (m & -> & H1) (m' & E & H2) F1 F2. injection E as E <-.
  destruct (dots_det _ _ _ _ _ H1 H2 F1 F2) as [E2 ->]. destruct p, q. cbn in *. subst. auto.
Qed.
Definition is_name (w : text_) : bool := match w with Name _ :: _ => true | _ => false end.
Lemma path_starts : starts g_reference is_name.
Proof. intros p w r (m & -> & _). reflexivity. Qed.

Definition is_quoted (w : text_) : bool := match w with Quoted _ :: _ => true | _ => false end.
Definition after_string (r : text_) : bool := negb (is_quoted r).
Lemma string_det t : det g_string after_string t.
Proof.
  intros u w r r' (m & -> & H1) (m' & E & H2) F1 F2. injection E as E <-.
  destruct (many_det (fun s w r => w = Quoted s :: r) (fun _ => true) is_quoted) with
    (l := snd t) (b := snd u) (w := m) (r := r) (r' := r') as [E2 ->]; auto.
  - intros s w r0 ->. reflexivity.
  - intros s _ s' w r0 r0' -> K _ _. injection K as -> ->. auto.
  - rewrite andb_true_r. exact F1.
  - rewrite andb_true_r. exact F2.
  - destruct t, u. cbn in *. subst. auto.
Qed.

Fixpoint expr_prefix (w : text_) : list Numeric_Model.token * text_ :=
  match w with
  | Expr t :: w => let '(a, b) := expr_prefix w in (t :: a, b)
  | w => ([], w)
  end.
Lemma expr_prefix_map l r : expr_prefix (map Expr l ++ r) = (l ++ fst (expr_prefix r), snd (expr_prefix r)).
Proof.
  induction l as [|a l IH]; cbn [map app expr_prefix].
  - destruct (expr_prefix r); reflexivity.
  - rewrite IH. reflexivity.
Qed.
Lemma expr_prefix_back w : w = map Expr (fst (expr_prefix w)) ++ snd (expr_prefix w).
Proof. induction w as [|[] w IH]; cbn; auto. destruct (expr_prefix w); cbn in *. congruence. Qed.
Definition after_numeric (r : text_) : bool :=
  match r with Expr (TOp _) :: _ | Expr TQuest :: _ => false | _ => true end.
Lemma after_stops r : after_numeric r = true -> Numeric_Proofs.stops 11 (fst (expr_prefix r)).
Proof.
  destruct r as [|[| | |[]| |] r]; cbn; auto; try discriminate; intros _; destruct (expr_prefix r); cbn; auto.
Qed.
Lemma numeric_det e : det g_numeric after_numeric e.
Proof.
  intros f w r r' [D1 ->] [D2 E] F1 F2.
  assert (K := f_equal expr_prefix E). rewrite !expr_prefix_map in K. injection K as K1 K2.
  destruct (Numeric_Proofs.unambiguous e 11 f _ _ D1 D2 K1 (after_stops _ F1) (after_stops _ F2)) as [-> K3].
  split; auto. apply app_inv_head in E. exact E.
Qed.
Definition is_expr (w : text_) : bool := match w with Expr t :: _ =>
  match t with TRpar | TQuest | TColon => false | _ => true end | _ => false end.
Lemma derived_first t : forall k, derived k t = true -> exists a l, text_of t = a :: l /\
  match a with TRpar | TQuest | TColon => False | _ => True end.
Proof.
  apply (Numeric_Proofs.node_mut (fun t => forall k, derived k t = true -> exists a l, text_of t = a :: l /\
    match a with TRpar | TQuest | TColon => False | _ => True end) (fun _ => True)); auto; intros; cbn [text_of]; eauto.
  all: cbn [derived] in *; bools; try (do 2 eexists; split; [reflexivity|exact Logic.I]);
    match goal with
    | IH : forall k, derived k ?t = true -> exists a l, text_of ?t = _ /\ _, D : derived _ ?t = true |- context [text_of ?t] =>
        destruct (IH _ D) as (x & y & -> & K); cbn; eauto
    end.
Qed.
Lemma numeric_starts : starts g_numeric is_expr.
Proof.
  intros e w r [D ->]. destruct (derived_first e 11 D) as (a & l & -> & K). cbn. destruct a; auto; tauto.
Qed.

(** * Items *)
Definition after_item (r : text_) : bool := after_numeric r && after_string r.
Lemma after_item_inv r : after_item r = true -> after_numeric r = true /\ after_string r = true.
Proof. apply andb_prop. Qed.
Lemma string_starts : starts g_string is_quoted.
Proof. intros t w r (m & -> & _). reflexivity. Qed.
Lemma key_det k : det g_key after_item k.
Proof.
  intros k' w r r' H1 H2 F1 F2. apply after_item_inv in F1, F2.
  destruct k as [e|t], k' as [e'|t']; cbn in H1, H2.
  - destruct (numeric_det e e' w r r') as [-> ->]; tauto.
  - apply numeric_starts in H1. apply string_starts in H2. destruct w as [|[] ?]; discriminate.
  - apply numeric_starts in H2. apply string_starts in H1. destruct w as [|[] ?]; discriminate.
  - destruct (string_det t t' w r r') as [-> ->]; tauto.
Qed.
Definition is_item (w : text_) : bool :=
  is_expr w || is_quoted w || match w with Sym s :: _ => String.eqb s "[" || String.eqb s "{" | _ => false end.
Lemma key_starts : starts g_key (fun w => is_expr w || is_quoted w).
Proof.
  intros [e|t] w r H; cbn in H.
  - apply numeric_starts in H. rewrite H. reflexivity.
  - apply string_starts in H. rewrite H. apply orb_true_r.
Qed.
Lemma item_starts : starts g_item is_item.
Proof.
  intros [e|t|l|l] w r H; cbn in H.
  - apply numeric_starts in H. unfold is_item. rewrite H. reflexivity.
  - apply string_starts in H. unfold is_item. rewrite H, orb_true_r. reflexivity.
  - destruct H as (m & -> & _). reflexivity.
  - destruct H as (m & -> & _). reflexivity.
Qed.
Definition g_pair (p : key * item) (w r : text_) : Prop :=
  exists m, g_key (fst p) w (Expr TColon :: m) /\ g_item (snd p) m r.
Lemma after_item_start w : is_item w = true -> after_item w = true \/ is_expr w = true \/ is_quoted w = true.
Proof. unfold is_item. destruct (is_expr w), (is_quoted w); auto. destruct w as [|[] ?]; cbn; auto. Qed.
Lemma pair_det p : det g_item after_item (snd p) -> det g_pair after_item p.
Proof.
  intros D q w r r' (m & K1 & I1) (m' & K2 & I2) F1 F2.
  destruct (key_det _ _ _ _ _ K1 K2 eq_refl eq_refl) as [E E']. injection E' as ->.
  destruct (D _ _ _ _ I1 I2 F1 F2) as [E2 ->]. destruct p, q. cbn in *. subst. auto.
Qed.
(** In a list the elements are separated by commas, so nothing is needed of the first tokens
    but that the closing bracket is not among them. *)
Section commas.
Context {A : Type} (P : A -> text_ -> text_ -> Prop) (F S : text_ -> bool).
Hypothesis HS : starts P S.
Hypothesis HC : forall w, F (Sym "," :: w) = true.
Lemma list_det l : (forall a, In a l -> det P F a) -> det (commas P) (closes F S) l.
Proof. exact (commas_det P F S HS HC l). Qed.
End commas.
Lemma item_det i : det g_item after_item i.
Proof.
  induction i as [e|t|l IH|l IH] using item_ind'; intros j w r r' H1 H2 F1 F2.
  - destruct j as [e'|t'|l'|l']; cbn in H2.
    + cbn in H1. apply after_item_inv in F1, F2. destruct (numeric_det e e' w r r') as [-> ->]; tauto.
    + apply numeric_starts in H1. apply string_starts in H2. destruct w as [|[] ?]; discriminate.
    + apply numeric_starts in H1. destruct H2 as (m & -> & _). discriminate.
    + apply numeric_starts in H1. destruct H2 as (m & -> & _). discriminate.
  - destruct j as [e'|t'|l'|l']; cbn in H2.
    + apply string_starts in H1. apply numeric_starts in H2. destruct w as [|[] ?]; discriminate.
    + cbn in H1. apply after_item_inv in F1, F2. destruct (string_det t t' w r r') as [-> ->]; tauto.
    + apply string_starts in H1. destruct H2 as (m & -> & _). discriminate.
    + apply string_starts in H1. destruct H2 as (m & -> & _). discriminate.
  - cbn in H1. destruct H1 as (m & -> & H1). destruct j as [e'|t'|l'|l']; cbn in H2.
    + apply numeric_starts in H2. discriminate.
    + apply string_starts in H2. discriminate.
    + destruct H2 as (m' & E & H2). injection E as <-.
      destruct (list_det g_item after_item is_item item_starts (fun w => eq_refl) l IH l' m (Sym "]" :: r) (Sym "]" :: r') H1 H2 eq_refl eq_refl) as [-> E].
      injection E as ->. auto.
    + destruct H2 as (m' & E & H2). discriminate.
  - cbn in H1. destruct H1 as (m & -> & H1). destruct j as [e'|t'|l'|l']; cbn in H2.
    + apply numeric_starts in H2. discriminate.
    + apply string_starts in H2. discriminate.
    + destruct H2 as (m' & E & H2). discriminate.
    + destruct H2 as (m' & E & H2). injection E as <-.
      assert (ST : starts g_pair (fun w => is_expr w || is_quoted w)).
      { intros p w0 r0 (m0 & K & _). exact (key_starts _ _ _ K). }
      destruct (list_det g_pair after_item _ ST (fun w => eq_refl) l (fun p Hp => pair_det p (IH p Hp)) l' m (Sym "}" :: r) (Sym "}" :: r') H1 H2 eq_refl eq_refl) as [-> E].
      injection E as ->. auto.
Qed.

(** * Types and attributes *)
Definition after_type (r : text_) : bool :=
  match r with
  | Sym s :: _ => negb (String.eqb s ".")
  | Word s :: _ => negb (String.eqb s "int" || String.eqb s "integer" || String.eqb s "char")
  | _ => true
  end.
Lemma after_type_path r : after_type r = true -> after_path r = true.
Proof. destruct r as [|[] ?]; auto. Qed.
Definition is_type (w : text_) : bool :=
  match w with
  | Name _ :: _ => true
  | Sym s :: _ => String.eqb s "{"
  | Word s :: _ => existsb (String.eqb s) ["int"; "integer"; "signed"; "unsigned"; "char"; "string"; "uint64_t"; "int64_t"; "struct"]
  | _ => false
  end.
Lemma type_starts k : starts (g_type k) is_type.
Proof.
  intros t w r H. destruct t; cbn in H.
  - destruct H as [H ->]. repeat destruct H as [<-|H]; try reflexivity. destruct H.
  - destruct H as [H ->]. repeat destruct H as [<-|H]; try reflexivity. destruct H.
  - subst. reflexivity.
  - subst. reflexivity.
  - subst. reflexivity.
  - subst. reflexivity.
  - subst. reflexivity.
  - subst. reflexivity.
  - subst. reflexivity.
  - destruct H as (_ & _ & ->). reflexivity.
  - destruct H as [_ (m & -> & _)]. reflexivity.
  - destruct H as (m & -> & _). reflexivity.
Qed.
Lemma decl_starts k : starts (g_attribute_decl k) is_type.
Proof. intros [t n a d] w r (m & m' & H & _). exact (type_starts k _ _ _ H). Qed.
Definition after_decl (r : text_) : bool :=
  after_item r && match r with Sym s :: _ => negb (String.eqb s "[" || String.eqb s "=") | _ => true end.
Lemma after_decl_inv r : after_decl r = true -> after_item r = true /\ forall m, r <> Sym "[" :: m /\ r <> Sym "=" :: m.
Proof.
  unfold after_decl. intros H. apply andb_prop in H. destruct H as [H K]. split; auto.
  intros m. split; intros ->; discriminate.
Qed.
Definition g_field k (f : field) (w r : text_) : Prop := g_attribute_decl k f w (Sym ";" :: r).
Ltac inl := repeat match goal with
  | H : In _ _ |- _ => cbn in H
  | H : _ \/ _ |- _ => destruct H
  | H : False |- _ => destruct H
  end.
Ltac easy_types := cbn in *; unfold g_reference, g_id in *; open; inl; subst; cbn in *;
  repeat match goal with
  | H : _ :: _ = _ :: _ |- _ => injection H; clear H; intros; subst
  end; try discriminate; try (split; congruence).
Lemma type_decl_det k : k <> Both ->
  (forall t, det (g_type k) after_type t) /\ (forall f, det (g_attribute_decl k) after_decl f).
Proof.
  intros Hk. apply both_ind'.
  1,2,9: intros ws.
  1-9: intros t' w r r' H1 H2 F1 F2; destruct t'; try (unfold g_reference, g_id in *; easy_types; fail).
  - intros n t' w r r' (K1 & B1 & ->) H2 F1 F2; destruct t'; try (easy_types; fail).
    cbn in H2. destruct H2 as (K2 & m & E & H2). injection E as E <-.
    destruct p as [a [|b l]]; cbn in *.
    + subst r'. exfalso. apply B1. rewrite E. apply K2; auto. destruct k; congruence.
    + destruct H2 as (m & -> & _). discriminate.
  - intros p t' w r r' (K1 & H1) H2 F1 F2; destruct t'; try (destruct H1 as (m & -> & H1); easy_types; fail).
    + destruct H1 as (m & -> & H1). cbn in H2. destruct H2 as (K2 & B2 & E). injection E as E <-.
      destruct p as [a [|b l]]; cbn in *.
      * subst r. exfalso. apply B2. rewrite <- E. apply K1; auto. destruct k; congruence.
      * destruct H1 as (m' & -> & _). discriminate.
    + destruct H2 as (K2 & H2).
      destruct (path_det _ _ _ _ _ H1 H2 (after_type_path _ F1) (after_type_path _ F2)) as [-> ->]. auto.
  - intros fs IH t' w r r' (m & -> & H1) H2 F1 F2; destruct t'; try (unfold g_reference, g_id in *; easy_types; fail).
    destruct H2 as (m' & E & H2). injection E as <-.
    destruct (many_det (g_field k) (fun _ => true) is_type) with (l := fs) (b := fields) (w := m) (r := Sym "}" :: r) (r' := Sym "}" :: r') as [-> E]; auto.
    + intros f w0 r0 H. exact (decl_starts k _ _ _ H).
    + intros f Hf g w0 r0 r0' G1 G2 _ _. destruct (IH f Hf _ _ _ _ G1 G2 eq_refl eq_refl) as [-> E]. injection E as ->. auto.
    + injection E as ->. auto.
  - intros t n a d IH [t' n' a' d'] w r r' (m & m' & H1 & A1 & D1) (p & p' & H2 & A2 & D2) F1 F2.
    destruct (IH _ _ _ _ H1 H2 eq_refl eq_refl) as [-> E]. injection E as -> ->.
    apply after_decl_inv in F1, F2. destruct F1 as [F1 N1], F2 as [F2 N2].
    assert (B1 : forall q, m' <> Sym "[" :: q).
    { intros q ->. destruct d as [i|]; [destruct D1 as (z & E & _); discriminate|]. symmetry in D1. apply (proj1 (N1 q)) in D1. exact D1. }
    assert (B2 : forall q, p' <> Sym "[" :: q).
    { intros q ->. destruct d' as [i|]; [destruct D2 as (z & E & _); discriminate|]. symmetry in D2. apply (proj1 (N2 q)) in D2. exact D2. }
    assert (E : a = a' /\ m' = p').
    { destruct a, a'; subst; try (injection A2 as ->); auto.
      - exfalso. exact (B2 _ eq_refl).
      - exfalso. exact (B1 _ eq_refl). }
    destruct E as [-> ->].
    destruct d as [i|], d' as [i'|].
    + destruct D1 as (q & -> & D1), D2 as (q' & E & D2). injection E as <-.
      destruct (item_det _ _ _ _ _ D1 D2 F1 F2) as [-> ->]. auto.
    + destruct D1 as (q & -> & D1). subst r'. exfalso. exact (proj2 (N2 q) eq_refl).
    + destruct D2 as (q & -> & D2). subst r. exfalso. exact (proj2 (N1 q) eq_refl).
    + subst. auto.
Qed.
