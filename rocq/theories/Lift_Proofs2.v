From Coq Require Import String Ascii List Bool NArith ZArith Lia.
From Verif Require Import Prelude DecStr Numeric_Model Lift_Model Lift_Spec Lift_Proofs.
Import ListNotations.
Open Scope string_scope.
Open Scope list_scope.

Lemma normalise_canonical s : normalise_type s = canonical s.
Proof.
  unfold normalise_type, canonical.
  destruct (String.eqb s "integer"); [reflexivity|]. destruct (String.eqb s "signed int"); reflexivity.
Qed.
Lemma normalise_struct n : normalise_type ("struct " ++ n) = ("struct " ++ n)%string.
Proof. reflexivity. Qed.

(** ** Types and attributes *)
Section ty_ind'.
Variable P : ty -> Prop.
Variable Q : field -> Prop.
Hypothesis H1 : forall ws, P (TSigned ws).
Hypothesis H2 : forall ws, P (TUnsigned ws).
Hypothesis H3 : P TChar.
Hypothesis H4 : P TSChar.
Hypothesis H5 : P TUChar.
Hypothesis H6 : P TString.
Hypothesis H7 : P TUint64.
Hypothesis H8 : P TInt64.
Hypothesis H9 : forall n, P (TStruct n).
Hypothesis H10 : forall n, P (TName n).
Hypothesis H11 : forall p, P (TPath p).
Hypothesis H12 : forall fs, (forall f, In f fs -> Q f) -> P (TAnon fs).
Hypothesis H13 : forall t n a d, P t -> Q (Field t n a d).
Fixpoint ty_ind' (t : ty) : P t :=
  match t with
  | TSigned ws => H1 ws | TUnsigned ws => H2 ws | TChar => H3 | TSChar => H4 | TUChar => H5
  | TString => H6 | TUint64 => H7 | TInt64 => H8 | TStruct n => H9 n | TName n => H10 n | TPath p => H11 p
  | TAnon fs => H12 fs ((fix go (l : list field) : forall f, In f l -> Q f :=
      match l with
      | [] => fun f H => match H with end
      | a :: l => fun f H => match H with or_introl E => eq_ind a Q (field_ind' a) f E | or_intror H => go l f H end
      end) fs)
  end
with field_ind' (f : field) : Q f :=
  match f with Field t n a d => H13 t n a d (ty_ind' t) end.
Lemma both_ind' : (forall t, P t) /\ (forall f, Q f).
Proof. split; [exact ty_ind'|exact field_ind']. Qed.
End ty_ind'.

Lemma mapR_map {A B C} (f : B -> res C) (g : A -> B) l : mapR f (map g l) = mapR (fun a => f (g a)) l.
Proof. induction l as [|a l IH]; [reflexivity|]. cbn [map mapR]. rewrite IH. reflexivity. Qed.
Lemma agrees_lift_map {A} (t : A -> stree) (m : A -> option val) l :
  (forall a, In a l -> agrees (lift_raw (t a)) (m a)) -> agrees (mapR lift_raw (map t l)) (all (map m l)).
Proof. intros H. rewrite mapR_map. apply agrees_map, H. Qed.
Lemma mapR1 {A B} (f : A -> res B) a : mapR f [a] = bind (f a) (fun b => Ok [b]).
Proof. cbn. destruct (f a); reflexivity. Qed.
Lemma all_length {A} (l : list (option A)) r : all l = Some r -> List.length r = List.length l.
Proof.
  revert r. induction l as [|[a|] l IH]; intros r; cbn; [intros [= <-]; reflexivity| |discriminate].
  destruct (all l) as [x|]; [|discriminate]. intros [= <-]. cbn. rewrite (IH x eq_refl). reflexivity.
Qed.
Lemma all_In {A} (l : list (option A)) r a : all l = Some r -> In a r -> In (Some a) l.
Proof.
  revert r. induction l as [|[b|] l IH]; intros r; cbn; [intros [= <-] []| |discriminate].
  destruct (all l) as [x|]; [|discriminate]. intros [= <-]. intros [->|I]; [left; reflexivity|right; eapply IH; eauto].
Qed.

Lemma m_field_attr f v : m_field f = Some v -> is_attribute v = true.
Proof.
  destruct f as [t n a d]. cbn [m_field]. destruct (m_ty t) as [w|]; cbn [obind]; [|discriminate].
  destruct (match d with Some i => omap Some (m_item i) | None => Some None end) as [x|]; cbn [obind]; [|discriminate].
  destruct w; try (intros [= <-]; reflexivity). destruct (starts_struct s); [discriminate|]. intros [= <-]. reflexivity.
Qed.
Lemma fields_attrs fs vs : all (map m_field fs) = Some vs -> forallb is_attribute vs = true.
Proof.
  intros H. apply forallb_forall. intros v I. pose proof (all_In _ _ _ H I) as J. apply in_map_iff in J.
  destruct J as (f & E & _). eapply m_field_attr. exact E.
Qed.
Lemma m_ty_shape t v : m_ty t = Some v -> (exists s, v = VStr s) \/ (exists p, v = VRef p (Some CStruct)) \/ (exists n a, v = VStruct n a).
Proof.
  destruct t; cbn [m_ty]; try (intros [= <-]; eauto; fail).
  destruct (not_empty fields); [|discriminate]. destruct (all _); cbn [omap]; [|discriminate]. intros [= <-]. right. right. eauto.
Qed.
Lemma m_item_shape i v : m_item i = Some v -> default_ok v = true /\ setting_value_ok v = true.
Proof.
  destruct i as [e|t|l|l]; cbn [m_item]; [destruct (number e); simpl; intros [= <-]; auto|intros [= <-]; auto| |].
  - destruct (all (map m_item l)); simpl; intros [= <-]; auto.
  - destruct (all _); simpl; intros [= <-]; auto.
Qed.

Lemma scalar_ok t n : agrees (lift_raw (t_ty t)) (m_ty t) ->
  agrees (lift_raw (Node "attribute_scalar_parameter" [t_ty t; t_id n]))
    (v <~ m_ty t ;; match v with VStr s => if starts_struct s then None else Some (VAttr v n false None) | _ => Some (VAttr v n false None) end).
Proof.
  intros H. nd. cbn [mapR]. destruct (m_ty t) as [v|] eqn:E; cbn [obind agrees] in *.
  - rewrite H. cbn [bind]. rewrite lift_id. cbn [bind].
    destruct (m_ty_shape t v E) as [[s ->]|[[p ->]|(x & a & ->)]]; [|reflexivity|reflexivity].
    cbn [lift_attribute_scalar_parameter]. unfold starts_with, starts_struct. destruct (String.prefix "struct " s); [eexists; reflexivity|reflexivity].
  - destruct H as [e ->]. exists e. reflexivity.
Qed.

Lemma field_ok t n a d : agrees (lift_raw (t_ty t)) (m_ty t) -> agrees (lift_raw (t_field (Field t n a d))) (m_field (Field t n a d)).
Proof.
  intros H. pose proof (scalar_ok t n H) as S. cbn [t_field m_field]. nd. cbn [mapR].
  set (x := Node "attribute_scalar_parameter" [t_ty t; t_id n]) in *.
  assert (P : agrees (lift_raw (if a then Node "attribute_array_parameter" [x] else x))
    (v <~ m_ty t ;; match v with VStr s => if starts_struct s then None else Some (VAttr v n a None) | _ => Some (VAttr v n a None) end)).
  { destruct a; [|exact S]. nd. rewrite mapR1. destruct (m_ty t) as [v|]; cbn [obind agrees] in *.
    - destruct v; try (rewrite S; reflexivity). destruct (starts_struct s); [destruct S as [e ->]; exists e; reflexivity|rewrite S; reflexivity].
    - destruct S as [e ->]. exists e. reflexivity. }
  destruct (m_ty t) as [v|]; cbn [obind agrees] in *; [|destruct P as [e ->]; exists e; reflexivity].
  assert (K : (exists e, lift_raw (if a then Node "attribute_array_parameter" [x] else x) = Err e /\
                match v with VStr s => starts_struct s | _ => false end = true) \/
              (lift_raw (if a then Node "attribute_array_parameter" [x] else x) = Ok (VAttr v n a None) /\
               match v with VStr s => starts_struct s | _ => false end = false)).
  { destruct v; try (right; split; [exact P|reflexivity]). destruct (starts_struct s); [left; destruct P as [e P]; exists e; auto|right; auto]. }
  destruct K as [(e & K & KS)|[K KS]]; rewrite K; cbn [bind].
  - destruct d as [i|]; cbn [opt].
    + destruct (m_item i); cbn [omap obind agrees]; [|exists e; reflexivity].
      destruct v; try discriminate. rewrite KS. exists e. reflexivity.
    + cbn [obind]. destruct v; try discriminate. rewrite KS. exists e. reflexivity.
  - destruct d as [i|]; cbn [opt mapR].
    + pose proof (lift_item i) as I. destruct (m_item i) as [iv|] eqn:EI; cbn [omap obind agrees] in *.
      * rewrite I. cbn [bind]. unfold lift_attribute.
        rewrite strip_with_quotes by (eapply m_item_not_tok; exact EI). cbn [bind].
        rewrite (proj1 (m_item_shape i iv EI)). cbn [assert bind]. destruct v; try reflexivity. rewrite KS. reflexivity.
      * destruct I as [e ->]. exists e. reflexivity.
    + cbn [bind obind lift_attribute]. destruct v; try reflexivity. rewrite KS. reflexivity.
Qed.

Lemma struct_defn_ok fs : (forall f, In f fs -> agrees (lift_raw (t_field f)) (m_field f)) ->
  agrees (lift_raw (Node "struct_defn" (map t_field fs))) (if not_empty fs then omap (VStruct None) (all (map m_field fs)) else None).
Proof.
  intros H. nd. pose proof (agrees_lift_map t_field m_field fs H) as F.
  destruct (all (map m_field fs)) as [vs|] eqn:E; cbn [agrees omap] in *.
  - rewrite F. cbn [bind]. unfold lift_struct_defn. rewrite (fields_attrs fs vs E).
    pose proof (all_length _ _ E) as L. rewrite map_length in L. rewrite L.
    destruct fs; [cbn; eexists; reflexivity|]. reflexivity.
  - destruct F as [e ->]. destruct (not_empty fs); exists e; reflexivity.
Qed.

Lemma types_ok : (forall t, agrees (lift_raw (t_ty t)) (m_ty t)) /\ (forall f, agrees (lift_raw (t_field f)) (m_field f)).
Proof.
  apply both_ind'; try (intros; cbn [t_ty]; nd; rewrite mapR1; reflexivity).
  - intros n. cbn [t_ty m_ty agrees]. nd. rewrite mapR1. cbn [lift_raw bind lift_type]. rewrite normalise_canonical. reflexivity.
  - intros p. cbn [t_ty m_ty agrees]. nd. rewrite mapR1. nd. rewrite mapR1, lift_path. reflexivity.
  - intros fs H. cbn [t_ty m_ty]. nd. rewrite mapR1. nd. rewrite mapR1. pose proof (struct_defn_ok fs H) as S.
    destruct (not_empty fs); [destruct (all (map m_field fs))|]; cbn [omap agrees] in *.
    + rewrite S. reflexivity.
    + destruct S as [e ->]. exists e. reflexivity.
    + destruct S as [e ->]. exists e. reflexivity.
  - intros t n a d H. apply field_ok, H.
Qed.
Lemma lift_ty t : agrees (lift_raw (t_ty t)) (m_ty t).
Proof. apply types_ok. Qed.
Lemma lift_field f : agrees (lift_raw (t_field f)) (m_field f).
Proof. apply types_ok. Qed.
Lemma lift_fields fs : agrees (mapR lift_raw (map t_field fs)) (all (map m_field fs)).
Proof. apply agrees_lift_map. intros f _. apply lift_field. Qed.

(** ** Procedures *)
Lemma type_text_ok t : agrees (v <- lift_raw (t_ty t) ;; type_name v) (type_text t).
Proof.
  pose proof (lift_ty t) as H.
  destruct t; cbn [m_ty agrees] in H; try (rewrite H; cbn; reflexivity).
  - rewrite H. cbn [bind type_name type_text ids]. destruct p as [h [|x r]]; cbn [fst snd ids].
    + rewrite normalise_canonical. reflexivity.
    + eexists. reflexivity.
  - cbn [type_text agrees]. destruct (not_empty fields); [|destruct H as [e ->]; exists e; reflexivity].
    destruct (all (map m_field fields)); cbn [omap agrees] in H; [rewrite H; eexists; reflexivity|].
    destruct H as [e ->]. exists e. reflexivity.
Qed.
(** The lifted type, and what becomes of it. *)
Lemma type_split t : (exists v, lift_raw (t_ty t) = Ok v /\ agrees (type_name v) (type_text t)) \/
  (exists e, lift_raw (t_ty t) = Err e /\ type_text t = None).
Proof.
  pose proof (type_text_ok t) as H. destruct (lift_raw (t_ty t)) as [v|e] eqn:E; cbn [bind] in H.
  - left. exists v. auto.
  - right. exists e. split; [reflexivity|]. destruct (type_text t); [discriminate H|reflexivity].
Qed.
Lemma lift_param p : agrees (lift_raw (t_param p)) (m_param p).
Proof.
  destruct p as [d t n a]. cbn [t_param m_param].
  assert (S : agrees (lift_raw (Node "method_scalar_parameter" (opt t_dir d ++ [t_ty t; t_id n])))
    (omap (fun s => VParam n (match d with Some d => dir_text d | None => "in" end) s false) (type_text t))).
  { nd. destruct (type_split t) as [(v & E & H)|(e & E & H)].
    - destruct d as [d|]; cbn [opt app mapR].
      + assert (D : lift_raw (t_dir d) = Ok (VTok (dir_text d))) by (destruct d; reflexivity).
        rewrite D. cbn [bind]. rewrite E. cbn [bind]. rewrite lift_id. cbn [bind]. unfold lift_method_scalar_parameter.
        destruct (type_text t); cbn [omap agrees] in *.
        * rewrite H. cbn [bind need_str str]. destruct d; reflexivity.
        * destruct H as [e ->]. exists e. reflexivity.
      + rewrite E. cbn [bind]. rewrite lift_id. cbn [bind]. unfold lift_method_scalar_parameter.
        destruct (type_text t); cbn [omap agrees] in *.
        * rewrite H. reflexivity.
        * destruct H as [e ->]. exists e. reflexivity.
    - rewrite H. cbn [omap agrees]. exists e. destruct d as [d|]; cbn [opt app mapR].
      + assert (D : lift_raw (t_dir d) = Ok (VTok (dir_text d))) by (destruct d; reflexivity).
        rewrite D. cbn [bind]. rewrite E. reflexivity.
      + rewrite E. reflexivity. }
  destruct a; [|exact S]. nd. rewrite mapR1. destruct (type_text t); cbn [omap agrees] in *.
  - rewrite S. reflexivity.
  - destruct S as [e ->]. exists e. reflexivity.
Qed.
Lemma m_param_is p v : m_param p = Some v -> is_parameter v = true.
Proof. destruct p as [d t n a]. cbn. destruct (type_text t); cbn; [intros [= <-]; reflexivity|discriminate]. Qed.
Lemma params_are ps vs : all (map m_param ps) = Some vs -> forallb is_parameter vs = true.
Proof.
  intros H. apply forallb_forall. intros v I. pose proof (all_In _ _ _ H I) as J. apply in_map_iff in J.
  destruct J as (f & E & _). eapply m_param_is. exact E.
Qed.
Lemma lift_method m : agrees (lift_raw (t_method m)) (m_method m).
Proof.
  destruct m as [r n ps]. cbn [t_method m_method]. nd.
  assert (PS : agrees (mapR lift_raw (map t_param ps)) (all (map m_param ps))) by (apply agrees_lift_map; intros; apply lift_param).
  destruct r as [t|]; cbn [opt app mapR].
  - destruct (type_split t) as [(v & E & H)|(e & E & H)]; rewrite E; cbn [bind].
    + rewrite lift_id. cbn [bind]. destruct (all (map m_param ps)) as [vs|] eqn:EP; cbn [agrees] in PS.
      * rewrite PS. cbn [bind]. unfold lift_method_decl. cbn [is_str str].
        destruct (type_text t); cbn [omap agrees obind] in *.
        -- rewrite H. cbn [bind need_str str]. rewrite (params_are _ _ EP). reflexivity.
        -- destruct H as [e ->]. exists e. reflexivity.
      * destruct PS as [e ->]. cbn [bind]. destruct (type_text t); cbn [omap obind agrees]; exists e; reflexivity.
    + rewrite H. exists e. reflexivity.
  - rewrite lift_id. cbn [bind obind]. destruct (all (map m_param ps)) as [vs|] eqn:EP; cbn [agrees omap] in *.
    + rewrite PS. cbn [bind]. unfold lift_method_decl. destruct vs as [|v vs]; [reflexivity|].
      assert (V : is_parameter v = true) by (pose proof (params_are _ _ EP) as F; cbn in F; apply andb_prop in F; apply F).
      destruct v; try discriminate V. cbn [is_str str need_str bind]. rewrite (params_are _ _ EP). reflexivity.
    + destruct PS as [e ->]. exists e. reflexivity.
Qed.
Lemma lift_include_ok i : lift_raw (t_include i) = Ok (m_include i).
Proof.
  destruct i as [t|s]; unfold t_include; rw; cbn [map raw_child].
  - unfold t_text.
    assert (Q : forall l, mapR (fun t => match t with Node _ (Tok s :: _) => Ok (inner s) | _ => fails end) (map t_piece l) = Ok l).
    { induction l as [|x l IH]; [reflexivity|]. cbn [map mapR]. unfold t_piece at 1. rewrite inner_in_quotes. cbn [bind]. rewrite IH. reflexivity. }
    transitivity (ss <- mapR (fun t => match t with Node _ (Tok s :: _) => Ok (inner s) | _ => fails end) (map t_piece (fst t :: snd t)) ;;
       Ok (VInclude (String.concat "" ss) true)); [reflexivity|].
    rewrite Q. reflexivity.
  - pose proof (inner_around "<" s ">") as I. transitivity (Ok (VInclude (inner (String "<" (s ++ String ">" EmptyString))) false)); [reflexivity|]. rewrite I. reflexivity.
Qed.
