From Coq Require Import String Ascii List Bool NArith ZArith Lia.
From Verif Require Import Prelude DecStr Numeric_Model Lift_Model Lift_Spec Lift_Proofs Lift_Proofs2 Lift_Proofs3.
Import ListNotations.
Open Scope string_scope.
Open Scope list_scope.

(** ** The parts of a component *)
Definition m_citem (c : citem) : option val :=
  match c with
  | CField f => m_field f
  | CConsumes m t n => Some (VConsumes t n m)
  | CControl => Some (VStr "control")
  | CDataport m t n => m_dataport (m, t, n)
  | CEmits t n => Some (VEmits t n)
  | CHardware => Some (VStr "hardware")
  | CInclude i => Some (m_include i)
  | CMutex n => Some (VMutex n)
  | CProvides t n => Some (VProvides (VRef (ids t) (Some CProcedure)) n)
  | CSemaphore n => Some (VSemaphore n)
  | CBinSemaphore n => Some (VBinSemaphore n)
  | CUses m t n => Some (VUses (VRef (ids t) (Some CProcedure)) n m)
  end.
Lemma lift_dtype d : agrees (lift_raw (t_dtype d)) (omap VStr (m_dtype d)).
Proof.
  unfold t_dtype. nd. rewrite mapR1. destruct d as [s|e]; cbn [m_dtype].
  - rewrite lift_id. reflexivity.
  - pose proof (agrees_number e) as N. destruct (number e) as [z|]; cbn [omap obind agrees] in *.
    + rewrite N. cbn [bind lift_dataport_type]. destruct (z <=? 0)%Z; [eexists; reflexivity|reflexivity].
    + destruct N as [x ->]. exists x. reflexivity.
Qed.
Lemma lift_maybe m : mapR lift_raw (t_maybe m) = Ok (if m then [VTok "maybe"] else []).
Proof. destruct m; reflexivity. Qed.
Lemma lift_citem c : agrees (lift_raw (t_citem c)) (m_citem c).
Proof.
  destruct c; cbn [t_citem m_citem].
  - apply lift_field.
  - nd. rewrite mapR_app, lift_maybe. destruct maybe; reflexivity.
  - reflexivity.
  - nd. rewrite mapR_app, lift_maybe. cbn [bind mapR]. pose proof (lift_dtype type) as D. cbn [m_dataport].
    destruct (m_dtype type); cbn [omap agrees] in *.
    + rewrite D. cbn [bind]. rewrite lift_id. destruct maybe; reflexivity.
    + destruct D as [e ->]. exists e. reflexivity.
  - reflexivity.
  - reflexivity.
  - apply lift_include_ok.
  - reflexivity.
  - nd. cbn [mapR]. rewrite lift_path. reflexivity.
  - reflexivity.
  - reflexivity.
  - nd. rewrite mapR_app, lift_maybe. cbn [bind mapR]. rewrite lift_path, lift_id. destruct maybe; reflexivity.
Qed.

Definition is_tail (v : val) : bool := is_composition v || is_configuration v.
Lemma m_citem_field c v : m_citem c = Some v -> match c with CField _ => exists t n a d, v = VAttr t n a d | CDataport _ _ _ => exists t n m, v = VDataport t n m | CInclude _ => exists a b, v = VInclude a b | _ => True end.
Proof.
  destruct c; cbn [m_citem]; auto.
  - apply m_field_is.
  - cbn [m_dataport]. destruct (m_dtype type); cbn [omap]; [|discriminate]. intros [= <-]. eauto.
  - intros [= <-]. destruct i; cbn; eauto.
Qed.
(** The kind of value that a part lifts to. *)
Ltac kinds := 
  intros c v _ M; pose proof (m_citem_field c v M) as K; destruct c; cbn [m_citem] in M;
  try (injection M as <-); try (split; [reflexivity|reflexivity]); try reflexivity;
  [destruct K as (? & ? & ? & ? & ->)|destruct K as (? & ? & ? & ->)|..]; try reflexivity; auto.

Lemma existsb_tail s (l : list val) tl : (forall v, In v tl -> is_tail v = true) -> existsb (is_string s) (l ++ tl) = existsb (is_string s) l.
Proof.
  intros H. rewrite existsb_app. assert (X : existsb (is_string s) tl = false); [|rewrite X; apply orb_false_r].
  induction tl as [|v tl IH]; [reflexivity|]. cbn. rewrite IH by (intros; apply H; right; assumption).
  specialize (H v (or_introl eq_refl)). destruct v; try discriminate H; reflexivity.
Qed.
Lemma filter_tail (P : val -> bool) l tl : (forall v, is_tail v = true -> P v = false) -> (forall v, In v tl -> is_tail v = true) ->
  List.filter P (l ++ tl) = List.filter P l.
Proof.
  intros HP H. rewrite filter_app. assert (X : List.filter P tl = []); [|rewrite X; apply app_nil_r].
  induction tl as [|v tl IH]; [reflexivity|]. cbn. rewrite HP by (apply H; left; reflexivity). apply IH. intros; apply H; right; assumption.
Qed.
Lemma filter_none (P : val -> bool) l : (forall v, In v l -> P v = false) -> List.filter P l = [].
Proof.
  induction l as [|v l IH]; intros H; [reflexivity|]. cbn. rewrite H by (left; reflexivity). apply IH. intros; apply H; right; assumption.
Qed.
Lemma flag_ok s (f : citem -> bool) l vs : all (map m_citem l) = Some vs ->
  (forall c v, m_citem c = Some v -> is_string s v = f c) -> existsb (is_string s) vs = has f l.
Proof.
  intros E H. revert vs E. induction l as [|c l IH]; intros vs; cbn [map all]; [intros [= <-]; reflexivity|].
  destruct (m_citem c) as [v|] eqn:M; [|discriminate]. destruct (all (map m_citem l)) as [ws|]; [|discriminate]. intros [= <-].
  cbn. rewrite (H c v M). f_equal. apply IH. reflexivity.
Qed.

(** A component whose composition and configuration are values of those kinds. *)
Lemma component_defn_ok l vs xs fs tl : all (map m_citem l) = Some vs ->
  (forall v, In v tl -> is_tail v = true) -> List.filter is_composition tl = opt (fun v => v) xs ->
  List.filter is_configuration tl = opt (fun v => v) fs ->
  agrees (lift_component_defn (vs ++ tl)) (component_of l xs fs).
Proof.
  intros E T X F. unfold lift_component_defn, component_of.
  assert (C : forall v, In v vs -> is_composition v = false /\ is_configuration v = false).
  { intros v I. pose proof (all_In _ _ _ E I) as J. apply in_map_iff in J. destruct J as (c & M & _).
    pose proof (m_citem_field c v M) as K. destruct c; cbn [m_citem] in M; try (injection M as <-; auto).
    - destruct K as (? & ? & ? & ? & ->). auto.
    - destruct K as (? & ? & ? & ->). auto.
    - destruct i; auto. }
  rewrite !(filter_app is_composition), !(filter_app is_configuration), X, F.
  rewrite (filter_none is_composition vs) by (intros v I; apply (C v I)).
  rewrite (filter_none is_configuration vs) by (intros v I; apply (C v I)). cbn [app].
  rewrite !existsb_tail by exact T.
  rewrite !filter_tail by (first [exact T | intros v H; destruct v; try discriminate H; reflexivity]).
  rewrite (filter_pick m_citem is_attribute _ m_field l vs E); cbn [obind].
  2:{ intros c v _ M. pose proof (m_citem_field c v M) as K. destruct c; cbn [m_citem] in M; try (injection M as <-; reflexivity).
      - destruct K as (? & ? & ? & ? & ->). auto.
      - destruct K as (? & ? & ? & ->). reflexivity.
      - injection M as <-. destruct i; reflexivity. }
  rewrite (filter_pick m_citem is_dataport _ m_dataport l vs E); cbn [obind agrees].
  2:{ intros c v _ M. pose proof (m_citem_field c v M) as K. destruct c; cbn [m_citem] in M; try (injection M as <-; reflexivity).
      - destruct K as (? & ? & ? & ? & ->). auto.
      - destruct K as (? & ? & ? & ->). auto.
      - injection M as <-. destruct i; reflexivity. }
  assert (AX : forall o : option val, at_most_one (opt (fun v => v) o) = Ok o) by (intros []; reflexivity).
  rewrite !AX. cbn [bind]. f_equal.
  assert (KK : forall (P : val -> bool) sel, (forall c v, m_citem c = Some v -> match sel c with Some b => b = v /\ P v = true | None => P v = false end) ->
               List.filter P vs = pick sel l).
  { intros P sel H. apply (filter_pick_id m_citem); [exact E|]. intros; eapply H; eauto. }
  assert (I1 : List.filter is_include vs = map m_include (pick (fun c => match c with CInclude i => Some i | _ => None end) l)).
  { apply (filter_pick_map m_citem); [exact E|]. intros c v _ M. pose proof (m_citem_field c v M) as K.
    destruct c; cbn [m_citem] in M; try (injection M as <-; reflexivity).
    - destruct K as (? & ? & ? & ? & ->). reflexivity.
    - destruct K as (? & ? & ? & ->). reflexivity.
    - injection M as <-. split; [reflexivity|apply m_include_is]. }
  rewrite I1.
  assert (FL : forall s f, (forall c, match c with CField _ | CDataport _ _ _ | CInclude _ => f c = false
                                     | c => match m_citem c with Some v => is_string s v = f c | None => True end end) ->
               existsb (is_string s) vs = has f l).
  { intros s f H. apply flag_ok; [exact E|]. intros c v M. specialize (H c). pose proof (m_citem_field c v M) as K.
    destruct c; cbn [m_citem] in *; try (injection M as <-; exact H).
    - destruct K as (? & ? & ? & ? & ->). rewrite H. reflexivity.
    - destruct K as (? & ? & ? & ->). rewrite H. reflexivity.
    - destruct K as (? & ? & ->). rewrite H. reflexivity. }
  rewrite (FL "control" (fun c => match c with CControl => true | _ => false end)) by (intros []; reflexivity).
  rewrite (FL "hardware" (fun c => match c with CHardware => true | _ => false end)) by (intros []; reflexivity).
  f_equal; apply KK; intros c v M; pose proof (m_citem_field c v M) as K; destruct c; cbn [m_citem] in M;
    try (injection M as <-; try (split; reflexivity); reflexivity);
    try (destruct K as (? & ? & ? & ? & ->); reflexivity); try (destruct K as (? & ? & ? & ->); reflexivity);
    try (destruct K as (? & ? & ->); reflexivity).
Qed.

(** ** Connections and exports *)
Lemma lift_end e : lift_raw (t_end e) = Ok (m_end e).
Proof.
  destruct e as [[] p]; unfold t_end; nd; cbn [mapR]; rewrite lift_path; destruct p as [a [|b r]]; reflexivity.
Qed.
Lemma lift_ends l : mapR lift_raw (map t_end l) = Ok (map m_end l).
Proof. induction l as [|e l IH]; [reflexivity|]. cbn [map mapR]. rewrite lift_end. cbn [bind]. rewrite IH. reflexivity. Qed.
Lemma ends_from l : List.filter (end_is "from") (map m_end l) = map m_end (List.filter is_from l).
Proof. induction l as [|[[] p] l IH]; [reflexivity| |]; cbn; rewrite IH; reflexivity. Qed.
Lemma ends_to l : List.filter (end_is "to") (map m_end l) = map m_end (List.filter (fun e => negb (is_from e)) l).
Proof. induction l as [|[[] p] l IH]; [reflexivity| |]; cbn; rewrite IH; reflexivity. Qed.
Lemma ends_are l : forallb is_end (map m_end l) = true.
Proof. induction l as [|[f p] l IH]; [reflexivity|]. cbn. exact IH. Qed.

Definition thing_val (t : thing) : val := match t with Inst_ v | Conn_ v | Group_ v | Export_ v => v end.
Definition thing_ok (t : thing) : Prop :=
  match t with
  | Inst_ v => is_instance v = true | Conn_ v => is_connection v = true
  | Group_ v => is_group v = true | Export_ v => is_export v = true
  end.
Lemma things_ok ths n : (forall t, In t ths -> thing_ok t) ->
  VComposition n (List.filter is_instance (map thing_val ths)) (List.filter is_connection (map thing_val ths))
    (List.filter is_group (map thing_val ths)) (List.filter is_export (map thing_val ths)) = composition_of n ths.
Proof.
  intros H. unfold composition_of.
  assert (F : forall (P : val -> bool) sel, (forall t, thing_ok t -> match sel t with Some v => thing_val t = v /\ P v = true | None => P (thing_val t) = false end) ->
     List.filter P (map thing_val ths) = pick sel ths).
  { intros P sel K. revert H. induction ths as [|t ths IH]; intros H; [reflexivity|]. cbn [map List.filter].
    specialize (K t (H t (or_introl eq_refl))). unfold pick in *. cbn [flat_map].
    rewrite IH by (intros; apply H; right; assumption).
    destruct (sel t) as [v|]; cbn [opt app]; [destruct K as [-> ->]; reflexivity|rewrite K; reflexivity]. }
  f_equal; apply F; intros [v|v|v|v]; cbn [thing_ok thing_val]; intros Q; destruct v; try discriminate Q; auto.
Qed.

(** ** Induction over bodies *)
Section body_ind'.
Variable Pb : body -> Prop.
Variable Px : comp_sing -> Prop.
Variable Ps : stmt -> Prop.
Variable Pi : inst -> Prop.
Variable Pt : comp_type -> Prop.
Hypothesis H1 : forall l x f b, (forall x', x = Some x' -> Px x') -> Pb (Body l x f b).
Hypothesis H2 : forall p, Px (XRef p).
Hypothesis H3 : forall n l, (forall s, In s l -> Ps s) -> Px (XDef n l).
Hypothesis H4 : forall i, Pi i -> Ps (SInstance i).
Hypothesis H5 : forall t n l, Ps (SConnection t n l).
Hypothesis H6 : forall n l, (forall i, In i l -> Pi i) -> Ps (SGroup n l).
Hypothesis H7 : forall p q, Ps (SExport p q).
Hypothesis H8 : forall t n, Pt t -> Pi (Inst t n).
Hypothesis H9 : forall p, Pt (YRef p).
Hypothesis H10 : forall b, Pb b -> Pt (YBody b).
Fixpoint ib (b : body) : Pb b :=
  match b with
  | Body l x f c => H1 l x f c
      (match x as x0 return forall x', x0 = Some x' -> Px x' with
       | Some y => fun x' E => eq_ind y Px (ix y) x' (f_equal (fun o => match o with Some z => z | None => y end) E)
       | None => fun x' E => match E in _ = o return match o with Some _ => Px x' | None => True end with eq_refl => I end
       end)
  end
with ix (x : comp_sing) : Px x :=
  match x with
  | XRef p => H2 p
  | XDef n l => H3 n l ((fix go (l : list stmt) : forall s, In s l -> Ps s :=
      match l with
      | [] => fun s H => match H with end
      | a :: l => fun s H => match H with or_introl E => eq_ind a Ps (is_ a) s E | or_intror H => go l s H end
      end) l)
  end
with is_ (s : stmt) : Ps s :=
  match s with
  | SInstance i => H4 i (ii i)
  | SConnection t n l => H5 t n l
  | SGroup n l => H6 n l ((fix go (l : list inst) : forall s, In s l -> Pi s :=
      match l with
      | [] => fun s H => match H with end
      | a :: l => fun s H => match H with or_introl E => eq_ind a Pi (ii a) s E | or_intror H => go l s H end
      end) l)
  | SExport p q => H7 p q
  end
with ii (i : inst) : Pi i := match i with Inst t n => H8 t n (it t) end
with it (t : comp_type) : Pt t := match t with YRef p => H9 p | YBody b => H10 b (ib b) end.
Lemma bodies_ind : (forall b, Pb b) /\ (forall x, Px x) /\ (forall s, Ps s) /\ (forall i, Pi i) /\ (forall t, Pt t).
Proof. repeat split; [exact ib|exact ix|exact is_|exact ii|exact it]. Qed.
End body_ind'.

Lemma fold_and {A} (P : A -> Prop) l : fold_right and True (map P l) -> forall a, In a l -> P a.
Proof. induction l as [|b l IH]; cbn; [intros _ a []|]. intros [H T] a [<-|I]; auto. Qed.

Lemma m_body_shape b v : m_body b = Some v -> exists i c h p u e k d a m s bs x f, v = VComponent None i c h p u e k d a m s bs x f.
Proof.
  destruct b as [l x f c]. cbn [m_body]. destruct (match x with Some x => omap Some (m_comp_sing x) | None => Some None end); cbn [obind]; [|discriminate].
  destruct (keep m_conf_sing f); cbn [obind]; [|discriminate]. unfold component_of.
  destruct (all (map m_field _)); cbn [obind]; [|discriminate]. destruct (all (map m_dataport _)); cbn [obind]; [|discriminate].
  intros [= <-]. do 14 eexists. reflexivity.
Qed.
Lemma m_comp_type_shape t v : m_comp_type t = Some v -> instance_type_ok v = true.
Proof.
  destruct t as [p|b]; cbn [m_comp_type]; [intros [= <-]; reflexivity|]. intros H.
  destruct (m_body_shape b v H) as (? & ? & ? & ? & ? & ? & ? & ? & ? & ? & ? & ? & ? & ? & ->). reflexivity.
Qed.
Lemma m_inst_shape i v : m_inst i = Some v -> is_instance v = true.
Proof. destruct i as [t n]. cbn [m_inst]. destruct (m_comp_type t); cbn [omap]; [|discriminate]. intros [= <-]. reflexivity. Qed.
Lemma m_stmt_shape s t : m_stmt s = Some t -> thing_ok t.
Proof.
  destruct s as [i|t0 n l|n l|p q]; cbn [m_stmt].
  - destruct (m_inst i) as [v|] eqn:E; cbn [omap]; [|discriminate]. intros [= <-]. cbn. eapply m_inst_shape. exact E.
  - destruct (m_conn_type t0); cbn [omap]; [|discriminate]. intros [= <-]. reflexivity.
  - destruct (all (map m_inst l)); cbn [omap]; [|discriminate]. intros [= <-]. reflexivity.
  - destruct (snd p); [discriminate|]. intros [= <-]. reflexivity.
Qed.
Lemma insts_are l vs : all (map m_inst l) = Some vs -> forallb is_instance vs = true.
Proof.
  intros H. apply forallb_forall. intros v I. pose proof (all_In _ _ _ H I) as J. apply in_map_iff in J.
  destruct J as (f & E & _). eapply m_inst_shape. exact E.
Qed.
Lemma things_are l ths : all (map m_stmt l) = Some ths -> forall t, In t ths -> thing_ok t.
Proof.
  intros H t I. pose proof (all_In _ _ _ H I) as J. apply in_map_iff in J. destruct J as (f & E & _). eapply m_stmt_shape. exact E.
Qed.

Lemma comp_defn_ok l : (forall s, In s l -> agrees (lift_raw (t_stmt s)) (omap thing_val (m_stmt s))) ->
  agrees (lift_raw (Node "composition_defn" (map t_stmt l))) (omap (composition_of None) (all (map m_stmt l))).
Proof.
  intros H. nd.
  assert (K : agrees (mapR lift_raw (map t_stmt l)) (omap (map thing_val) (all (map m_stmt l)))).
  { rewrite <- all_omap, map_map. apply agrees_lift_map. exact H. }
  destruct (all (map m_stmt l)) as [ths|] eqn:E; cbn [omap agrees] in *.
  - rewrite K. cbn [bind]. unfold lift_composition_defn. rewrite (things_ok ths None (things_are l ths E)). reflexivity.
  - destruct K as [e ->]. exists e. reflexivity.
Qed.
Lemma comp_decl_ok n l : (forall s, In s l -> agrees (lift_raw (t_stmt s)) (omap thing_val (m_stmt s))) ->
  agrees (lift_raw (named "composition_decl" n (Node "composition_defn" (map t_stmt l)))) (omap (composition_of n) (all (map m_stmt l))).
Proof.
  intros H. pose proof (comp_defn_ok l H) as K. unfold named. nd. destruct n as [n|]; cbn [opt app mapR].
  - rewrite lift_id. cbn [bind]. destruct (all (map m_stmt l)); cbn [omap agrees] in *; [rewrite K; reflexivity|].
    destruct K as [e ->]. exists e. reflexivity.
  - destruct (all (map m_stmt l)); cbn [omap agrees] in *; [rewrite K; reflexivity|].
    destruct K as [e ->]. exists e. reflexivity.
Qed.

Lemma component_none l x f : all (map m_citem l) = None -> component_of l x f = None.
Proof.
  intros E. apply all_none in E. apply in_map_iff in E. destruct E as (c & N & I). unfold component_of.
  destruct c; cbn [m_citem] in N; try discriminate.
  - rewrite (pick_none _ m_field l (CField f0) f0 I eq_refl N). reflexivity.
  - destruct (all (map m_field _)); cbn [obind]; [|reflexivity].
    rewrite (pick_none _ m_dataport l (CDataport maybe type name) (maybe, type, name) I eq_refl N). reflexivity.
Qed.

Lemma m_comp_tail n l v : m_comp_sing (XDef n l) = Some v -> is_composition v = true.
Proof. cbn [m_comp_sing]. destruct (all (map m_stmt l)); cbn [omap]; [|discriminate]. intros [= <-]. reflexivity. Qed.
Lemma m_conf_tail n l v : m_conf_sing (FDef n l) = Some v -> is_configuration v = true.
Proof. cbn [m_conf_sing]. unfold m_conf_decl. destruct (all _); cbn [omap]; [|discriminate]. intros [= <-]. reflexivity. Qed.

Lemma bodies_ok :
  (forall b, in_place_body b -> agrees (lift_raw (t_body b)) (m_body b)) /\
  (forall x, in_place_comp x -> agrees (lift_raw (t_comp_sing x)) (m_comp_sing x)) /\
  (forall s, in_place_stmt s -> agrees (lift_raw (t_stmt s)) (omap thing_val (m_stmt s))) /\
  (forall i, in_place_inst i -> agrees (lift_raw (t_inst i)) (m_inst i)) /\
  (forall t, in_place_type t -> agrees (lift_raw (t_comp_type t)) (m_comp_type t)).
Proof.
  apply bodies_ind.
  - intros l x f c IX [PX PF]. cbn [t_body m_body]. nd. rewrite mapR_app.
    assert (L : agrees (mapR lift_raw (map t_citem l)) (all (map m_citem l))) by (apply agrees_lift_map; intros; apply lift_citem).
    (* the composition and the configuration *)
    assert (X : agrees (mapR lift_raw (match x with Some x => [t_comp_sing x] | None => [] end))
      (omap (opt (fun v => v)) (match x with Some x => omap Some (m_comp_sing x) | None => Some None end))).
    { destruct x as [x|]; [|reflexivity]. rewrite mapR1. pose proof (IX x eq_refl PX) as A.
      destruct (m_comp_sing x); cbn [omap agrees] in *; [rewrite A; reflexivity|]. destruct A as [e ->]. exists e. reflexivity. }
    assert (F : agrees (mapR lift_raw (opt t_conf_sing f)) (omap (opt (fun v => v)) (keep m_conf_sing f))).
    { destruct f as [f|]; [|reflexivity]. cbn [opt keep]. rewrite mapR1. pose proof (conf_sing_ok f) as A.
      destruct (m_conf_sing f); cbn [omap agrees] in *; [rewrite A; reflexivity|]. destruct A as [e ->]. exists e. reflexivity. }
    assert (XT : forall v, match x with Some x => omap Some (m_comp_sing x) | None => Some None end = Some (Some v) -> is_composition v = true).
    { intros v. destruct x as [[p|n l']|]; [destruct PX| |discriminate]. intros E.
      destruct (m_comp_sing (XDef n l')) as [w|] eqn:M; cbn [omap] in E; [|discriminate]. injection E as <-. eapply m_comp_tail. exact M. }
    assert (FT : forall v, keep m_conf_sing f = Some (Some v) -> is_configuration v = true).
    { intros v. destruct f as [[p|n l']|]; [destruct PF| |discriminate]. cbn [keep]. intros E.
      destruct (m_conf_sing (FDef n l')) as [w|] eqn:M; cbn [omap] in E; [|discriminate]. injection E as <-. eapply m_conf_tail. exact M. }
    destruct (all (map m_citem l)) as [vs|] eqn:EL; cbn [agrees] in L.
    2:{ destruct L as [e ->]. cbn [bind].
        destruct (match x with Some x => omap Some (m_comp_sing x) | None => Some None end); cbn [obind]; [|exists e; reflexivity].
        destruct (keep m_conf_sing f); cbn [obind]; [|exists e; reflexivity]. rewrite (component_none l _ _ EL). exists e. reflexivity. }
    rewrite L. cbn [bind].
    destruct (match x with Some x => omap Some (m_comp_sing x) | None => Some None end) as [xv|]; cbn [omap obind agrees] in *.
    2:{ destruct X as [e X]. unfold swap. destruct c; rewrite mapR_app, X; [|exists e; reflexivity].
        destruct (mapR lift_raw (opt t_conf_sing f)) as [?|e']; [exists e|exists e']; reflexivity. }
    destruct (keep m_conf_sing f) as [fv|]; cbn [omap obind agrees] in *.
    2:{ destruct F as [e F]. unfold swap. destruct c; rewrite mapR_app, F; [exists e; reflexivity|]. rewrite X. exists e. reflexivity. }
    assert (S : mapR lift_raw (swap c (match x with Some x => [t_comp_sing x] | None => [] end) (opt t_conf_sing f)) =
                Ok (if c then opt (fun v => v) fv ++ opt (fun v => v) xv else opt (fun v => v) xv ++ opt (fun v => v) fv)).
    { unfold swap. destruct c; rewrite mapR_app, F, X; reflexivity. }
    rewrite S. cbn [bind].
    assert (XV : forall v, xv = Some v -> is_composition v = true) by (intros v ->; apply XT; reflexivity).
    assert (FV : forall v, fv = Some v -> is_configuration v = true) by (intros v ->; apply FT; reflexivity).
    assert (XC : forall v, is_composition v = true -> is_configuration v = false) by (intros []; cbn; congruence).
    assert (CX : forall v, is_configuration v = true -> is_composition v = false) by (intros []; cbn; congruence).
    apply component_defn_ok; [exact EL| | |].
    + intros v I. assert (J : xv = Some v \/ fv = Some v).
      { destruct c; apply in_app_iff in I; destruct I as [I|I]; [right|left|left|right];
        [destruct fv|destruct xv|destruct xv|destruct fv]; cbn in I; (destruct I as [<-|[]] || destruct I); reflexivity. }
      unfold is_tail. destruct J as [J|J]; [rewrite (XV v J)|rewrite (FV v J)]; [reflexivity|apply orb_true_r].
    + destruct c; rewrite filter_app; destruct xv as [xv|], fv as [fv|]; cbn [opt List.filter app];
        rewrite ?(XV _ eq_refl); rewrite ?(CX _ (FV _ eq_refl)); reflexivity.
    + destruct c; rewrite filter_app; destruct xv as [xv|], fv as [fv|]; cbn [opt List.filter app];
        rewrite ?(FV _ eq_refl); rewrite ?(XC _ (XV _ eq_refl)); reflexivity.
  - intros p []. 
  - intros n l IH P. cbn [t_comp_sing m_comp_sing in_place_comp] in *. nd. rewrite mapR1.
    pose proof (comp_decl_ok n l (fun s I => IH s I (fold_and _ _ P s I))) as K.
    destruct (all (map m_stmt l)); cbn [omap agrees] in *; [rewrite K; reflexivity|].
    destruct K as [e ->]. exists e. reflexivity.
  - intros i IH P. cbn [t_stmt m_stmt in_place_stmt] in *. specialize (IH P). destruct (m_inst i); exact IH.
  - intros t n l _. cbn [t_stmt m_stmt]. nd. cbn [mapR]. rewrite lift_id, lift_ends. pose proof (conn_type_ok t) as H.
    destruct (m_conn_type t); cbn [omap agrees] in *.
    + rewrite H. cbn [bind lift_connection_defn need_str str]. rewrite ends_are, ends_from, ends_to. reflexivity.
    + destruct H as [e ->]. exists e. reflexivity.
  - intros n l IH P. cbn [t_stmt m_stmt in_place_stmt] in *.
    assert (K : agrees (mapR lift_raw (map t_inst l)) (all (map m_inst l))).
    { apply agrees_lift_map. intros i I. apply IH; [exact I|]. apply (fold_and _ _ P i I). }
    assert (G : agrees (lift_raw (Node "group_defn" (map t_inst l))) (omap (VGroup None) (all (map m_inst l)))).
    { nd. destruct (all (map m_inst l)) as [vs|] eqn:E; cbn [omap agrees] in *.
      - rewrite K. cbn [bind]. unfold lift_group_defn. rewrite (insts_are l vs E). reflexivity.
      - destruct K as [e ->]. exists e. reflexivity. }
    unfold named. nd. destruct n as [n|]; cbn [opt app mapR].
    + rewrite lift_id. cbn [bind]. destruct (all (map m_inst l)); cbn [omap agrees] in *; [rewrite G; reflexivity|].
      destruct G as [e ->]. exists e. reflexivity.
    + destruct (all (map m_inst l)); cbn [omap agrees] in *; [rewrite G; reflexivity|].
      destruct G as [e ->]. exists e. reflexivity.
  - intros p q _. cbn [t_stmt m_stmt]. nd. cbn [mapR]. rewrite !lift_path. destruct p as [a [|b r]]; cbn [fst snd].
    + eexists. reflexivity.
    + reflexivity.
  - intros t n IH P. cbn [t_inst m_inst in_place_inst] in *. specialize (IH P). nd. cbn [mapR]. rewrite lift_id.
    destruct (m_comp_type t) as [v|] eqn:E; cbn [omap agrees] in *.
    + rewrite IH. cbn [bind lift_instance_defn]. rewrite (m_comp_type_shape t v E). reflexivity.
    + destruct IH as [e ->]. exists e. reflexivity.
  - intros p _. cbn [t_comp_type m_comp_type]. nd. rewrite mapR1, lift_path. reflexivity.
  - intros b IH P. cbn [t_comp_type m_comp_type in_place_type] in *. specialize (IH P). nd. rewrite mapR1.
    destruct (m_body b) as [v|] eqn:E; cbn [agrees] in *.
    + rewrite IH. destruct (m_body_shape b v E) as (? & ? & ? & ? & ? & ? & ? & ? & ? & ? & ? & ? & ? & ? & ->). reflexivity.
    + destruct IH as [e ->]. exists e. reflexivity.
Qed.

(** ** Assemblies *)
Lemma lift_slot s : agrees (lift_raw (t_slot s)) (m_slot s).
Proof.
  destruct s as [a b u]. cbn [t_slot m_slot]. nd. rewrite mapR_app. cbn [mapR].
  assert (N : forall s, agrees (lift_raw (t_number s)) (omap VNum (number (NNum s)))).
  { intros s. unfold t_number, number. nd. rewrite mapR1. cbn [lift_raw bind lift_number_node str Numeric_Model.lift].
    destruct (Numeric_Model.wrap (lift_number s)) as [z|e]; cbn; [reflexivity|exists e; reflexivity]. }
  pose proof (N a) as A. pose proof (N b) as B. destruct (number (NNum a)); cbn [omap agrees] in A.
  2:{ destruct A as [e ->]. exists e. reflexivity. }
  rewrite A. cbn [bind]. destruct (number (NNum b)); cbn [omap agrees] in B.
  2:{ destruct B as [e ->]. exists e. reflexivity. }
  rewrite B. cbn [bind app]. destruct u as [[]|]; reflexivity.
Qed.
Definition m_part (p : part) : option val :=
  match p with
  | ACompos x => m_comp_sing x
  | AConf f => m_conf_sing f
  | ASchedule l => omap VSchedule (all (map m_slot l))
  end.
Lemma slots_are l vs : all (map m_slot l) = Some vs -> forallb (fun v => match v with VSlot _ _ _ => true | _ => false end) vs = true.
Proof.
  intros H. apply forallb_forall. intros v I. pose proof (all_In _ _ _ H I) as J. apply in_map_iff in J.
  destruct J as ([a b u] & E & _). cbn [m_slot] in E. destruct (number (NNum a)), (number (NNum b)); try discriminate. injection E as <-. reflexivity.
Qed.
Lemma lift_part p : match p with ACompos x => in_place_comp x | AConf (FRef _) => False | _ => True end ->
  agrees (lift_raw (t_part p)) (m_part p).
Proof.
  destruct p as [x|f|l]; cbn [t_part m_part].
  - apply bodies_ok.
  - intros _. apply conf_sing_ok.
  - intros _. nd. assert (H : agrees (mapR lift_raw (map t_slot l)) (all (map m_slot l))) by (apply agrees_lift_map; intros; apply lift_slot).
    destruct (all (map m_slot l)) eqn:E; cbn [omap agrees] in *.
    + rewrite H. cbn [bind]. unfold lift_schedule_decl. rewrite (slots_are _ _ E). reflexivity.
    + destruct H as [e ->]. exists e. reflexivity.
Qed.
Lemma m_part_kind p v : match p with ACompos x => in_place_comp x | AConf (FRef _) => False | _ => True end -> m_part p = Some v ->
  match p with ACompos _ => is_composition v = true | AConf _ => is_configuration v = true | ASchedule _ => is_schedule v = true end.
Proof.
  destruct p as [[q|n l]|[q|n l]|l]; cbn [m_part].
  - intros [].
  - intros _. apply m_comp_tail.
  - intros [].
  - intros _. apply m_conf_tail.
  - intros _. destruct (all _); cbn [omap]; [|discriminate]. intros [= <-]. reflexivity.
Qed.
Lemma assembly_defn_ok ps : (forall p, In p ps -> match p with ACompos x => in_place_comp x | AConf (FRef _) => False | _ => True end) ->
  agrees (lift_raw (Node "assembly_defn" (map t_part ps))) (m_assembly None ps).
Proof.
  intros P. nd. assert (H : agrees (mapR lift_raw (map t_part ps)) (all (map m_part ps))).
  { apply agrees_lift_map. intros p I. apply lift_part. apply P, I. }
  unfold m_assembly. destruct (all (map m_part ps)) as [vs|] eqn:E; cbn [agrees] in H.
  - rewrite H. cbn [bind].
    assert (KX : forall v, is_composition v = true -> is_configuration v = false /\ is_schedule v = false) by (intros []; cbn; auto; discriminate).
    assert (KF : forall v, is_configuration v = true -> is_composition v = false /\ is_schedule v = false) by (intros []; cbn; auto; discriminate).
    assert (KS : forall v, is_schedule v = true -> is_composition v = false /\ is_configuration v = false) by (intros []; cbn; auto; discriminate).
    rewrite (filter_pick m_part is_composition _ m_comp_sing ps vs E); cbn [obind].
    2:{ intros p v I M. pose proof (m_part_kind p v (P p I) M) as K. destruct p; [auto|apply KF, K|apply KS, K]. }
    rewrite (filter_pick m_part is_configuration _ m_conf_sing ps vs E); cbn [obind].
    2:{ intros p v I M. pose proof (m_part_kind p v (P p I) M) as K. destruct p; [apply KX, K|auto|apply KS, K]. }
    rewrite (filter_pick m_part is_schedule _ (fun l => omap VSchedule (all (map m_slot l))) ps vs E); cbn [obind].
    2:{ intros p v I M. pose proof (m_part_kind p v (P p I) M) as K. destruct p; [apply KX, K|apply KF, K|auto]. }
    unfold lift_assembly_defn.
    destruct (List.filter is_composition vs) as [|x [|]]; cbn [obind]; try (eexists; reflexivity).
    destruct (List.filter is_configuration vs) as [|f [|]]; destruct (List.filter is_schedule vs) as [|s [|]]; cbn [obind agrees]; try (eexists; reflexivity); reflexivity.
  - destruct H as [e ->]. cbn [bind]. apply all_none in E. apply in_map_iff in E. destruct E as (p & N & I).
    destruct p as [x|f|l]; cbn [m_part] in N.
    + rewrite (pick_none _ m_comp_sing ps (ACompos x) x I eq_refl N). exists e. reflexivity.
    + rewrite (pick_none _ m_conf_sing ps (AConf f) f I eq_refl N).
      destruct (all _); cbn [obind]; exists e; reflexivity.
    + rewrite (pick_none _ (fun l => omap VSchedule (all (map m_slot l))) ps (ASchedule l) l I eq_refl N).
      destruct (all (map m_comp_sing _)); cbn [obind]; [|exists e; reflexivity]. destruct (all (map m_conf_sing _)); cbn [obind]; exists e; reflexivity.
Qed.
Lemma m_assembly_named n ps : m_assembly (Some n) ps = omap (fun v => match v with VAssembly _ c f s => VAssembly (Some n) c f s | v => v end) (m_assembly None ps).
Proof.
  unfold m_assembly.
  repeat (match goal with |- context [obind ?m _] => destruct m; cbn [obind omap]; [|reflexivity] end). reflexivity.
Qed.
Lemma m_assembly_shape n ps v : m_assembly n ps = Some v -> exists c f s, v = VAssembly n c f s.
Proof.
  unfold m_assembly.
  repeat (match goal with |- context [obind ?m _] => destruct m; cbn [obind omap]; [|discriminate] end). intros [= <-]. eauto.
Qed.

Lemma lifted d : in_place d -> agrees (lift_raw (tree_of d)) (object_of d).
Proof.
  destruct d as [n ps|n b|n l|n l|n c|n l|n fs]; cbn [tree_of object_of in_place].
  - intros P. pose proof (assembly_defn_ok ps P) as H. unfold named. nd. destruct n as [n|]; cbn [opt app mapR].
    + rewrite lift_id. cbn [bind]. rewrite m_assembly_named. destruct (m_assembly None ps) as [v|] eqn:E; cbn [omap agrees] in *.
      * destruct (m_assembly_shape None ps v E) as (c & f & s & ->). rewrite H. reflexivity.
      * destruct H as [e ->]. exists e. reflexivity.
    + destruct (m_assembly None ps) as [v|] eqn:E; cbn [omap agrees] in *.
      * destruct (m_assembly_shape None ps v E) as (c & f & s & ->). rewrite H. reflexivity.
      * destruct H as [e ->]. exists e. reflexivity.
  - intros P. pose proof (proj1 bodies_ok b P) as H. unfold named. nd. destruct n as [n|]; cbn [opt app mapR].
    + rewrite lift_id. cbn [bind]. destruct (m_body b) as [v|] eqn:E; cbn [omap agrees] in *.
      * destruct (m_body_shape b v E) as (? & ? & ? & ? & ? & ? & ? & ? & ? & ? & ? & ? & ? & ? & ->). rewrite H. reflexivity.
      * destruct H as [e ->]. exists e. reflexivity.
    + destruct (m_body b) as [v|] eqn:E; cbn [omap agrees] in *.
      * destruct (m_body_shape b v E) as (? & ? & ? & ? & ? & ? & ? & ? & ? & ? & ? & ? & ? & ? & ->). rewrite H. reflexivity.
      * destruct H as [e ->]. exists e. reflexivity.
  - intros P. apply comp_decl_ok. intros s I. apply bodies_ok. apply (fold_and _ _ P s I).
  - intros _. apply conf_decl_ok.
  - intros _. apply connector_decl_ok.
  - intros _. apply procedure_decl_ok.
  - intros _. apply struct_decl_ok.
Qed.
Lemma file_lifted ds : (forall d, In d ds -> in_place d) -> agrees (lift_all (map tree_of ds)) (all (map object_of ds)).
Proof. intros H. unfold lift_all. apply agrees_lift_map. intros d I. apply lifted, H, I. Qed.
