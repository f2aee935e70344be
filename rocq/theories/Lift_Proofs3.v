From Coq Require Import String Ascii List Bool NArith ZArith Lia.
From Verif Require Import Prelude DecStr Numeric_Model Lift_Model Lift_Spec Lift_Proofs Lift_Proofs2.
Import ListNotations.
Open Scope string_scope.
Open Scope list_scope.

(** ** Sorting children by kind *)
Lemma all_none {A} (l : list (option A)) : all l = None <-> In None l.
Proof.
  induction l as [|[a|] l IH]; cbn; [split; [discriminate|intros []]| |split; [left; reflexivity|reflexivity]].
  destruct (all l).
  - split; [discriminate|]. intros [H|H]; [discriminate|]. destruct IH as [_ IH]. discriminate (IH H).
  - split; [|reflexivity]. intros _. right. apply IH. reflexivity.
Qed.
Lemma pick_in {A B} (sel : A -> option B) l a b : In a l -> sel a = Some b -> In b (pick sel l).
Proof. intros I S. apply in_flat_map. exists a. split; [exact I|]. rewrite S. left. reflexivity. Qed.
Lemma in_pick {A B} (sel : A -> option B) l b : In b (pick sel l) -> exists a, In a l /\ sel a = Some b.
Proof.
  intros I. apply in_flat_map in I. destruct I as (a & I & J). exists a. split; [exact I|].
  destruct (sel a); [destruct J as [->|[]]; reflexivity|destruct J].
Qed.
Lemma pick_none {A B C} (sel : A -> option B) (n : B -> option C) l a b : In a l -> sel a = Some b -> n b = None ->
  all (map n (pick sel l)) = None.
Proof. intros I S N. apply all_none. apply in_map_iff. exists b. split; [exact N|eapply pick_in; eauto]. Qed.

Lemma filter_pick {A B} (m : A -> option val) (P : val -> bool) (sel : A -> option B) (n : B -> option val) l vs :
  all (map m l) = Some vs ->
  (forall a v, In a l -> m a = Some v -> match sel a with Some b => n b = Some v /\ P v = true | None => P v = false end) ->
  all (map n (pick sel l)) = Some (List.filter P vs).
Proof.
  revert vs. induction l as [|a l IH]; intros vs; [cbn; intros [= <-] _; reflexivity|]. cbn [map all].
  destruct (m a) as [v|] eqn:E; [|discriminate]. destruct (all (map m l)) as [ws|]; [|discriminate]. intros [= <-] H.
  pose proof (H a v (or_introl eq_refl) E) as HA.
  assert (T : all (map n (pick sel l)) = Some (List.filter P ws)) by (apply IH; [reflexivity|]; intros; apply H; [right|]; assumption).
  unfold pick in *. cbn [flat_map List.filter]. destruct (sel a) as [b|]; cbn [opt app map all].
  - destruct HA as [-> ->]. rewrite T. reflexivity.
  - rewrite HA. exact T.
Qed.
Lemma all_some_map {A B} (f : A -> B) l : all (map (fun a => Some (f a)) l) = Some (map f l).
Proof. induction l as [|a l IH]; [reflexivity|]. cbn. rewrite IH. reflexivity. Qed.
Lemma filter_pick_map {A B} (m : A -> option val) (P : val -> bool) (sel : A -> option B) (f : B -> val) l vs :
  all (map m l) = Some vs ->
  (forall a v, In a l -> m a = Some v -> match sel a with Some b => f b = v /\ P v = true | None => P v = false end) ->
  List.filter P vs = map f (pick sel l).
Proof.
  intros E H. assert (X : all (map (fun b => Some (f b)) (pick sel l)) = Some (List.filter P vs)).
  { apply (filter_pick m); [exact E|]. intros a v I M. specialize (H a v I M). destruct (sel a); [|exact H]. destruct H as [-> ?]. auto. }
  rewrite all_some_map in X. congruence.
Qed.
Lemma filter_pick_id {A} (m : A -> option val) (P : val -> bool) (sel : A -> option val) l vs :
  all (map m l) = Some vs ->
  (forall a v, In a l -> m a = Some v -> match sel a with Some b => b = v /\ P v = true | None => P v = false end) ->
  List.filter P vs = pick sel l.
Proof. intros E H. rewrite (filter_pick_map m P sel (fun b => b) l vs E H). apply map_id. Qed.

Lemma m_method_is m v : m_method m = Some v -> is_method v = true /\ is_attribute v = false /\ is_include v = false.
Proof.
  destruct m as [r n ps]. cbn [m_method]. destruct (match r with Some t => omap Some (type_text t) | None => Some None end); cbn [obind]; [|discriminate].
  destruct (all (map m_param ps)); cbn [omap]; [|discriminate]. intros [= <-]. auto.
Qed.
Lemma m_field_is f v : m_field f = Some v -> exists t n a d, v = VAttr t n a d.
Proof. intros H. pose proof (m_field_attr f v H) as A. destruct v; try discriminate A. eauto. Qed.
Lemma m_include_is i : is_include (m_include i) = true.
Proof. destruct i; reflexivity. Qed.

(** ** Procedures *)
Definition m_pitem (i : pitem) : option val :=
  match i with PMethod m => m_method m | PField f => m_field f | PInclude i => Some (m_include i) end.
Lemma lift_pitem i : agrees (lift_raw (t_pitem i)) (m_pitem i).
Proof. destruct i; cbn [t_pitem m_pitem]; [apply lift_method|apply lift_field|apply lift_include_ok]. Qed.

Lemma procedure_defn_ok l : agrees (lift_raw (Node "procedure_defn" (map t_pitem l))) (m_procedure None l).
Proof.
  nd. assert (H : agrees (mapR lift_raw (map t_pitem l)) (all (map m_pitem l))) by (apply agrees_lift_map; intros; apply lift_pitem).
  unfold m_procedure. destruct (all (map m_pitem l)) as [vs|] eqn:E; cbn [agrees] in H.
  - rewrite H. cbn [bind].
    rewrite (filter_pick m_pitem is_method _ m_method l vs E); cbn [obind].
    2:{ intros a v _ M. destruct a; cbn [m_pitem] in M; [split; [exact M|apply (m_method_is _ _ M)]| |].
        - destruct (m_field_is _ _ M) as (? & ? & ? & ? & ->). reflexivity.
        - injection M as <-. destruct i; reflexivity. }
    rewrite (filter_pick m_pitem is_attribute _ m_field l vs E); cbn [obind].
    2:{ intros a v _ M. destruct a; cbn [m_pitem] in M; [apply (m_method_is _ _ M)| |].
        - split; [exact M|]. apply (m_field_attr _ _ M).
        - injection M as <-. destruct i; reflexivity. }
    unfold lift_procedure_defn. cbn [agrees]. f_equal. f_equal.
    apply (filter_pick_map m_pitem); [exact E|].
    intros a v _ M. destruct a; cbn [m_pitem] in M; [apply (m_method_is _ _ M)| |].
    + destruct (m_field_is _ _ M) as (? & ? & ? & ? & ->). reflexivity.
    + injection M as <-. split; [reflexivity|]. apply m_include_is.
  - destruct H as [e ->]. cbn [bind].
    apply all_none in E. apply in_map_iff in E. destruct E as (i & N & I). destruct i as [m|f|i]; cbn [m_pitem] in N; [| |discriminate].
    + rewrite (pick_none _ m_method l (PMethod m) m); [exists e; reflexivity|exact I|reflexivity|exact N].
    + rewrite (pick_none _ m_field l (PField f) f I eq_refl N).
      destruct (all _); cbn [obind]; exists e; reflexivity.
Qed.
Lemma procedure_decl_ok n l : agrees (lift_raw (named "procedure_decl" n (Node "procedure_defn" (map t_pitem l)))) (m_procedure n l).
Proof.
  unfold named. nd. pose proof (procedure_defn_ok l) as H. unfold m_procedure in *.
  destruct n as [n|]; cbn [opt app mapR].
  - rewrite lift_id. cbn [bind]. destruct (all _) as [ms|]; cbn [obind] in *; [destruct (all _) as [fs|]; cbn [obind] in *|].
    + cbn [agrees] in H. rewrite H. reflexivity.
    + destruct H as [e ->]. exists e. reflexivity.
    + destruct H as [e ->]. exists e. reflexivity.
  - destruct (all _) as [ms|]; cbn [obind] in *; [destruct (all _) as [fs|]; cbn [obind] in *|].
    + cbn [agrees] in H. rewrite H. reflexivity.
    + destruct H as [e ->]. exists e. reflexivity.
    + destruct H as [e ->]. exists e. reflexivity.
Qed.
Lemma struct_decl_ok n fs : agrees (lift_raw (Node "struct_decl" [t_id n; Node "struct_defn" (map t_field fs)]))
  (if not_empty fs then omap (VStruct (Some n)) (all (map m_field fs)) else None).
Proof.
  nd. cbn [mapR]. rewrite lift_id. cbn [bind].
  pose proof (struct_defn_ok fs (fun f _ => lift_field f)) as H.
  destruct (not_empty fs); [destruct (all (map m_field fs))|]; cbn [omap agrees] in *.
  - rewrite H. reflexivity.
  - destruct H as [e ->]. exists e. reflexivity.
  - destruct H as [e ->]. exists e. reflexivity.
Qed.

(** ** Settings *)
Lemma strip_all vs : (forall v, In v vs -> forall s, v <> VTok s) -> mapR strip_quotes (map with_quotes vs) = Ok vs.
Proof.
  induction vs as [|v vs IH]; intros H; [reflexivity|]. cbn [map mapR]. rewrite strip_with_quotes by (apply H; left; reflexivity).
  cbn [bind]. rewrite IH by (intros; apply H; right; assumption). reflexivity.
Qed.
Lemma all_omap {A B} (f : A -> B) l : all (map (omap f) l) = omap (map f) (all l).
Proof. induction l as [|[a|] l IH]; [reflexivity| |reflexivity]. cbn. rewrite IH. destruct (all l); reflexivity. Qed.

Lemma lift_keys ks : agrees (lift_raw (t_keys ks)) (omap VLookup (all (map m_key (fst ks :: snd ks)))).
Proof.
  unfold t_keys. nd. generalize (fst ks :: snd ks) as l. clear ks. intros l.
  assert (H : agrees (mapR lift_raw (map t_key l)) (all (map q_key l))) by (apply agrees_lift_map; intros; apply lift_key).
  assert (Q : all (map q_key l) = omap (map with_quotes) (all (map m_key l))).
  { rewrite <- all_omap, map_map. reflexivity. }
  rewrite Q in H. destruct (all (map m_key l)) as [vs|] eqn:E; cbn [omap agrees] in *.
  - rewrite H. cbn [bind]. unfold lift_dict_lookup. rewrite strip_all; [reflexivity|].
    intros v I. pose proof (all_In _ _ _ E I) as J. apply in_map_iff in J. destruct J as (k & K & _). eapply m_key_not_tok. exact K.
  - destruct H as [e ->]. exists e. reflexivity.
Qed.
Lemma m_dict_is l v : m_item (IDict l) = Some v -> exists d, v = VDict d.
Proof. cbn [m_item]. destruct (all _); cbn [omap]; [|discriminate]. intros [= <-]. eauto. Qed.
Lemma lift_qarg a : agrees (v <- lift_raw (t_qarg a) ;; query_args v) (m_qarg a).
Proof.
  destruct a as [l|ls]; cbn [t_qarg m_qarg].
  - pose proof (lift_item (IDict l)) as H. destruct (m_item (IDict l)) as [v|] eqn:E; cbn [omap agrees] in *.
    + destruct (m_dict_is _ _ E) as [d ->]. rewrite H. reflexivity.
    + destruct H as [e ->]. exists e. reflexivity.
  - nd. assert (H : agrees (mapR lift_raw (map (fun l => t_item (IDict l)) ls)) (all (map (fun l => m_item (IDict l)) ls))).
    { apply agrees_lift_map. intros l _. pose proof (lift_item (IDict l)) as H. destruct (m_item (IDict l)) as [v|] eqn:E; cbn [omap] in *; [|exact H].
      destruct (m_dict_is _ _ E) as [d ->]. exact H. }
    destruct (all _) as [vs|] eqn:E; cbn [agrees] in *.
    + rewrite H. cbn [bind lift_dict_list query_args].
      assert (F : forallb is_dict vs = true).
      { apply forallb_forall. intros v I. pose proof (all_In _ _ _ E I) as J. apply in_map_iff in J. destruct J as (l & M & _).
        destruct (m_dict_is _ _ M) as [d ->]. reflexivity. }
      rewrite F. reflexivity.
    + destruct H as [e ->]. exists e. reflexivity.
Qed.
Lemma split_last_snoc l v : split_last (l ++ [v]) = Some (l, v).
Proof. induction l as [|a l IH]; [reflexivity|]. cbn [app split_last]. rewrite IH. destruct (l ++ [v]) eqn:E; [destruct l; discriminate E|]. reflexivity. Qed.
Lemma join_toks sep l : join_strings sep (map VTok l) = Ok (String.concat sep l).
Proof.
  unfold join_strings. assert (H : mapR (fun v => match str v with Some s => Ok s | None => fails end) (map VTok l) = Ok l).
  { induction l as [|a l IH]; [reflexivity|]. cbn [map mapR str bind]. rewrite IH. reflexivity. }
  rewrite H. reflexivity.
Qed.

Lemma ref_no_lookup l : l <> [] -> lift_attribute_reference (map VTok l) = Ok (VAttrRef (String.concat "." l) None).
Proof.
  intros N. destruct (exists_last N) as (r & x & ->). unfold lift_attribute_reference.
  assert (E : split_last (map VTok (r ++ [x])) = Some (map VTok r, VTok x)) by (rewrite map_app; apply split_last_snoc).
  rewrite E, join_toks. reflexivity.
Qed.

(** The lifted right-hand side of a setting. *)
Lemma lift_rhs r : exists m', agrees (lift_raw (t_rhs r)) m' /\
  match m_rhs r with
  | Some v => exists w, m' = Some w /\ strip_quotes w = Ok v /\ setting_value_ok v = true
  | None => m' = None
  end.
Proof.
  destruct r as [i|n a ks|p ks]; cbn [t_rhs m_rhs].
  - exists (omap with_quotes (m_item i)). split; [apply lift_item|]. destruct (m_item i) as [v|] eqn:E; cbn [omap]; [|reflexivity].
    exists (with_quotes v). split; [reflexivity|]. split; [apply strip_with_quotes; eapply m_item_not_tok; exact E|].
    apply (m_item_shape i v E).
  - exists (a <~ m_qarg a ;; ks <~ m_keys ks ;; Some (VQuery n a ks)). split.
    + nd. cbn [mapR]. rewrite lift_id. cbn [bind]. pose proof (lift_qarg a) as H.
      destruct (lift_raw (t_qarg a)) as [v|e]; cbn [bind] in *.
      2:{ destruct (m_qarg a); [discriminate H|]. exists e. reflexivity. }
      destruct ks as [ks|]; cbn [opt mapR m_keys].
      * pose proof (lift_keys ks) as K. destruct (all (map m_key (fst ks :: snd ks))) as [l|]; cbn [omap agrees obind] in *.
        -- rewrite K. cbn [bind lift_query]. destruct (m_qarg a) as [q|]; cbn [agrees obind] in *; [rewrite H; reflexivity|].
           destruct H as [e ->]. exists e. reflexivity.
        -- destruct K as [e ->]. cbn [bind]. destruct (m_qarg a); exists e; reflexivity.
      * cbn [obind bind lift_query]. destruct (m_qarg a) as [q|]; cbn [agrees obind] in *; [rewrite H; reflexivity|].
        destruct H as [e ->]. exists e. reflexivity.
    + destruct (m_qarg a); cbn [obind]; [|reflexivity]. destruct (m_keys ks); cbn [obind]; [|reflexivity].
      eexists. split; [reflexivity|]. split; reflexivity.
  - exists (ks <~ m_keys ks ;; Some (VAttrRef (String.concat "." (ids p)) ks)). split.
    + nd. rewrite mapR_app, lift_ids. cbn [bind]. destruct ks as [ks|]; cbn [opt mapR m_keys].
      * pose proof (lift_keys ks) as K. destruct (all (map m_key (fst ks :: snd ks))) as [l|]; cbn [omap agrees obind] in *.
        -- rewrite K. cbn [bind]. unfold lift_attribute_reference. rewrite split_last_snoc, join_toks. reflexivity.
        -- destruct K as [e ->]. exists e. reflexivity.
      * cbn [bind obind agrees]. rewrite app_nil_r. apply ref_no_lookup. discriminate.
    + destruct (m_keys ks); cbn [obind]; [|reflexivity]. eexists. split; [reflexivity|]. split; reflexivity.
Qed.
Lemma lift_setting_ok s : agrees (lift_raw (t_setting s)) (m_setting s).
Proof.
  destruct s as [i a r]. cbn [t_setting m_setting]. nd. cbn [mapR]. rewrite !lift_id. cbn [bind].
  destruct (lift_rhs r) as (m' & H & K). destruct (m_rhs r) as [v|]; cbn [omap agrees].
  - destruct K as (w & -> & S & O). cbn [agrees] in H. rewrite H. cbn [bind lift_setting]. rewrite S. cbn [bind need_str str].
    rewrite O. reflexivity.
  - subst m'. destruct H as [e ->]. exists e. reflexivity.
Qed.
Lemma conf_defn_ok l : agrees (lift_raw (Node "configuration_defn" (map t_setting l))) (omap (VConfiguration None) (all (map m_setting l))).
Proof.
  nd. assert (H : agrees (mapR lift_raw (map t_setting l)) (all (map m_setting l))) by (apply agrees_lift_map; intros; apply lift_setting_ok).
  destruct (all (map m_setting l)); cbn [omap agrees] in *; [rewrite H; reflexivity|]. destruct H as [e ->]. exists e. reflexivity.
Qed.
Lemma conf_decl_ok n l : agrees (lift_raw (t_conf_decl n l)) (m_conf_decl n l).
Proof.
  unfold t_conf_decl, named, m_conf_decl. nd. pose proof (conf_defn_ok l) as H.
  destruct n as [n|]; cbn [opt app mapR].
  - rewrite lift_id. cbn [bind]. destruct (all (map m_setting l)); cbn [omap agrees] in *; [rewrite H; reflexivity|].
    destruct H as [e ->]. exists e. reflexivity.
  - destruct (all (map m_setting l)); cbn [omap agrees] in *; [rewrite H; reflexivity|].
    destruct H as [e ->]. exists e. reflexivity.
Qed.
Lemma conf_sing_ok c : agrees (lift_raw (t_conf_sing c)) (m_conf_sing c).
Proof.
  unfold t_conf_sing. nd. rewrite mapR1. destruct c as [p|n l]; cbn [m_conf_sing].
  - rewrite lift_path. reflexivity.
  - pose proof (conf_decl_ok n l) as H. unfold m_conf_decl in *. destruct (all (map m_setting l)); cbn [omap agrees] in *; [rewrite H; reflexivity|].
    destruct H as [e ->]. exists e. reflexivity.
Qed.

(** ** Connectors *)
Definition kind_val (e : cend) : string := (kind_text (ce_kind e) ++ (if ce_multiple e then "s" else ""))%string.
Lemma kind_translation e : translation (kind_val e) = Ok (kind_text (ce_kind e)) /\ is_plural (kind_val e) = ce_multiple e /\
  is_string "hardware" (VTok (kind_val e)) = false.
Proof. destruct e as [h [] [] t]; repeat split. Qed.
(** One end of a connector, read from the front of the children. *)
Definition read_end (args : list val) : res (bool * string * Z * list val) :=
  ' (h, args) <- pop_hardware args ;; ' (t, args) <- pop_type args ;; ' (n, args) <- pop_threads args ;; Ok (h, t, n, args).
Definition end_vals (e : cend) : option (list val) :=
  match ce_threads e with
  | Some n => omap (fun z => (if ce_hardware e then [VStr "hardware"] else []) ++ [VTok (kind_val e); VNum z]) (number n)
  | None => Some ((if ce_hardware e then [VStr "hardware"] else []) ++ [VTok (kind_val e)])
  end.
Lemma lift_cend e : agrees (mapR lift_raw (t_cend e)) (end_vals e).
Proof.
  unfold t_cend, end_vals. rewrite mapR_app.
  assert (A : mapR lift_raw (if ce_hardware e then [Node "hardware_bare" [Tok "hardware"]] else []) =
              Ok (if ce_hardware e then [VStr "hardware"] else [])) by (destruct (ce_hardware e); reflexivity).
  rewrite A. cbn [bind app mapR].
  assert (B : lift_raw (Node "connector_end_type" [Tok (kind_text (ce_kind e) ++ (if ce_multiple e then "s" else ""))]) = Ok (VTok (kind_val e))) by reflexivity.
  rewrite B. cbn [bind]. destruct (ce_threads e) as [n|]; cbn [opt mapR].
  - pose proof (agrees_number n) as N. destruct (number n); cbn [omap agrees] in *; [rewrite N; reflexivity|].
    destruct N as [x ->]. exists x. reflexivity.
  - reflexivity.
Qed.
Lemma read_end_ok e vs rest : end_vals e = Some vs -> (forall z r, rest <> VNum z :: r) ->
  agrees (read_end (vs ++ rest)) (omap (fun z => (ce_hardware e, kind_val e, z, rest)) (threads e)).
Proof.
  intros E R. unfold end_vals, threads in *. destruct (kind_translation e) as (_ & _ & K). unfold read_end.
  destruct (ce_threads e) as [n|].
  - destruct (number n) as [z|]; cbn [omap obind] in *; [|discriminate]. injection E as <-.
    destruct (ce_hardware e); cbn [app pop_hardware].
    + cbn [is_string str String.eqb Ascii.eqb Bool.eqb bind pop_type need_str pop_threads thread_count].
      unfold thread_count. destruct (z <? 0)%Z; cbn; [eexists; reflexivity|reflexivity].
    + rewrite K. cbn [bind pop_type need_str str pop_threads]. unfold thread_count.
      destruct (z <? 0)%Z; cbn; [eexists; reflexivity|reflexivity].
  - injection E as <-. cbn [omap agrees].
    assert (T : pop_threads rest = Ok (1%Z, rest)).
    { destruct rest as [|v r]; [reflexivity|]. destruct v; try reflexivity. exfalso. eapply R. reflexivity. }
    destruct (ce_hardware e); cbn [app pop_hardware].
    + cbn [is_string str String.eqb Ascii.eqb Bool.eqb bind pop_type need_str]. rewrite T. reflexivity.
    + rewrite K. cbn [bind pop_type need_str str]. rewrite T. reflexivity.
Qed.
Lemma connector_defn_eq args : lift_connector_defn args =
  (' (fh, ft, fn, args) <- read_end args ;; ' (th, tt_, tn, args) <- read_end args ;;
   _ <- assert (forallb is_attribute args) ;; make_connector None ft tt_ fn tn fh th args).
Proof.
  unfold lift_connector_defn, read_end.
  destruct (pop_hardware args) as [[fh a1]|]; cbn [bind]; [|reflexivity].
  destruct (pop_type a1) as [[ft a2]|]; cbn [bind]; [|reflexivity].
  destruct (pop_threads a2) as [[fn a3]|]; cbn [bind]; [|reflexivity].
  destruct (pop_hardware a3) as [[th a4]|]; cbn [bind]; [|reflexivity].
  destruct (pop_type a4) as [[tt_ a5]|]; cbn [bind]; [|reflexivity].
  destruct (pop_threads a5) as [[tn a6]|]; reflexivity.
Qed.
Lemma connector_defn_ok c : agrees (lift_raw (t_connector c)) (m_connector None c).
Proof.
  destruct c as [f t fs]. cbn [t_connector m_connector]. nd. rewrite !mapR_app.
  pose proof (lift_cend f) as HF. pose proof (lift_cend t) as HT. pose proof (lift_fields fs) as HA.
  destruct (end_vals f) as [fv|] eqn:EF; cbn [agrees] in HF.
  2:{ destruct HF as [e ->]. unfold end_vals in EF. unfold threads at 1. destruct (ce_threads f) as [n|]; [|discriminate].
      destruct (number n); [discriminate|]. exists e. reflexivity. }
  rewrite HF. cbn [bind]. destruct (end_vals t) as [tv|] eqn:ET; cbn [agrees] in HT.
  2:{ destruct HT as [e ->]. unfold end_vals in ET. destruct (threads f); cbn [obind]; [|exists e; reflexivity].
      unfold threads. destruct (ce_threads t) as [n|]; [|discriminate].
      destruct (number n); [discriminate|]. exists e. reflexivity. }
  rewrite HT. cbn [bind]. destruct (all (map m_field fs)) as [av|] eqn:EA; cbn [agrees] in HA.
  2:{ destruct HA as [e ->]. cbn [bind]. destruct (threads f); cbn [obind]; [|exists e; reflexivity].
      destruct (threads t); cbn [obind]; exists e; reflexivity. }
  rewrite HA. cbn [bind]. rewrite connector_defn_eq.
  assert (NT : forall z r, tv ++ av <> VNum z :: r).
  { intros z r. unfold end_vals in ET. destruct (ce_threads t); [destruct (number n); cbn [omap] in ET; [|discriminate]|];
    injection ET as <-; destruct (ce_hardware t); discriminate. }
  pose proof (read_end_ok f fv (tv ++ av) EF NT) as RF. destruct (threads f) as [zf|]; cbn [omap agrees obind] in *.
  2:{ destruct RF as [e ->]. exists e. reflexivity. }
  rewrite RF. cbn [bind].
  assert (NA : forall z r, av <> VNum z :: r).
  { intros z r ->. pose proof (fields_attrs fs _ EA) as F. discriminate F. }
  pose proof (read_end_ok t tv av ET NA) as RT. destruct (threads t) as [zt|]; cbn [omap agrees obind] in *.
  2:{ destruct RT as [e ->]. exists e. reflexivity. }
  rewrite RT. cbn [bind]. rewrite (fields_attrs fs av EA). cbn [assert bind]. unfold make_connector.
  destruct (kind_translation f) as (-> & -> & _). destruct (kind_translation t) as (-> & -> & _). reflexivity.
Qed.
Lemma connector_decl_ok n c : agrees (lift_raw (named "connector_decl" n (t_connector c))) (m_connector n c).
Proof.
  unfold named. nd. pose proof (connector_defn_ok c) as H. destruct c as [f t fs]. cbn [m_connector] in *.
  destruct n as [n|]; cbn [opt app mapR].
  - rewrite lift_id. cbn [bind].
    destruct (threads f); cbn [obind] in *; [|destruct H as [e ->]; exists e; reflexivity].
    destruct (threads t); cbn [obind] in *; [|destruct H as [e ->]; exists e; reflexivity].
    destruct (all (map m_field fs)); cbn [obind agrees] in *; [|destruct H as [e ->]; exists e; reflexivity].
    rewrite H. destruct f as [fh [] [] fn], t as [th [] [] tn]; reflexivity.
  - destruct (threads f); cbn [obind] in *; [|destruct H as [e ->]; exists e; reflexivity].
    destruct (threads t); cbn [obind] in *; [|destruct H as [e ->]; exists e; reflexivity].
    destruct (all (map m_field fs)); cbn [obind agrees] in *; [|destruct H as [e ->]; exists e; reflexivity].
    rewrite H. reflexivity.
Qed.
Lemma conn_type_ok c : agrees (lift_raw (t_conn_type c)) (m_conn_type c).
Proof.
  unfold t_conn_type. nd. rewrite mapR1. destruct c as [p|c]; cbn [m_conn_type].
  - rewrite lift_path. reflexivity.
  - pose proof (connector_defn_ok c) as H. destruct c as [f t fs]. cbn [m_connector] in *.
    destruct (threads f); cbn [obind] in *; [|destruct H as [e ->]; exists e; reflexivity].
    destruct (threads t); cbn [obind] in *; [|destruct H as [e ->]; exists e; reflexivity].
    destruct (all (map m_field fs)); cbn [obind agrees] in *; [|destruct H as [e ->]; exists e; reflexivity].
    rewrite H. reflexivity.
Qed.
