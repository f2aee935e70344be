(** Proofs about the C functions of methods: parsing *)
From Coq Require Import List String Ascii Bool Lia.
From Verif Require Import Prelude Sig_Model Sig_Spec.
Import ListNotations.
Open Scope string_scope. Open Scope list_scope.
Set Implicit Arguments.

Lemma word_eqb w : word w -> String.eqb w "const" = false /\ String.eqb w "*" = false /\ String.eqb w "," = false.
Proof. intros (a & b & c). rewrite !String.eqb_neq. auto. Qed.
Lemma word_p x : word ("p_" ++ x).
Proof. repeat split; cbn; discriminate. Qed.
Lemma word_sz x : word (x ++ "_sz").
Proof.
  repeat split; intros H;
    destruct x as [|c1 [|c2 [|c3 [|c4 [|c5 [|c6 x]]]]]]; cbn in H; try discriminate; inversion H.
Qed.
Lemma word_ret x : word (x ++ "_ret").
Proof.
  repeat split; intros H;
    destruct x as [|c1 [|c2 [|c3 [|c4 [|c5 [|c6 x]]]]]]; cbn in H; try discriminate; inversion H.
Qed.
Lemma word_ret_ptr x : word (x ++ "_ret_ptr").
Proof.
  repeat split; intros H;
    destruct x as [|c1 [|c2 [|c3 [|c4 [|c5 [|c6 x]]]]]]; cbn in H; try discriminate; inversion H.
Qed.

(** ** Commas *)
Definition good {B} (f : tokens -> option B) (toks : tokens) (l : list B) : Prop := all f (split toks) = Some l.

Lemma split_ne toks : split toks <> [].
Proof. destruct toks as [|w r]; cbn; [discriminate|]. destruct (String.eqb w ","); [discriminate|]. destruct (split r); discriminate. Qed.
Lemma split_comma a b : split (a ++ "," :: b) = split a ++ split b.
Proof.
  induction a as [|w a IH]; cbn; [reflexivity|].
  destruct (String.eqb w ","); [now rewrite IH|].
  rewrite IH. destruct (split a) eqn:E; [destruct (split_ne a E)|reflexivity].
Qed.
Lemma all_app {A B} (f : A -> option B) a b la lb :
  all f a = Some la -> all f b = Some lb -> all f (a ++ b) = Some (la ++ lb).
Proof.
  revert la; induction a as [|x a IH]; intros la Ha Hb; cbn in *.
  - injection Ha as <-. exact Hb.
  - destruct (f x); [|discriminate]. destruct (all f a); [|discriminate]. injection Ha as <-.
    now rewrite (IH _ eq_refl Hb).
Qed.
Lemma good_comma {B} (f : tokens -> option B) a b la lb :
  good f a la -> good f b lb -> good f (a ++ "," :: b) (la ++ lb).
Proof. unfold good. rewrite split_comma. apply all_app. Qed.
Lemma good_commas {A B} (f : tokens -> option B) (g : A -> tokens) (h : A -> list B) l :
  (forall x, In x l -> good f (g x) (h x)) -> l <> [] -> good f (commas (map g l)) (flat_map h l).
Proof.
  induction l as [|x l IH]; intros H Hn; [congruence|].
  destruct l as [|y l].
  - cbn. rewrite app_nil_r. apply H. now left.
  - change (commas (map g (x :: y :: l))) with (g x ++ "," :: commas (map g (y :: l))).
    change (flat_map h (x :: y :: l)) with (h x ++ flat_map h (y :: l)).
    apply good_comma; [apply H; now left|]. apply IH; [|discriminate]. intros z Hz. apply H. now right.
Qed.
(** A list after the commas of a loop that writes the comma first *)
Lemma good_flat {A B} (f : tokens -> option B) a la (g : A -> tokens) (h : A -> list B) l :
  good f a la -> (forall x, In x l -> good f (g x) (h x)) ->
  good f (a ++ flat_map (fun x => "," :: g x) l) (la ++ flat_map h l).
Proof.
  revert a la; induction l as [|x l IH]; intros a la Ha H; cbn [flat_map].
  - now rewrite !app_nil_r.
  - change (("," :: g x) ++ flat_map (fun x0 => "," :: g x0) l) with ("," :: g x ++ flat_map (fun x0 => "," :: g x0) l).
    replace (a ++ "," :: g x ++ flat_map (fun x0 => "," :: g x0) l)
      with ((a ++ "," :: g x) ++ flat_map (fun x0 => "," :: g x0) l) by (rewrite <- app_assoc; reflexivity).
    rewrite app_assoc.
    apply IH; [|intros y Hy; apply H; now right].
    apply good_comma; [exact Ha|]. apply H. now left.
Qed.
Lemma good_list {A B} (f : tokens -> option B) a la (g : A -> tokens) (h : A -> list B) l :
  good f a la -> (forall x, In x l -> good f (g x) (h x)) ->
  good f (a ++ comma_if (some l) ++ commas (map g l)) (la ++ flat_map h l).
Proof.
  intros Ha H. destruct l as [|x l]; [cbn; now rewrite !app_nil_r|].
  change (comma_if (some (x :: l))) with [","]. cbn [app].
  apply good_comma; [exact Ha|]. apply good_commas; [exact H|discriminate].
Qed.

(** ** One parameter *)
Lemma show_cases t : word t -> t = "string" \/
  (String.eqb t "string" = false /\ exists b, word b /\ show_type t = [b] /\ c_type t = CBase b).
Proof.
  intros W. unfold show_type, c_type. destruct (String.eqb t "string") eqn:E1.
  - left. now apply String.eqb_eq.
  - right. split; [reflexivity|]. destruct (String.eqb t "character"); [exists "char"; repeat split; discriminate|].
    destruct (String.eqb t "boolean"); [exists "bool"; repeat split; discriminate|]. exists t. auto.
Qed.

Ltac facts W := let a := fresh "k" in let b := fresh "k" in let c := fresh "k" in
  destruct (word_eqb W) as (a & b & c).
Ltac comp := change (show_type "string") with ["char"; "*"]; repeat first [ progress (cbn [good split all parse_decl parse_expr stars option_map app String.eqb Ascii.eqb Bool.eqb fst snd map])
  | match goal with H : String.eqb _ _ = _ |- _ => progress (rewrite H) end ].

Lemma good_header p : ok_param p -> good parse_decl (header_param p) (promised p).
Proof.
  intros [Wt Wn]. destruct p as [d ar ty nm]. cbn in Wt, Wn. unfold good, header_param, promised, is_string.
  cbn [p_dir p_array p_type p_name].
  pose proof (word_sz nm) as Ws. revert Ws. generalize (nm ++ "_sz")%string. intros sz Ws.
  facts Wn. facts Ws.
  destruct (show_cases Wt) as [->|(Hs & b & Wb & -> & ->)]; [|facts Wb]; destruct d, ar; cbn [dir_eqb]; comp; reflexivity.
Qed.
Lemma good_input pre p : word (pre ++ p_name p) -> ok_param p ->
  good parse_decl (show_input_parameter pre p) (map (fun v => (fst v, pre ++ snd v)%string) (promised p)).
Proof.
  intros Wn [Wt _]. destruct p as [d ar ty nm]. cbn in Wt, Wn. unfold good, show_input_parameter, promised, is_string.
  cbn [p_dir p_array p_type p_name].
  assert (Ws : word (pre ++ nm ++ "_sz")).
  { assert (H : (pre ++ nm ++ "_sz" = (pre ++ nm) ++ "_sz")%string).
    { clear. induction pre as [|c pre IH]; cbn; [reflexivity|now rewrite IH]. }
    rewrite H. apply word_sz. }
  facts Wn. facts Ws.
  destruct (show_cases Wt) as [->|(Hs & b & Wb & -> & ->)]; [|facts Wb]; destruct d, ar; cbn [dir_eqb]; comp; reflexivity.
Qed.

(** What an unmarshalling function takes for a parameter *)
Definition by_ref (p : param) : list (ctype * string) :=
  (if p_array p then [(CPtr (CBase "size_t"), "p_" ++ p_name p ++ "_sz"); (CPtr (CPtr (c_type (p_type p))), "p_" ++ p_name p)]
   else [(CPtr (c_type (p_type p)), "p_" ++ p_name p)])%string.
Lemma good_output p : ok_param p -> good parse_decl (show_output_parameter "p_" p) (by_ref p).
Proof.
  intros [Wt _]. destruct p as [d ar ty nm]. cbn in Wt. unfold good, show_output_parameter, by_ref.
  cbn [p_dir p_array p_type p_name].
  pose proof (word_p (nm ++ "_sz")) as Ws. pose proof (word_p nm) as Wn. revert Ws Wn.
  generalize ("p_" ++ nm ++ "_sz")%string. generalize ("p_" ++ nm)%string. intros x sz Ws Wn.
  facts Wn. facts Ws.
  destruct (show_cases Wt) as [->|(Hs & b & Wb & -> & ->)]; [|facts Wb]; destruct ar; comp; reflexivity.
Qed.

(** ** Lists of parameters *)
Lemma params_of toks l : toks <> [] -> toks <> ["void"] -> good parse_decl toks l -> parse_params toks = Some l.
Proof.
  intros H1 H2 H. unfold parse_params. destruct toks as [|w [|v r]]; [congruence| |exact H].
  destruct (String.eqb w "void") eqn:E; [apply String.eqb_eq in E; congruence|exact H].
Qed.
Lemma good_ne toks l : good parse_decl toks l -> l <> [] /\ toks <> [] /\ toks <> ["void"].
Proof.
  unfold good. intros H. split; [|split].
  - intros ->. pose proof (split_ne toks). destruct (split toks) as [|x r]; [congruence|]. cbn [all] in H.
    destruct (parse_decl x); [|discriminate H]. match type of H with context [match ?a with Some _ => _ | None => _ end] => destruct a; discriminate H end.
  - intros ->. discriminate H.
  - intros ->. discriminate H.
Qed.
Lemma params_good toks l : good parse_decl toks l -> parse_params toks = Some l.
Proof. intros H. destruct (good_ne H) as (_ & a & b). now apply params_of. Qed.
Lemma args_good toks l : toks <> [] -> good parse_expr toks l -> parse_args toks = Some l.
Proof. intros Hn H. destruct toks; [congruence|exact H]. Qed.

Lemma show_list ps valid pre :
  (forall p, In p ps -> existsb (dir_eqb (p_dir p)) valid = true) ->
  show_input_parameter_list ps valid pre = Ok (commas (map (show_input_parameter pre) ps)).
Proof.
  intros H. unfold show_input_parameter_list.
  assert (E : mapM (fun p => if existsb (dir_eqb (p_dir p)) valid then Ok (show_input_parameter pre p)
                      else Err AssertionError) ps = Ok (map (show_input_parameter pre) ps)).
  { induction ps as [|p ps IH]; cbn [mapM map]; [reflexivity|].
    rewrite (H p (or_introl eq_refl)). cbn [bind].
    rewrite IH; [reflexivity|]. intros q Hq. apply H. now right. }
  now rewrite E.
Qed.
Lemma all_dirs d : existsb (dir_eqb d) [DIn; DRefin; DOut; DInout] = true.
Proof. now destruct d. Qed.

Lemma map_flat {A B C} (f : B -> C) (g : A -> list B) l : map f (flat_map g l) = flat_map (fun x => map f (g x)) l.
Proof. induction l; cbn; [reflexivity|]. now rewrite map_app, IHl. Qed.

Lemma ok_in m p : ok_method m -> In p (m_params m) -> ok_param p.
Proof. intros [H _] Hi. rewrite Forall_forall in H. auto. Qed.

Lemma type_of t : word t -> parse_type (show_type t) = Some (c_type t).
Proof.
  intros W. unfold parse_type. destruct (show_cases W) as [->|(Hs & b & Wb & -> & ->)]; [reflexivity|].
  facts Wb. comp. reflexivity.
Qed.

Lemma header_ok m : ok_method m ->
  parse_params (header_params m) = Some (signature m) /\ parse_type (header_result m) = Some (result m).
Proof.
  intros Hm. split.
  - unfold header_params, signature. destruct (m_params m) as [|p ps] eqn:E; [reflexivity|].
    cbn [Datatypes.length Nat.eqb]. rewrite app_nil_r. apply params_good. apply good_commas; [|discriminate].
    intros q Hq. apply good_header. apply (ok_in _ Hm). now rewrite E.
  - unfold header_result, result. destruct (m_ret m) as [t|] eqn:E; [|reflexivity].
    destruct (is_string t) eqn:Es; [apply String.eqb_eq in Es; subst; reflexivity|].
    apply type_of. apply (proj2 Hm). exact E.
Qed.
Lemma result_ok m : ok_method m -> parse_type (stub_result m) = Some (result m).
Proof.
  intros Hm. unfold stub_result, result. destruct (m_ret m) as [t|] eqn:E; [|reflexivity].
  apply type_of. apply (proj2 Hm). exact E.
Qed.
Lemma stub_ok m : ok_method m -> exists toks, stub_params m = Ok toks /\
  parse_params toks = Some (prefixed (signature m)) /\ parse_type (stub_result m) = Some (result m).
Proof.
  intros Hm. eexists. split; [apply show_list; intros; apply all_dirs|]. split; [|now apply result_ok].
  unfold prefixed, signature. rewrite map_flat. destruct (m_params m) as [|p ps] eqn:E; [reflexivity|].
  apply params_good. apply good_commas; [|discriminate].
  intros q Hq. apply good_input; [apply word_p|]. apply (ok_in _ Hm). now rewrite E.
Qed.
Lemma map_id_pair (l : list (ctype * string)) : map (fun v => (fst v, "" ++ snd v)%string) l = l.
Proof. induction l as [|[] l IH]; cbn; [reflexivity|]. cbn in IH. now rewrite IH. Qed.
Lemma extern_ok m : ok_method m -> exists toks, extern_params m = Ok toks /\
  parse_params toks = Some (signature m) /\ parse_type (extern_result m) = Some (result m).
Proof.
  intros Hm. unfold extern_params. rewrite show_list by (intros; apply all_dirs). cbn [bind].
  eexists. split; [reflexivity|]. split; [|now apply result_ok].
  unfold signature. destruct (m_params m) as [|p ps] eqn:E; [reflexivity|].
  cbn [Datatypes.length Nat.eqb]. rewrite app_nil_r. apply params_good. apply good_commas; [|discriminate].
  intros q Hq. rewrite <- (map_id_pair (promised q)).
  assert (O : ok_param q) by (apply (ok_in _ Hm); now rewrite E).
  apply good_input; [apply (proj2 O)|exact O].
Qed.

(** ** The four functions *)
Definition head_of (n : string) : list (ctype * string) := [(CPtr (CBase "void"), "base"); (CBase n, "size")].
Definition in_value (p : param) : list (ctype * string) := map (fun v => (fst v, "p_" ++ snd v)%string) (promised p).

Lemma in_inputs m p : In p (inputs m) -> In p (m_params m) /\ existsb (dir_eqb (p_dir p)) [DIn; DRefin; DInout] = true.
Proof. unfold inputs. rewrite filter_In. intros [H1 H2]. split; [exact H1|]. revert H2. unfold is_input. now destruct (p_dir p). Qed.
Lemma in_outputs m p : In p (outputs m) -> In p (m_params m) /\ existsb (dir_eqb (p_dir p)) [DOut; DInout] = true.
Proof. unfold outputs. rewrite filter_In. intros [H1 H2]. split; [exact H1|]. revert H2. unfold is_output. now destruct (p_dir p). Qed.

Lemma marshal_inputs_ok m : ok_method m -> exists toks, marshal_inputs_params m = Ok toks /\
  parse_params toks = Some (head_of "size_t" ++ flat_map in_value (inputs m)).
Proof.
  intros Hm. unfold marshal_inputs_params. rewrite show_list by (intros p Hp; apply (in_inputs _ _ Hp)). cbn [bind].
  eexists. split; [reflexivity|]. apply params_good.
  apply (@good_list param _ parse_decl ["void"; "*"; "base"; ","; "size_t"; "size"] (head_of "size_t")).
  - reflexivity.
  - intros p Hp. apply good_input; [apply word_p|]. apply (ok_in _ Hm). apply (in_inputs _ _ Hp).
Qed.
Lemma unmarshal_inputs_ok m : ok_method m ->
  parse_params (unmarshal_inputs_params m) = Some (head_of "unsigned" ++ flat_map by_ref (inputs m)).
Proof.
  intros Hm. apply params_good. unfold unmarshal_inputs_params, show_output_parameter_list.
  apply (@good_list param _ parse_decl ["void"; "*"; "base"; ","; "unsigned"; "size"] (head_of "unsigned")).
  - reflexivity.
  - intros p Hp. apply good_output. apply (ok_in _ Hm). apply (in_inputs _ _ Hp).
Qed.
Definition ret_value (m : method) : list (ctype * string) :=
  match m_ret m with Some t => [(CPtr (c_type t), "return_value")] | None => [] end.
Definition ret_var (m : method) : list (ctype * string) :=
  match m_ret m with
  | Some t => [(CPtr (if String.eqb t "string" then c_type t else CConst (c_type t)), "return_var")]
  | None => [] end.
Lemma unmarshal_outputs_ok m : ok_method m ->
  parse_params (unmarshal_outputs_params m) = Some (head_of "unsigned" ++ ret_value m ++ flat_map by_ref (outputs m)).
Proof.
  intros Hm. apply params_good. unfold unmarshal_outputs_params, show_output_parameter_list, ret_value.
  assert (G : forall p, In p (outputs m) -> good parse_decl (show_output_parameter "p_" p) (by_ref p)).
  { intros p Hp. apply good_output. apply (ok_in _ Hm). apply (in_outputs _ _ Hp). }
  destruct (m_ret m) as [t|] eqn:E.
  - rewrite !app_assoc.
    rewrite <- (app_assoc _ (comma_if (some (outputs m)))).
    apply good_list; [|exact G].
    pose proof (proj2 Hm _ E) as W. unfold good.
    destruct (show_cases W) as [->|(Hs & b & Wb & -> & ->)]; [reflexivity|]. facts Wb. unfold comma_if. comp. reflexivity.
  - apply (@good_list param _ parse_decl ["void"; "*"; "base"; ","; "unsigned"; "size"] (head_of "unsigned")); [reflexivity|exact G].
Qed.
Lemma marshal_outputs_ok m : ok_method m -> exists toks, marshal_outputs_params m = Ok toks /\
  parse_params toks = Some (head_of "unsigned" ++ ret_var m ++ flat_map in_value (outputs m)).
Proof.
  intros Hm. unfold marshal_outputs_params. rewrite show_list by (intros p Hp; apply (in_outputs _ _ Hp)). cbn [bind].
  eexists. split; [reflexivity|]. apply params_good.
  assert (G : forall p, In p (outputs m) -> good parse_decl (show_input_parameter "p_" p) (in_value p)).
  { intros p Hp. apply good_input; [apply word_p|]. apply (ok_in _ Hm). apply (in_outputs _ _ Hp). }
  unfold ret_var. rewrite !app_assoc.
  rewrite <- (app_assoc _ (comma_if (some (outputs m)))). apply good_list; [|exact G].
  destruct (m_ret m) as [t|] eqn:E; [|reflexivity].
  pose proof (proj2 Hm _ E) as W. unfold good, is_string.
  destruct (show_cases W) as [->|(Hs & b & Wb & -> & ->)]; [reflexivity|]. facts Wb. rewrite Hs. comp. reflexivity.
Qed.
