(** Proofs about the C functions of methods: variables, calls and macros *)
From Coq Require Import List String Ascii Bool Lia.
From Verif Require Import Prelude Sig_Model Sig_Spec Sig_Proofs.
Import ListNotations.
Open Scope string_scope. Open Scope list_scope.
Set Implicit Arguments.

Lemma by_ref_spec p : by_ref p = prefixed (referenced p).
Proof. unfold by_ref, prefixed, referenced. destruct (p_array p); reflexivity. Qed.
Lemma in_value_spec p : in_value p = prefixed (promised p).
Proof. reflexivity. Qed.
Lemma prefixed_flat {A} (f : A -> list (ctype * string)) l : prefixed (flat_map f l) = flat_map (fun p => prefixed (f p)) l.
Proof. apply map_flat. Qed.

Lemma sub_filter {A} (P : A -> Prop) (f : A -> bool) l : (forall x, f x = true <-> P x) -> sub P l (filter f l).
Proof.
  intros H. induction l as [|x l IH]; cbn; [constructor|].
  destruct (f x) eqn:E; constructor; try exact IH; rewrite <- H; congruence.
Qed.
Lemma sub_unique {A} (P : A -> Prop) l a b : sub P l a -> sub P l b -> a = b.
Proof. intros H; revert b; induction H; intros b Hb; inversion Hb; subst; try tauto; f_equal; auto. Qed.
Lemma inputs_sub m : sub sent (m_params m) (inputs m).
Proof. apply sub_filter. intros p. unfold is_input, sent. destruct (p_dir p); cbn; split; congruence. Qed.
Lemma outputs_sub m : sub returned (m_params m) (outputs m).
Proof. apply sub_filter. intros p. unfold is_output, returned. destruct (p_dir p); cbn; intuition congruence. Qed.

Lemma functions_ok m ins outs : ok_method m -> sub sent (m_params m) ins -> sub returned (m_params m) outs ->
  (exists toks, marshal_inputs_params m = Ok toks /\
     parse_params toks = Some (buffer_of "size_t" ++ prefixed (flat_map promised ins))) /\
  parse_params (unmarshal_inputs_params m) = Some (buffer_of "unsigned" ++ prefixed (flat_map referenced ins)) /\
  (exists toks, marshal_outputs_params m = Ok toks /\
     parse_params toks = Some (buffer_of "unsigned" ++
       match m_ret m with
       | Some t => [(CPtr (if String.eqb t "string" then c_type t else CConst (c_type t)), "return_var")]
       | None => []
       end ++ prefixed (flat_map promised outs))) /\
  parse_params (unmarshal_outputs_params m) = Some (buffer_of "unsigned" ++
    match m_ret m with Some t => [(CPtr (c_type t), "return_value")] | None => [] end ++
    prefixed (flat_map referenced outs)).
Proof.
  intros Hm Hi Ho. rewrite (sub_unique Hi (inputs_sub m)), (sub_unique Ho (outputs_sub m)). rewrite !prefixed_flat.
  assert (R : forall l, flat_map (fun p => prefixed (referenced p)) l = flat_map by_ref l)
    by (intros l; apply flat_map_ext; intros; now rewrite by_ref_spec).
  rewrite !R. repeat split.
  - exact (marshal_inputs_ok Hm).
  - exact (unmarshal_inputs_ok Hm).
  - exact (marshal_outputs_ok Hm).
  - exact (unmarshal_outputs_ok Hm).
Qed.

(** ** Macros *)
Lemma acc_same E e t : has E e t -> accepts E e t.
Proof. intros H. exists t. split; [exact H|now left]. Qed.
Lemma acc_const E e t : has E e (CPtr t) -> accepts E e (CPtr (CConst t)).
Proof. intros H. exists (CPtr t). split; [exact H|right; eauto]. Qed.
Ltac look := cbn [In]; tauto.
Ltac typed := match goal with
  | |- has _ (Var _) _ => apply has_var; look
  | |- has _ (Addr _) _ => apply has_addr; look
  | |- has _ (Deref _) _ => apply has_deref; typed
  | |- has _ Null _ => apply has_null
  end.
Ltac acc := first [ apply acc_same; typed | apply acc_const; typed ].

Lemma marshal_input_ok p : ok_param p -> p_dir p <> DOut ->
  exists E, declare (prefixed (promised p)) (marshal_input_locals p) E /\
    takes E (marshal_input_call p) (c_type (p_type p)) /\
    mc_macro (marshal_input_call p) = macro_of (p_array p) (p_type p).
Proof.
  intros [Wt _] _. destruct p as [d ar ty nm]. cbn in Wt.
  unfold marshal_input_locals, marshal_input_call, takes, macro_of, promised, prefixed, is_string.
  cbn [p_dir p_array p_type p_name].
  pose proof (word_p (nm ++ "_ptr_sz")) as W1. pose proof (word_p (nm ++ "_ptr_arr")) as W2.
  pose proof (word_p (nm ++ "_ptr_str")) as W3. pose proof (word_p (nm ++ "_ptr")) as W4.
  facts W1. facts W2. facts W3. facts W4.
  change (("p_" ++ nm) ++ "_sz")%string with ("p_" ++ nm ++ "_sz")%string.
  revert dependent nm. intros nm.
  generalize ("p_" ++ nm ++ "_ptr_sz")%string ("p_" ++ nm ++ "_ptr_arr")%string ("p_" ++ nm ++ "_ptr_str")%string
    ("p_" ++ nm ++ "_ptr")%string. intros.
  destruct (show_cases Wt) as [->|(Hs & b & Wb & -> & ->)]; [|facts Wb; rewrite Hs].
  - change (String.eqb "string" "string") with true. cbv iota. change (c_type "string") with (CPtr (CBase "char")).
    destruct d, ar; cbn [dir_eqb map fst snd mc_macro mc_args]; eexists;
      (split; [repeat (eapply declare_cons; [comp; reflexivity|intros ? [= <-]; acc|]); apply declare_nil|]);
      repeat split; acc.
  - destruct d, ar; cbn [dir_eqb map fst snd mc_macro mc_args]; eexists;
      (split; [repeat (eapply declare_cons; [comp; reflexivity|intros ? [= <-]; acc|]); apply declare_nil|]);
      repeat split; acc.
Qed.
Lemma unmarshal_ok p : ok_param p ->
  sets (prefixed (referenced p)) (unmarshal_call p) (c_type (p_type p)) /\
  mc_macro (unmarshal_call p) = macro_of (p_array p) (p_type p).
Proof.
  intros [Wt _]. destruct p as [d ar ty nm]. cbn in Wt.
  unfold unmarshal_call, sets, macro_of, referenced, prefixed, is_string.
  cbn [p_dir p_array p_type p_name].
  destruct (show_cases Wt) as [->|(Hs & b & Wb & _ & ->)]; [|rewrite Hs].
  - change (String.eqb "string" "string") with true. cbv iota. change (c_type "string") with (CPtr (CBase "char")).
    destruct ar; cbn [map fst snd mc_macro mc_args]; repeat split; typed.
  - destruct ar; cbn [map fst snd mc_macro mc_args]; repeat split; typed.
Qed.
Lemma marshal_output_ok p : ok_param p -> returned p ->
  takes (prefixed (promised p)) (marshal_output_call p) (c_type (p_type p)) /\
  mc_macro (marshal_output_call p) = macro_of (p_array p) (p_type p).
Proof.
  intros [Wt _] Hr. destruct p as [d ar ty nm]. cbn in Wt. unfold returned in Hr. cbn in Hr.
  unfold marshal_output_call, takes, macro_of, promised, prefixed, is_string.
  cbn [p_dir p_array p_type p_name].
  destruct (show_cases Wt) as [->|(Hs & b & Wb & _ & ->)]; [|rewrite Hs].
  - change (String.eqb "string" "string") with true. cbv iota. change (c_type "string") with (CPtr (CBase "char")).
    destruct Hr as [-> | ->], ar; cbn [map fst snd mc_macro mc_args]; repeat split; acc.
  - destruct Hr as [-> | ->], ar; cbn [map fst snd mc_macro mc_args]; repeat split; acc.
Qed.
Lemma result_macros t : word t ->
  sets [(CPtr (c_type t), "return_value")] (unmarshal_result_call t) (c_type t) /\
  takes [(CPtr (if String.eqb t "string" then c_type t else CConst (c_type t)), "return_var")]
    (marshal_result_call t) (c_type t) /\
  mc_macro (unmarshal_result_call t) = macro_of false t /\ mc_macro (marshal_result_call t) = macro_of false t.
Proof.
  intros W. unfold unmarshal_result_call, marshal_result_call, sets, takes, macro_of, is_string.
  destruct (show_cases W) as [->|(Hs & b & Wb & _ & ->)]; [|rewrite Hs].
  - change (String.eqb "string" "string") with true. cbv iota. change (c_type "string") with (CPtr (CBase "char")).
    cbn [mc_macro mc_args]. repeat split; first [acc|typed].
  - cbn [mc_macro mc_args]. repeat split; first [acc|typed].
Qed.

(** ** Calls *)
Lemma has_incl E E' e t : incl E E' -> has E e t -> has E' e t.
Proof. intros H h. induction h; constructor; auto. Qed.
Lemma acc_incl E E' e t : incl E E' -> accepts E e t -> accepts E' e t.
Proof. intros H (s & h & a). exists s. split; [eapply has_incl; eauto|exact a]. Qed.
Lemma decl_incl E ls E' : declare E ls E' -> incl E E'.
Proof. induction 1; [apply incl_refl|]. intros v Hv. apply IHdeclare. now right. Qed.
Lemma decl_app E ls E' ls' E'' : declare E ls E' -> declare E' ls' E'' -> declare E (ls ++ ls') E''.
Proof. induction 1; intros H'; cbn; [exact H'|]. econstructor; eauto. Qed.
Lemma decl_mono E ls E' : declare E ls E' -> forall E1, incl E E1 -> exists E1', declare E1 ls E1' /\ incl E' E1' /\ incl E1 E1'.
Proof.
  induction 1 as [E|E toks init t x ls E' Hp Hi Hd IH]; intros E1 H1.
  - exists E1. split; [constructor|]. split; [exact H1|apply incl_refl].
  - destruct (IH ((t, x) :: E1)) as (E1' & Hd' & I1 & I2).
    { intros v [<-|Hv]; [now left|right; auto]. }
    exists E1'. split; [|split; [exact I1|intros v Hv; apply I2; now right]].
    econstructor; [exact Hp| |exact Hd']. intros e He. eapply acc_incl; [exact H1|auto].
Qed.

Lemma F2_app {A B} (R : A -> B -> Prop) a b c d : Forall2 R a b -> Forall2 R c d -> Forall2 R (a ++ c) (b ++ d).
Proof. induction 1; cbn; auto. Qed.
Lemma F2_flat {A B C} (R : B -> C -> Prop) (f : A -> list B) (g : A -> list C) l :
  (forall x, In x l -> Forall2 R (f x) (g x)) -> Forall2 R (flat_map f l) (flat_map g l).
Proof.
  induction l as [|x l IH]; intros H; cbn; [constructor|]. apply F2_app; [apply H; now left|].
  apply IH. intros y Hy. apply H. now right.
Qed.

(** the arguments for one parameter *)
Definition own (p : param) : tokens :=
  (if p_array p then ["p_" ++ p_name p ++ "_sz"; ","]%string else []) ++ ["p_" ++ p_name p]%string.
Definition ptrs (p : param) : tokens :=
  (if p_array p then ["p_" ++ p_name p ++ "_sz_ptr"; ","]%string else []) ++ ["p_" ++ p_name p ++ "_ptr"]%string.
Lemma good_own p l : map snd l = map snd (referenced p) ->
  good parse_expr (own p) (map (fun v => Var (snd v)) (prefixed l)).
Proof.
  intros H. unfold prefixed. rewrite map_map. cbn [snd].
  assert (H' : map (fun x : ctype * string => Var ("p_" ++ snd x)) l = map (fun x => Var ("p_" ++ x)%string) (map snd l))
    by now rewrite map_map.
  rewrite H', H. clear H H'. unfold own, referenced, good.
  pose proof (word_p (p_name p ++ "_sz")) as W1. pose proof (word_p (p_name p)) as W2. facts W1. facts W2.
  destruct (p_array p); cbn [map snd];
    revert dependent p; intros p; generalize ("p_" ++ p_name p)%string ("p_" ++ p_name p ++ "_sz")%string; intros;
    comp; reflexivity.
Qed.
Lemma str_assoc a b c : ((a ++ b) ++ c = a ++ b ++ c)%string.
Proof. induction a; cbn; [reflexivity|now rewrite IHa]. Qed.
Lemma good_ptrs p l : map snd l = map snd (referenced p) ->
  good parse_expr (ptrs p) (map (fun v => Var (snd v ++ "_ptr")) (prefixed l)).
Proof.
  intros H. unfold prefixed. rewrite map_map. cbn [snd].
  assert (H' : map (fun x : ctype * string => Var (("p_" ++ snd x) ++ "_ptr")) l = map (fun x => Var ("p_" ++ x ++ "_ptr")%string) (map snd l))
    by (rewrite map_map; apply map_ext; intros; now rewrite str_assoc).
  rewrite H', H. clear H H'. unfold ptrs, referenced, good.
  pose proof (word_p (p_name p ++ "_sz_ptr")) as W1. pose proof (word_p (p_name p ++ "_ptr")) as W2. facts W1. facts W2.
  destruct (p_array p); cbn [map snd].
  - rewrite !str_assoc.
    change ("_sz" ++ "_ptr")%string with "_sz_ptr".
    revert dependent p; intros p; generalize ("p_" ++ p_name p ++ "_ptr")%string ("p_" ++ p_name p ++ "_sz_ptr")%string; intros;
    comp; reflexivity.
  - revert dependent p; intros p; generalize ("p_" ++ p_name p ++ "_ptr")%string; intros; comp; reflexivity.
Qed.
Lemma snd_promised p : map snd (promised p) = map snd (referenced p).
Proof. unfold promised, referenced. destruct (p_dir p), (p_array p); reflexivity. Qed.
Lemma good_head buffer size : word buffer -> word size -> good parse_expr [buffer; ","; size] [Var buffer; Var size].
Proof. intros W1 W2. facts W1. facts W2. unfold good. comp. reflexivity. Qed.
Lemma good_headr buffer size r : word buffer -> word size -> word r ->
  good parse_expr [buffer; ","; size; ","; r] [Var buffer; Var size; Var r].
Proof. intros W1 W2 W3. facts W1. facts W2. facts W3. unfold good. comp. reflexivity. Qed.

(** *** The caller *)
Definition client_vars (m : method) : list (ctype * string) :=
  match m_ret m with
  | Some t => [(CPtr (c_type t), "return_ptr"); (c_type t, "return_val")]
  | None => []
  end ++ (CBase "unsigned", "size") :: prefixed (signature m).
Lemma decl_type t x : word t -> word x -> parse_decl (show_type t ++ [x]) = Some (c_type t, x).
Proof.
  intros W Wx. facts Wx. destruct (show_cases W) as [->|(Hs & b & Wb & -> & ->)]; [|facts Wb]; comp; reflexivity.
Qed.
Lemma decl_ptr t x : word t -> word x -> parse_decl (show_type t ++ ["*"; x]) = Some (CPtr (c_type t), x).
Proof.
  intros W Wx. facts Wx. destruct (show_cases W) as [->|(Hs & b & Wb & -> & ->)]; [|facts Wb]; comp; reflexivity.
Qed.
Lemma stub_locals_ok m : ok_method m -> declare (prefixed (signature m)) (stub_locals m) (client_vars m).
Proof.
  intros Hm. unfold stub_locals, client_vars. apply declare_cons with (CBase "unsigned") "size"; [reflexivity|discriminate|].
  destruct (m_ret m) as [t|] eqn:E; [|apply declare_nil]. pose proof (proj2 Hm _ E) as W.
  eapply declare_cons; [apply decl_type; [exact W|repeat split; discriminate]|discriminate|].
  eapply declare_cons; [apply decl_ptr; [exact W|repeat split; discriminate]| |apply declare_nil].
  intros e [= <-]. acc.
Qed.
Lemma in_vars m p v : In p (m_params m) -> In v (prefixed (promised p)) -> In v (client_vars m).
Proof.
  intros Hp Hv. unfold client_vars. apply in_or_app. right. right. unfold signature. rewrite prefixed_flat.
  apply in_flat_map. eauto.
Qed.
Lemma F2_vars (E : list (ctype * string)) l : (forall v, In v l -> In v E) ->
  Forall2 (accepts E) (map (fun v => Var (snd v)) l) (map fst l).
Proof.
  induction l as [|[t x] l IH]; intros H; cbn [map fst snd]; constructor.
  - apply acc_same. apply has_var. apply H. now left.
  - apply IH. intros v Hv. apply H. now right.
Qed.
Lemma call_marshal_input_ok m buffer size : ok_method m -> word buffer -> word size ->
  exists toks, marshal_inputs_params m = Ok toks /\
    good_call (client_vars m) toks (call_marshal_input buffer size m) buffer size [] (fun x => x).
Proof.
  intros Hm Wb Ws. destruct (marshal_inputs_ok Hm) as (toks & E & Hp). exists toks. split; [exact E|].
  exists "size_t", [], (flat_map in_value (inputs m)). split; [exact Hp|]. split; [now left|]. split; [reflexivity|].
  split.
  - apply args_good; [discriminate|]. unfold call_marshal_input.
    change (Var buffer :: Var size :: map Var [] ++ map (fun v => Var (snd v)) (flat_map in_value (inputs m)))
      with ([Var buffer; Var size] ++ map (fun v : ctype * string => Var (snd v)) (flat_map in_value (inputs m))).
    rewrite map_flat. apply (@good_flat param _ parse_expr [buffer; ","; size] _ own); [now apply good_head|].
    intros p Hi. apply good_own. apply snd_promised.
  - cbn [map app]. apply F2_vars. intros v Hv. apply in_flat_map in Hv. destruct Hv as (p & Hi & Hv).
    apply (@in_vars m p); [apply (in_inputs _ _ Hi)|exact Hv].
Qed.
(** For parameters that come back, what the interface promises is what is set. *)
Lemma returned_same p : existsb (dir_eqb (p_dir p)) [DOut; DInout] = true -> promised p = referenced p.
Proof.
  unfold promised, referenced, c_type. destruct (p_dir p); try discriminate; intros _;
    destruct (p_array p), (String.eqb (p_type p) "string"); reflexivity.
Qed.
Lemma call_unmarshal_output_ok m buffer : ok_method m -> word buffer ->
  good_call (client_vars m) (unmarshal_outputs_params m) (call_unmarshal_output buffer m) buffer "size"
    (ret_name m "return_ptr") (fun x => x).
Proof.
  intros Hm Wb. exists "unsigned", (ret_value m), (flat_map by_ref (outputs m)).
  split; [exact (unmarshal_outputs_ok Hm)|]. split; [now right|].
  assert (Wz : word "size") by (repeat split; discriminate).
  assert (Wr : word "return_ptr") by (repeat split; discriminate).
  split; [unfold ret_value, ret_name; now destruct (m_ret m)|].
  split.
  - apply args_good; [discriminate|]. unfold call_unmarshal_output.
    rewrite map_flat, app_assoc.
    change (Var buffer :: Var "size" :: map Var (ret_name m "return_ptr") ++
       flat_map (fun x => map (fun v : ctype * string => Var (snd v)) (by_ref x)) (outputs m))
      with ((Var buffer :: Var "size" :: map Var (ret_name m "return_ptr")) ++
       flat_map (fun x => map (fun v : ctype * string => Var (snd v)) (by_ref x)) (outputs m)).
    apply (@good_flat param _ parse_expr _ _ own).
    + unfold ret_name. destruct (m_ret m); [apply good_headr|apply good_head]; assumption.
    + intros p Hi. rewrite by_ref_spec. now apply good_own.
  - rewrite map_app. apply F2_app.
    + unfold ret_name, ret_value, client_vars. destruct (m_ret m); cbn [map fst]; constructor; [|constructor].
      apply acc_same. apply has_var. now left.
    + apply F2_vars. intros v Hv. apply in_flat_map in Hv. destruct Hv as (p & Hi & Hv).
      destruct (in_outputs _ _ Hi) as [Hin Hd].
      apply (@in_vars m p); [exact Hin|]. rewrite (returned_same _ Hd), <- by_ref_spec. exact Hv.
Qed.
Lemma stub_return_ok m e : stub_return m = Some e -> has (client_vars m) e (result m).
Proof.
  unfold stub_return, client_vars, result. destruct (m_ret m); [|discriminate]. intros [= <-].
  apply has_deref, has_var. now left.
Qed.
Lemma stub_return_iff m : stub_return m = None <-> m_ret m = None.
Proof. unfold stub_return. destruct (m_ret m); split; congruence. Qed.

(** *** The server *)
Definition server_vars_of (p : param) : list (ctype * string) :=
  let v := ("p_" ++ p_name p)%string in
  let T := c_type (p_type p) in
  if p_array p then [(CPtr (CPtr T), v ++ "_ptr"); (CPtr T, v); (CPtr (CBase "size_t"), v ++ "_sz_ptr"); (CBase "size_t", v ++ "_sz")]%string
  else [(CPtr T, v ++ "_ptr"); (T, v)]%string.
Definition server_vars (ps : list param) : list (ctype * string) := flat_map server_vars_of (rev ps).
Lemma server_locals_ok E p : ok_param p -> declare E (server_locals p) (server_vars_of p ++ E).
Proof.
  intros [Wt _]. destruct p as [d ar ty nm]. cbn in Wt. unfold server_locals, server_vars_of, is_string.
  cbn [p_array p_type p_name].
  pose proof (word_p nm) as W1. pose proof (word_p (nm ++ "_ptr")) as W2.
  pose proof (word_p (nm ++ "_sz")) as W3. pose proof (word_p (nm ++ "_sz_ptr")) as W4.
  rewrite !str_assoc. facts W1. facts W2. facts W3. facts W4.
  revert dependent nm. intros nm.
  generalize ("p_" ++ nm ++ "_ptr")%string ("p_" ++ nm ++ "_sz_ptr")%string ("p_" ++ nm ++ "_sz")%string ("p_" ++ nm)%string. intros.
  destruct (show_cases Wt) as [->|(Hs & b & Wb & -> & ->)]; [|facts Wb; rewrite Hs].
  - change (String.eqb "string" "string") with true. cbv iota. change (c_type "string") with (CPtr (CBase "char")).
    destruct ar; cbn [app];
      repeat (eapply declare_cons; [comp; reflexivity|first [discriminate | intros ? [= <-]; acc]|]); apply declare_nil.
  - destruct ar; cbn [app];
      repeat (eapply declare_cons; [comp; reflexivity|first [discriminate | intros ? [= <-]; acc]|]); apply declare_nil.
Qed.
Lemma servers_locals_ok ps : Forall ok_param ps -> forall E, declare E (flat_map server_locals ps) (server_vars ps ++ E).
Proof.
  unfold server_vars. induction 1 as [|p ps Hp _ IH]; intros E; cbn [flat_map rev app]; [constructor|].
  eapply decl_app; [apply server_locals_ok; exact Hp|].
  rewrite flat_map_app. cbn [flat_map]. rewrite app_nil_r, <- app_assoc. apply IH.
Qed.
Definition result_vars (name : string) (m : method) : list (ctype * string) :=
  match m_ret m with
  | Some t => [(CPtr (c_type t), name ++ "_ret_ptr"); (c_type t, name ++ "_ret")]%string
  | None => []
  end.
Lemma server_result_ok E name m : ok_method m -> declare E (server_result_locals name m) (result_vars name m ++ E).
Proof.
  intros Hm. unfold server_result_locals, result_vars. destruct (m_ret m) as [t|] eqn:R; [|constructor].
  pose proof (proj2 Hm _ R) as W. pose proof (word_ret name) as W1. pose proof (word_ret_ptr name) as W2.
  unfold is_string. destruct (String.eqb t "string") eqn:Es.
  - apply String.eqb_eq in Es. subst t. facts W1. facts W2. change (c_type "string") with (CPtr (CBase "char")).
    revert dependent name. intros name.
    generalize (name ++ "_ret_ptr")%string (name ++ "_ret")%string. intros. cbn [app].
    repeat (eapply declare_cons; [comp; reflexivity|first [discriminate | intros ? [= <-]; acc]|]); apply declare_nil.
  - cbn [app]. eapply declare_cons; [apply decl_type; assumption|discriminate|].
    eapply declare_cons; [apply decl_ptr; assumption| |apply declare_nil]. intros e [= <-]. acc.
Qed.
Definition all_vars (name : string) (m : method) : list (ctype * string) :=
  result_vars name m ++ server_vars (m_params m) ++ [(CBase "unsigned", "size")].
Lemma all_locals_ok name m : ok_method m ->
  declare [(CBase "unsigned", "size")] (flat_map server_locals (m_params m) ++ server_result_locals name m) (all_vars name m).
Proof.
  intros Hm. eapply decl_app; [apply servers_locals_ok; apply Hm|]. now apply server_result_ok.
Qed.
Lemma in_server name m p v : In p (m_params m) -> In v (server_vars_of p) -> In v (all_vars name m).
Proof.
  intros Hp Hv. unfold all_vars. apply in_or_app. right. apply in_or_app. left. unfold server_vars.
  apply in_flat_map. exists p. split; [now apply -> in_rev|exact Hv].
Qed.
Lemma in_all_ref name m p v : In p (m_params m) -> In v (prefixed (referenced p)) ->
  In (fst v, (snd v ++ "_ptr")%string) (all_vars name m).
Proof.
  intros Hp Hv. apply (@in_server name m p); [exact Hp|]. unfold server_vars_of, referenced, prefixed in *.
  destruct (p_array p); cbn [map fst snd In] in *.
  - destruct Hv as [<-|[<-|[]]]; cbn [fst snd]; rewrite ?str_assoc; cbn [String.append]; tauto.
  - destruct Hv as [<-|[]]; cbn [fst snd]; tauto.
Qed.
Lemma F2_ptrs (E l : list (ctype * string)) : (forall v, In v l -> In (fst v, (snd v ++ "_ptr")%string) E) ->
  Forall2 (accepts E) (map (fun v => Var (snd v ++ "_ptr")) l) (map fst l).
Proof.
  induction l as [|[t x] l IH]; intros H; cbn [map fst snd]; constructor.
  - apply acc_same. apply has_var. apply (H (t, x)). now left.
  - apply IH. intros v Hv. apply H. now right.
Qed.
Lemma call_unmarshal_input_ok name m buffer : ok_method m -> word buffer ->
  good_call (all_vars name m) (unmarshal_inputs_params m) (call_unmarshal_input buffer m) buffer "size" []
    (fun x => x ++ "_ptr")%string.
Proof.
  intros Hm Wb. exists "unsigned", [], (flat_map by_ref (inputs m)).
  split; [exact (unmarshal_inputs_ok Hm)|]. split; [now right|]. split; [reflexivity|].
  assert (Wz : word "size") by (repeat split; discriminate).
  split.
  - apply args_good; [discriminate|]. unfold call_unmarshal_input.
    change (Var buffer :: Var "size" :: map Var [] ++ map (fun v => Var (snd v ++ "_ptr")) (flat_map by_ref (inputs m)))
      with ([Var buffer; Var "size"] ++ map (fun v : ctype * string => Var (snd v ++ "_ptr")) (flat_map by_ref (inputs m))).
    rewrite map_flat. apply (@good_flat param _ parse_expr [buffer; ","; "size"] _ ptrs); [now apply good_head|].
    intros p Hi. rewrite by_ref_spec. now apply good_ptrs.
  - cbn [map app]. apply F2_ptrs. intros v Hv. apply in_flat_map in Hv. destruct Hv as (p & Hi & Hv).
    rewrite by_ref_spec in Hv. apply (@in_all_ref name m p); [apply (in_inputs _ _ Hi)|exact Hv].
Qed.
Lemma call_marshal_output_ok name m buffer size : ok_method m -> word buffer -> word size ->
  exists toks, marshal_outputs_params m = Ok toks /\
    good_call (all_vars name m) toks (call_marshal_output buffer size name m) buffer size
      (ret_name m (name ++ "_ret_ptr")%string) (fun x => x ++ "_ptr")%string.
Proof.
  intros Hm Wb Ws. destruct (marshal_outputs_ok Hm) as (toks & E & Hp). exists toks. split; [exact E|].
  exists "unsigned", (ret_var m), (flat_map in_value (outputs m)).
  split; [exact Hp|]. split; [now right|].
  split; [unfold ret_var, ret_name; now destruct (m_ret m)|].
  split.
  - apply args_good; [discriminate|]. unfold call_marshal_output.
    rewrite map_flat, app_assoc.
    change (Var buffer :: Var size :: map Var (ret_name m (name ++ "_ret_ptr")) ++
       flat_map (fun x => map (fun v : ctype * string => Var (snd v ++ "_ptr")) (in_value x)) (outputs m))
      with ((Var buffer :: Var size :: map Var (ret_name m (name ++ "_ret_ptr"))) ++
       flat_map (fun x => map (fun v : ctype * string => Var (snd v ++ "_ptr")) (in_value x)) (outputs m)).
    apply (@good_flat param _ parse_expr _ _ ptrs).
    + pose proof (word_ret_ptr name). unfold ret_name. destruct (m_ret m); [apply good_headr|apply good_head]; assumption.
    + intros p Hi. apply good_ptrs. apply snd_promised.
  - rewrite map_app. apply F2_app.
    + unfold ret_name, ret_var, all_vars, result_vars. destruct (m_ret m) as [t|]; cbn [map fst]; constructor; [|constructor].
      destruct (String.eqb t "string"); [apply acc_same|apply acc_const]; apply has_var; now left.
    + apply F2_ptrs. intros v Hv. apply in_flat_map in Hv. destruct Hv as (p & Hi & Hv).
      destruct (in_outputs _ _ Hi) as [Hin Hd]. unfold in_value in Hv.
      rewrite (returned_same _ Hd) in Hv. apply (@in_all_ref name m p); assumption.
Qed.
Lemma given_typed name m p : In p (m_params m) -> Forall2 (accepts (all_vars name m)) (given p) (map fst (promised p)).
Proof.
  intros Hp. pose proof (fun v => @in_server name m p v Hp) as H. unfold server_vars_of in H.
  unfold given, promised, c_type in *.
  assert (S : forall x y, (("p_" ++ x) ++ y = "p_" ++ x ++ y)%string) by (intros; apply str_assoc).
  destruct (p_array p); cbn [In] in H; rewrite !S in H;
  destruct (p_dir p); destruct (String.eqb (p_type p) "string") eqn:Es; cbn [map fst snd];
    rewrite ?str_assoc; cbn [String.append]; 
    repeat constructor;
    first [ apply acc_same; first [apply has_deref|idtac]; apply has_var; apply H; tauto
          | apply acc_const; first [apply has_deref|idtac]; apply has_var; apply H; tauto ].
Qed.
Lemma call_implementation_ok name m : ok_method m ->
  parse_args (call_implementation m) = Some (flat_map given (m_params m)) /\
  Forall2 (accepts (all_vars name m)) (flat_map given (m_params m)) (map fst (signature m)).
Proof.
  intros Hm. split.
  - unfold call_implementation. destruct (m_params m) as [|p ps]; [reflexivity|].
    apply args_good.
    + cbn [map]. destruct (p_array p), (dir_eqb (p_dir p) DIn), ps; discriminate.
    + apply good_commas; [|discriminate]. intros q _. unfold good, given, promised.
      pose proof (word_p (p_name q ++ "_sz_ptr")) as W1. pose proof (word_p (p_name q ++ "_ptr")) as W2. facts W1. facts W2.
      destruct (p_dir q), (p_array q); cbn [dir_eqb map snd]; rewrite ?str_assoc; 
        change ("_sz" ++ "_ptr")%string with "_sz_ptr";
        revert dependent q; intros q;
        generalize ("p_" ++ p_name q ++ "_ptr")%string ("p_" ++ p_name q ++ "_sz_ptr")%string; intros; comp; reflexivity.
  - unfold signature. rewrite map_flat. apply F2_flat. intros p Hp. now apply given_typed.
Qed.
Lemma store_ok name m e : store_result name m = Some e -> has (all_vars name m) e (result m).
Proof.
  unfold store_result, all_vars, result_vars, result. destruct (m_ret m); [|discriminate]. intros [= <-].
  apply has_deref, has_var. now left.
Qed.
Lemma store_iff name m : store_result name m = None <-> m_ret m = None.
Proof. unfold store_result. destruct (m_ret m); split; congruence. Qed.
Lemma refers_ok p : ok_param p -> refers p (server_locals p).
Proof.
  intros [Wt _] v Hv. destruct p as [d ar ty nm]. cbn in Wt.
  assert (Hs : In (snd v) (map snd (referenced (mk_param d ar ty nm)))).
  { rewrite <- snd_promised. now apply in_map. }
  destruct v as [tt x]. cbn [snd] in *. clear Hv. unfold referenced in Hs. cbn [p_array p_name p_type] in Hs.
  unfold server_locals, is_string. cbn [p_array p_name p_type].
  pose proof (word_p (nm ++ "_sz_ptr")) as W1. pose proof (word_p (nm ++ "_ptr")) as W2. facts W1. facts W2.
  rewrite !str_assoc.
  destruct (show_cases Wt) as [->|(Hst & b & Wb & -> & _)]; [|facts Wb; rewrite Hst];
    [change (String.eqb "string" "string") with true; cbv iota|];
    (destruct ar; cbn [map snd In app] in *;
     [destruct Hs as [<-|[<-|[]]]|destruct Hs as [<-|[]]]; rewrite ?str_assoc; change ("_sz" ++ "_ptr")%string with "_sz_ptr";
     eexists; eexists;
     (split; [first [right; left; reflexivity | right; right; right; left; reflexivity]|]);
     revert dependent nm; intros nm;
     generalize ("p_" ++ nm ++ "_ptr")%string ("p_" ++ nm ++ "_sz_ptr")%string; intros; comp; reflexivity).
Qed.
Lemma refers_result_server name m t : ok_method m -> m_ret m = Some t ->
  refers_result t (name ++ "_ret")%string (name ++ "_ret_ptr")%string (server_result_locals name m).
Proof.
  intros Hm R. pose proof (proj2 Hm _ R) as W. pose proof (word_ret name) as W1. pose proof (word_ret_ptr name) as W2.
  unfold refers_result, server_result_locals. rewrite R.
  destruct (is_string t) eqn:S.
  - unfold is_string in S. apply String.eqb_eq in S. subst t.
    eexists; eexists. split; [left; reflexivity|]. split; [exact (@decl_type "string" _ W W1)|].
    split; [right; left; reflexivity|]. exact (@decl_ptr "string" _ W W2).
  - eexists; eexists. split; [left; reflexivity|]. split; [apply decl_type; assumption|].
    split; [right; left; reflexivity|]. apply decl_ptr; assumption.
Qed.
Lemma refers_result_stub m t : ok_method m -> m_ret m = Some t ->
  refers_result t "return_val" "return_ptr" (stub_locals m).
Proof.
  intros Hm R. pose proof (proj2 Hm _ R) as W. unfold refers_result, stub_locals. rewrite R.
  eexists; eexists. split; [right; left; reflexivity|].
  split; [apply decl_type; [exact W|repeat split; discriminate]|].
  split; [right; right; left; reflexivity|]. apply decl_ptr; [exact W|repeat split; discriminate].
Qed.
Lemma refers_result_ok name m t : ok_method m -> m_ret m = Some t ->
  refers_result t (name ++ "_ret")%string (name ++ "_ret_ptr")%string (server_result_locals name m) /\
  refers_result t "return_val" "return_ptr" (stub_locals m).
Proof. intros Hm R. split; [now apply refers_result_server|now apply refers_result_stub]. Qed.
