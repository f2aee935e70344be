(** Proofs about GPIO queries and the files of queries. *)
From Coq Require Import List Bool String Ascii ZArith.
From Verif Require Import Prelude DtQuery_Model Gpio_Model Gpio_Spec.
Import ListNotations.
Open Scope string_scope.
Open Scope list_scope.

Lemma parse_value name argv : forall v rest, parse_known_args name argv = (v, rest) ->
  match v with Some f => last_given name argv f | None => not_given name argv end.
Proof.
induction argv as [|a argv IH]; simpl; intros v rest E.
- inversion E; subst. intros x H. exact H.
- destruct (parse_known_args name argv) as [v0 r0]. specialize (IH _ _ eq_refl).
  destruct a as [n x|s].
  + destruct (String.eqb_spec n name) as [->|N].
    * inversion E; subst. destruct v0 as [f|].
      -- destruct IH as (b & c & -> & H). exists (Opt name x :: b), c. auto.
      -- exists [], argv. auto.
    * inversion E; subst. destruct v as [f|].
      -- destruct IH as (b & c & -> & H). exists (Opt n x :: b), c. auto.
      -- intros y [H|H]; [congruence|exact (IH y H)].
  + inversion E; subst. destruct v as [f|].
    * destruct IH as (b & c & -> & H). exists (Other s :: b), c. auto.
    * intros y [H|H]; [congruence|exact (IH y H)].
Qed.

Lemma parse_rest name argv : snd (parse_known_args name argv) =
  filter (fun a => match a with Opt n _ => negb (String.eqb n name) | Other _ => true end) argv.
Proof.
induction argv as [|a argv IH]; simpl; auto.
destruct (parse_known_args name argv) as [v r]. simpl in IH. subst r.
destruct a as [n x|s]; auto. now destruct (String.eqb n name).
Qed.

Lemma in_rest name argv n x : n <> name ->
  (In (Opt n x) (snd (parse_known_args name argv)) <-> In (Opt n x) argv).
Proof.
intros N. rewrite parse_rest, filter_In.
destruct (String.eqb_spec n name); [easy|]. simpl. tauto.
Qed.

(** The value of an option does not depend on the other option having been taken out. *)
Lemma parse_indep n name argv : n <> name ->
  fst (parse_known_args n (snd (parse_known_args name argv))) = fst (parse_known_args n argv).
Proof.
intros N. induction argv as [|a argv IH]; simpl; auto.
destruct (parse_known_args name argv) as [v r]. simpl in IH.
destruct a as [m x|s].
- destruct (String.eqb_spec m name) as [->|M].
  + simpl. rewrite IH. destruct (parse_known_args n argv) as [w q].
    destruct (String.eqb_spec name n); [congruence|]. reflexivity.
  + simpl. destruct (parse_known_args n r) as [w q], (parse_known_args n argv) as [w' q'].
    simpl in IH. subst w'. destruct (String.eqb m n); reflexivity.
- simpl. destruct (parse_known_args n r) as [w q], (parse_known_args n argv) as [w' q'].
  simpl in *. exact IH.
Qed.

Definition value name argv := fst (parse_known_args name argv).

Lemma last_unique name argv f : last_given name argv f -> value name argv = Some f.
Proof.
intros (b & c & -> & H). unfold value. induction b as [|a b IH]; simpl.
- destruct (parse_known_args name c) as [v r] eqn:E.
  rewrite String.eqb_refl. simpl. apply parse_value in E. destruct v as [g|]; auto.
  destruct E as (b' & c' & -> & _). exfalso. apply (H g). apply in_or_app. right. left. auto.
- destruct (parse_known_args name (b ++ Opt name f :: c)) as [v r]. simpl in IH. subst v.
  destruct a as [n x|s]; auto. destruct (String.eqb n name); auto.
Qed.
Lemma not_given_value name argv : not_given name argv -> value name argv = None.
Proof.
intros H. unfold value. destruct (parse_known_args name argv) as [v r] eqn:E.
apply parse_value in E. destruct v as [f|]; auto. destruct E as (b & c & -> & _).
exfalso. apply (H f). apply in_or_app. right. left. auto.
Qed.
Lemma value_last name argv f : value name argv = Some f -> last_given name argv f.
Proof.
unfold value. destruct (parse_known_args name argv) as [v r] eqn:E. simpl. intros ->.
exact (parse_value _ _ _ _ E).
Qed.

Section Q.
Variable ld : string -> option (qargs -> res (dict string dval)).
Variable ly : string -> option (option dval).

Lemma args_eq argv : parse_query_parser_args ld ly argv =
  (d <- check_dtb ld (value "dtb" argv) ;;
   g <- check_gpio ly (value "gpio-list" argv) ;;
   Ok ([("dtb", d); ("gpio", g)],
       snd (parse_known_args "gpio-list" (snd (parse_known_args "dtb" argv))))).
Proof.
unfold parse_query_parser_args, value.
rewrite <- (parse_indep "gpio-list" "dtb" argv) by discriminate.
destruct (parse_known_args "dtb" argv) as [o r]. simpl.
destruct (check_dtb ld o); simpl; auto.
destruct (parse_known_args "gpio-list" r) as [o' r']. reflexivity.
Qed.

Lemma command_line_lemma argv qs rest :
  parse_query_parser_args ld ly argv = Ok (qs, rest) -> unrecognised argv rest.
Proof.
rewrite args_eq. destruct (check_dtb _ _); simpl; [|easy]. destruct (check_gpio _ _); simpl; [|easy].
intros E. injection E as _ <-. rewrite !parse_rest. clear.
induction argv as [|a argv IH]; simpl; [constructor|].
destruct a as [n x|s]; simpl; [|constructor; auto].
destruct (String.eqb_spec n "dtb") as [->|N]; simpl; [constructor; auto|].
destruct (String.eqb_spec n "gpio-list") as [->|M]; simpl; constructor; auto.
Qed.

Lemma follow_iff v ks w : foldM index ks v = Ok w <-> follow v ks w.
Proof.
split.
- revert v. induction ks as [|k ks IH]; simpl; intros v E.
  + inversion E. constructor.
  + destruct v as [| | |d]; simpl in E; try discriminate.
    destruct (dget d k) eqn:G; simpl in E; [|discriminate]. econstructor; eauto.
- induction 1; simpl; auto. rewrite H. simpl. exact IHfollow.
Qed.

Definition gpio_ok (p : option (option dval)) (args : qargs) (lookup : list string) (v : dval) :=
  exists y all a pins, p = Some (Some (DDict y)) /\ dget y "gpio_list" = Some all /\
    args = [a] /\ dget a "pins" = Some pins /\ gpio_value pins all lookup v.

Lemma gpio_iff o p args lookup v :
  query_value (QObj o (SGpio p)) args lookup = Ok v <-> gpio_ok p args lookup v.
Proof.
unfold query_value, q_resolve. cbn [q_state]. split.
- destruct args as [|a [|? ?]]; try discriminate. simpl.
  destruct (dget a "pins") as [pins|] eqn:P; [|discriminate].
  destruct p as [[y|]|]; try discriminate. destruct y as [| | |y]; try discriminate. simpl.
  destruct (dget y "gpio_list") as [all|] eqn:G; [|discriminate]. simpl.
  intros E. exists y, all, a, pins. repeat split; auto.
  destruct lookup as [|k ks].
  + inversion E. constructor.
  + cbn in E. destruct (String.eqb_spec k "desired-pins") as [->|N].
    * cbn in E. destruct (foldM index ks pins) eqn:F; simpl in E; [|discriminate].
      inversion E. constructor. now apply follow_iff.
    * exfalso. revert E. unfold eqb. simpl. 
      destruct (String.eqb_spec k "desired-pins"); [easy|]. discriminate.
- intros (y & all & a & pins & -> & G & -> & P & V). simpl. rewrite P. simpl. rewrite G. simpl.
  inversion V; subst; cbn; auto. apply follow_iff in H. rewrite H. reflexivity.
Qed.

Definition plain (qs : dict string qobj) (s s' : gsetting) : Prop :=
  g_instance s' = g_instance s /\ g_attribute s' = g_attribute s /\
  match g_value s with
  | inl v => g_value s' = inl v
  | inr (kind, (args, lookup)) => exists q v, dget qs kind = Some q /\
      query_value q args lookup = Ok v /\ g_value s' = inl v
  end.

Lemma settings_ok qs ss : forall used ss' used',
  resolve_settings qs ss used = Ok (ss', used') ->
  Forall2 (plain qs) ss ss' /\
  forall q, In q used' <-> In q used \/ exists kind, asks ss kind /\ dget qs kind = Some q.
Proof.
induction ss as [|s ss IH]; simpl; intros used ss' used' E.
- inversion E; subst. split; [constructor|]. intros q. split; auto.
  intros [H|(k & (s & a & l & [] & _) & _)]; auto.
- destruct (g_value s) as [v|[kind [args lookup]]] eqn:G.
  + destruct (resolve_settings qs ss used) as [[ss1 u1]|] eqn:R; simpl in E; [|discriminate].
    inversion E; subst. destruct (IH _ _ _ R) as [F U]. split.
    * constructor; auto. unfold plain. rewrite G. auto.
    * intros q. rewrite U. split; intros [H|(k & (s0 & a & l & I & V) & D)]; auto; right;
        exists k; split; auto.
      -- exists s0, a, l. split; [right|]; auto.
      -- destruct I as [<-|I]; [congruence|]. exists s0, a, l. auto.
  + destruct (dget qs kind) as [q0|] eqn:D; [|discriminate].
    destruct (query_value q0 args lookup) as [v|] eqn:V; simpl in E; [|discriminate].
    destruct (resolve_settings qs ss (q0 :: used)) as [[ss1 u1]|] eqn:R; simpl in E;
      [|discriminate].
    inversion E; subst. destruct (IH _ _ _ R) as [F U]. split.
    * constructor; auto. unfold plain. rewrite G. simpl. eauto 8.
    * intros q. rewrite U. simpl. split.
      -- intros [[<-|H]|(k & (s0 & a & l & I & W) & X)]; auto; right.
         ++ exists kind. split; auto. exists s, args, lookup. split; [left; reflexivity|exact G].
         ++ exists k. split; auto. exists s0, a, l. split; [right|]; auto.
      -- intros [H|(k & (s0 & a & l & I & W) & X)]; auto.
         destruct I as [<-|I].
         ++ assert (k = kind) by congruence. subst k. left. left. congruence.
         ++ right. exists k. split; auto. exists s0, a, l. auto.
Qed.

Lemma reads_ok used : forall read x,
  In x (fold_left (fun read q => get_deps q ++ read) used read) <->
  In x read \/ exists q, In q used /\ x = q_file q.
Proof.
induction used as [|q used IH]; simpl; intros read x.
- split; auto. intros [H|(q & [] & _)]; auto.
- rewrite IH. simpl. split.
  + intros [[<-|H]|(r & I & ->)]; eauto.
  + intros [H|(r & [<-|I] & ->)]; eauto.
Qed.

Lemma dependencies_ok l d : dependencies l = Ok d -> l = map Some d.
Proof.
unfold dependencies. revert d. induction l as [|[f|] l IH]; simpl; intros d E; try discriminate.
- now inversion E.
- destruct (mapM _ l); simpl in E; [|discriminate]. inversion E; subst. simpl. f_equal. auto.
Qed.
Lemma dependencies_some d : dependencies (map Some d) = Ok d.
Proof. unfold dependencies. induction d; simpl; auto. now rewrite IHd. Qed.

Lemma run_inv argv ss read ss' d : run ld ly argv ss read = Ok (ss', d) ->
  exists dq gq used, check_dtb ld (value "dtb" argv) = Ok dq /\
    check_gpio ly (value "gpio-list" argv) = Ok gq /\
    resolve_settings [("dtb", dq); ("gpio", gq)] ss [] = Ok (ss', used) /\
    fold_left (fun read q => get_deps q ++ read) used read = map Some d.
Proof.
unfold run. rewrite args_eq.
destruct (check_dtb ld (value "dtb" argv)) as [dq|]; simpl; [|discriminate].
destruct (check_gpio ly (value "gpio-list" argv)) as [gq|]; simpl; [|discriminate].
unfold resolve_all.
destruct (resolve_settings [("dtb", dq); ("gpio", gq)] ss []) as [[s1 used]|] eqn:R; simpl; [|discriminate].
destruct (dependencies _) eqn:D; simpl; [|discriminate]. intros E. inversion E; subst.
apply dependencies_ok in D. exists dq, gq, used. auto.
Qed.

Lemma check_gpio_inv o q : check_gpio ly o = Ok q -> q_file q = o /\
  exists p, q_state q = SGpio p /\
    forall v, p = Some v -> exists f, o = Some f /\ f <> "" /\ ly f = Some v.
Proof.
unfold check_gpio. destruct o as [f|]; simpl.
- destruct (String.eqb_spec f "") as [->|N].
  + intros E; inversion E; simpl. split; auto. exists None. split; auto. discriminate.
  + destruct (ly f) as [v|] eqn:L; [|discriminate]. intros E; inversion E; simpl. split; auto.
    exists (Some v). split; auto. intros w W. inversion W; subst. eauto.
- intros E; inversion E; simpl. split; auto. exists None. split; auto. discriminate.
Qed.
Lemma check_dtb_file o q : check_dtb ld o = Ok q -> q_file q = o.
Proof.
unfold check_dtb. destruct (given o) as [f|]; [destruct (ld f)|]; intros E; inversion E; auto.
Qed.

Definition gpio_meaning (argv : list arg) (args : qargs) (lookup : list string) (v : dval) :=
  exists f y all a pins, last_given "gpio-list" argv f /\ f <> "" /\
    ly f = Some (Some (DDict y)) /\ dget y "gpio_list" = Some all /\
    args = [a] /\ dget a "pins" = Some pins /\ gpio_value pins all lookup v.

Lemma gpio_query_inv argv gq args lookup v :
  check_gpio ly (value "gpio-list" argv) = Ok gq -> query_value gq args lookup = Ok v ->
  gpio_meaning argv args lookup v.
Proof.
intros C Q. destruct (check_gpio_inv _ _ C) as (_ & p & S & P).
destruct gq as [o st]. simpl in S. subst st. apply gpio_iff in Q.
destruct Q as (y & all & a & pins & -> & G & A & B & V).
destruct (P _ eq_refl) as (f & F & N & L). apply value_last in F.
exists f, y, all, a, pins. auto 10.
Qed.

Definition dtb_meaning (argv : list arg) (args : qargs) (lookup : list string) (v : dval) :=
  exists f e r items, last_given "dtb" argv f /\ f <> "" /\ ld f = Some e /\ e args = Ok r /\
    (lookup <> [] -> dget r "query" = Some (DList items) /\
       exists l, v = DList l /\ Forall2 (fun x y => follow x lookup y) items l).

Lemma mapM_follow ks : forall l l', mapM (fun v => foldM index ks v) l = Ok l' ->
  Forall2 (fun x y => follow x ks y) l l'.
Proof.
induction l as [|x l IH]; simpl; intros l' E.
- inversion E. constructor.
- destruct (foldM index ks x) as [y|] eqn:F; simpl in E; [|discriminate].
  destruct (mapM _ l) as [m|]; simpl in E; [|discriminate]. inversion E; subst.
  constructor; auto. now apply follow_iff.
Qed.

Lemma dtb_query_inv argv dq args lookup v :
  check_dtb ld (value "dtb" argv) = Ok dq -> query_value dq args lookup = Ok v ->
  dtb_meaning argv args lookup v.
Proof.
intros C Q. unfold check_dtb in C. destruct (value "dtb" argv) as [f|] eqn:V; simpl in C.
2: inversion C; subst; discriminate Q.
destruct (String.eqb_spec f "") as [->|N]; [inversion C; subst; discriminate Q|].
destruct (ld f) as [e|] eqn:L; [|discriminate]. inversion C; subst. apply value_last in V.
unfold query_value, q_resolve in Q. cbn [q_state] in Q.
destruct (e args) as [r|] eqn:E; simpl in Q; [|discriminate].
exists f, e, r. destruct lookup as [|k ks].
- exists []. repeat (split; auto); congruence.
- destruct (dget r "query") as [[| |items|]|]; try discriminate.
  exists items. repeat (split; auto).
  destruct (mapM _ items) as [l|] eqn:M in Q; [|discriminate Q]. inversion Q; subst.
  exists l. split; auto. now apply mapM_follow.
Qed.

Lemma kinds (dq gq : qobj) kind q : dget [("dtb", dq); ("gpio", gq)] kind = Some q ->
  kind = "dtb" /\ q = dq \/ kind = "gpio" /\ q = gq.
Proof.
simpl. unfold eqb. simpl.
destruct (String.eqb_spec kind "dtb"); [intros E; inversion E; auto|].
destruct (String.eqb_spec kind "gpio"); [intros E; inversion E; auto|discriminate].
Qed.

Lemma values_lemma argv ss read ss' d : run ld ly argv ss read = Ok (ss', d) ->
  Forall2 (fun s s' => g_instance s' = g_instance s /\ g_attribute s' = g_attribute s /\
    match g_value s with
    | inl v => g_value s' = inl v
    | inr (kind, (args, lookup)) => exists v, g_value s' = inl v /\
        (kind = "dtb" /\ dtb_meaning argv args lookup v \/
         kind = "gpio" /\ gpio_meaning argv args lookup v)
    end) ss ss'.
Proof.
intros R. destruct (run_inv _ _ _ _ _ R) as (dq & gq & used & D & G & S & _).
destruct (settings_ok _ _ _ _ _ S) as [F _]. clear - F G D.
induction F as [|s s' ss ss' P F IH]; constructor; auto.
destruct P as (I & A & V). repeat split; auto.
destruct (g_value s) as [v|[kind [args lookup]]]; auto.
destruct V as (q & v & Q & W & X). exists v. split; auto.
apply kinds in Q. destruct Q as [[-> ->]|[-> ->]]; [left|right]; split; auto.
- eapply dtb_query_inv; eauto.
- eapply gpio_query_inv; eauto.
Qed.

Lemma reads_lemma argv ss read ss' d : run ld ly argv ss read = Ok (ss', d) ->
  forall f, In f d <-> In (Some f) read \/
    exists kind opt, kind_option kind opt /\ asks ss kind /\ last_given opt argv f.
Proof.
intros R f. destruct (run_inv _ _ _ _ _ R) as (dq & gq & used & D & G & S & E).
destruct (settings_ok _ _ _ _ _ S) as [_ U].
assert (X : In f d <-> In (Some f) (map Some d)).
{ rewrite in_map_iff. split; eauto. intros (x & H & I). congruence. }
rewrite X, <- E, reads_ok. apply check_dtb_file in D. destruct (check_gpio_inv _ _ G) as [F _].
split.
- intros [H|(q & I & Q)]; auto. right. apply U in I. destruct I as [[]|(kind & A & K)].
  apply kinds in K. destruct K as [[-> ->]|[-> ->]].
  + exists "dtb", "dtb". repeat split; auto; [constructor|]. apply value_last. congruence.
  + exists "gpio", "gpio-list". repeat split; auto; [constructor|]. apply value_last. congruence.
- intros [H|(kind & opt & K & A & L)]; auto. right. apply last_unique in L.
  destruct K.
  + exists dq. split; [|congruence]. apply U. right. exists "dtb". auto.
  + exists gq. split; [|congruence]. apply U. right. exists "gpio". auto.
Qed.

Lemma bad_file_lemma argv ss read f : f <> "" ->
  last_given "dtb" argv f /\ ld f = None \/ last_given "gpio-list" argv f /\ ly f = None ->
  run ld ly argv ss read = Err OtherException.
Proof.
intros N [[L B]|[L B]]; apply last_unique in L; unfold run; rewrite args_eq, L.
- unfold check_dtb. simpl. destruct (String.eqb_spec f ""); [easy|]. now rewrite B.
- assert (C : check_gpio ly (Some f) = Err OtherException).
  { unfold check_gpio. simpl. destruct (String.eqb_spec f ""); [easy|]. now rewrite B. }
  rewrite C. unfold check_dtb. destruct (given _) as [g|]; [destruct (ld g)|]; reflexivity.
Qed.

Lemma missing_lemma argv s args a pins read :
  not_given "dtb" argv -> not_given "gpio-list" argv ->
  g_value s = inr ("gpio", (args, [])) -> args = [a] -> dget a "pins" = Some pins ->
  run ld ly argv [s] read = Err OtherException.
Proof.
intros D G V -> P. apply not_given_value in D. apply not_given_value in G.
unfold run. rewrite args_eq, D, G. simpl. unfold resolve_all. simpl. rewrite V.
simpl. unfold query_value, q_resolve. simpl. rewrite P. reflexivity.
Qed.

Lemma complete_lemma argv ss d0 :
  (forall f, last_given "dtb" argv f -> ld f <> None) ->
  (forall f, last_given "gpio-list" argv f -> ly f <> None) ->
  Forall (fun s => match g_value s with
    | inl _ => True
    | inr (kind, (args, lookup)) => kind = "gpio" /\ exists v, gpio_meaning argv args lookup v
    end) ss ->
  exists r, run ld ly argv ss (map Some d0) = Ok r.
Proof.
intros BD BG F.
assert (CD : exists dq, check_dtb ld (value "dtb" argv) = Ok dq).
{ unfold check_dtb. destruct (value "dtb" argv) as [f|] eqn:E; simpl; eauto.
  destruct (String.eqb f ""); eauto. apply value_last in E. specialize (BD _ E).
  destruct (ld f); [eauto|easy]. }
assert (CG : exists gq, check_gpio ly (value "gpio-list" argv) = Ok gq).
{ unfold check_gpio. destruct (value "gpio-list" argv) as [f|] eqn:E; simpl; eauto.
  destruct (String.eqb f ""); eauto. apply value_last in E. specialize (BG _ E).
  destruct (ly f); [eauto|easy]. }
destruct CD as [dq CD], CG as [gq CG].
assert (S : forall used, exists r, resolve_settings [("dtb", dq); ("gpio", gq)] ss used = Ok r).
{ induction F as [|s ss P F IH]; simpl; eauto. intros used.
  destruct (g_value s) as [v|[kind [args lookup]]].
  - destruct (IH used) as [[s1 u1] ->]. simpl. eauto.
  - destruct P as (-> & v & M). simpl.
    destruct M as (f & y & all & a & pins & L & N & Y & A & -> & P & V).
    assert (Q : query_value gq [a] lookup = Ok v).
    { apply last_unique in L. rewrite L in CG. unfold check_gpio in CG. simpl in CG.
      destruct (String.eqb_spec f ""); [easy|]. rewrite Y in CG. inversion CG.
      apply gpio_iff. exists y, all, a, pins. auto 8. }
    rewrite Q. simpl. destruct (IH (gq :: used)) as [[s1 u1] ->]. simpl. eauto. }
destruct (S []) as [[s1 u1] E].
unfold run. rewrite args_eq, CD. cbn [bind]. rewrite CG. cbn [bind]. unfold resolve_all.
rewrite E. cbn [bind].
destruct (settings_ok _ _ _ _ _ E) as [_ U].
assert (X : forall l : list (option string), (forall x, In x l -> exists f, x = Some f) -> exists k, l = map Some k).
{ induction l as [|x l IHl]; intros H; [exists []; auto|].
  destruct (H x) as [f ->]; [left; auto|]. destruct IHl as [k ->]; [intros; apply H; right; auto|].
  exists (f :: k). auto. }
destruct (X (fold_left (fun read q => get_deps q ++ read) u1 (map Some d0))) as [k ->].
{ intros x I. apply reads_ok in I. destruct I as [I|(q & I & ->)].
  - apply in_map_iff in I. destruct I as (f & <- & _). eauto.
  - apply U in I. destruct I as [[]|(kind & (s & args & lookup & I & V) & K)].
    rewrite Forall_forall in F. specialize (F _ I). rewrite V in F.
    destruct F as (-> & v & M). simpl in K. inversion K; subst.
    destruct M as (f & _ & _ & _ & _ & L & _). apply last_unique in L.
    destruct (check_gpio_inv _ _ CG) as [-> _]. eauto. }
rewrite dependencies_some. simpl. eauto.
Qed.
End Q.
