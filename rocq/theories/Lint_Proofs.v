(** Proofs for C92. *)
From Coq Require Import List String Ascii Bool Lia Arith.
From Verif Require Import Prelude Lint_Model Lint_Spec.
Import ListNotations.
Open Scope string_scope.
Open Scope list_scope.

#[local] Arguments in_words : simpl never.
#[local] Arguments white : simpl never.

(** * Contents *)

Lemma word_spec c : word_char c = true <-> in_words c.
Proof.
  unfold in_words. transitivity (existsb (Ascii.eqb c) (list_ascii_of_string
    "abcdefghijklmnopqrstuvwxyzABCDEFGHIJKLMNOPQRSTUVWXYZ0123456789_") = true).
  - destruct c as [[] [] [] [] [] [] [] []]; vm_compute; tauto.
  - rewrite existsb_exists. split; [intros (x & h & e); now apply Ascii.eqb_eq in e as ->|].
    intros h. exists c. split; [exact h|apply Ascii.eqb_refl].
Qed.
Lemma space_spec c : is_space c = true <-> white c.
Proof.
  unfold white. transitivity (existsb (Nat.eqb (nat_of_ascii c)) [9; 10; 11; 12; 13; 28; 29; 30; 31; 32] = true).
  - destruct c as [[] [] [] [] [] [] [] []]; vm_compute; tauto.
  - rewrite existsb_exists. split; [intros (x & h & e); now apply Nat.eqb_eq in e as ->|].
    intros h. exists (nat_of_ascii c). split; [exact h|apply Nat.eqb_refl].
Qed.
Lemma space_false c : is_space c = false <-> ~ white c.
Proof. rewrite <- space_spec. destruct (is_space c); split; congruence. Qed.

Lemma do_word_spec s : do_word_match s = true <-> single_word s.
Proof.
  induction s as [|c s IH]; unfold single_word; cbn.
  - split; [intros _ c []|reflexivity].
  - rewrite andb_true_iff, IH, word_spec. unfold single_word. split.
    + intros [h1 h2] x [<-|h]; auto.
    + intros h. split; [apply h; now left|intros x hx; apply h; now right].
Qed.

Lemma skip_space_spec s :
  exists w, s = (w ++ skip_space s)%string /\ blank w /\
    match skip_space s with EmptyString => True | String c _ => is_space c = false end.
Proof.
  induction s as [|c s (w & e & b & h)]; cbn.
  - exists "". repeat split. intros c [].
  - destruct (is_space c) eqn:hc.
    + exists (String c w). cbn. rewrite <- e. repeat split; [|exact h].
      intros x [<-|hx]; [now apply space_spec|auto].
    + exists "". cbn. repeat split; [intros x []|exact hc].
Qed.
Lemma skip_blank w s : blank w -> skip_space (w ++ s) = skip_space s.
Proof.
  induction w as [|c w IH]; cbn; intros h; [reflexivity|].
  rewrite (proj2 (space_spec c) (h c (or_introl eq_refl))). apply IH. intros x hx. apply h. now right.
Qed.
Lemma skip_visible s : skip_space s <> "" <-> visible s.
Proof.
  induction s as [|c s IH]; cbn.
  - split; [congruence|intros (c & [] & _)].
  - destruct (is_space c) eqn:hc.
    + rewrite IH. split; intros (x & hx & h); exists x; split; auto; [now right|].
      destruct hx as [->|hx]; [apply space_spec in hc; contradiction|exact hx].
    + split; [intros _; exists c; split; [now left|now apply space_false]|congruence].
Qed.

Lemma equals_tail_spec s : equals_tail s = true <->
  exists w y, s = (w ++ String "=" y)%string /\ blank w /\ visible y.
Proof.
  unfold equals_tail. split.
  - destruct (skip_space_spec s) as (w & e & b & h).
    destruct (skip_space s) as [|c y] eqn:hs; [discriminate|].
    destruct (Ascii.eqb_spec c "=") as [->|n].
    + destruct (skip_space y) eqn:hy; [discriminate|]. intros _.
      exists w, y. repeat split; auto. apply skip_visible. rewrite hy. discriminate.
    + intros hm. exfalso.
      repeat match type of hm with context [match ?x with _ => _ end] =>
        is_var x; destruct x; try discriminate end.
      now apply n.
  - intros (w & y & -> & b & v). rewrite skip_blank by exact b.
    change (skip_space (String "=" y)) with (String "=" y). cbv iota.
    apply skip_visible in v. destruct (skip_space y); [now destruct v|reflexivity].
Qed.

Lemma nl_spec c : Nat.eqb (nat_of_ascii c) 10 = true <-> c = ascii_of_nat 10.
Proof.
  rewrite Nat.eqb_eq. split; [|intros ->; reflexivity].
  intros h. now rewrite <- (ascii_nat_embedding c), h.
Qed.

Lemma set_match_spec s : set_match s = true <-> assignment s.
Proof.
  induction s as [|c s IH].
  - cbn. split; [discriminate|]. intros (p & x & w & y & e & _). destruct p; discriminate.
  - cbn [set_match]. rewrite orb_true_iff, andb_true_iff, negb_true_iff, space_false, equals_tail_spec. split.
    + intros [(hc & w & y & -> & b & v)|h].
      * exists "", c, w, y. cbn. repeat split; auto. intros [].
      * destruct (Nat.eqb (nat_of_ascii c) 10) eqn:hn; [discriminate|].
        apply IH in h. destruct h as (p & x & w & y & -> & np & hx & b & v).
        exists (String c p), x, w, y. cbn. repeat split; auto.
        intros [e|e]; [|now apply np]. apply nl_spec in e. congruence.
    + intros (p & x & w & y & e & np & hx & b & v). destruct p as [|c' p]; cbn in e; injection e as -> ->.
      * left. split; [exact hx|]. exists w, y. auto.
      * right. destruct (Nat.eqb (nat_of_ascii c') 10) eqn:hn.
        -- exfalso. apply np. left. now apply nl_spec.
        -- apply IH. exists p, x, w, y. repeat split; auto. intros h. apply np. now right.
Qed.

(** * Markers *)

Lemma kind_eqb_spec a b : kind_eqb a b = true <-> a = b.
Proof. destruct a, b; cbn; split; congruence. Qed.

Lemma markers_sound ts :
  (check_markers ts None = Ok tt -> exists ps, paired ps /\ (ts = ps \/ exists k, ts = ps ++ [Start k])) /\
  (forall k, check_markers ts (Some k) = Ok tt ->
     ts = [] \/ exists ps, ts = End k :: ps /\ check_markers ps None = Ok tt /\ List.length ps < List.length ts).
Proof.
  induction ts as [ts IH] using (well_founded_induction (Wf_nat.well_founded_ltof _ (@List.length marker))).
  unfold Wf_nat.ltof in IH. split.
  - destruct ts as [|[k|k] ts]; cbn.
    + intros _. exists []. split; [constructor|now left].
    + intros h. destruct (proj2 (IH ts (Nat.lt_succ_diag_r _)) k h) as [->|(ps & -> & hp & hl)].
      * exists []. split; [constructor|]. right. now exists k.
      * cbn in IH. destruct (proj1 (IH ps ltac:(lia)) hp) as (qs & pq & [->|(k' & ->)]).
        -- exists (Start k :: End k :: qs). split; [now constructor|now left].
        -- exists (Start k :: End k :: qs). split; [now constructor|]. right. now exists k'.
    + discriminate.
  - intros k. destruct ts as [|[k'|k'] ts]; cbn; [now left|discriminate|].
    destruct (kind_eqb k k') eqn:e; [|discriminate]. apply kind_eqb_spec in e as ->.
    intros h. right. exists ts. auto.
Qed.
Lemma paired_ok ps rest : paired ps -> check_markers (ps ++ rest) None = check_markers rest None.
Proof. induction 1 as [|k ts h IH]; cbn; [reflexivity|]. destruct k; exact IH. Qed.

Lemma markers_iff ts : check_markers ts None = Ok tt <->
  exists ps, paired ps /\ (ts = ps \/ exists k, ts = ps ++ [Start k]).
Proof.
  split; [apply markers_sound|]. intros (ps & h & [->|(k & ->)]).
  - rewrite <- (app_nil_r ps), paired_ok by exact h. reflexivity.
  - rewrite paired_ok by exact h. reflexivity.
Qed.

(** * Directives *)

Lemma plain_step d st : plain d -> step d st = Ok st.
Proof.
  intros [c h|c h|t c h]; cbn.
  - destruct (do_word_match c) eqn:e; [|reflexivity]. now apply do_word_spec in e.
  - apply set_match_spec in h. now rewrite h.
  - destruct h as [<-|[<-|[<-|[]]]]; reflexivity.
Qed.
Lemma mem_spec x l : mem x l = true <-> In x l.
Proof.
  unfold mem. rewrite existsb_exists. split.
  - intros (y & h & e). apply String.eqb_eq in e as ->. exact h.
  - intros h. exists x. split; [exact h|apply String.eqb_refl].
Qed.
Lemma jump_step d st : jump d -> In "for" st -> step d st = Ok st.
Proof. intros h i. apply mem_spec in i. destruct h; unfold step; cbn [mem existsb String.eqb]; cbn; now rewrite i. Qed.
Definition blocks := ["if"; "for"; "macro"; "call"].
Lemma open_step k c st : In k blocks -> step (k, c) st = Ok (k :: st).
Proof. intros [<-|[<-|[<-|[<-|[]]]]]; reflexivity. Qed.
Lemma end_step k st : In k blocks -> step (ends k) (k :: st) = Ok st.
Proof. intros [<-|[<-|[<-|[<-|[]]]]]; reflexivity. Qed.

Lemma close_inv k c st st' : close k c st = Ok st' -> c = "" /\ st = k :: st'.
Proof.
  unfold close. destruct st as [|x st]; [discriminate|].
  destruct (String.eqb_spec x k) as [->|]; [|discriminate].
  destruct (String.eqb_spec c "") as [->|]; [|discriminate]. intros [= ->]. auto.
Qed.

Lemma step_inv d st st' : step d st = Ok st' ->
  (exists k c, In k blocks /\ d = (k, c) /\ st' = k :: st) \/
  (exists k, In k blocks /\ d = ends k /\ st = k :: st') \/
  (plain d /\ st' = st) \/
  (jump d /\ In "for" st /\ st' = st) \/
  (exists c e, d = ("elif", c) /\ st = "if" :: e /\ st' = st) \/
  (exists k e, (k = "if" \/ k = "for") /\ d = ("else", "") /\ st = k :: e /\ st' = st).
Proof.
  destruct d as [t c]. unfold step.
  destruct (mem t ["if"; "for"; "macro"; "call"]) eqn:h1.
  { intros [= <-]. left. exists t, c. split; [now apply mem_spec|auto]. }
  destruct (String.eqb_spec t "endif") as [->|_].
  { intros h. apply close_inv in h as [-> ->]. right. left. exists "if". cbn; auto. }
  destruct (String.eqb_spec t "elif") as [->|_].
  { destruct st as [|x st]; [discriminate|]. destruct (String.eqb_spec x "if") as [->|n]; [|discriminate].
    intros [= <-]. do 4 right. left. exists c, st. auto. }
  destruct (String.eqb_spec t "else") as [->|_].
  { destruct st as [|x st]; [discriminate|].
    destruct (mem x ["if"; "for"]) eqn:hm; [|discriminate].
    destruct (String.eqb_spec c "") as [->|]; [|discriminate]. intros [= <-].
    do 5 right. exists x, st. apply mem_spec in hm as [<-|[<-|[]]]; auto. }
  destruct (String.eqb_spec t "endfor") as [->|_].
  { intros h. apply close_inv in h as [-> ->]. right. left. exists "for". cbn; auto. }
  destruct (String.eqb_spec t "endmacro") as [->|_].
  { intros h. apply close_inv in h as [-> ->]. right. left. exists "macro". cbn; auto. }
  destruct (String.eqb_spec t "endcall") as [->|_].
  { intros h. apply close_inv in h as [-> ->]. right. left. exists "call". cbn; auto 6. }
  destruct (mem t ["break"; "continue"]) eqn:h2.
  { destruct (mem "for" st) eqn:hf; [|discriminate].
    destruct (String.eqb_spec c "") as [->|]; [|discriminate]. intros [= <-].
    apply mem_spec in hf. do 3 right. left.
    apply mem_spec in h2 as [<-|[<-|[]]]; repeat split; auto; constructor. }
  destruct (String.eqb_spec t "do") as [->|_].
  { destruct (do_word_match c) eqn:e; [discriminate|]. intros [= <-]. do 2 right. left. split; [|auto].
    constructor. intros h. apply do_word_spec in h. congruence. }
  destruct (String.eqb_spec t "set") as [->|_].
  { destruct (set_match c) eqn:e; [|discriminate]. intros [= <-]. do 2 right. left. split; [|auto].
    constructor. now apply set_match_spec. }
  destruct (mem t ["import"; "include"; "from"]) eqn:h3; [|discriminate].
  intros [= <-]. do 2 right. left. split; [|auto]. constructor. now apply mem_spec.
Qed.

Lemma check_cons d ds st st' : step d st = Ok st' -> check_directives (d :: ds) st = check_directives ds st'.
Proof. intros h. cbn. now rewrite h. Qed.
Lemma check_cons_inv d ds st : check_directives (d :: ds) st = Ok tt ->
  exists st', step d st = Ok st' /\ check_directives ds st' = Ok tt.
Proof. cbn. destruct (step d st) as [st'|] eqn:e; cbn; [|discriminate]. eauto. Qed.

Lemma nested_check e ds : nested e ds -> forall rest, check_directives (ds ++ rest) e = check_directives rest e.
Proof.
  induction 1 as [e|e d ds h n IH|e d ds h i n IH|e c ds n IH|k e ds h n IH|k e c b ds h n IH n' IH']; intros rest;
    cbn [app].
  - reflexivity.
  - rewrite (check_cons _ _ _ _ (plain_step d e h)). apply IH.
  - rewrite (check_cons _ _ _ _ (jump_step d e h i)). apply IH.
  - rewrite (check_cons _ _ _ ("if" :: e)); [apply IH|reflexivity].
  - rewrite (check_cons _ _ _ (k :: e)); [apply IH|]. destruct h as [-> | ->]; reflexivity.
  - rewrite (check_cons _ _ _ _ (open_step k c e h)), <- app_assoc, IH. cbn [app].
    rewrite (check_cons _ _ _ _ (end_step k e h)). apply IH'.
Qed.

Lemma check_nested ds :
  (check_directives ds [] = Ok tt -> nested [] ds) /\
  (forall k st, check_directives ds (k :: st) = Ok tt ->
     exists b rest, ds = b ++ ends k :: rest /\ In k blocks /\ nested (k :: st) b /\ check_directives rest st = Ok tt).
Proof.
  induction ds as [ds IH] using (well_founded_induction (Wf_nat.well_founded_ltof _ (@List.length directive))).
  unfold Wf_nat.ltof in IH. destruct ds as [|d ds].
  { split; [constructor|discriminate]. }
  pose proof (IH ds (Nat.lt_succ_diag_r _)) as [IH0 IH1]. split.
  - intros h. apply check_cons_inv in h as (st' & hs & h).
    destruct (step_inv _ _ _ hs) as
      [(k & c & hk & -> & ->)|[(k & hk & -> & e)|[(p & ->)|[(j & i & ->)|[(c & e & -> & e' & ->)|(k & e & hk & -> & e' & ->)]]]]];
      try discriminate.
    + destruct (IH1 _ _ h) as (b & rest & -> & _ & nb & hr). apply n_block; auto.
      apply (proj1 (IH rest ltac:(cbn; rewrite app_length; cbn; lia))). exact hr.
    + apply n_plain; auto.
    + destruct i.
  - intros k st h. apply check_cons_inv in h as (st' & hs & h).
    destruct (step_inv _ _ _ hs) as
      [(k' & c & hk & -> & ->)|[(k' & hk & -> & e)|[(p & ->)|[(j & i & ->)|[(c & e & -> & e' & ->)|(k' & e & hk & -> & e' & ->)]]]]].
    + destruct (IH1 _ _ h) as (b & rest & -> & _ & nb & hr).
      destruct (proj2 (IH rest ltac:(cbn; rewrite app_length; cbn; lia)) _ _ hr) as (b' & rest' & -> & hk' & nb' & hr').
      exists ((k', c) :: b ++ ends k' :: b'), rest'. split; [cbn; now rewrite <- app_assoc|].
      repeat split; auto. now apply n_block.
    + injection e as -> ->. exists [], ds. repeat split; auto. constructor.
    + destruct (IH1 _ _ h) as (b & rest & -> & hk' & nb & hr). exists (d :: b), rest. repeat split; auto.
      now apply n_plain.
    + destruct (IH1 _ _ h) as (b & rest & -> & hk' & nb & hr). exists (d :: b), rest. repeat split; auto.
      now apply n_jump.
    + destruct (IH1 _ _ h) as (b & rest & -> & hk' & nb & hr). injection e' as -> ->.
      exists (("elif", c) :: b), rest. repeat split; auto. now apply n_elif.
    + destruct (IH1 _ _ h) as (b & rest & -> & hk' & nb & hr). injection e' as -> ->.
      exists (("else", "") :: b), rest. repeat split; auto. now apply n_else.
Qed.

Lemma directives_iff ds : check_directives ds [] = Ok tt <-> nested [] ds.
Proof.
  split; [apply check_nested|]. intros h. rewrite <- (app_nil_r ds), (nested_check _ _ h). reflexivity.
Qed.

(** * Templates *)

Lemma nested_app e a : nested e a -> forall b, nested e b -> nested e (a ++ b).
Proof.
  induction 1 as [e|e d ds h n IH|e d ds h i n IH|e c ds n IH|k e ds h n IH|k e c x ds h n IH n' IH']; intros b hb; cbn [app].
  - exact hb.
  - apply n_plain; auto.
  - apply n_jump; auto.
  - apply n_elif; auto.
  - apply n_else; auto.
  - rewrite <- app_assoc. cbn [app]. apply n_block; auto.
Qed.

Scheme template_mut := Induction for template Sort Prop
  with branches_mut := Induction for branches Sort Prop.

Lemma template_nested loop ds : template loop ds -> forall e, (loop = true -> In "for" e) -> nested e ds.
Proof.
  induction 1 as [loop|loop d ds h n IH|d ds h n IH|loop c b bs ds n IH m IHm n' IH'|loop c b ds n IH n' IH'
    |loop c b x ds n IH m IHm n' IH'|loop c b ds n IH n' IH'|loop c b ds n IH n' IH'
    |loop|loop b n IH|loop c b bs n IH m IHm] using template_mut
    with (P0 := fun loop bs _ => forall e, (loop = true -> In "for" e) -> nested ("if" :: e) bs); intros e he.
  - constructor.
  - apply n_plain; auto.
  - apply n_jump; auto.
  - rewrite app_assoc. apply (n_block "if"); [cbn; auto| |auto].
    apply nested_app; auto. apply IH. intros hl. right. auto.
  - apply (n_block "for"); [cbn; auto| |auto]. apply IH. now left.
  - change (nested e (("for", c) :: b ++ (("else", "") :: x) ++ ends "for" :: ds)).
    rewrite app_assoc. apply n_block; [cbn; auto| |auto].
    apply nested_app; [apply IH; now left|]. apply n_else; [auto|]. apply IHm. intros _. now left.
  - apply (n_block "macro"); [cbn; auto| |auto]. apply IH. discriminate.
  - apply (n_block "call"); [cbn; auto 6| |auto]. apply IH. discriminate.
  - constructor.
  - apply n_else; [auto|]. apply IH. intros hl. right. auto.
  - apply n_elif. apply nested_app; [apply IH; intros hl; right; auto|auto].
Qed.

Lemma lint_ok ts ds : paired ts -> template false ds -> lint ts ds = Ok tt.
Proof.
  intros h1 h2. unfold lint.
  rewrite <- (app_nil_r ts), paired_ok by exact h1. cbn.
  apply directives_iff, (template_nested false); [exact h2|discriminate].
Qed.
Lemma lint_sound ts ds : lint ts ds = Ok tt ->
  (exists ps, paired ps /\ (ts = ps \/ exists k, ts = ps ++ [Start k])) /\ nested [] ds.
Proof.
  unfold lint. destruct (check_markers ts None) as [[]|] eqn:e; cbn; [|discriminate].
  intros h. split; [now apply markers_iff|now apply directives_iff].
Qed.
Lemma lint_total ts ds : lint ts ds = Ok tt \/ lint ts ds = Err ParseError.
Proof.
  assert (hm : forall ts o, check_markers ts o = Ok tt \/ check_markers ts o = Err ParseError).
  { clear. induction ts as [|[k|k] ts IH]; intros [l|]; cbn; auto. destruct (kind_eqb l k); auto. }
  assert (hd : forall ds st, check_directives ds st = Ok tt \/ check_directives ds st = Err ParseError).
  { clear. induction ds as [|d ds IH]; intros st; cbn; [destruct st; auto|].
    destruct (step d st) as [st'|x] eqn:e; cbn; [auto|right].
    f_equal. revert e. destruct d as [t c]. unfold step, close.
    repeat match goal with
      | |- (if ?b then _ else _) = _ -> _ => destruct b
      | |- (match ?b with _ => _ end) = _ -> _ => destruct b
      end; congruence. }
  unfold lint. destruct (hm ts None) as [-> | ->]; cbn; auto.
Qed.

(** * What is accepted and should not be *)

Lemma else_first l x ds : ~ template l (("else", x) :: ds).
Proof. intros h. inversion h as [|? ? ? p| ? ? p| | | | |]; subst; inversion p. match goal with h : In _ _ |- _ => cbn in h; intuition discriminate end. Qed.
Lemma elif_first l x ds : ~ template l (("elif", x) :: ds).
Proof. intros h. inversion h as [|? ? ? p| ? ? p| | | | |]; subst; inversion p. match goal with h : In _ _ |- _ => cbn in h; intuition discriminate end. Qed.
Lemma break_first ds : ~ template false (("break", "") :: ds).
Proof. intros h. inversion h as [|? ? ? p| | | | | |]; subst; inversion p. match goal with h : In _ _ |- _ => cbn in h; intuition discriminate end. Qed.

Lemma after_else d ds : d = ("else", "") \/ (exists c, d = ("elif", c)) ->
  ~ template false [("if", ds); ("else", ""); d; ("endif", "")].
Proof.
  intros hd h. inversion h as [|? ? ? p| |? ? b bs ds' hb hbs hds e| | | |]; subst.
  { inversion p. match goal with h : In _ _ |- _ => cbn in h; intuition discriminate end. }
  match goal with h : _ ++ _ = _ |- _ => rename h into e end.
  destruct b as [|x b]; cbn in e.
  2: { injection e as -> _. exact (else_first _ _ _ hb). }
  inversion hbs as [|? b' hb'|? c b' bs' hb' hbs']; subst; cbn in e; [discriminate| |discriminate].
  injection e as e. destruct b' as [|x b']; cbn in e.
  - injection e as e _. destruct hd as [-> |(c & ->)]; discriminate.
  - injection e as -> _. destruct hd as [-> |(c & ->)]; [exact (else_first _ _ _ hb')|exact (elif_first _ _ _ hb')].
Qed.
Lemma break_in_macro c m :
  ~ template false [("for", c); ("macro", m); ("break", ""); ("endmacro", ""); ("endfor", "")].
Proof.
  assert (g : forall l b rest, template l b -> b ++ ("endfor", "") :: rest =
            [("macro", m); ("break", ""); ("endmacro", ""); ("endfor", "")] -> False).
  { intros l b rest hb e. destruct b as [|x b]; [discriminate|]. injection e as -> e.
    inversion hb as [|? ? ? p|? ? p| | | |? ? b0 ds0 hb0 hds0|]; subst;
      [inversion p; match goal with h : In _ _ |- _ => cbn in h; intuition discriminate end
      |inversion p|].
    destruct b0 as [|y b0]; cbn in e; [discriminate|]. injection e as -> _.
    exact (break_first _ hb0). }
  assert (g' : forall l b e rest, template l b -> b ++ ("else", "") :: e ++ ("endfor", "") :: rest =
            [("macro", m); ("break", ""); ("endmacro", ""); ("endfor", "")] -> False).
  { intros l b e' rest hb e. destruct b as [|x b]; [discriminate|]. injection e as -> e.
    inversion hb as [|? ? ? p|? ? p| | | |? ? b0 ds0 hb0 hds0|]; subst;
      [inversion p; match goal with h : In _ _ |- _ => cbn in h; intuition discriminate end
      |inversion p|].
    destruct b0 as [|y b0]; cbn in e; [discriminate|]. injection e as -> _.
    exact (break_first _ hb0). }
  intros h. inversion h as [|? ? ? p| | |? ? b ds hb hds|? ? b e ds hb he hds| |]; subst; eauto.
  inversion p. match goal with h : In _ _ |- _ => cbn in h; intuition discriminate end.
Qed.

Lemma wrong_directives : exists ds1 ds2 ds3,
  ds1 = [("if", "a"); ("else", ""); ("else", ""); ("endif", "")] /\
  ds2 = [("if", "a"); ("else", ""); ("elif", "b"); ("endif", "")] /\
  ds3 = [("for", "x in y"); ("macro", "m()"); ("break", ""); ("endmacro", ""); ("endfor", "")] /\
  (lint [] ds1 = Ok tt /\ ~ template false ds1) /\
  (lint [] ds2 = Ok tt /\ ~ template false ds2) /\
  (lint [] ds3 = Ok tt /\ ~ template false ds3).
Proof.
  do 3 eexists. do 3 (split; [reflexivity|]).
  repeat split; try reflexivity; try apply break_in_macro; apply after_else; eauto.
Qed.
Lemma wrong_markers ds k : template false ds -> lint [Start k] ds = Ok tt /\ ~ paired [Start k].
Proof.
  intros h. split; [|intros p; inversion p]. unfold lint. cbn.
  apply directives_iff, (template_nested false); [exact h|discriminate].
Qed.
