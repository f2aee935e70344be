From Coq Require Import List String Ascii Bool NArith Sorted Permutation Lia.
From Verif Require Import Prelude DecStr MkDeps_Model MkDeps_Spec.
Import ListNotations.
Open Scope string_scope.
Open Scope list_scope.

#[local] Arguments is_space : simpl never.
#[local] Arguments is_break : simpl never.
#[local] Arguments blank : simpl never.
#[local] Arguments bslash : simpl never.
#[local] Arguments backslash : simpl never.
Lemma forall_ascii (P : ascii -> bool) :
  (forall b0 b1 b2 b3 b4 b5 b6 b7, P (Ascii b0 b1 b2 b3 b4 b5 b6 b7) = true) -> forall c, P c = true.
Proof. intros H []. apply H. Qed.
Lemma space_blank c : implb (is_space c) (blank c) = true.
Proof. apply (forall_ascii (fun c => implb (is_space c) (blank c))). intros [] [] [] [] [] [] [] []; reflexivity. Qed.
Lemma break_space c : implb (is_break c) (is_space c) = true.
Proof. apply (forall_ascii (fun c => implb (is_break c) (is_space c))). intros [] [] [] [] [] [] [] []; reflexivity. Qed.

Definition word_char (c : ascii) : bool := negb (blank c || Ascii.eqb c "$" || Ascii.eqb c "#" || Ascii.eqb c backslash).
Lemma word_char_no c : word_char c = true -> is_space c = false /\ is_break c = false /\ Ascii.eqb c bslash = false.
Proof.
  intros H. assert (S := space_blank c). assert (B := break_space c). unfold word_char in H.
  change backslash with bslash in H.
  destruct (blank c), (Ascii.eqb c bslash), (is_space c), (is_break c); cbn in *; try discriminate;
    try (rewrite ?orb_true_r in H; discriminate); auto.
Qed.

(** Last character that is not whitespace *)
Fixpoint lastc (s : string) : option ascii :=
  match s with
  | EmptyString => None
  | String c s => match lastc s with
                  | Some d => Some d
                  | None => if is_space c then None else Some c
                  end
  end.
Lemma rstrip_lastc s : ends_with bslash (rstrip s) =
  match lastc s with Some c => Ascii.eqb c bslash | None => false end.
Proof.
  induction s as [|c s IH]; [reflexivity|]. cbn [rstrip lastc].
  destruct (rstrip s) as [|d r] eqn:E.
  - assert (L : lastc s = None).
    { clear -E. induction s as [|c s IH]; [reflexivity|]. cbn in *. destruct (rstrip s); [|discriminate].
      rewrite IH by reflexivity. destruct (is_space c); [reflexivity|discriminate]. }
    rewrite L. destruct (is_space c); reflexivity.
  - destruct (lastc s) as [e|] eqn:L; [exact IH|].
    exfalso. clear -E L. revert d r E. induction s as [|c s IH]; [discriminate|]. cbn in *.
    destruct (lastc s); [discriminate|]. destruct (is_space c) eqn:Sc; [|discriminate].
    destruct (rstrip s) as [|x y]; [discriminate|]. intros d r _. now apply (IH L x y).
Qed.
Lemma rstrip_nil s : rstrip s = "" <-> lastc s = None.
Proof.
  induction s as [|c s IH]; [easy|]. cbn. destruct (lastc s) as [d|] eqn:L.
  - destruct (rstrip s); [|easy]. destruct IH as [IH _]. now specialize (IH eq_refl).
  - destruct IH as [_ IH]. rewrite (IH eq_refl). destruct (is_space c); easy.
Qed.
Lemma lastc_lstrip s : lastc (lstrip s) = lastc s.
Proof.
  induction s as [|c s IH]; [reflexivity|]. cbn. destruct (is_space c) eqn:E; [|cbn; now rewrite E].
  rewrite IH. now destruct (lastc s).
Qed.
Lemma split_lstrip s : split (lstrip s) = split s.
Proof.
  unfold split. induction s as [|c s IH]; [reflexivity|]. cbn. destruct (is_space c) eqn:E.
  - rewrite IH. reflexivity.
  - cbn. now rewrite E.
Qed.
Lemma split_spaces s w : lastc s = None -> split_from s w = flush w [].
Proof.
  revert w; induction s as [|c s IH]; intros w; [reflexivity|]. cbn. destruct (lastc s) eqn:L; [discriminate|].
  destruct (is_space c); [|discriminate]. intros _. rewrite IH; [|reflexivity]. reflexivity.
Qed.
Lemma split_rstrip s : forall w, split_from (rstrip s) w = split_from s w.
Proof.
  induction s as [|c s IH]; intros w; [reflexivity|]. cbn [rstrip split_from].
  destruct (rstrip s) as [|d r] eqn:E.
  - apply rstrip_nil in E. destruct (is_space c) eqn:Sc.
    + cbn. now rewrite split_spaces.
    + cbn. rewrite Sc. now rewrite split_spaces.
  - cbn [split_from]. destruct (is_space c); [f_equal|]; apply (IH _).
Qed.

Definition names (l : string) : list string :=
  filter (fun d => negb (String.eqb d (String bslash ""))) (split l).

Lemma loop_line l ls :
  rule_loop (l :: ls) true =
  match lastc l with
  | None => rule_loop ls true
  | Some c => if Ascii.eqb c bslash then rest <- rule_loop ls true ;; Ok (names l ++ rest)
              else Ok (names l)
  end.
Proof.
  cbn [rule_loop]. unfold strip.
  assert (E := rstrip_lastc (lstrip l)). rewrite lastc_lstrip in E.
  assert (Nl := rstrip_nil (lstrip l)). rewrite lastc_lstrip in Nl.
  destruct (lastc l) as [c|].
  - destruct (String.eqb_spec (rstrip (lstrip l)) "") as [H|H]; [apply Nl in H; discriminate|].
    cbn [bind]. rewrite E. unfold split. rewrite split_rstrip. fold (split (lstrip l)). rewrite split_lstrip.
    reflexivity.
  - rewrite (proj2 Nl eq_refl). reflexivity.
Qed.

(** Lines *)
Lemma app_nil s : (s ++ "" = s)%string.
Proof. induction s as [|c s IH]; [reflexivity|]. cbn. now rewrite IH. Qed.
Lemma lines_app p s : chars (fun c => negb (is_break c)) p = true -> forall l,
  lines_from (p ++ s) l = lines_from s (l ++ p)%string.
Proof.
  induction p as [|c p IH]; intros H l.
  - cbn. f_equal. symmetry; apply app_nil.
  - cbn in *. apply andb_prop in H as [H1 H2]. destruct (is_break c); [discriminate|].
    rewrite IH by assumption. f_equal. rewrite string_app_assoc. reflexivity.
Qed.

Lemma lines_prefix a s : forall l, exists x xs, lines_from s l = x :: xs /\ lines_from s (a ++ l) = (a ++ x)%string :: xs.
Proof.
  induction s as [|c s IH]; intros l; cbn; [eauto|].
  destruct (is_break c); [eauto|]. rewrite string_app_assoc. apply IH.
Qed.

(** Words *)
Lemma flush_app w l l' : flush w l ++ l' = flush w (l ++ l').
Proof. now destruct w. Qed.
Lemma split_app p x c : is_space c = true -> forall w,
  split_from (p ++ String c x)%string w = split_from p w ++ split x.
Proof.
  intros Sc. induction p as [|d p IH]; intros w; cbn.
  - now rewrite Sc, flush_app.
  - destruct (is_space d); [|apply IH]. now rewrite IH, flush_app.
Qed.
Lemma split_word d : chars (fun c => negb (is_space c)) d = true -> forall w, split_from d w = flush (w ++ d) [].
Proof.
  induction d as [|c d IH]; intros H w; cbn; [now rewrite app_nil|]. cbn in H.
  apply andb_prop in H as [H1 H2]. destruct (is_space c); [discriminate|].
  rewrite IH by assumption. now rewrite string_app_assoc.
Qed.
Lemma chars_impl f g s : (forall c, f c = true -> g c = true) -> chars f s = true -> chars g s = true.
Proof. intros H. induction s as [|c s IH]; [easy|]. cbn. intros E. apply andb_prop in E as [E1 E2]. rewrite H, IH; auto. Qed.
Lemma chars_app f a b : chars f (a ++ b) = chars f a && chars f b.
Proof. induction a as [|c a IH]; [reflexivity|]. cbn. now rewrite IH, andb_assoc. Qed.
Lemma simple_chars d : simple d -> chars word_char d = true /\ d <> "".
Proof. intros [H1 H2]. easy. Qed.
Lemma simple_quoted d : simple d -> quoted d = d.
Proof.
  intros [_ H]. induction d as [|c d IH]; [reflexivity|]. cbn [quoted].
  cbn [chars] in H. apply andb_prop in H as [H1 H2]. rewrite IH by assumption.
  destruct (Ascii.eqb_spec c "$") as [->|_]; [discriminate|].
  destruct (Ascii.eqb_spec c " ") as [->|_]; [discriminate|].
  destruct (Ascii.eqb_spec c "#") as [->|_]; [discriminate|].
  destruct (Ascii.eqb_spec c (ascii_of_nat 9)) as [->|_]; [discriminate|]. reflexivity.
Qed.
Lemma names_nil x : is_space x = true -> forall p, names (p ++ String x "")%string = names p.
Proof. intros H p. unfold names, split. rewrite split_app by assumption. cbn. now rewrite app_nil_r. Qed.
Lemma names_word p d : simple d -> names (p ++ String " " d)%string = names p ++ [d].
Proof.
  intros D. destruct (simple_chars d D) as [C Nd]. unfold names. unfold split at 1.
  rewrite split_app by reflexivity. rewrite filter_app. f_equal.
  unfold split. rewrite split_word.
  - cbn [append]. destruct d as [|c d]; [easy|]. cbn [flush filter].
    destruct (String.eqb_spec (String c d) (String bslash "")) as [E|_]; [|reflexivity].
    injection E as -> ->. discriminate.
  - revert C. apply chars_impl. intros c H. now destruct (word_char_no c H) as [-> _].
Qed.
Lemma names_bs p : names (p ++ String " " (String bslash ""))%string = names p.
Proof. unfold names. unfold split at 1. rewrite split_app by reflexivity. rewrite filter_app. cbn. apply app_nil_r. Qed.
Lemma lastc_space p c : is_space c = true -> lastc (p ++ String c "") = lastc p.
Proof. intros H. induction p as [|d p IH]; cbn; [now rewrite H|]. now rewrite IH. Qed.
Lemma lastc_app p d : lastc d <> None -> lastc (p ++ d) = lastc d.
Proof. intros H. induction p as [|c p IH]; [reflexivity|]. cbn. rewrite IH. now destruct (lastc d). Qed.
Lemma lastc_word d : simple d -> exists c, lastc d = Some c /\ Ascii.eqb c bslash = false.
Proof.
  intros D. destruct (simple_chars d D) as [C Nd]. clear D. induction d as [|c d IH]; [easy|]. cbn [lastc].
  cbn [chars] in C. apply andb_prop in C as [C1 C2]. destruct d as [|c' d].
  - destruct (word_char_no c C1) as (Sc & _ & Bc). exists c. cbn [lastc]. rewrite Sc. auto.
  - destruct (IH C2 ltac:(discriminate)) as (e & -> & E). eauto.
Qed.

Definition no_breaks (p : string) : Prop := chars (fun c => negb (is_break c)) p = true.
Lemma layout_loop ds s : layout ds s -> Forall simple ds -> forall p,
  no_breaks p -> lastc p <> Some bslash -> (ds <> [] \/ lastc p <> None) ->
  rule_loop (lines_from s p) true = Ok (names p ++ ds).
Proof.
  induction 1 as [rest| |ds s L IH|d ds s L IH|d ds s L IH]; intros F p B Lp Hp.
  - cbn [append lines_from newline]. change (is_break (ascii_of_nat 10)) with true.
    cbn [lines_from]. rewrite loop_line. destruct Hp as [Hp|Hp]; [easy|].
    destruct (lastc p) as [c|]; [|easy]. destruct (Ascii.eqb_spec c bslash); [congruence|]. now rewrite app_nil_r.
  - cbn [lines_from]. rewrite loop_line. destruct Hp as [Hp|Hp]; [easy|].
    destruct (lastc p) as [c|]; [|easy]. destruct (Ascii.eqb_spec c bslash); [congruence|]. now rewrite app_nil_r.
  - cbn [lines_from]. change (is_break " ") with false. cbn [lines_from].
    rewrite IH; [now rewrite names_nil|assumption| | |].
    + unfold no_breaks. rewrite chars_app. now rewrite B.
    + now rewrite lastc_space.
    + now rewrite lastc_space.
  - change (continued ++ s)%string with (String " " (String bslash "") ++ String (ascii_of_nat 10) s)%string.
    rewrite lines_app by reflexivity. cbn [lines_from].
    change (is_break (ascii_of_nat 10)) with true. cbn [lines_from]. rewrite loop_line.
    rewrite lastc_app by discriminate. cbn [lastc]. change (is_space bslash) with false. cbn [lastc].
    rewrite Ascii.eqb_refl, names_bs. rewrite IH; [reflexivity|assumption|reflexivity|discriminate|].
    left. discriminate.
  - inversion F as [|? ? D F']; subst. rewrite simple_quoted by assumption.
    change (String " " (d ++ s))%string with (String " " d ++ s)%string.
    destruct (lastc_word d D) as (c & Lc & Ec). destruct (simple_chars d D) as [Cd _].
    assert (Bd : no_breaks (String " " d)).
    { unfold no_breaks. cbn. revert Cd. apply chars_impl. intros x H. now destruct (word_char_no x H) as (_ & -> & _). }
    rewrite lines_app by exact Bd.
    assert (Lw : lastc (String " " d) = Some c) by (cbn; now rewrite Lc).
    rewrite IH; [|assumption| | |].
    + rewrite names_word by assumption. now rewrite <- app_assoc.
    + unfold no_breaks. rewrite chars_app, B. exact Bd.
    + rewrite lastc_app by congruence. rewrite Lw. intros [= ->]. now rewrite Ascii.eqb_refl in Ec.
    + right. rewrite lastc_app by congruence. congruence.
Qed.

(** First lines *)
Lemma layout_empty ds s : layout ds s -> ds = [] -> exists p ls, lines s = p :: ls /\ lastc p = None.
Proof.
  unfold lines. intros L ->. 
  assert (H : forall q, lastc q = None -> exists p ls, lines_from s q = p :: ls /\ lastc p = None); [|now apply (H "")].
  remember [] as ds eqn:E. induction L as [rest| |ds s L IH|d ds s L IH|d ds s L IH]; intros q Q; try discriminate.
  - cbn [append lines_from newline]. change (is_break (ascii_of_nat 10)) with true. cbn [lines_from]. eauto.
  - cbn [lines_from]. eauto.
  - cbn [lines_from]. change (is_break " ") with false. cbn [lines_from]. apply IH; [assumption|].
    now rewrite lastc_space.
Qed.
Lemma layout_first ds s : layout ds s -> ds <> [] -> Forall simple ds -> exists p ls, lines s = p :: ls /\ lastc p <> None.
Proof.
  unfold lines. intros L Nd F.
  assert (H : forall q, exists p ls, lines_from s q = p :: ls /\ lastc p <> None); [|now apply (H "")].
  assert (K : forall x t q, lastc x <> None -> no_breaks x -> exists p ls, lines_from (x ++ t) q = p :: ls /\ lastc p <> None).
  { intros x t q Lx Bx. rewrite lines_app by exact Bx.
    destruct (lines_prefix (q ++ x) t "") as (y & ys & E & E'). rewrite app_nil in E'. rewrite E'.
    exists ((q ++ x) ++ y)%string, ys. split; [reflexivity|]. rewrite string_app_assoc.
    clear -Lx. induction q as [|c q IH]; cbn.
    - induction x as [|c x IH]; [easy|]. cbn in *. destruct (lastc (x ++ y)) eqn:E; [easy|].
      destruct (lastc x); [now destruct (IH Lx)|]. exact Lx.
    - destruct (lastc (q ++ x ++ y)); [easy|]. now destruct IH. }
  induction L as [rest| |ds s L IH|d ds s L IH|d ds s L IH]; intros q; try easy.
  - cbn [lines_from]. change (is_break " ") with false. cbn [lines_from]. now apply IH.
  - change (continued ++ s)%string with (String " " (String bslash "") ++ String (ascii_of_nat 10) s)%string.
    apply K; [discriminate|reflexivity].
  - inversion F as [|? ? D F']; subst. rewrite simple_quoted by assumption.
    change (String " " (d ++ s))%string with (String " " d ++ s)%string.
    destruct (lastc_word d D) as (c & Lc & Ec). destruct (simple_chars d D) as [Cd _]. apply K.
    + cbn. now rewrite Lc.
    + unfold no_breaks. cbn. revert Cd. apply chars_impl. intros x H. now destruct (word_char_no x H) as (_ & -> & _).
Qed.

Lemma lstrip_simple t r : simple t -> lstrip (t ++ r) = (t ++ r)%string.
Proof.
  intros D. destruct (simple_chars t D) as [C Nt]. destruct t as [|c t]; [easy|]. cbn in *.
  apply andb_prop in C as [C _]. now destruct (word_char_no c C) as [-> _].
Qed.
Lemma rstrip_app a r : lastc a <> None -> rstrip (a ++ r) = match rstrip r with "" => rstrip a | r' => (a ++ r')%string end.
Proof.
  induction a as [|c a IH]; intros L; [easy|]. cbn [append rstrip].
  destruct (lastc a) as [d|] eqn:La.
  - rewrite IH by easy. destruct (rstrip r) as [|x y]; [reflexivity|].
    destruct a as [|c' a]; [discriminate|]. reflexivity.
  - cbn in L. rewrite La in L. destruct (is_space c) eqn:Sc; [easy|].
    assert (Ra : rstrip a = "") by now apply rstrip_nil. rewrite Ra.
    assert (A : rstrip (a ++ r) = match rstrip r with "" => "" | r' => (a ++ r')%string end).
    { clear -La. induction a as [|c a IH]; cbn; [now destruct (rstrip r)|]. cbn in La.
      destruct (lastc a) eqn:E; [discriminate|]. rewrite (IH eq_refl).
      destruct (is_space c); [|discriminate]. destruct (rstrip r) as [|x y]; [reflexivity|].
      now destruct a. }
    rewrite A. destruct (rstrip r) as [|x y]; [reflexivity|].
    now destruct a.
Qed.
Lemma after_colon_app t r : no_colon t -> after_colon (t ++ String ":" r) = Some r.
Proof.
  unfold no_colon. induction t as [|c t IH]; intros H; cbn in *; [reflexivity|].
  apply andb_prop in H as [H1 H2]. destruct (Ascii.eqb c ":"); [discriminate|]. now apply IH.
Qed.

Lemma lastc_colon t : lastc (t ++ ":") = Some ":"%char.
Proof. induction t as [|c t IH]; cbn; [reflexivity|]. now rewrite IH. Qed.
Lemma strip_rule t p : simple t -> strip ((t ++ ":") ++ p) = ((t ++ ":") ++ rstrip p)%string.
Proof.
  intros T. unfold strip. rewrite string_app_assoc, lstrip_simple by assumption. rewrite <- string_app_assoc.
  rewrite rstrip_app by (rewrite lastc_colon; discriminate).
  destruct (rstrip p); [|reflexivity]. rewrite app_nil. clear T.
  induction t as [|c t IH]; [reflexivity|]. cbn [append rstrip]. rewrite IH. now destruct t.
Qed.
Lemma head_line t p ls : simple t -> no_colon t ->
  rule_loop (((t ++ ":") ++ p)%string :: ls) false =
  match lastc p with None => Ok [] | Some _ => rule_loop (p :: ls) true end.
Proof.
  intros T Nc. cbn [rule_loop]. rewrite strip_rule by assumption.
  destruct (String.eqb_spec ((t ++ ":") ++ rstrip p) "") as [E|_]; [now destruct t|].
  rewrite string_app_assoc. change (":" ++ rstrip p)%string with (String ":" (rstrip p)).
  rewrite after_colon_app by assumption. cbn [bind].
  rewrite rstrip_lastc. unfold split at 1 2. rewrite !split_rstrip. fold (split p).
  destruct (lastc p) as [c|] eqn:Lp.
  - change (if String.eqb (strip p) "" then rule_loop ls true else _) with (rule_loop (p :: ls) true).
    rewrite loop_line, Lp. reflexivity.
  - unfold split. rewrite split_spaces by assumption. reflexivity.
Qed.

Lemma read_ok target ds text : rule target ds text -> simple target -> no_colon target -> Forall simple ds ->
  parse_makefile_rule text = Ok ds.
Proof.
  intros (s & L & ->) T Nc F. unfold parse_makefile_rule, lines.
  assert (Bt : no_breaks (target ++ ":")).
  { unfold no_breaks. rewrite chars_app. destruct (simple_chars target T) as [C _].
    rewrite (chars_impl word_char _ target) with (2 := C); [reflexivity|].
    intros c H. now destruct (word_char_no c H) as (_ & -> & _). }
  rewrite <- string_app_assoc, lines_app by exact Bt. cbn [append].
  destruct (lines_prefix (target ++ ":") s "") as (x & xs & E & E'). rewrite app_nil in E'. rewrite E'.
  rewrite head_line by assumption.
  destruct ds as [|d ds].
  - destruct (layout_empty _ _ L eq_refl) as (p & ls & E2 & Lp). unfold lines in E2. rewrite E in E2.
    injection E2 as -> ->. now rewrite Lp.
  - destruct (layout_first _ _ L ltac:(discriminate) F) as (p & ls & E2 & Lp). unfold lines in E2. rewrite E in E2.
    injection E2 as -> ->. destruct (lastc p) as [c|]; [|easy].
    rewrite <- E. rewrite layout_loop with (1 := L); [reflexivity|assumption|reflexivity|discriminate|].
    left. discriminate.
Qed.

Lemma no_rule_err text l ls : lines text = l :: ls ->
  (exists c, In c (list_ascii_of_string l) /\ is_space c = false) ->
  no_colon l -> parse_makefile_rule text = Err ParseError.
Proof.
  intros E (c & Ic & Sc) Nc. unfold parse_makefile_rule. rewrite E. cbn [rule_loop].
  assert (Ls : lastc l <> None).
  { clear -Ic Sc. induction l as [|d l IH]; [easy|]. cbn in *. destruct Ic as [->|Ic].
    - rewrite Sc. destruct (lastc l); easy.
    - specialize (IH Ic). destruct (lastc l); easy. }
  unfold strip. destruct (String.eqb_spec (rstrip (lstrip l)) "") as [H|_].
  { apply rstrip_nil in H. now rewrite lastc_lstrip in H. }
  assert (H : after_colon (rstrip (lstrip l)) = None).
  { assert (A : no_colon (rstrip (lstrip l))).
    { assert (A1 : no_colon (lstrip l)).
      { clear -Nc. unfold no_colon in *. induction l as [|d l IH]; [easy|]. cbn [lstrip]. destruct (is_space d); [|exact Nc].
        apply IH. cbn in Nc. now apply andb_prop in Nc as [_ Nc]. }
      clear -A1. unfold no_colon in *. generalize (lstrip l) A1. clear. intros m. induction m as [|d m IH]; [easy|]. cbn. intros H.
      apply andb_prop in H as [H1 H2]. specialize (IH H2). destruct (rstrip m); [destruct (is_space d)|]; cbn in *; try easy.
      + now rewrite H1.
      + now rewrite H1. }
    clear -A. unfold no_colon in A. induction (rstrip (lstrip l)) as [|d m IH]; [reflexivity|]. cbn in *.
    apply andb_prop in A as [A1 A2]. destruct (Ascii.eqb d ":"); [discriminate|]. now apply IH. }
  now rewrite H.
Qed.

(** Writing *)
Lemma insert_perm x l : Permutation (insert x l) (x :: l).
Proof.
  induction l as [|y l IH]; [reflexivity|]. cbn. destruct (String.leb x y); [reflexivity|].
  rewrite IH. apply perm_swap.
Qed.
Lemma sorted_perm l : Permutation (sorted l) l.
Proof. induction l as [|x l IH]; [reflexivity|]. cbn. now rewrite insert_perm, IH. Qed.
Lemma leb_total a b : String.leb a b = false -> String.leb b a = true.
Proof. destruct (String.leb_total a b) as [H|H]; congruence. Qed.
Lemma ascii_trans a b c : Ascii.compare a b <> Gt -> Ascii.compare b c <> Gt -> Ascii.compare a c <> Gt.
Proof. unfold Ascii.compare. rewrite !N.compare_gt_iff. lia. Qed.
Lemma ascii_eq a b : Ascii.compare a b = Eq -> a = b.
Proof. apply Ascii.compare_eq_iff. Qed.
Lemma compare_trans a : forall b c, String.compare a b <> Gt -> String.compare b c <> Gt -> String.compare a c <> Gt.
Proof.
  induction a as [|x a IH]; intros [|y b] [|z c]; cbn; try easy.
  assert (T := ascii_trans x y z).
  destruct (Ascii.compare x y) eqn:E1; try easy; [apply ascii_eq in E1; subst y|].
  - destruct (Ascii.compare x z) eqn:E2; try easy. apply IH.
  - destruct (Ascii.compare y z) eqn:E2; try easy.
    + apply ascii_eq in E2. subst z. rewrite E1. easy.
    + destruct (Ascii.compare x z) eqn:E3; try easy.
      intros _ _. exfalso. apply ascii_eq in E3. subst z.
      rewrite Ascii.compare_antisym, E1 in E2. discriminate.
Qed.
Lemma leb_trans a b c : String.leb a b = true -> String.leb b c = true -> String.leb a c = true.
Proof.
  unfold String.leb. assert (T := compare_trans a b c).
  destruct (String.compare a b), (String.compare b c), (String.compare a c); try easy;
    now specialize (T ltac:(easy) ltac:(easy)).
Qed.
Lemma insert_ordered x l : ordered l -> ordered (insert x l).
Proof.
  unfold ordered. induction 1 as [|y l S IH F]; cbn; [repeat constructor|].
  destruct (String.leb x y) eqn:E.
  - constructor; [now constructor|]. constructor; [assumption|].
    eapply Forall_impl; [|exact F]. intros z Hz. cbn in Hz. now apply leb_trans with y.
  - constructor; [assumption|]. rewrite insert_perm. constructor; [now apply leb_total|assumption].
Qed.
Lemma sorted_ordered l : ordered (sorted l).
Proof. induction l as [|x l IH]; [constructor|]. now apply insert_ordered. Qed.

Lemma join_layout l : l <> [] -> Forall simple l -> layout l (cont ++ join l ++ newline).
Proof.
  induction l as [|d l IH]; intros Nl F; [easy|]. inversion F as [|? ? D F']; subst.
  assert (S : join (d :: l) = match l with [] => d | _ => (d ++ cont ++ join l)%string end) by now destruct l.
  rewrite S. clear S.
  assert (K : forall s, layout l s -> layout (d :: l) (cont ++ d ++ s)).
  { intros s Ls. change (cont ++ d ++ s)%string with (continued ++ String " " (String " " (d ++ s)))%string.
    apply l_continued, l_blank. rewrite <- (simple_quoted d D) at 2. now apply l_name. }
  destruct l as [|e l]; [apply K, (l_end "")|].
  rewrite !string_app_assoc. apply K, IH; [discriminate|assumption].
Qed.
Lemma write_ok name read : read <> [] -> Forall simple read ->
  exists ds, Permutation ds read /\ ordered ds /\ rule name ds (write_rule name read).
Proof.
  intros Nr F. exists (sorted read). split; [apply sorted_perm|]. split; [apply sorted_ordered|].
  exists (cont ++ join (sorted read) ++ newline)%string. split; [|reflexivity].
  apply join_layout.
  - intros E. apply Nr. apply Permutation_nil. rewrite <- E. apply sorted_perm.
  - now rewrite sorted_perm.
Qed.
Lemma write_read name read : read <> [] -> Forall simple read -> simple name -> no_colon name ->
  exists ds, parse_makefile_rule (write_rule name read) = Ok ds /\ Permutation ds read.
Proof.
  intros Nr F Hn Hc. destruct (write_ok name read Nr F) as (ds & P & _ & R). exists ds. split; [|assumption].
  apply (read_ok _ _ _ R); try assumption. now rewrite P.
Qed.
Lemma dependencies_ok filename target ds text : rule target ds text -> simple target -> no_colon target ->
  Forall simple ds ->
  exists read, dependencies filename text = Ok read /\ NoDup read /\
    forall f, In f read <-> f = filename \/ In f ds.
Proof.
  intros R T C F. unfold dependencies. rewrite (read_ok _ _ _ R T C F). cbn [bind].
  eexists. split; [reflexivity|]. split; [apply NoDup_nodup|].
  intros f. rewrite nodup_In. cbn [In]. intuition congruence.
Qed.

Lemma escape_wrong :
  (exists text, rule "t" ["a b"] text /\ parse_makefile_rule text = Ok ["a\"; "b"]) /\
  (exists text, rule "t" ["a$b"] text /\ parse_makefile_rule text = Ok ["a$$b"]) /\
  (exists text, rule "t" ["a#b"] text /\ parse_makefile_rule text = Ok ["a\#b"]).
Proof.
  split; [|split].
  - exists ("t:" ++ String " " (quoted "a b" ++ newline ++ ""))%string. split; [|vm_compute; reflexivity].
    eexists. split; [apply l_name, (l_end "")|reflexivity].
  - exists ("t:" ++ String " " (quoted "a$b" ++ newline ++ ""))%string. split; [|vm_compute; reflexivity].
    eexists. split; [apply l_name, (l_end "")|reflexivity].
  - exists ("t:" ++ String " " (quoted "a#b" ++ newline ++ ""))%string. split; [|vm_compute; reflexivity].
    eexists. split; [apply l_name, (l_end "")|reflexivity].
Qed.
Lemma colon_wrong : exists text, rule "/tmp/a:b/out" ["x"] text /\ parse_makefile_rule text = Ok ["b/out:"; "x"].
Proof.
  exists ("/tmp/a:b/out:" ++ String " " (quoted "x" ++ newline ++ ""))%string. split; [|vm_compute; reflexivity].
  eexists. split; [apply l_name, (l_end "")|reflexivity].
Qed.
Lemma write_wrong : rule "t" ["a"; "b"] (write_rule "t" ["a b"]).
Proof.
  eexists. split; [|vm_compute; reflexivity].
  change (layout ["a"; "b"] (continued ++ String " " (String " " (quoted "a" ++ String " " (quoted "b" ++ newline ++ "")))))%string.
  apply l_continued, l_blank, l_name, l_name, l_end.
Qed.
Lemma control_break c : implb (is_break c) (negb (Nat.leb 32 (nat_of_ascii c))) = true.
Proof.
  apply (forall_ascii (fun c => implb (is_break c) (negb (Nat.leb 32 (nat_of_ascii c))))).
  intros [] [] [] [] [] [] [] []; reflexivity.
Qed.
Lemma printable_space c : implb (Nat.leb 32 (nat_of_ascii c) && negb (Ascii.eqb " " c)) (negb (is_space c)) = true.
Proof.
  apply (forall_ascii (fun c => implb (Nat.leb 32 (nat_of_ascii c) && negb (Ascii.eqb " " c)) (negb (is_space c)))).
  intros [] [] [] [] [] [] [] []; reflexivity.
Qed.
Lemma refused_ok l rest : printable l -> nonblank l -> no_colon l ->
  parse_makefile_rule (l ++ newline ++ rest) = Err ParseError.
Proof.
  unfold printable, nonblank. intros P B C. apply (no_rule_err _ l (lines rest)); [| |assumption].
  - unfold lines. rewrite lines_app; [reflexivity|]. revert P. apply chars_impl.
    intros c H. assert (K := control_break c). rewrite H in K. destruct (is_break c); [discriminate|reflexivity].
  - clear C. induction l as [|c l IH]; [discriminate|].
    cbn [chars] in P, B. apply andb_prop in P as [P1 P2].
    destruct (Ascii.eqb " " c) eqn:E.
    + destruct (IH P2 B) as (d & D1 & D2). exists d. split; [now right|assumption].
    + exists c. split; [now left|]. assert (K := printable_space c). rewrite P1, E in K. cbn in K.
      now destruct (is_space c).
Qed.
