(** Proofs about Isabelle identifiers. *)
From Coq Require Import ssreflect ssrbool String Ascii List Bool Arith NArith Lia.
From Verif Require Import Prelude DecStr Isabelle_Model Isabelle_Spec.
Import ListNotations.
Open Scope string_scope.
Open Scope list_scope.

Definition name_char (c : ascii) : bool := word_char c || Ascii.eqb c ".".

Lemma all_chars_impl (f g : ascii -> bool) s : (forall c, f c = true -> g c = true) ->
  all_chars f s = true -> all_chars g s = true.
Proof. move=> H. elim: s => [|c s IH] //= /andP [F A]. by rewrite (H _ F) (IH A). Qed.

Lemma word_name c : word_char c = true -> name_char c = true.
Proof. by rewrite /name_char => ->. Qed.
Lemma identifier_chars s : identifier s = true -> all_chars word_char s = true.
Proof. case: s => [|c s] //= /andP [/andP [-> _] ->]. by []. Qed.
Lemma start_chars s : identifier s = true -> exists c r, s = String c r /\ word_start c = true.
Proof. case: s => [|c r] //= /andP [W _]. by exists c, r. Qed.

Lemma hierarchical_chars s : hierarchical s -> all_chars name_char s = true /\
  exists c r, s = String c r /\ word_start c = true.
Proof.
  move=> [i [l [Hi [Hl ->]]]].
  have : all_chars name_char i = true /\ exists c r, i = String c r /\ word_start c = true.
  { split; last exact: start_chars.
    apply: (all_chars_impl word_char); [exact: word_name|exact: identifier_chars]. }
  elim: l i {Hi} Hl => [|x l IH] i Hl //= [A [c [r [E W]]]].
  inversion Hl as [|? ? Hx Hl']; subst. apply: IH => //. split.
  - rewrite !all_chars_app A /=. apply: (all_chars_impl word_char); [exact: word_name|exact: identifier_chars].
  - by exists c, (r ++ "." ++ x)%string.
Qed.

Lemma start_pattern c r : word_start c = true -> ident_pattern (String c r) = true.
Proof.
  rewrite /= /word_start /word_char /is_letter /is_digit.
  case: (Ascii.eqb_spec c "_") => [|N H]; first by rewrite orb_true_r.
  have E : (N_of_ascii c =? 95)%N = false.
  { apply/N.eqb_neq => E. apply: N. rewrite -(ascii_N_embedding c) E. by []. }
  rewrite E orb_false_r in H. rewrite orb_false_r.
  by move: H; do 6 case: N.leb.
Qed.
Lemma accepted n : hierarchical n -> exists i, isabelle_ident n = Ok i.
Proof.
  move=> H. have [_ [c [r [-> W]]]] := hierarchical_chars _ H.
  rewrite /isabelle_ident start_pattern //. by eexists.
Qed.

Lemma replace_inj a b : all_chars name_char a = true -> all_chars name_char b = true ->
  replace "." "'" a = replace "." "'" b -> a = b.
Proof.
  elim: a b => [|c a IH] [|d b] //= /andP [Hc Ha] /andP [Hd Hb] [E1 E2].
  rewrite (IH b) //. f_equal. move: E1.
  case: (Ascii.eqb_spec c ".") => C; case: (Ascii.eqb_spec d ".") => D //= E; subst => //.
Qed.
Lemma ident_inj a b i : hierarchical a -> hierarchical b ->
  isabelle_ident a = Ok i -> isabelle_ident b = Ok i -> a = b.
Proof.
  move=> /hierarchical_chars [Ha _] /hierarchical_chars [Hb _]. rewrite /isabelle_ident.
  case: ident_pattern => //. move=> [<-]. case: ident_pattern => //. move=> [E].
  by apply: replace_inj.
Qed.

Lemma replace_chars s : all_chars name_char s = true ->
  all_chars isabelle_char (replace "." "'" s) = true.
Proof.
  elim: s => [|c s IH] //= /andP [Hc Hs]. rewrite (IH Hs) andb_true_r.
  move: Hc. rewrite /name_char /isabelle_char. case: Ascii.eqb_spec => [->|] //.
  by rewrite orb_false_r => _ ->.
Qed.

Lemma kind_letters k : In k named_kinds -> all_chars (fun c => negb (Ascii.eqb c "_")) k = true /\
  exists c r, k = String c r /\ letter c = true /\ all_chars word_char k = true.
Proof.
  move=> H. repeat (case: H => [<-|H]; [split; [done|by do 2 eexists]|]). by case: H.
Qed.

Lemma first_sep (c : ascii) (f : ascii -> bool) a b a' b' :
  f c = false -> all_chars f a = true -> all_chars f a' = true ->
  (a ++ String c b = a' ++ String c b')%string -> a = a' /\ b = b'.
Proof.
  move=> F. elim: a a' => [|x a IH] [|x' a'] /=.
  - by move=> _ _ [].
  - move=> _ /andP [X _] [E _]. subst x'. by rewrite F in X.
  - move=> /andP [X _] _ [E _]. subst x. by rewrite F in X.
  - move=> /andP [_ A] /andP [_ A'] [-> E]. by have [-> ->] := IH _ A A' E.
Qed.

Lemma adl_inj k1 k2 a b i : In k1 named_kinds -> In k2 named_kinds -> hierarchical a -> hierarchical b ->
  isabelle_adl_ident k1 a = Ok i -> isabelle_adl_ident k2 b = Ok i -> k1 = k2 /\ a = b.
Proof.
  move=> /kind_letters [K1 _] /kind_letters [K2 _] Ha Hb. rewrite /isabelle_adl_ident.
  have [x Ex] := accepted _ Ha. have [y Ey] := accepted _ Hb. rewrite Ex Ey /=.
  move=> [<-] [E].
  have [-> [E2]] := first_sep "_" (fun c => negb (Ascii.eqb c "_")) k2 _ k1 _ eq_refl K2 K1 E.
  subst y. split=> //. by apply: (ident_inj a b x).
Qed.

(** The identifiers are made of characters that Isabelle allows and start with a letter. *)
Lemma adl_valid k a : In k named_kinds -> hierarchical a ->
  exists c r, isabelle_adl_ident k a = Ok (String c r) /\ letter c = true /\
    all_chars isabelle_char (String c r) = true.
Proof.
  move=> /kind_letters [_ [c [r [E [L W]]]]] Ha. have [x Ex] := accepted _ Ha.
  rewrite /isabelle_adl_ident Ex. subst k. exists c, (r ++ "__" ++ x)%string. split=> //.
  split=> //. change (String c (r ++ "__" ++ x)) with (String c r ++ ("__" ++ x))%string.
  rewrite !all_chars_app.
  have -> : all_chars isabelle_char (String c r) = true.
  { apply: (all_chars_impl word_char) => // ?. by rewrite /isabelle_char => ->. }
  rewrite /isabelle_ident in Ex. case: ident_pattern Ex => //. move=> [<-].
  rewrite replace_chars //. exact: (proj1 (hierarchical_chars _ Ha)).
Qed.

(** * Dataports *)
Lemma identifier_hierarchical s : identifier s = true -> hierarchical s.
Proof. move=> H. exists s, []. by split. Qed.
Lemma sub_identifier s : all_chars word_char s = true -> sub_parens s = s.
Proof.
  elim: s => [|c s IH] //= /andP [W A]. rewrite (IH A). case: Ascii.eqb_spec => // E. by subst c.
Qed.
Lemma digit_word c : is_digit c = true -> word_char c = true.
Proof. rewrite /is_digit /word_char => ->. by rewrite !orb_true_r. Qed.
Lemma last_close_end s : all_chars is_digit s = true -> last_close (s ++ ")") = Some (s, "").
Proof. by elim: s => [|c s IH] //= /andP [_ /IH ->]. Qed.
Lemma string_app_nil (s : string) : (s ++ "" = s)%string.
Proof. by elim: s => [|c s IH] //=; rewrite IH. Qed.
Lemma sub_sized n : sub_parens (sized_buffer n) = ("Buf_" ++ dec n)%string.
Proof. by rewrite /sized_buffer /= last_close_end ?dec_digits //= string_app_nil. Qed.
Lemma sub_is_identifier s : dataport_type s -> identifier (sub_parens s) = true.
Proof.
  move=> [H|[n ->]]; first by rewrite sub_identifier //; apply: identifier_chars.
  rewrite sub_sized /=. apply: (all_chars_impl is_digit); [exact: digit_word|exact: dec_digits].
Qed.
Lemma dataport_inj a b i : dataport_type a -> dataport_type b ->
  isabelle_dataport a = Ok i -> isabelle_dataport b = Ok i ->
  a = b \/ exists n, (a = sized_buffer n /\ b = "Buf_" ++ dec n \/
                      b = sized_buffer n /\ a = "Buf_" ++ dec n)%string.
Proof.
  move=> Ha Hb. rewrite /isabelle_dataport => Ea Eb.
  have K : In "dataport" named_kinds by do 6 right; left.
  have [_ E] := adl_inj "dataport" "dataport" _ _ i K K (identifier_hierarchical _ (sub_is_identifier _ Ha))
    (identifier_hierarchical _ (sub_is_identifier _ Hb)) Ea Eb.
  case: Ha Hb => [Ia|[n En]] [Ib|[m Em]].
  - left. by rewrite -(sub_identifier _ (identifier_chars _ Ia)) -(sub_identifier _ (identifier_chars _ Ib)).
  - right. exists m. right. split=> //. rewrite Em sub_sized in E.
    by rewrite -E sub_identifier //; apply: identifier_chars.
  - right. exists n. left. split=> //. rewrite En sub_sized in E.
    by rewrite E sub_identifier //; apply: identifier_chars.
  - left. rewrite En Em !sub_sized in E. move: E => [/dec_inj E]. by rewrite En Em E.
Qed.
Lemma dataport_clash : exists a b i, dataport_type a /\ dataport_type b /\ a <> b /\
  isabelle_dataport a = Ok i /\ isabelle_dataport b = Ok i.
Proof.
  exists (sized_buffer 4096), "Buf_4096", "dataport__Buf_4096".
  split; first by right; exists 4096%N. split; first by left. by [].
Qed.
Lemma pattern_lax : exists i, isabelle_ident "a b!" = Ok i /\ all_chars isabelle_char i = false.
Proof. by exists "a b!". Qed.

Lemma is_letter_spec c : is_letter c = true <-> In c letters.
Proof.
  have -> : is_letter c = existsb (Ascii.eqb c) letters by case: c => [[] [] [] [] [] [] [] []].
  rewrite existsb_exists. split.
  - move=> [x [I E]]. apply Ascii.eqb_eq in E. by subst.
  - move=> I. exists c. split=> //. exact: Ascii.eqb_refl.
Qed.
Lemma start_iff n : (exists i, isabelle_ident n = Ok i) <->
  exists c r, n = String c r /\ (c = "_"%char \/ In c letters).
Proof.
  rewrite /isabelle_ident. case: n => [|c r] /=.
  - split; [by case|by move=> [c [r []]]].
  - split.
    + case E: (_ || _); last by case. move=> _. exists c, r. split=> //.
      apply orb_prop in E. case: E => [/is_letter_spec|/Ascii.eqb_eq]; by [right|left].
    + move=> [c' [r' [E H]]]. case: E => E1 E2. subst c' r'. case: H => [->|/is_letter_spec ->]; [rewrite orb_true_r|]; by eexists.
Qed.
Lemma dots n i : isabelle_ident n = Ok i -> String.length i = String.length n /\
  forall k c, String.get k n = Some c -> String.get k i = Some (if Ascii.eqb c "." then "'"%char else c).
Proof.
  rewrite /isabelle_ident. case: ident_pattern => // [[<-]]. elim: n => [|c n [L G]] //=.
  split; first by rewrite L. move=> [|k] d; first by move=> [<-]. exact: G.
Qed.
Lemma last_close_none s : ~ In ")"%char (list_ascii_of_string s) -> last_close s = None.
Proof.
  elim: s => [|c s IH] //= N. rewrite IH; first by move=> I; apply: N; right.
  case: (Ascii.eqb_spec c ")") => // E. case: N. by left.
Qed.
Lemma last_close_some b c : ~ In ")"%char (list_ascii_of_string c) ->
  last_close (b ++ ")" ++ c)%string = Some (b, c).
Proof. move=> N. elim: b => [|d b IH] /=; [by rewrite last_close_none|by rewrite IH]. Qed.
Lemma sub_parens_app a s : ~ In "("%char (list_ascii_of_string a) ->
  sub_parens (a ++ s)%string = (a ++ sub_parens s)%string.
Proof.
  elim: a => [|c a IH] //= N. case: (Ascii.eqb_spec c "(") => E; first by case: N; left.
  by rewrite IH // => I; apply: N; right.
Qed.
Lemma parentheses a b c : ~ In "("%char (list_ascii_of_string a) -> ~ In ")"%char (list_ascii_of_string c) ->
  isabelle_dataport (a ++ "(" ++ b ++ ")" ++ c)%string = isabelle_adl_ident "dataport" (a ++ "_" ++ b ++ c)%string.
Proof.
  move=> Na Nc. rewrite /isabelle_dataport sub_parens_app //. cbn -[last_close isabelle_adl_ident].
  by rewrite last_close_some.
Qed.
Lemma no_parentheses a b : ~ In "("%char (list_ascii_of_string a) -> ~ In ")"%char (list_ascii_of_string b) ->
  isabelle_dataport (a ++ b)%string = isabelle_adl_ident "dataport" (a ++ b)%string.
Proof.
  move=> Na Nb. rewrite /isabelle_dataport sub_parens_app //. do 2 f_equal.
  elim: b Nb => [|c b IH] //= N. have N' : ~ In ")"%char (list_ascii_of_string b) by move=> I; apply: N; right.
  rewrite IH // last_close_none //. by case: Ascii.eqb.
Qed.
