(** Proofs about locations. *)
From Coq Require Import ssreflect ssrbool.
From Coq Require Import List Bool String Ascii NArith Lia.
From Verif Require Import Prelude Location_Model Location_Spec.
Import ListNotations.
Open Scope string_scope.
Open Scope list_scope.

Lemma sapp_assoc (a b c : string) : ((a ++ b) ++ c = a ++ (b ++ c))%string.
Proof. elim: a => [|x a IH] //=. by rewrite IH. Qed.

Lemma span_spec p s a b : span p s = (a, b) ->
  s = (a ++ b)%string /\ every p a /\
  (forall c r, b = String c r -> p c = false).
Proof.
  elim: s a b => [|c s IH] a b /=; first by move=> [<- <-].
  case Hp: (p c).
  - case Es: (span p s) => [x y] [<- <-]. have [-> [H1 H2]] := IH _ _ Es.
    by repeat split.
  - move=> [<- <-]. repeat split. by move=> ? ? [<- _].
Qed.
Lemma span_app p a b : every p a ->
  (forall c r, b = String c r -> p c = false) ->
  span p (a ++ b)%string = (a, b).
Proof.
  elim: a => [|c a IH] /=.
  - move=> _. case: b => [|c r] H //=. by rewrite (H _ _ eq_refl).
  - move=> [-> Ha] Hb. by rewrite (IH Ha Hb).
Qed.

Lemma int_of_value ds acc :
  int_of acc ds = (acc * 10 ^ N.of_nat (String.length ds) + value ds)%N.
Proof.
  elim: ds acc => [|c ds IH] acc; first by cbn; lia.
  cbn [int_of value String.length]. rewrite IH Nnat.Nat2N.inj_succ N.pow_succ_r'.
  lia.
Qed.

(** ** Character classes *)
Lemma whiteE c : white c = is_space c.
Proof. by case: c => [[] [] [] [] [] [] [] []]. Qed.
Lemma digitE c : digit c = is_digit c.
Proof. by case: c => [[] [] [] [] [] [] [] []]. Qed.
Lemma every_ext p q s : (forall c, p c = q c) -> every p s <-> every q s.
Proof. move=> H. elim: s => [|c s IH] //=. by rewrite H IH. Qed.
Definition names0 (s f : string) : Prop :=
  exists w t, s = (w ++ String quote (f ++ String quote t))%string /\
    w <> "" /\ every is_space w /\ every not_quote f.
Definition marker0 (line : string) (n : N) (file : option string) : Prop :=
  exists w1 w2 kw w3 ds rest,
    line = (w1 ++ "#" ++ w2 ++ kw ++ w3 ++ ds ++ rest)%string /\
    every is_space w1 /\ every is_space w2 /\ every is_space w3 /\
    (kw = "" \/ kw = "line") /\
    ds <> "" /\ every is_digit ds /\ n = value ds /\
    (forall c r, rest = String c r -> is_digit c = false) /\
    match file with
    | Some f => names0 rest f
    | None => forall f, ~ names0 rest f
    end.
Lemma namesE s f : names s f <-> names0 s f.
Proof.
  split; move=> [w [t [E [N [W Q]]]]]; exists w, t; split=> //; split=> //;
    split=> //; move: W; apply every_ext => c; by rewrite whiteE.
Qed.
Lemma markerE line n f : marker line n f <-> marker0 line n f.
Proof.
  split; move=> [w1 [w2 [kw [w3 [ds [rest [E [H1 [H2 [H3 [Hk [Hn [Hd [Hv
    [Hr Hf]]]]]]]]]]]]]]]; exists w1, w2, kw, w3, ds, rest; split=> //.
  - rewrite -!(every_ext white is_space _ whiteE)
      -(every_ext digit is_digit _ digitE).
    do 7 split=> //. split; [move=> c r /Hr; by rewrite digitE|].
    case: f Hf => [f|] Hf; [by apply namesE|]. move=> f /namesE. exact: Hf.
  - rewrite !(every_ext white is_space _ whiteE)
      (every_ext digit is_digit _ digitE).
    do 7 split=> //. split; [move=> c r /Hr; by rewrite digitE|].
    case: f Hf => [f|] Hf; [by apply namesE|]. move=> f /namesE. exact: Hf.
Qed.

(** ** The filename group *)
Lemma space_not_quote c : is_space c = true -> Ascii.eqb c quote = false.
Proof. case: c => [[] [] [] [] [] [] [] []]; by cbn. Qed.
Lemma filename_names s f : filename_group s = Some f <-> names0 s f.
Proof.
  rewrite /filename_group /names0. split.
  - case E: (span is_space s) => [w r]. have [-> [Hw _]] := span_spec _ _ _ _ E.
    case: w E Hw => // c0 w0 E Hw. case: r E => // c r E.
    case Hq: (Ascii.eqb c quote) => //.
    case Et: (span _ r) => [g t]. have [-> [Hg Ht]] := span_spec _ _ _ _ Et.
    case: t Et Ht => // c1 t Et Ht [<-].
    move/Ascii.eqb_eq: Hq => ->.
    have := Ht _ _ eq_refl => /=. case Hc1: (Ascii.eqb c1 quote) => // _.
    move/Ascii.eqb_eq: Hc1 => ->.
    exists (String c0 w0), t. by do 3 (split; [done|]).
  - move=> [w [t [-> [Hne [Hw Hf]]]]].
    rewrite (span_app is_space w) //; first by move=> ? ? [<- _].
    case: w Hne Hw => // c0 w0 _ _.
    rewrite Ascii.eqb_refl (span_app _ f) //. by move=> ? ? [<- _].
Qed.

(** ** The directive *)
Lemma digit_not_space c : is_digit c = true -> is_space c = false.
Proof. case: c => [[] [] [] [] [] [] [] []]; by cbn. Qed.

Lemma skip_line_spec s : exists kw, s = (kw ++ skip_line s)%string /\
  (kw = "" \/ kw = "line").
Proof.
  rewrite /skip_line.
  repeat match goal with
  | |- context [match ?x with _ => _ end] => is_var x; destruct x
  end; try (by exists ""; split; [done|left]).
  exists "line". by split; [|right].
Qed.

Lemma every_app p a b : every p (a ++ b)%string <-> every p a /\ every p b.
Proof. elim: a => [|c a IH] /=; tauto. Qed.

Lemma directive_marker line n f :
  line_directive line = Some (n, f) <-> marker line n f.
Proof.
  rewrite markerE /line_directive. split.
  - case E1: (span is_space line) => [w1 s1].
    have [-> [H1 _]] := span_spec _ _ _ _ E1.
    have Hash : s1 = "" \/ exists c s, s1 = String c s.
    { case: (s1) => [|c s]; [by left|right; by exists c, s]. }
    case: Hash => [->//|[c [s ?]]]. subst s1.
    case Hc: (Ascii.eqb c "#"); last first.
    { by move: Hc {E1}; case: c => [[] [] [] [] [] [] [] []]. }
    move/Ascii.eqb_eq: Hc => ?; subst c.
    case E2: (span is_space s) => [w2 s2].
    have [-> [H2 _]] := span_spec _ _ _ _ E2.
    have [kw [Hk Hkw]] := skip_line_spec s2.
    case E3: (span is_space (skip_line s2)) => [w3 s3].
    have [Hs3 [H3 _]] := span_spec _ _ _ _ E3.
    case E4: (span is_digit s3) => [ds s4].
    have [H4 [Hd Hnd]] := span_spec _ _ _ _ E4.
    case: ds E4 H4 Hd => // c0 ds0 E4 H4 Hd. move=> [<- Hf].
    exists w1, w2, kw, w3, (String c0 ds0), s4.
    rewrite {1}Hk Hs3 H4. split; [done|]. do 4 (split; [done|]).
    split; [done|]. split; [done|]. split.
    { rewrite int_of_value. by cbn [value]. }
    split; [done|].
    case: f Hf => [f|] Hf; first by apply filename_names.
    move=> g /filename_names. by rewrite Hf.
  - move=> [w1 [w2 [kw [w3 [ds [rest [-> [H1 [H2 [H3 [Hkw [Hne [Hd [-> [Hr Hf]]]]]]]]]]]]]]].
    rewrite (span_app is_space w1) //; first by move=> ? ? [<- _].
    case: ds Hne Hd => // c0 ds _ Hd.
    have Hdig : is_digit c0 = true by case: Hd.
    cbn [String.append].
    have Hskip : exists w w', (w2 ++ kw ++ w3 ++ String c0 ds ++ rest =
        w ++ w')%string /\ span is_space
          (w2 ++ kw ++ w3 ++ String c0 ds ++ rest)%string = (w, w') /\
        exists w3', skip_line w' = (w3' ++ String c0 ds ++ rest)%string /\
          every is_space w3'.
    { case: Hkw => ->.
      - exists (w2 ++ w3)%string, (String c0 ds ++ rest)%string.
        cbn [String.append].
        rewrite -sapp_assoc. split; [done|]. split.
        + apply: span_app; first by apply every_app.
          move=> ? ? [<- _]. by apply digit_not_space.
        + exists "". split; [|done].
          move: Hdig {Hd}; case: c0 => [[] [] [] [] [] [] [] []] //.
      - exists w2, ("line" ++ w3 ++ String c0 ds ++ rest)%string.
        split; [done|]. split.
        + apply: span_app => //. by move=> ? ? [<- _].
        + by exists w3. }
    case: Hskip => [w [w' [_ [-> [w3' [-> Hw3]]]]]].
    rewrite (span_app is_space w3') //.
    { move=> ? ? [<- _]. by apply digit_not_space. }
    rewrite (span_app is_digit (String c0 ds)) //.
    congr (Some (_, _)).
    { rewrite int_of_value. by cbn [value]. }
    case: f Hf => [f|] Hf; first by apply filename_names.
    case E: (filename_group rest) => [g|] //.
    apply filename_names in E. by case: (Hf g).
Qed.

Lemma directive_none line : line_directive line = None <-> ~ is_marker line.
Proof.
  split.
  - move=> H [n [f /directive_marker]]. by rewrite H.
  - case E: (line_directive line) => [[n f]|] // H. case: H. exists n, f.
    by apply directive_marker.
Qed.

(** ** Lines *)
Lemma split_nonempty s : split_lines s <> [].
Proof.
  case: s => [|c s] //=. case: Ascii.eqb => //. by case: split_lines.
Qed.
Lemma split_cons l s : every not_newline l ->
  split_lines (l ++ String newline s)%string = l :: split_lines s.
Proof.
  elim: l => [|c l IH] //= [Hc Hl]. move: Hc. rewrite /not_newline.
  case: Ascii.eqb => // _. by rewrite (IH Hl).
Qed.
Lemma split_one l : every not_newline l -> split_lines l = [l].
Proof.
  elim: l => [|c l IH] //= [Hc Hl]. move: Hc. rewrite /not_newline.
  case: Ascii.eqb => // _. by rewrite (IH Hl).
Qed.
Lemma split_unlines ls : ls <> [] -> Forall (every not_newline) ls ->
  split_lines (unlines ls) = ls.
Proof.
  elim: ls => // l [|l2 ls] IH _ H; inversion H as [|? ? Hl Hls]; subst.
  - exact: split_one.
  - change (unlines (l :: l2 :: ls))
      with (l ++ String newline (unlines (l2 :: ls)))%string.
    rewrite split_cons //. by rewrite IH.
Qed.

(** ** The scan *)
Definition line_from (start : N) (lines : list string) (k : nat) (n : N) :=
  (n = (start + N.of_nat k)%N /\
   forall i l, i < k -> nth_error lines i = Some l -> ~ is_marker l)
  \/
  (exists j l m f, j < k /\ nth_error lines j = Some l /\ marker l m f /\
   (forall i l, j < i -> i < k -> nth_error lines i = Some l ->
      ~ is_marker l) /\
   n = (m + N.of_nat (k - j - 1))%N).

Lemma line_cons start l lines k n m :
  line_from m lines k n ->
  match line_directive l with Some (d, _) => m = d | None => m = (start + 1)%N end ->
  line_from start (l :: lines) (S k) n.
Proof.
  case=> [[-> Hno]|[j [l' [d [f [Hj [Hl [Hm [Hno ->]]]]]]]]] H.
  - case E: (line_directive l) H => [[d f]|] H; subst m.
    + right. exists 0, l, d, f. split; [lia|]. split; [done|].
      split; [by apply directive_marker|]. split.
      * move=> [|i] l' //; first by lia. move=> _ Hi /= Hn. apply: (Hno i) => //. lia.
      * f_equal. lia.
    + left. split; first by lia.
      move=> [|i] l' Hi /=; first by move=> [<-]; apply directive_none.
      apply: Hno. lia.
  - right. exists (S j), l', d, f. split; [lia|]. do 2 (split; [done|]).
    split; last by f_equal; lia.
    move=> [|i] l2 //= H1 H2; first by lia. apply: Hno; lia.
Qed.

Lemma file_cons start l lines k f :
  file_name (match line_directive l with
             | Some (_, Some g) => Some g | _ => start end) lines k f ->
  file_name start (l :: lines) (S k) f.
Proof.
  case=> [[-> Hno]|[j [l' [m [g [Hj [Hl [Hm [-> Hno]]]]]]]]].
  - case E: (line_directive l) => [[d [g|]]|].
    + right. exists 0, l, d, g. split; [lia|]. split; [done|].
      split; [by apply directive_marker|]. split; [done|].
      move=> [|i] l' //=; first by lia. move=> _ Hi. apply: Hno. lia.
    + left. split; [done|]. move=> [|i] l' Hi /=; last by apply: Hno; lia.
      move=> [<-] [n [g /directive_marker]]. by rewrite E.
    + left. split; [done|]. move=> [|i] l' Hi /=; last by apply: Hno; lia.
      move=> [<-] [n [g /directive_marker]]. by rewrite E.
  - right. exists (S j), l', m, g. split; [lia|]. do 3 (split; [done|]).
    move=> [|i] l2 //= H1 H2; first by lia. apply: Hno; lia.
Qed.

Lemma scan_spec lines k i file n : k < List.length lines ->
  exists f m, scan (i + N.of_nat k + 1) i file n lines = Ok (f, m) /\
    file_name file lines k f /\ line_from n lines k m.
Proof.
  elim: lines k i file n => [|l lines IH] k i file n /=; first by lia.
  case: k => [|k] Hk.
  - have -> : (i + 1 =? i + N.of_nat 0 + 1)%N = true by apply/N.eqb_eq; lia.
    exists file, n. split; [done|]. split; left; (split; [|by move=> ? ? ?; lia]).
    + done.
    + lia.
  - have -> : (i + 1 =? i + N.of_nat (S k) + 1)%N = false by apply/N.eqb_neq; lia.
    have Ht : (i + N.of_nat (S k) + 1 = i + 1 + N.of_nat k + 1)%N by lia.
    have Hk' : k < List.length lines by lia.
    rewrite Ht. case E: (line_directive l) => [[d [g|]]|].
    + have [f [m [H1 [H2 H3]]]] := IH k (i + 1)%N (Some g) d Hk'.
      exists f, m. split; [done|]. split.
      * apply: file_cons. by rewrite E.
      * apply: line_cons H3 _. by rewrite E.
    + have [f [m [H1 [H2 H3]]]] := IH k (i + 1)%N file d Hk'.
      exists f, m. split; [done|]. split.
      * apply: file_cons. by rewrite E.
      * apply: line_cons H3 _. by rewrite E.
    + have [f [m [H1 [H2 H3]]]] := IH k (i + 1)%N file (n + 1)%N Hk'.
      exists f, m. split; [done|]. split.
      * apply: file_cons. by rewrite E.
      * apply: line_cons H3 _. by rewrite E.
Qed.

Lemma scan_outside lines t i file n :
  (t < i + 1 \/ i + N.of_nat (List.length lines) < t)%N ->
  scan t i file n lines = Err AssertionError.
Proof.
  elim: lines i file n => [|l lines IH] i file n //= H.
  have -> : (i + 1 =? t)%N = false by apply/N.eqb_neq; lia.
  by case: line_directive => [[d [g|]]|]; apply: IH; lia.
Qed.

(** ** The statements *)
Lemma located start lines k t : lines <> [] ->
  Forall (every not_newline) lines -> k < List.length lines ->
  t_line t = Some (N.of_nat k + 1)%N ->
  exists f n,
    snd (get (new_location start t (Some (unlines lines))) Filename) =
      Ok (Name f) /\
    snd (get (new_location start t (Some (unlines lines))) Lineno) =
      Ok (Number (Some n)) /\
    file_name start lines k f /\ line_number lines k n.
Proof.
  move=> Hne Hl Hk Ht.
  have [f [m [H1 [H2 H3]]]] := scan_spec lines k 0 start 1 Hk.
  exists f, m. rewrite /get /locate /= Ht split_unlines //.
  rewrite N.add_0_l in H1. rewrite H1 /=. split; [done|]. split; [done|].
  split; [done|]. case: H3 => [[-> H]|H]; [left|by right].
  split=> //. lia.
Qed.

Lemma split_count s : N.of_nat (List.length (split_lines s)) =
  (newlines s + 1)%N.
Proof.
  elim: s => [|c s IH] //. cbn [split_lines newlines].
  change newline with "010"%char. case: (Ascii.eqb c "010").
  - cbn [List.length]. lia.
  - move: IH (split_nonempty s). by case: (split_lines s).
Qed.
Lemma located_outside start src t line q : t_line t = Some line ->
  (line = 0 \/ newlines src + 1 < line)%N ->
  snd (get (new_location start t (Some src)) q) = Err AssertionError.
Proof.
  move=> Ht. rewrite -split_count => H. rewrite /get /locate /= Ht scan_outside //. lia.
Qed.

Lemma no_source start t line : t_line t = Some line ->
  snd (get (new_location start t None) Filename) = Ok (Name start) /\
  snd (get (new_location start t None) Lineno) = Ok (Number (Some line)).
Proof. by move=> Ht; rewrite /get /locate /= Ht. Qed.

Lemma locate_same l : l_precise l = false ->
  forall q, snd (get (fst (locate l)) q) = snd (get l q).
Proof.
  move=> Hp q. rewrite /get Hp /locate.
  case Et: (t_line _) => [line|] //=. case: (l_source l) => [src|] //=.
  case E: scan => [[f n]|e] //=. by rewrite Et E.
Qed.

Lemma gets_same l qs : gets l qs = map (fun q => snd (get l q)) qs.
Proof.
  elim: qs l => [|q qs IH] l //=.
  case E: (get l q) => [l' r] /=. congr (_ :: _). rewrite IH.
  apply: map_ext => q'.
  move: E. rewrite {1}/get. case Hp: (l_precise l); first by move=> [<- _].
  case E: (locate l) => [l2 r2] [<- _].
  have H := locate_same l Hp. by rewrite E /= in H; rewrite H.
Qed.

Lemma line_number_unique lines k n m :
  k <= List.length lines ->
  line_number lines k n -> line_number lines k m -> n = m.
Proof.
  move=> Hk [[-> H]|[j [l [d [f [Hj [Hl [Hm [Hno ->]]]]]]]]]
    [[-> H']|[j' [l' [d' [f' [Hj' [Hl' [Hm' [Hno' ->]]]]]]]]].
  - done.
  - case: (H _ _ Hj' Hl'). by exists d', f'.
  - case: (H' _ _ Hj Hl). by exists d, f.
  - case: (Compare_dec.lt_eq_lt_dec j j') => [[Hlt|Heq]|Hgt].
    + case: (Hno _ _ Hlt Hj' Hl'). by exists d', f'.
    + subst j'. rewrite Hl in Hl'. case: Hl' => Hl'. subst l'.
      apply directive_marker in Hm. apply directive_marker in Hm'.
      rewrite Hm in Hm'. by case: Hm' => -> _.
    + case: (Hno' _ _ Hgt Hj Hl). by exists d, f.
Qed.
Lemma file_name_unique start lines k f g :
  file_name start lines k f -> file_name start lines k g -> f = g.
Proof.
  move=> [[-> H]|[j [l [d [a [Hj [Hl [Hm [-> Hno]]]]]]]]]
    [[-> H']|[j' [l' [d' [a' [Hj' [Hl' [Hm' [-> Hno']]]]]]]]].
  - done.
  - case: (H _ _ Hj' Hl'). by exists d', a'.
  - case: (H' _ _ Hj Hl). by exists d, a.
  - case: (Compare_dec.lt_eq_lt_dec j j') => [[Hlt|Heq]|Hgt].
    + case: (Hno _ _ Hlt Hj' Hl'). by exists d', a'.
    + subst j'. rewrite Hl in Hl'. case: Hl' => Hl'. subst l'.
      apply directive_marker in Hm. apply directive_marker in Hm'.
      rewrite Hm in Hm'. by case: Hm' => _ ->.
    + case: (Hno' _ _ Hgt Hj Hl). by exists d, a.
Qed.

Lemma columns start t src q a :
  snd (get (new_location start t src) q) = Ok a ->
  match q with
  | MinCol => a = Number (t_min_col t)
  | MaxCol => a = Number (t_max_col t)
  | _ => True
  end.
Proof.
  rewrite /get /locate /=. case: (t_line t) => [line|].
  - case: src => [src|] /=.
    + case: scan => [[f n]|e] //=. by case: q => //= - [].
    + by case: q => //= - [].
  - by case: q => //= - [].
Qed.
Lemma no_line start t src : t_line t = None ->
  snd (get (new_location start t src) Filename) = Ok (Name start) /\
  snd (get (new_location start t src) Lineno) = Ok (Number None).
Proof. by move=> Ht; rewrite /get /locate /= Ht. Qed.
