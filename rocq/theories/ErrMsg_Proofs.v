From Coq Require Import List String Ascii Bool NArith ZArith Lia.
From Verif Require Import Prelude DecStr Location_Model ErrMsg_Model ErrMsg_Spec.
Import ListNotations.
Open Scope string_scope.
Open Scope list_scope.

Lemma one_line_app a b : one_line (a ++ b) <-> one_line a /\ one_line b.
Proof. induction a as [|c a IH]; cbn; [easy|]. rewrite IH. tauto. Qed.
Lemma lines_one l s : one_line l -> file_lines (l ++ String nl s) = (l ++ String nl "")%string :: file_lines s.
Proof.
  induction l as [|c l IH]; intros H; [reflexivity|]. destruct H as [H1 H2]. cbn [append file_lines].
  destruct (Ascii.eqb_spec c newline) as [->|_]; [easy|]. now rewrite IH.
Qed.
Lemma nth_line before l after : Forall one_line before -> one_line l ->
  nth_error (file_lines (text before ++ l ++ String nl after)) (List.length before) = Some (l ++ String nl "")%string.
Proof.
  induction before as [|b before IH]; intros F H.
  - cbn [text append List.length]. now rewrite lines_one.
  - inversion F as [|? ? F1 F2]; subst. cbn [text]. rewrite string_app_assoc. cbn [append].
    rewrite lines_one by assumption. cbn [List.length nth_error]. now apply IH.
Qed.
Lemma get_line_ok before l after : Forall one_line before -> one_line l ->
  get_line (Some (text before ++ l ++ String nl after)%string) (N.of_nat (S (List.length before))) =
  Some (l ++ String nl "")%string.
Proof.
  intros F H. unfold get_line. destruct (N.eqb_spec (N.of_nat (S (List.length before))) 0); [lia|].
  replace (N.to_nat _) with (List.length before) by lia. now apply nth_line.
Qed.
Lemma lines_last l : one_line l -> l <> "" -> file_lines l = [l].
Proof.
  induction l as [|c l IH]; intros H Nl; [easy|]. destruct H as [H1 H2]. cbn [file_lines].
  destruct (Ascii.eqb_spec c newline) as [->|_]; [easy|]. destruct l as [|d l]; [reflexivity|].
  now rewrite IH.
Qed.
Lemma get_line_last before l : Forall one_line before -> one_line l -> l <> "" ->
  get_line (Some (text before ++ l)%string) (N.of_nat (S (List.length before))) = Some l.
Proof.
  intros F H Nl. unfold get_line. destruct (N.eqb_spec (N.of_nat (S (List.length before))) 0); [lia|].
  replace (N.to_nat _) with (List.length before) by lia.
  induction before as [|b before IH].
  - cbn [text append List.length]. now rewrite lines_last.
  - inversion F as [|? ? F1 F2]; subst. cbn [text]. rewrite string_app_assoc. cbn [append].
    rewrite lines_one by assumption. cbn [List.length nth_error]. apply IH; [assumption|lia].
Qed.

Lemma take_drop n : forall s, (take n s ++ drop n s = s)%string.
Proof. induction n as [|n IH]; intros [|c s]; cbn; try reflexivity. now rewrite IH. Qed.
Lemma drop_take m : forall n s, m <= n -> (drop m (take n s) ++ drop n s = drop m s)%string.
Proof.
  induction m as [|m IH]; intros n s H; cbn [drop].
  - apply take_drop.
  - destruct n as [|n]; [lia|]. destruct s as [|c s]; [reflexivity|]. cbn. apply IH. lia.
Qed.
Lemma slices s a b : (1 <= a <= b)%N ->
  (slice_to s (Z.of_N a - 1) ++ slice s (Z.of_N a - 1) (Z.of_N b) ++ slice_from s (Z.of_N b) = s)%string.
Proof.
  intros H. unfold slice_to, slice, slice_from, index.
  destruct (Z.ltb_spec (Z.of_N a - 1) 0); [lia|]. destruct (Z.ltb_spec (Z.of_N b) 0); [lia|].
  rewrite drop_take by lia. apply take_drop.
Qed.
Lemma take_length n : forall s, String.length (take n s) = Nat.min n (String.length s).
Proof. induction n as [|n IH]; intros [|c s]; cbn; try reflexivity. now rewrite IH. Qed.
Lemma drop_length n : forall s, String.length (drop n s) = String.length s - n.
Proof. induction n as [|n IH]; intros [|c s]; cbn; try reflexivity. now rewrite IH. Qed.

Lemma split_nonempty s : split_lines s <> [].
Proof. destruct s as [|c s]; cbn; [easy|]. destruct (Ascii.eqb c newline); [easy|]. now destruct (split_lines s). Qed.
Lemma split_line l s : one_line l -> split_lines (l ++ String nl s) = l :: split_lines s.
Proof.
  induction l as [|c l IH]; intros H; [reflexivity|]. destruct H as [H1 H2]. cbn [append split_lines].
  destruct (Ascii.eqb_spec c newline) as [->|_]; [easy|]. now rewrite IH.
Qed.
Lemma split_last l : one_line l -> split_lines l = [l].
Proof.
  induction l as [|c l IH]; intros H; [reflexivity|]. destruct H as [H1 H2]. cbn [split_lines].
  destruct (Ascii.eqb_spec c newline) as [->|_]; [easy|]. now rewrite IH.
Qed.
Lemma split_prefix p l s : one_line p -> forall x xs, split_lines (l ++ s) = x :: xs -> split_lines (p ++ l ++ s) = (p ++ x)%string :: xs.
Proof.
  intros H x xs E. induction p as [|c p IH]; [exact E|]. destruct H as [H1 H2]. cbn [append split_lines].
  destruct (Ascii.eqb_spec c newline) as [->|_]; [easy|]. rewrite (IH H2). reflexivity.
Qed.
Lemma split_text l ls : Forall one_line (l :: ls) -> split_lines (lines_text l ls) = l :: ls.
Proof.
  revert l. induction ls as [|l' ls IH]; intros l F; inversion F as [|? ? F1 F2]; subst.
  - now apply split_last.
  - cbn [lines_text]. rewrite split_line by assumption. now rewrite IH.
Qed.

Lemma one_line_dec n : one_line (dec n).
Proof.
  assert (H := dec_digits n). induction (dec n) as [|c s IH]; [easy|]. cbn in *.
  apply andb_prop in H as [H1 H2]. split; [|now apply IH]. intros ->. discriminate.
Qed.
Lemma one_line_times c n : c <> nl -> one_line (times c n).
Proof. intros H. induction n; cbn; [easy|]. now split. Qed.
Lemma times_get c n : forall i, String.get i (times c n) = if Nat.ltb i n then Some c else None.
Proof.
  induction n as [|n IH]; intros [|i]; cbn [times String.get]; try reflexivity. rewrite IH.
  change (Nat.ltb (S i) (S n)) with (Nat.ltb i n). reflexivity.
Qed.
Lemma get_app a : forall b i, String.get i (a ++ b) =
  if Nat.ltb i (String.length a) then String.get i a else String.get (i - String.length a) b.
Proof.
  induction a as [|c a IH]; intros b [|i]; cbn [append String.get String.length]; try reflexivity.
  rewrite IH. reflexivity.
Qed.
Lemma times_length c n : String.length (times c n) = n.
Proof. induction n; cbn; congruence. Qed.
Lemma marks_ok n k : marks_columns (times " " n ++ "^" ++ times "^" k) n (n + k).
Proof.
  intros i. rewrite get_app, times_length, times_get.
  destruct (Nat.ltb_spec i n) as [H|H]; [reflexivity|].
  change ("^" ++ times "^" k)%string with (times "^" (S k)). rewrite times_get.
  destruct (Nat.ltb_spec (i - n) (S k)), (Nat.leb_spec i (n + k)); try reflexivity; lia.
Qed.

Lemma head_ok f n a : head (Some f) (Some n) (Some a) = before_line f n a.
Proof.
  unfold head, before_line.
  destruct ((f ++ ":") ++ dec n ++ ":" ++ dec a ++ ":")%string as [|c s] eqn:E.
  - destruct f; discriminate.
  - rewrite <- E. clear E. rewrite !string_app_assoc. reflexivity.
Qed.
Lemma one_line_prefix f n a : one_line f -> one_line (before_line f n a).
Proof.
  intros H. unfold before_line. rewrite !one_line_app. assert (D1 := one_line_dec n). assert (D2 := one_line_dec a).
  cbn. repeat split; try assumption; discriminate.
Qed.
(** The source line, then the marks, then the message *)
Lemma shown_plain files f before l after n a b message m ms :
  files f = Some (text before ++ l ++ String nl after)%string ->
  Forall one_line before -> one_line l -> one_line f -> n = N.of_nat (S (List.length before)) ->
  (1 <= a <= b)%N -> message = lines_text m ms -> Forall one_line (m :: ms) ->
  exists marks, 
    format_message files false message (Some f) (Some n) (Some a) (Some b) =
      (before_line f n a ++ l)%string :: marks :: m :: ms /\
    marks_columns marks (String.length (before_line f n a) + N.to_nat a - 1)
                        (String.length (before_line f n a) + N.to_nat b - 1).
Proof.
  intros Ef F Hl Hf -> Hab -> Hm. unfold format_message. rewrite head_ok.
  unfold source_line. rewrite Ef, get_line_ok by assumption.
  set (n := N.of_nat (S (List.length before))). set (p := before_line f n a).
  exists (times " " (String.length p + N.to_nat a - 1) ++ "^" ++ times "^" (N.to_nat b - N.to_nat a))%string.
  split.
  - change ("" ++ ?x)%string with x. rewrite slices by assumption.
    replace (Z.to_nat (Z.of_nat (String.length p) + Z.of_N a - 1)) with (String.length p + N.to_nat a - 1) by lia.
    replace (Z.to_nat (Z.of_N b - Z.of_N a)) with (N.to_nat b - N.to_nat a) by lia.
    rewrite !string_app_assoc. cbn [append]. rewrite <- string_app_assoc.
    rewrite split_line by (rewrite one_line_app; split; [now apply one_line_prefix|assumption]). f_equal.
    change newline with nl.
    match goal with |- split_lines (?x ++ String "^" (?y ++ String nl ?z)) = _ =>
      change (x ++ String "^" (y ++ String nl z))%string with (x ++ String "^" y ++ String nl z)%string end.
    rewrite <- string_app_assoc. rewrite split_line, split_text by
      (assumption || (rewrite one_line_app; split; [apply one_line_times; discriminate|]; split; [discriminate|apply one_line_times; discriminate])).
    reflexivity.
  - replace (String.length p + N.to_nat b - 1) with
      (String.length p + N.to_nat a - 1 + (N.to_nat b - N.to_nat a)) by lia.
    apply marks_ok.
Qed.

Lemma take_app n : forall l r, n <= String.length l -> take n (l ++ r) = take n l.
Proof. induction n as [|n IH]; intros [|c l] r H; cbn in *; try reflexivity; try lia. rewrite IH by lia. reflexivity. Qed.
Lemma drop_app n : forall l r, n <= String.length l -> drop n (l ++ r) = (drop n l ++ r)%string.
Proof. induction n as [|n IH]; intros [|c l] r H; cbn in *; try reflexivity; try lia. rewrite IH by lia. reflexivity. Qed.
Lemma one_line_take n : forall l, one_line l -> one_line (take n l).
Proof. induction n as [|n IH]; intros [|c l] H; cbn in *; try easy. destruct H. split; auto. Qed.
Lemma one_line_drop n : forall l, one_line l -> one_line (drop n l).
Proof. induction n as [|n IH]; intros [|c l] H; cbn in *; try easy. destruct H. auto. Qed.

Lemma shown_colour files f before l after n a b message m ms :
  files f = Some (text before ++ l ++ String nl after)%string ->
  Forall one_line before -> one_line l -> one_line f -> n = N.of_nat (S (List.length before)) ->
  (1 <= a <= b)%N -> N.to_nat b <= String.length l -> message = lines_text m ms -> Forall one_line (m :: ms) ->
  exists marks x y z,
    format_message files true message (Some f) (Some n) (Some a) (Some b) =
      (before_line f n a ++ x ++ RED ++ BOLD ++ y ++ RESET ++ z)%string :: marks :: m :: ms /\
    l = (x ++ y ++ z)%string /\ String.length x = N.to_nat a - 1 /\
    String.length y = N.to_nat b - N.to_nat a + 1 /\
    marks_columns marks (String.length (before_line f n a) + N.to_nat a - 1)
                        (String.length (before_line f n a) + N.to_nat b - 1).
Proof.
  intros Ef F Hl Hf -> Hab Hb -> Hm. unfold format_message. rewrite head_ok.
  unfold source_line. rewrite Ef, get_line_ok by assumption.
  set (n := N.of_nat (S (List.length before))). set (p := before_line f n a).
  exists (times " " (String.length p + N.to_nat a - 1) ++ "^" ++ times "^" (N.to_nat b - N.to_nat a))%string.
  exists (take (N.to_nat a - 1) l), (drop (N.to_nat a - 1) (take (N.to_nat b) l)), (drop (N.to_nat b) l).
  split; [|split; [|split; [|split]]].
  - unfold slice_to, slice, slice_from, index.
    destruct (Z.ltb_spec (Z.of_N a - 1) 0); [lia|]. destruct (Z.ltb_spec (Z.of_N b) 0); [lia|].
    replace (Z.to_nat (Z.of_N a - 1)) with (N.to_nat a - 1) by lia.
    replace (Z.to_nat (Z.of_N b)) with (N.to_nat b) by lia.
    rewrite !take_app, drop_app by lia.
    replace (Z.to_nat (Z.of_nat (String.length p) + Z.of_N a - 1)) with (String.length p + N.to_nat a - 1) by lia.
    replace (Z.to_nat (Z.of_N b - Z.of_N a)) with (N.to_nat b - N.to_nat a) by lia.
    set (x := take (N.to_nat a - 1) l). set (y := drop (N.to_nat a - 1) (take (N.to_nat b) l)). set (z := drop (N.to_nat b) l).
    set (u := times " " _). set (v := times "^" _).
    match goal with |- split_lines ?w = _ =>
      replace w with ((p ++ x ++ RED ++ BOLD ++ y ++ RESET ++ z) ++ String nl ((u ++ "^" ++ v) ++ String nl (lines_text m ms)))%string
    end.
    + rewrite split_line; [rewrite split_line; [rewrite split_text by assumption; reflexivity|]|].
      * rewrite !one_line_app. split; [apply one_line_times; discriminate|].
        split; [split; [discriminate|easy]|apply one_line_times; discriminate].
      * rewrite !one_line_app. repeat split; try discriminate.
        -- now apply one_line_prefix.
        -- now apply one_line_take.
        -- now apply one_line_drop, one_line_take.
        -- now apply one_line_drop.
    + rewrite !string_app_assoc. cbn [append]. rewrite ?string_app_assoc. reflexivity.
  - now rewrite drop_take, take_drop by lia.
  - rewrite take_length. lia.
  - rewrite drop_length, take_length. lia.
  - replace (String.length p + N.to_nat b - 1) with
      (String.length p + N.to_nat a - 1 + (N.to_nat b - N.to_nat a)) by lia.
    apply marks_ok.
Qed.

Lemma last_line files f before l n a b message m ms :
  files f = Some (text before ++ l)%string -> l <> "" ->
  Forall one_line before -> one_line l -> one_line f -> n = N.of_nat (S (List.length before)) ->
  (1 <= a <= b)%N -> message = lines_text m ms -> Forall one_line (m :: ms) ->
  exists marks,
    format_message files false message (Some f) (Some n) (Some a) (Some b) =
      (before_line f n a ++ l ++ marks)%string :: m :: ms /\
    marks_columns marks (String.length (before_line f n a) + N.to_nat a - 1)
                        (String.length (before_line f n a) + N.to_nat b - 1).
Proof.
  intros Ef Nl F Hl Hf -> Hab -> Hm. unfold format_message. rewrite head_ok.
  unfold source_line. rewrite Ef, get_line_last by assumption.
  set (n := N.of_nat (S (List.length before))). set (p := before_line f n a).
  exists (times " " (String.length p + N.to_nat a - 1) ++ "^" ++ times "^" (N.to_nat b - N.to_nat a))%string.
  split.
  - change ("" ++ ?x)%string with x. rewrite slices by assumption.
    replace (Z.to_nat (Z.of_nat (String.length p) + Z.of_N a - 1)) with (String.length p + N.to_nat a - 1) by lia.
    replace (Z.to_nat (Z.of_N b - Z.of_N a)) with (N.to_nat b - N.to_nat a) by lia.
    set (u := times " " _). set (v := times "^" _).
    match goal with |- split_lines ?w = _ =>
      replace w with ((p ++ l ++ u ++ "^" ++ v) ++ String nl (lines_text m ms))%string end.
    + rewrite split_line; [rewrite split_text by assumption; reflexivity|].
      rewrite !one_line_app. split; [now apply one_line_prefix|]. split; [assumption|].
      split; [apply one_line_times; discriminate|].
      split; [split; [discriminate|easy]|apply one_line_times; discriminate].
    + rewrite !string_app_assoc. cbn [append]. rewrite ?string_app_assoc. reflexivity.
  - replace (String.length p + N.to_nat b - 1) with
      (String.length p + N.to_nat a - 1 + (N.to_nat b - N.to_nat a)) by lia.
    apply marks_ok.
Qed.

(** Less is known *)
Lemma no_columns files colour f before l after n message m ms :
  files f = Some (text before ++ l ++ String nl after)%string ->
  Forall one_line before -> one_line l -> one_line f -> n = N.of_nat (S (List.length before)) ->
  message = lines_text m ms -> Forall one_line (m :: ms) ->
  format_message files colour message (Some f) (Some n) None None =
    (f ++ ":" ++ dec n ++ ": " ++ l)%string :: m :: ms.
Proof.
  intros Ef F Hl Hf -> -> Hm. unfold format_message.
  unfold source_line. rewrite Ef, get_line_ok by assumption. set (n := N.of_nat (S (List.length before))).
  assert (E : head (Some f) (Some n) None = (f ++ ":" ++ dec n ++ ": ")%string).
  { unfold head. destruct ((f ++ ":") ++ dec n ++ ":" ++ "")%string as [|c s] eqn:E; [destruct f; discriminate|].
    rewrite <- E. clear E. rewrite !string_app_assoc. reflexivity. }
  rewrite E. rewrite <- (split_text m ms Hm). rewrite <- split_line.
  - f_equal. rewrite !string_app_assoc. cbn [append]. rewrite ?string_app_assoc. reflexivity.
  - rewrite !one_line_app. assert (D := one_line_dec n). cbn. repeat split; try assumption; discriminate.
Qed.
Lemma no_line files colour f n a b message m ms :
  files f = None -> one_line f -> message = lines_text m ms -> Forall one_line (m :: ms) ->
  format_message files colour message (Some f) (Some n) (Some a) b =
    (before_line f n a ++ m)%string :: ms.
Proof.
  intros Ef Hf -> Hm. unfold format_message. rewrite head_ok. unfold source_line. rewrite Ef. cbn [get_line append].
  assert (S := split_text m ms Hm). 
  exact (split_prefix (before_line f n a) "" (lines_text m ms) (one_line_prefix f n a Hf) m ms S).
Qed.
Lemma nowhere files colour message m ms :
  message = lines_text m ms -> Forall one_line (m :: ms) ->
  format_message files colour message None None None None = m :: ms.
Proof. intros -> Hm. unfold format_message. cbn [head source_line append]. now apply split_text. Qed.

(** The exceptions *)
Lemma raised_shows files colour message p r : raised files colour message p r ->
  r = format_message files colour message (p_file p) (p_line p) (p_min p) (p_max p).
Proof. intros [f n|f n ->| |]; reflexivity. Qed.

Lemma plain_ok files message m ms f n a b l r :
  raised files false message (at_columns f n a b) r -> lines_of message m ms -> one_line f ->
  has_line (files f) n l -> (1 <= a <= b)%N ->
  exists marks, r = (before_line f n a ++ l)%string :: marks :: m :: ms /\
    marks_columns marks (String.length (before_line f n a) + N.to_nat a - 1)
                        (String.length (before_line f n a) + N.to_nat b - 1).
Proof.
  intros R (M1 & M2) Hf (before & after & E & F & Hl & Hn) Hab. apply raised_shows in R. subst r.
  exact (shown_plain files f before l after n a b message m ms E F Hl Hf Hn Hab M1 M2).
Qed.
Lemma colour_ok files message m ms f n a b l r :
  raised files true message (at_columns f n a b) r -> lines_of message m ms -> one_line f ->
  has_line (files f) n l -> (1 <= a <= b)%N -> N.to_nat b <= String.length l ->
  exists marks x y z,
    r = (before_line f n a ++ x ++ RED ++ BOLD ++ y ++ RESET ++ z)%string :: marks :: m :: ms /\
    l = (x ++ y ++ z)%string /\ String.length x = N.to_nat a - 1 /\
    String.length y = N.to_nat b - N.to_nat a + 1 /\
    marks_columns marks (String.length (before_line f n a) + N.to_nat a - 1)
                        (String.length (before_line f n a) + N.to_nat b - 1).
Proof.
  intros R (M1 & M2) Hf (before & after & E & F & Hl & Hn) Hab Hb. apply raised_shows in R. subst r.
  exact (shown_colour files f before l after n a b message m ms E F Hl Hf Hn Hab Hb M1 M2).
Qed.
Lemma last_ok files message m ms f n a b l r :
  raised files false message (at_columns f n a b) r -> lines_of message m ms -> one_line f ->
  ends_with_line (files f) n l -> (1 <= a <= b)%N ->
  exists marks, r = (before_line f n a ++ l ++ marks)%string :: m :: ms /\
    marks_columns marks (String.length (before_line f n a) + N.to_nat a - 1)
                        (String.length (before_line f n a) + N.to_nat b - 1).
Proof.
  intros R (M1 & M2) Hf (before & E & Nl & F & Hl & Hn) Hab. apply raised_shows in R. subst r.
  exact (last_line files f before l n a b message m ms E Nl F Hl Hf Hn Hab M1 M2).
Qed.
Lemma line_ok files colour message m ms f n l r :
  raised files colour message (mk_place (Some f) (Some n) None None) r -> lines_of message m ms -> one_line f ->
  has_line (files f) n l -> r = (f ++ ":" ++ dec n ++ ": " ++ l)%string :: m :: ms.
Proof.
  intros R (M1 & M2) Hf (before & after & E & F & Hl & Hn). apply raised_shows in R. subst r.
  exact (no_columns files colour f before l after n message m ms E F Hl Hf Hn M1 M2).
Qed.
Lemma missing_ok files colour message m ms f n a b r :
  raised files colour message (at_columns f n a b) r -> lines_of message m ms -> one_line f ->
  files f = None -> r = (before_line f n a ++ m)%string :: ms.
Proof.
  intros R (M1 & M2) Hf E. apply raised_shows in R. subst r.
  exact (no_line files colour f n a (Some b) message m ms E Hf M1 M2).
Qed.
Lemma nowhere_ok files colour message m ms :
  lines_of message m ms ->
  parse_error files colour message None None None = m :: ms /\
  ast_error files colour message None = m :: ms /\
  template_error files colour message None = m :: ms.
Proof. intros (M1 & M2). repeat split; exact (nowhere files colour message m ms M1 M2). Qed.
