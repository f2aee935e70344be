(** Proofs about the C text of attribute values (C88). *)
From Coq Require Import List String Ascii Bool NArith Lia.
From Verif Require Import Prelude DecStr AttrC_Model AttrC_Spec.
Import ListNotations.
Open Scope string_scope.
Open Scope list_scope.

(** Splicing. *)
Lemma splice_cons c s : Ascii.eqb c backslash = false -> splice (String c s) = String c (splice s).
Proof.
  intros H. destruct s as [|d s]; [reflexivity|]. cbn [splice]. rewrite H. cbn [andb]. reflexivity.
Qed.
Lemma splice_bsnl s : splice (bs_nl ++ s)%string = splice s.
Proof. reflexivity. Qed.
Lemma splice_plain f a r :
  (forall c, f c = true -> Ascii.eqb c backslash = false) -> chars f a = true ->
  splice (a ++ r)%string = (a ++ splice r)%string.
Proof.
  intros Hf. induction a as [|c a IH]; intros H; [reflexivity|].
  cbn [chars] in H. apply andb_true_iff in H as [H1 H2]. cbn [append].
  rewrite (splice_cons _ _ (Hf c H1)), (IH H2). reflexivity.
Qed.

Lemma char_cases (P : ascii -> bool) : 
  forallb (fun n => P (ascii_of_nat n)) (seq 0 256) = true -> forall c, P c = true.
Proof.
  intros H c. rewrite <- (ascii_nat_embedding c).
  apply (proj1 (forallb_forall _ _) H). apply in_seq. pose proof (nat_ascii_bounded c). lia.
Qed.
Lemma word_char_bs c : word_char c = true -> Ascii.eqb c backslash = false.
Proof.
  intros H. destruct (Ascii.eqb_spec c backslash) as [->|]; [|reflexivity]. discriminate H.
Qed.
Lemma word_start_char c : word_start c = true -> word_char c = true.
Proof.
  unfold word_start, word_char. intros H. apply orb_true_iff in H as [H|H]; rewrite H.
  - reflexivity.
  - rewrite !orb_true_r. reflexivity.
Qed.
Definition string_char (c : ascii) : bool :=
  negb (Ascii.eqb c dquote || Ascii.eqb c backslash || Ascii.eqb c nl).
Lemma string_char_no c : string_char c = true ->
  Ascii.eqb c dquote = false /\ Ascii.eqb c backslash = false /\ Ascii.eqb c nl = false.
Proof.
  unfold string_char. intros H. apply negb_true_iff in H. apply orb_false_iff in H as [H H3].
  apply orb_false_iff in H as [H1 H2]. auto.
Qed.

(** Lexing of the pieces. *)
Lemma snoc_app s c r : (snoc s c ++ r = s ++ String c r)%string.
Proof. unfold snoc. rewrite string_app_assoc. reflexivity. Qed.
Lemma app_nil s : (s ++ "" = s)%string.
Proof. induction s as [|c s IH]; cbn; [reflexivity|rewrite IH; reflexivity]. Qed.

Lemma lex_string s : forall acc r, chars string_char s = true ->
  lex (s ++ String dquote r)%string (InStr acc) = option_map (cons (TStr (acc ++ s)%string)) (lex r Plain).
Proof.
  induction s as [|c s IH]; intros acc r H.
  - cbn [append lex]. rewrite Ascii.eqb_refl, app_nil. reflexivity.
  - cbn [chars] in H. apply andb_true_iff in H as [H1 H2].
    apply string_char_no in H1 as (E1 & E2 & E3). cbn [append lex]. rewrite E1, E2, E3.
    rewrite (IH _ _ H2), snoc_app. reflexivity.
Qed.
Lemma lex_word w : forall acc r, chars word_char w = true ->
  lex (w ++ r)%string (InWord acc) = lex r (InWord (acc ++ w)%string).
Proof.
  induction w as [|c w IH]; intros acc r H.
  - cbn [append]. rewrite app_nil. reflexivity.
  - cbn [chars] in H. apply andb_true_iff in H as [H1 H2]. cbn [append lex]. rewrite H1.
    rewrite (IH _ _ H2), snoc_app. reflexivity.
Qed.

(** What may follow a value. *)
Definition stops (r : string) : Prop :=
  match r with
  | EmptyString => True
  | String c _ => c = ","%char \/ c = "}"%char \/ c = " "%char
  end.
Lemma stops_splice r : stops r -> stops (splice r).
Proof.
  destruct r as [|c r]; [trivial|]. cbn [stops]. intros H. rewrite splice_cons; [exact H|].
  destruct H as [->|[->| ->]]; reflexivity.
Qed.
Lemma lex_stop w r : stops r -> lex r (InWord w) = option_map (cons (TWord w)) (lex r Plain).
Proof.
  destruct r as [|c r]; [reflexivity|]. cbn [stops].
  intros [->|[->| ->]]; cbn [lex]; change (word_char _) with false; cbn iota;
    match goal with |- context [start ?c] => let x := eval cbv in (start c) in change (start c) with x end;
    cbn iota beta; destruct (lex r Plain); reflexivity.
Qed.

Definition lexes (s : string) (ts : list tok) : Prop := forall rest us,
  stops rest -> lex (splice rest) Plain = Some us -> lex (splice (s ++ rest)%string) Plain = Some (ts ++ us).

Lemma lexes_word w : plain_word w = true -> lexes w [TWord w].
Proof.
  intros H rest us Hs Hu. destruct w as [|c w]; [discriminate|]. cbn [plain_word] in H.
  apply andb_true_iff in H as [H1 H2].
  assert (Hw : chars word_char (String c w) = true) by (cbn [chars]; rewrite (word_start_char c H1), H2; reflexivity).
  rewrite (splice_plain word_char _ _ word_char_bs Hw). cbn [append lex].
  assert (E : start c = Some ([], InWord (String c ""))).
  { clear - H1. revert c H1. 
    assert (A : forall c, implb (word_start c) (match start c with
       | Some ([], InWord (String d "")) => Ascii.eqb c d | _ => false end) = true)
      by (apply char_cases; vm_compute; reflexivity).
    intros c H. specialize (A c). rewrite H in A. cbn [implb] in A.
    destruct (start c) as [[[|? ?] [| w | |]]|]; try discriminate.
    destruct w as [|d [|? ?]]; try discriminate. apply Ascii.eqb_eq in A. subst d. reflexivity. }
  rewrite E. rewrite (lex_word w _ _ H2), (lex_stop _ _ (stops_splice _ Hs)), Hu. reflexivity.
Qed.

Lemma lexes_string s : plain_string s = true -> lexes (quote ++ s ++ quote)%string [TStr s].
Proof.
  intros H rest us Hs Hu. rewrite !string_app_assoc.
  change (quote ++ s ++ quote ++ rest)%string with (String dquote (s ++ String dquote rest)%string).
  rewrite splice_cons by reflexivity.
  rewrite (splice_plain string_char) by (first [exact H|intros c Hc; apply string_char_no in Hc; tauto]).
  rewrite splice_cons by reflexivity. cbn [lex].
  change (start dquote) with (Some ([] : list tok, InStr "")). cbn iota beta.
  rewrite (lex_string s "" _ H), Hu. reflexivity.
Qed.

(** Lexing of what is before a closing brace. *)
Definition lexes_body (s : string) (ts : list tok) : Prop := forall rest us,
  lex (splice rest) Plain = Some us ->
  lex (splice (s ++ String "}" rest)%string) Plain = Some (ts ++ TR :: us).

Lemma lex_close rest us : lex (splice rest) Plain = Some us ->
  lex (splice (String "}" rest)) Plain = Some (TR :: us).
Proof. intros H. rewrite splice_cons by reflexivity. cbn [lex]. 
  change (start "}") with (Some ([TR], Plain)). cbn iota beta. rewrite H. reflexivity. Qed.
Lemma lex_comma rest us : lex (splice rest) Plain = Some us ->
  lex (splice (String "," (bs_nl ++ rest))) Plain = Some (TComma :: us).
Proof. intros H. rewrite splice_cons by reflexivity. rewrite splice_bsnl. cbn [lex].
  change (start ",") with (Some ([TComma], Plain)). cbn iota beta. rewrite H. reflexivity. Qed.

Lemma lexes_braces s ts : lexes_body s ts -> lexes ("{" ++ bs_nl ++ s ++ "}")%string (TL :: ts ++ [TR]).
Proof.
  intros H rest us Hs Hu. rewrite !string_app_assoc.
  change ("{" ++ bs_nl ++ s ++ "}" ++ rest)%string with (String "{" (bs_nl ++ (s ++ String "}" rest))%string).
  rewrite splice_cons by reflexivity. rewrite splice_bsnl. cbn [lex].
  change (start "{") with (Some ([TL], Plain)). cbn iota beta.
  rewrite (H rest us Hu). cbn. rewrite <- app_assoc. reflexivity.
Qed.

Lemma lexes_field n s ts body bts :
  plain_word n = true -> lexes s ts -> lexes_body body bts ->
  lexes_body ("." ++ n ++ " = " ++ s ++ "," ++ bs_nl ++ body)%string
             (TDot :: TWord n :: TEq :: ts ++ TComma :: bts).
Proof.
  intros Hn Hs Hb rest us Hu. rewrite !string_app_assoc.
  change ("." ++ n ++ " = " ++ s ++ "," ++ bs_nl ++ body ++ String "}" rest)%string
    with (String "." (n ++ String " " (String "=" (String " " (s ++ String "," (bs_nl ++ (body ++ String "}" rest)))))))%string.
  rewrite splice_cons by reflexivity. cbn [lex]. change (start ".") with (Some ([TDot], Plain)). cbn iota beta.
  rewrite (lexes_word n Hn _ (TEq :: ts ++ TComma :: bts ++ TR :: us)).
  - cbn [option_map app]. rewrite <- !app_assoc. reflexivity.
  - cbn. auto.
  - rewrite !splice_cons by reflexivity. cbn [lex].
    change (start " ") with (Some ([] : list tok, Plain)). cbn iota beta.
    change (start "=") with (Some ([TEq], Plain)). cbn iota beta.
    rewrite (Hs _ (TComma :: bts ++ TR :: us)).
    + reflexivity.
    + cbn. auto.
    + apply lex_comma. apply Hb. exact Hu.
Qed.

Lemma lexes_last s ts : lexes s ts -> lexes_body s ts.
Proof.
  intros H rest us Hu. apply H; [cbn; auto|]. apply lex_close. exact Hu.
Qed.
Lemma lexes_next s ts body bts :
  lexes s ts -> lexes_body body bts -> lexes_body (s ++ "," ++ bs_nl ++ body)%string (ts ++ TComma :: bts).
Proof.
  intros Hs Hb rest us Hu. rewrite !string_app_assoc.
  change (s ++ "," ++ bs_nl ++ body ++ String "}" rest)%string with
    (s ++ String "," (bs_nl ++ (body ++ String "}" rest)))%string.
  rewrite (Hs _ (TComma :: bts ++ TR :: us)).
  - rewrite <- app_assoc. reflexivity.
  - cbn. auto.
  - apply lex_comma. apply Hb. exact Hu.
Qed.

(** Parsing of the tokens. *)
Definition value_head (ts : list tok) : Prop :=
  match ts with TStr _ :: _ | TWord _ :: _ | TL :: _ => True | _ => False end.
Definition parses (ts : list tok) (c : cval) : Prop :=
  value_head ts /\ forall fuel rest, List.length ts <= fuel -> p_value fuel (ts ++ rest) = Some (c, rest).
Definition parses_body (ts : list tok) (items : list (option string * cval)) : Prop :=
  forall fuel rest, List.length ts + 1 <= fuel -> p_items fuel (ts ++ TR :: rest) = Some (items, rest).

Lemma parses_braces ts items : parses_body ts items -> parses (TL :: ts ++ [TR]) (CBraces items).
Proof.
  intros H. split; [exact I|]. intros fuel rest L. cbn [List.length] in L. rewrite app_length in L. cbn in L.
  destruct fuel as [|fuel]; [lia|]. cbn [app p_value]. rewrite <- app_assoc. cbn [app].
  rewrite H by lia. reflexivity.
Qed.
Lemma parses_nil : parses_body [] [].
Proof. intros fuel rest L. cbn in L. destruct fuel as [|fuel]; [lia|]. reflexivity. Qed.
Lemma parses_field n ts c bts items :
  parses ts c -> parses_body bts items ->
  parses_body (TDot :: TWord n :: TEq :: ts ++ TComma :: bts) ((Some n, c) :: items).
Proof.
  intros [_ Hv] Hb fuel rest L. cbn [List.length] in L. rewrite app_length in L. cbn [List.length] in L.
  destruct fuel as [|fuel]; [lia|]. cbn [app p_items].
  rewrite <- app_assoc. cbn [app]. rewrite Hv by lia. rewrite Hb by lia. reflexivity.
Qed.
Lemma items_positional fuel ts : value_head ts ->
  p_items (S fuel) ts =
  match p_value fuel ts with
  | Some (v, TComma :: ts) =>
      match p_items fuel ts with
      | Some (items, ts) => Some ((None, v) :: items, ts)
      | None => None
      end
  | Some (v, TR :: ts) => Some ([(None, v)], ts)
  | _ => None
  end.
Proof. destruct ts as [|[]]; cbn [value_head]; intros H; try contradiction; reflexivity. Qed.
Lemma head_app ts us : value_head ts -> value_head (ts ++ us).
Proof. destruct ts as [|[]]; cbn; intros H; try contradiction; exact I. Qed.
Lemma parses_last ts c : parses ts c -> parses_body ts [(None, c)].
Proof.
  intros [Hh Hv] fuel rest L. destruct fuel as [|fuel]; [lia|].
  rewrite items_positional by (apply head_app; exact Hh). rewrite Hv by lia. reflexivity.
Qed.
Lemma parses_next ts c bts items : parses ts c -> parses_body bts items ->
  parses_body (ts ++ TComma :: bts) ((None, c) :: items).
Proof.
  intros [Hh Hv] Hb fuel rest L. rewrite app_length in L. cbn [List.length] in L.
  destruct fuel as [|fuel]; [lia|]. rewrite <- app_assoc. cbn [app].
  rewrite items_positional by (apply head_app; exact Hh). rewrite Hv by lia. rewrite Hb by lia. reflexivity.
Qed.

(** The printer. *)
Fixpoint show_fields (d : list (string * value)) (fs : list field) : res string :=
  match fs with
  | [] => Ok ""
  | ((n, _), ft) :: fs =>
    match get n d with
    | None => Err KeyError
    | Some x =>
      s <- wrap (show_elem ft) x ;;
      rest <- show_fields d fs ;;
      Ok ("." ++ n ++ " = " ++ s ++ "," ++ bs_nl ++ rest)%string
    end
  end.
Lemma show_struct n fs d :
  show_elem (Struct n fs) (VDict d) =
  (body <- show_fields d fs ;; Ok ("{" ++ bs_nl ++ body ++ "}")%string).
Proof.
  cbn [show_elem]. f_equal. induction fs as [|[[m arr] ft] fs IH]; [reflexivity|].
  cbn [show_fields]. destruct (get m d) as [x|]; [|reflexivity].
  rewrite IH. reflexivity.
Qed.

Scheme sf_ind1 := Induction for stands_for Sort Prop
with sf_ind2 := Induction for stands_for_fields Sort Prop
with sf_ind3 := Induction for stands_for_attr Sort Prop
with sf_ind4 := Induction for stands_for_list Sort Prop.
Combined Scheme sf_mutind from sf_ind1, sf_ind2, sf_ind3, sf_ind4.

Definition good (r : res string) (c : cval) : Prop :=
  exists s ts, r = Ok s /\ lexes s ts /\ parses ts c.
Definition items_plain (items : list (option string * cval)) : Prop :=
  forall n v, In (n, v) items ->
    plain v /\ match n with Some n => plain_word n = true | None => True end.

Lemma show_all :
  (forall t v c, stands_for t v c -> plain c -> good (show_elem t v) c) /\
  (forall fs d items, stands_for_fields fs d items -> items_plain items ->
     exists s ts, show_fields d fs = Ok s /\ lexes_body s ts /\ parses_body ts items) /\
  (forall arr t v c, stands_for_attr arr t v c -> plain c -> good (wrap (show_elem t) v) c) /\
  (forall t l cs, stands_for_list t l cs -> items_plain cs ->
     exists ss ts, mapM (show_elem t) l = Ok ss /\ lexes_body (join ss) ts /\ parses_body ts cs /\
       (ss = [] -> cs = [])).
Proof.
  apply sf_mutind.
  - intros n s H. inversion H; subst. exists (quote ++ s ++ quote)%string, [TStr s].
    split; [destruct n; reflexivity|]. split; [apply lexes_string; assumption|].
    split; [exact I|]. intros fuel rest L. destruct fuel; [cbn in L; lia|reflexivity].
  - intros n w H. inversion H; subst. exists w, [TWord w].
    split; [reflexivity|]. split; [apply lexes_word; assumption|].
    split; [exact I|]. intros fuel rest L. destruct fuel; [cbn in L; lia|reflexivity].
  - intros n fs d items _ IH H. inversion H; subst.
    destruct (IH H1) as (s & ts & E & Hl & Hp). rewrite show_struct, E.
    exists ("{" ++ bs_nl ++ s ++ "}")%string, (TL :: ts ++ [TR]).
    split; [reflexivity|]. split; [apply lexes_braces; exact Hl|apply parses_braces; exact Hp].
  - intros d _. exists "", []. split; [reflexivity|]. split; [|exact parses_nil].
    intros rest us Hu. apply lex_close. exact Hu.
  - intros n arr t fs d x c items Hg _ IHa _ IHf H.
    destruct (H (Some n) c (or_introl eq_refl)) as [Hc Hn].
    destruct (IHa Hc) as (s & ts & E & Hl & Hp).
    destruct IHf as (s' & ts' & E' & Hl' & Hp'); [intros m v Hm; apply H; right; exact Hm|].
    cbn [show_fields]. rewrite Hg, E. cbn [bind]. rewrite E'. cbn [bind].
    eexists _, _. split; [reflexivity|]. split; [apply lexes_field; eassumption|].
    apply parses_field; assumption.
  - intros t v c Hs IH H. replace (wrap (show_elem t) v) with (show_elem t v); [exact (IH H)|].
    destruct Hs; reflexivity.
  - intros t l cs _ IH H. inversion H; subst.
    destruct (IH H1) as (ss & ts & E & Hl & Hp & _). cbn [wrap]. rewrite E. cbn [bind].
    exists ("{" ++ bs_nl ++ join ss ++ "}")%string, (TL :: ts ++ [TR]).
    split; [reflexivity|]. split; [apply lexes_braces; exact Hl|apply parses_braces; exact Hp].
  - intros t _. exists [], []. split; [reflexivity|]. split.
    + intros rest us Hu. apply lex_close. exact Hu.
    + split; [exact parses_nil|]. reflexivity.
  - intros t v l c cs _ IHv _ IHl H.
    destruct (H None c (or_introl eq_refl)) as [Hc _].
    destruct (IHv Hc) as (s & ts & E & Hl & Hp).
    destruct IHl as (ss & ts' & E' & Hl' & Hp' & Hn); [intros m x Hm; apply H; right; exact Hm|].
    cbn [mapM]. rewrite E. cbn [bind]. rewrite E'. cbn [bind].
    destruct ss as [|s' ss].
    + rewrite (Hn eq_refl).
      exists [s], ts. split; [reflexivity|]. split; [apply lexes_last; exact Hl|].
      split; [|discriminate]. apply parses_last. exact Hp.
    + exists (s :: s' :: ss), (ts ++ TComma :: ts'). split; [reflexivity|].
      split; [apply (lexes_next s ts (join (s' :: ss)) ts'); assumption|].
      split; [apply parses_next; assumption|]. discriminate.
Qed.

Lemma show_reads arr t v c :
  stands_for_attr arr t v c -> plain c ->
  exists s, show_attribute_value t v = Ok s /\ c_read s = Some c.
Proof.
  intros H Hc. destruct (proj1 (proj2 (proj2 show_all)) arr t v c H Hc) as (s & ts & E & Hl & Hp).
  exists s. split; [exact E|]. unfold c_read.
  specialize (Hl "" [] I eq_refl). rewrite app_nil, app_nil_r in Hl. rewrite Hl.
  destruct Hp as [_ Hp]. specialize (Hp (S (List.length ts)) [] ltac:(lia)).
  rewrite app_nil_r in Hp. rewrite Hp. reflexivity.
Qed.

(** Declarations. *)
Lemma list_length t l cs : stands_for_list t l cs -> List.length l = List.length cs.
Proof. induction 1; cbn; congruence. Qed.

Lemma declared_both n arr t v c :
  stands_for_attr arr t v c -> plain c ->
  exists s, header_attribute (n, arr, t) (Some v) =
              Ok (mk_declared (show_type t) n
                    (match c with CBraces items => if arr then Some (N.of_nat (List.length items)) else None
                     | _ => None end) (Some s)) /\
            source_attribute (n, arr, t) (Some v) =
              (d <- header_attribute (n, arr, t) (Some v) ;; Ok (Some d)) /\
            c_read s = Some c.
Proof.
  intros H Hc. destruct (show_reads arr t v c H Hc) as (s & E & R). exists s.
  unfold header_attribute, source_attribute. cbn [f_type f_array f_name fst snd]. rewrite E. cbn [bind].
  inversion H; subst.
  - split; [destruct c; reflexivity|]. split; [reflexivity|exact R].
  - cbn [pylen bind]. rewrite (list_length _ _ _ H0).
    split; [reflexivity|]. split; [reflexivity|exact R].
Qed.

Lemma unset_attribute n t : 
  header_attribute (n, false, t) None = Ok (mk_declared (show_type t) n None None) /\
  source_attribute (n, false, t) None = Ok None.
Proof. split; reflexivity. Qed.
Lemma unset_array n t : header_attribute (n, true, t) None = Err TypeError.
Proof. reflexivity. Qed.

(** Struct definitions. *)
Fixpoint recurse_fields (v : option value) (fs : list field) : res (list struct_use) :=
  match fs with
  | [] => Ok []
  | ((n, arr), ft) :: fs =>
    here <- match ft with
            | Named _ => Ok []
            | Struct _ _ => x <- value_get v n ;; recurse_structs ft arr x
            end ;;
    rest <- recurse_fields v fs ;;
    Ok (here ++ rest)
  end.
Lemma recurse_struct name fs arr v :
  recurse_structs (Struct name fs) arr v =
  (inner <- recurse_fields v fs ;; v' <- first_value arr v ;; Ok (inner ++ [(name, fs, v')])).
Proof.
  cbn [recurse_structs]. f_equal. induction fs as [|[[m a] ft] fs IH]; [reflexivity|].
  cbn [recurse_fields]. destruct ft as [n|n gs].
  - cbn [bind]. rewrite IH. reflexivity.
  - destruct (value_get v m); [|reflexivity]. cbn [bind]. rewrite IH. reflexivity.
Qed.

Fixpoint ctype_ind' (P : ctype -> Prop) (HN : forall n, P (Named n))
  (HS : forall n fs, Forall (fun f => P (f_type f)) fs -> P (Struct n fs)) (t : ctype) : P t :=
  match t with
  | Named n => HN n
  | Struct n fs => HS n fs ((fix go (fs : list field) : Forall (fun f => P (f_type f)) fs :=
      match fs with
      | [] => Forall_nil _
      | f :: fs => Forall_cons f (ctype_ind' P HN HS (f_type f)) (go fs)
      end) fs)
  end.

(** Every struct type of a field of a struct that is found is found before it. *)
Definition u_name (u : struct_use) : string := fst (fst u).
Definition u_fields (u : struct_use) : list field := snd (fst u).
Inductive closed (known : list string) : list struct_use -> Prop :=
| closed_nil : closed known []
| closed_cons u us :
    (forall f m gs, In f (u_fields u) -> f_type f = Struct m gs -> In m known) ->
    closed (u_name u :: known) us -> closed known (u :: us).

Lemma closed_weaken us : forall k k', closed k us -> incl k k' -> closed k' us.
Proof.
  induction us as [|u us IH]; intros k k' H Hi; [constructor|]. inversion H; subst. constructor.
  - intros f m gs Hf E. apply Hi. exact (H2 f m gs Hf E).
  - apply (IH (u_name u :: k)); [assumption|]. intros x [<-|Hx]; [left; reflexivity|right; apply Hi; exact Hx].
Qed.
Lemma closed_app us us' : forall k, closed k us -> closed (rev (map u_name us) ++ k) us' -> closed k (us ++ us').
Proof.
  induction us as [|u us IH]; intros k H H'; [exact H'|]. inversion H; subst. cbn [app].
  constructor; [assumption|]. apply IH; [assumption|]. cbn [map rev] in H'. rewrite <- app_assoc in H'. exact H'.
Qed.

Lemma recurse_closed t : forall arr v us, recurse_structs t arr v = Ok us ->
  closed [] us /\ (forall m gs, t = Struct m gs -> In m (map u_name us)).
Proof.
  induction t as [n|n fs IH] using ctype_ind'; intros arr v us H.
  - injection H as <-. split; [constructor|discriminate].
  - rewrite recurse_struct in H. destruct (recurse_fields v fs) as [inner|] eqn:E; [|discriminate].
    cbn [bind] in H. destruct (first_value arr v) as [v'|]; [|discriminate]. cbn [bind] in H.
    injection H as <-.
    assert (A : closed [] inner /\ forall f m gs, In f fs -> f_type f = Struct m gs -> In m (map u_name inner)).
    { clear arr v'. revert inner E. induction IH as [|[[m a] ft] fs Hf Hfs IHf]; intros inner E.
      - injection E as <-. split; [constructor|]. intros f m gs [].
      - cbn [recurse_fields] in E. destruct ft as [k|k gs].
        + cbn [bind] in E. destruct (recurse_fields v fs) as [rest|]; [|discriminate].
          cbn [bind] in E. injection E as <-. destruct (IHf rest eq_refl) as [C1 C2]. split; [exact C1|].
          intros f m' gs [<-|Hin]; [discriminate|]. exact (C2 f m' gs Hin).
        + destruct (value_get v m) as [x|]; [|discriminate]. cbn [bind] in E.
          destruct (recurse_structs (Struct k gs) a x) as [here|] eqn:Eh; [|discriminate].
          cbn [bind] in E. destruct (recurse_fields v fs) as [rest|]; [|discriminate].
          cbn [bind] in E. injection E as <-. destruct (IHf rest eq_refl) as [C1 C2].
          destruct (Hf a x here Eh) as [D1 D2]. split.
          * apply closed_app; [exact D1|]. apply (closed_weaken _ []); [exact C1|]. intros z [].
          * intros f m' gs' Hin Ef. rewrite map_app. apply in_or_app.
            destruct Hin as [<-|Hin]; [left; exact (D2 m' gs' Ef)|right; exact (C2 f m' gs' Hin Ef)]. }
    destruct A as [A1 A2]. split.
    + apply closed_app; [exact A1|]. constructor; [|constructor].
      intros f m gs Hf Ef. cbn [u_fields snd fst] in Hf. rewrite app_nil_r. apply in_rev.
      rewrite rev_involutive. exact (A2 f m gs Hf Ef).
    + intros m gs Em. injection Em as <- <-. rewrite map_app. apply in_or_app. right. left. reflexivity.
Qed.

Lemma all_closed attributes conf us : all_structs attributes conf = Ok us -> closed [] us.
Proof.
  revert us. induction attributes as [|a attributes IH]; intros us H.
  - injection H as <-. constructor.
  - cbn [all_structs] in H. destruct (recurse_structs _ _ _) as [here|] eqn:E; [|discriminate].
    cbn [bind] in H. destruct (all_structs attributes conf) as [rest|]; [|discriminate].
    cbn [bind] in H. injection H as <-. apply closed_app.
    + exact (proj1 (recurse_closed _ _ _ _ E)).
    + apply (closed_weaken _ []); [apply IH; reflexivity|]. intros z [].
Qed.

(** Names of types do not start with [struct ] (stage3.py:700-704). *)
Definition named_ok (t : ctype) : Prop :=
  forall n, t = Named n -> forall s, show_type (Named n) <> ("struct " ++ s)%string.
Definition fields_ok (us : list struct_use) : Prop :=
  forall u f, In u us -> In f (u_fields u) -> named_ok (f_type f).

Lemma existsb_in name l : existsb (String.eqb name) l = true <-> In name l.
Proof.
  rewrite existsb_exists. split.
  - intros (x & Hx & E). apply String.eqb_eq in E. subst. exact Hx.
  - intros H. exists name. split; [exact H|apply String.eqb_refl].
Qed.

Lemma print_fields_in v fs l : mapM (print_field v) fs = Ok l ->
  forall t n k, In (t, n, k) l -> exists f, In f fs /\ t = show_type (f_type f) /\ n = f_name f.
Proof.
  revert l. induction fs as [|f fs IH]; intros l H t n k Hin.
  - injection H as <-. destruct Hin.
  - cbn [mapM] in H. unfold print_field at 1 in H.
    destruct (if f_array f then _ else _) as [len|]; [|discriminate]. cbn [bind] in H.
    destruct (mapM (print_field v) fs) as [l'|]; [|discriminate]. cbn [bind] in H. injection H as <-.
    destruct Hin as [E|Hin].
    + injection E as <- <- <-. exists f. split; [left; reflexivity|auto].
    + destruct (IH l' eq_refl t n k Hin) as (g & Hg & E). exists g. split; [right; exact Hg|exact E].
Qed.

Lemma draw_well_formed us : forall drawn defs,
  closed drawn us -> fields_ok us -> draw us drawn = Ok defs -> well_formed drawn defs.
Proof.
  induction us as [|[[name fs] v] us IH]; intros drawn defs Hc Hf H.
  - injection H as <-. constructor.
  - inversion Hc; subst. cbn [draw] in H.
    assert (Hf' : fields_ok us) by (intros u f Hu; apply Hf; right; exact Hu).
    destruct (existsb (String.eqb name) drawn) eqn:E.
    + apply IH; [|exact Hf'|exact H]. apply (closed_weaken _ (name :: drawn)); [exact H3|].
      intros x [<-|Hx]; [apply existsb_in; exact E|exact Hx].
    + unfold print_struct_definition in H. destruct (mapM (print_field v) fs) as [l|] eqn:El; [|discriminate].
      cbn [bind] in H. destruct (draw us (name :: drawn)) as [rest|] eqn:Er; [|discriminate].
      cbn [bind] in H. injection H as <-. constructor.
      * intros Hin. apply existsb_in in Hin. congruence.
      * intros n t k Hin s Es. destruct (print_fields_in v fs l El t n k Hin) as (f & Hff & Et & _).
        destruct (f_type f) as [m|m gs] eqn:Eft.
        -- exfalso. apply (Hf (name, fs, v) f (or_introl eq_refl) Hff m Eft s). congruence.
        -- rewrite Et in Es. cbn [show_type] in Es. apply string_app_inj_l in Es. subst s.
           exact (H2 f m gs Hff Eft).
      * apply IH; [exact H3|exact Hf'|exact Er].
Qed.
