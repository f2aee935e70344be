(** Aliases, chosen nodes, names and answers of queries. *)
From Coq Require Import ssreflect ssrbool.
From Coq Require Import List Bool String Ascii ZArith Lia.
From Verif Require Import Prelude DtQuery_Model DtQuery_Spec DtQuery_Proofs.
Import ListNotations.
Open Scope string_scope.
Open Scope list_scope.

(** ** Aliases *)
Lemma saysE d name s : one_string d name = Ok s <-> says d name s.
Proof.
  rewrite /one_string /says. split.
  - case: d => [d|] //. case E: (dget d name) => [[[|x [|y l]]|?|?|]|] // [<-].
    by exists d.
  - move=> [d' [-> ->]]. done.
Qed.
Lemma node_at_ok tree path r : node_at tree path = Ok r ->
  exists n, r = [n] /\ only_node tree path n.
Proof.
  rewrite /node_at. case Ef: (List.filter _ tree) => [|n [|m l]] // [<-].
  have Hn : In n (List.filter (fun n => search_escaped path (n_path n)) tree)
    by rewrite Ef; left.
  exists n. split=> //. apply filter_In in Hn. case: Hn => [Hn Hs].
  split=> //. split; first by apply search_escaped_occurs.
  move=> m Hm /search_escaped_occurs Ho.
  have : In m (List.filter (fun n => search_escaped path (n_path n)) tree)
    by apply filter_In.
  rewrite Ef. by case.
Qed.
Lemma node_at_only tree path n : NoDup tree -> only_node tree path n ->
  node_at tree path = Ok [n].
Proof.
  move=> Hnd [Hn [Ho Hu]]. rewrite /node_at.
  have Hf : forall m, In m (List.filter (fun n => search_escaped path (n_path n)) tree)
            -> m = n.
  { move=> m /filter_In [Hm /search_escaped_occurs Hom]. exact: Hu. }
  have Hin : In n (List.filter (fun n => search_escaped path (n_path n)) tree).
  { apply filter_In. split=> //. by apply search_escaped_occurs. }
  have Hndf := NoDup_filter (fun n => search_escaped path (n_path n)) Hnd.
  case: (List.filter _ tree) Hf Hin Hndf => [|a [|b l]] Hf Hin Hndf //.
  - by rewrite (Hf a (or_introl eq_refl)).
  - exfalso. inversion Hndf as [|? ? Hni _]; subst. apply: Hni.
    rewrite (Hf a (or_introl eq_refl)) -(Hf b (or_intror (or_introl eq_refl))).
    by left.
Qed.

Lemma alias_iff tree sp name r : NoDup tree ->
  match_alias tree sp name = Ok r <->
  exists n path, r = [n] /\ says (aliases sp) name path /\
    only_node tree path n.
Proof.
  move=> Hnd. rewrite /match_alias. split.
  - case E: one_string => [path|] //= H. apply node_at_ok in H.
    move: H => [n [-> Hn]]. exists n, path. split=> //. split=> //. by apply saysE.
  - move=> [n [path [-> [/saysE -> Hn]]]] /=. exact: node_at_only.
Qed.
Lemma alias_ambiguous' tree sp name path n m : n_path n <> n_path m ->
  says (aliases sp) name path -> In n tree -> In m tree ->
  occurs_in path (n_path n) -> occurs_in path (n_path m) ->
  match_alias tree sp name = Err ParseError.
Proof. move=> H /saysE Hs. exact: alias_ambiguous. Qed.

Lemma before_colonE s t :
  match cut ":" s with Some (a, _) => a | None => s end = t <-> before_colon s t.
Proof.
  case E: (cut ":" s) => [[a b]|].
  - apply cut_some in E. move: E => [-> Ha]. split.
    + move=> <-. split=> //. right. by exists b.
    + move=> [Ht [E|[r E]]].
      * by case: (Ht a b).
      * have := cut_app ":" a b Ha. rewrite E.
        have := cut_app ":" t r Ht => /= -> [-> _]. done.
  - have Hs : no_char ":" s by apply cut_none. split.
    + move=> <-. split=> //. by left.
    + move=> [_ [//|[r Er]]]. by case: (Hs t r).
Qed.
Lemma slash s : prefix "/" s = true <-> exists r, s = ("/" ++ r)%string.
Proof. exact: prefix_app. Qed.
Lemma chosen_iff tree sp name r : NoDup tree ->
  match_chosen tree sp name = Ok r <->
  exists n s t, r = [n] /\ says (chosen sp) name s /\ before_colon s t /\
    (((exists u, t = ("/" ++ u)%string) /\ only_node tree t n) \/
     ((forall u, t <> ("/" ++ u)%string) /\
      exists path, says (aliases sp) t path /\ only_node tree path n)).
Proof.
  move=> Hnd. rewrite /match_chosen. split.
  - case E: one_string => [s|] //=. apply saysE in E.
    set t := match cut _ _ with Some _ => _ | None => _ end.
    have Ht : before_colon s t by apply before_colonE.
    clearbody t. case Ep: (prefix "/" t).
    + move=> H. apply node_at_ok in H. move: H => [n [-> Hn]].
      exists n, s, t. repeat (split=> //). left. split=> //. by apply slash.
    + move=> H. apply alias_iff in H => //. move: H => [n [path [-> [Hs Hn]]]].
      exists n, s, t. repeat (split=> //). right. split; last by exists path.
      move=> u Eu. have : prefix "/" t = true by apply slash; exists u.
      by rewrite Ep.
  - move=> [n [s [t [-> [/saysE -> [/before_colonE Et H]]]]]] /=.
    rewrite Et. case: H => [[Hu Hn]|[Hu [path [Hs Hn]]]].
    + have -> : prefix "/" t = true by apply slash. exact: node_at_only.
    + have -> : prefix "/" t = false.
      { case Ep: (prefix "/" t) => //. apply slash in Ep. move: Ep => [u Eu].
        by case: (Hu u). }
      apply alias_iff => //. by exists n, path.
Qed.
Section Engine.
Variable py_int : Z -> string -> option Z.
Variable search : string -> option (string -> bool).
Lemma query_alias tree sp q : q_alias q <> "" ->
  match_query py_int search tree sp q = match_alias tree sp (q_alias q).
Proof. rewrite /match_query. by case: String.eqb_spec. Qed.
Lemma query_chosen tree sp q : q_alias q = "" -> q_chosen q <> "" ->
  match_query py_int search tree sp q = match_chosen tree sp (q_chosen q).
Proof. move=> E. rewrite /match_query E /=. by case: String.eqb_spec. Qed.
Lemma query_alias_iff tree sp q r : NoDup tree -> q_alias q <> "" ->
  match_query py_int search tree sp q = Ok r <->
  exists n path, r = [n] /\ says (aliases sp) (q_alias q) path /\
    only_node tree path n.
Proof. move=> Hnd H. rewrite query_alias //. exact: alias_iff. Qed.
Lemma query_chosen_iff tree sp q r : NoDup tree ->
  q_alias q = "" -> q_chosen q <> "" ->
  match_query py_int search tree sp q = Ok r <->
  exists n s t, r = [n] /\ says (chosen sp) (q_chosen q) s /\
    before_colon s t /\
    (((exists u, t = ("/" ++ u)%string) /\ only_node tree t n) \/
     ((forall u, t <> ("/" ++ u)%string) /\
      exists path, says (aliases sp) t path /\ only_node tree path n)).
Proof. move=> Hnd H1 H2. rewrite query_chosen //. exact: chosen_iff. Qed.

(** ** Answers *)
Lemma check_small l : Forall small l -> check_bytes l = Ok tt.
Proof.
  elim=> [|x l' [z [-> Hz]] _ IH] //=.
  have -> : ((-128 <=? z) && (z <=? 127))%Z = true.
  { apply/andP. split; [apply Z.leb_le|apply Z.leb_le]; lia. }
  done.
Qed.
Lemma compare_answers p i v : comparable p i v -> exists b, compare_prop p i v = Ok b.
Proof.
  have Hlt : forall i, (i < 0)%Z -> (i <? 0)%Z = true by move=> j; apply Z.ltb_lt.
  have Hge : forall i, (0 <= i)%Z -> (i <? 0)%Z = false by move=> j; apply Z.ltb_ge.
  case: p => [l|l|l|] //=; rewrite /compare_string /compare_integers.
  - case=> [[/Hlt -> [m ->]]|[/Hge -> [s ->]]]; by eexists.
  - case=> [[/Hlt -> [m ->]]|[/Hge -> [s ->]]]; by eexists.
  - case=> [[/Hlt -> [m [-> Hm]]]|[/Hge -> [s ->]]]; last by eexists.
    rewrite check_small //. by eexists.
Qed.
Lemma attrs_answer n attrs : node_ok n ->
  Forall (fun a => exists k i, key_of py_int (fst a) k i /\
    forall p, In (k, p) (n_props n) -> comparable p i (snd a)) attrs ->
  exists b, match_attrs py_int n attrs = Ok b.
Proof.
  move=> Hn. elim=> [|[key v] l [k [i [Hk Hc]]] _ [b IH]] /=; first by exists true.
  cbn [fst snd] in Hk, Hc. apply parse_key_spec in Hk. rewrite Hk /=.
  have [[p [-> Hp]]|[-> _]] := find_prop_spec _ k Hn; last by exists false.
  cbn [bind]. have [c ->] := compare_answers _ _ _ (Hc p Hp).
  cbn [bind]. case: c; last by exists false. by exists b.
Qed.
Lemma filterM_answers f ns : (forall n, In n ns -> exists b, f n = Ok b) ->
  exists r, filterM f ns = Ok r.
Proof.
  elim: ns => [|n ns IH] H /=; first by exists [].
  have [b ->] := H n (or_introl eq_refl).
  have [r ->] := IH (fun m Hm => H m (or_intror Hm)). by eexists.
Qed.
Lemma query_answers tree sp q : q_alias q = "" -> q_chosen q = "" ->
  Forall node_ok tree -> (q_path q <> "" -> search (q_path q) <> None) ->
  Forall (answerable py_int tree) (q_props q) ->
  exists r, match_query py_int search tree sp q = Ok r.
Proof.
  move=> Ha Hc Hok Hs HF. rewrite /match_query Ha Hc /=.
  have [paths [-> Hp]] : exists paths,
    (if negb (String.eqb (q_path q) "") then match_nodes_by_path search tree (q_path q)
     else Ok []) = Ok paths /\ incl paths tree.
  { case: String.eqb_spec => [_|Hq] /=; first by exists []; split=> //; move=> ? [].
    rewrite /match_nodes_by_path. case: search (Hs Hq) => [f|] // _.
    eexists. split; first reflexivity. move=> n /filter_In. tauto. }
  cbn [bind]. case: (q_props q) HF => [|a l] HF; first by eexists.
  have Hall : forall n, In n tree -> exists b, match_attrs py_int n (a :: l) = Ok b.
  { move=> n Hn. apply: attrs_answer; first by rewrite Forall_forall in Hok; exact: Hok.
    apply: Forall_impl HF => x [k [i [Hk H]]]. exists k, i. split=> // p. exact: H. }
  rewrite /match_nodes_by_attrs. case: paths Hp => [|m ms] Hp.
  - exact: filterM_answers.
  - apply: filterM_answers => n Hn. apply: Hall. exact: Hp.
Qed.
End Engine.

(** ** Names *)
Lemma word_table : forallb (fun c => Bool.eqb (is_word c) (word c)) all_ascii = true.
Proof. by vm_compute. Qed.
Lemma wordE c : is_word c = word c.
Proof.
  have := word_table. rewrite forallb_forall => /(_ c (all_asciiP c)).
  by move/Bool.eqb_prop.
Qed.
Lemma every_wordE s : every_char is_word s <-> every_char word s.
Proof. elim: s => [|c s IH] //=. by rewrite wordE IH. Qed.
Lemma underscoresE s : underscores s = underscored s.
Proof. elim: s => [|c s IH] //=. by rewrite wordE IH. Qed.
Lemma underscored_word s : every_char word s -> underscored s = s.
Proof. elim: s => [|c s IH] //= [-> H]. by rewrite IH. Qed.
Lemma words_only_line t : every_char is_word t ->
  words_only (t ++ String "010"%char "")%string = true.
Proof.
  elim: t => [|c t IH] //= [Hc Ht]. rewrite Hc.
  case: t IH Ht => [|d t] IH Ht //. exact: IH.
Qed.
Lemma words_only_cases s : words_only s = true ->
  every_char is_word s \/
  exists t, every_char is_word t /\ s = (t ++ String "010"%char "")%string.
Proof.
  elim: s => [|c [|d s] IH] H; first by left.
  - cbn in H. apply orb_true_iff in H. case: H => [H|/Ascii.eqb_eq ->]; first by left.
    right. by exists "".
  - change (is_word c && words_only (String d s) = true) in H.
    apply andb_true_iff in H. case: H => [Hc Hs].
    case: (IH Hs) => [H|[t [Ht ->]]]; first by left; split.
    right. by exists (String c t).
Qed.
Lemma rename_names k : (word_line k -> rename k = k) /\
  (~ word_line k -> rename k = underscored k).
Proof.
  split.
  - move=> [[|c t] [Hne [Hw ->]]] //. apply every_wordE in Hw. case: Hw => Hc Ht.
    rewrite /rename /= Hc /= words_only_line //.
  - move=> Hn. rewrite /rename. case E: (key_regexp k); last exact: underscoresE.
    case: k E Hn => [|c k] //= /andP [Hc Hk] Hn.
    have [H|[t [Ht Ek]]] := words_only_cases _ Hk.
    + rewrite -wordE Hc underscored_word //. by apply every_wordE.
    + case: Hn. exists (String c t). split=> //. rewrite Ek. split=> //.
      by apply every_wordE; split.
Qed.
