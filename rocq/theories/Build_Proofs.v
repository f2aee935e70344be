(** Proofs for C117: which files are generated. *)
From Coq Require Import List String Ascii Bool NArith ZArith Lia.
From Coq Require Import ssreflect ssrbool.
From Verif Require Import Prelude DecStr Chars Build_Model Build_Spec.
From Verif Require Runner_Model Runner_Spec Runner_Proofs.
Import ListNotations.
Open Scope string_scope. Open Scope list_scope.

(** ** Strings *)
Definition nslash (s : string) : Prop := all_chars (fun c => negb (Ascii.eqb c "/")) s = true.
Lemma all_chars_list f s : all_chars f s = forallb f (list_ascii_of_string s).
Proof. by elim: s => [|c s IH] //=; rewrite IH. Qed.
Lemma word_nslash s : word s -> nslash s.
Proof.
  move=> W. rewrite /nslash all_chars_list. apply/forallb_forall=> c /W [I|[->|->]] //.
  apply/negP=> /Ascii.eqb_eq E. subst c. revert I. cbn. intuition discriminate.
Qed.
Lemma digits_nslash s : all_chars is_digit s = true -> nslash s.
Proof.
  rewrite /nslash. elim: s => [|c s IH] //= /andP [D /IH ->]. rewrite andb_true_r.
  apply/negP=> /Ascii.eqb_eq E. subst c. by revert D.
Qed.
Lemma nslash_app a b : nslash (a ++ b)%string <-> nslash a /\ nslash b.
Proof. rewrite /nslash all_chars_app. split; [by move/andP|by move=> [-> ->]]. Qed.
Lemma slash_sep a b a' b' : nslash a -> nslash a' -> (a ++ "/" ++ b = a' ++ "/" ++ b')%string -> a = a' /\ b = b'.
Proof.
  rewrite /nslash. elim: a a' => [|x a IH] [|x' a'] /=.
  - by move=> _ _ [].
  - move=> _ /andP [X _] [E _]. by subst x'.
  - move=> /andP [X _] _ [E _]. by subst x.
  - move=> /andP [_ A] /andP [_ A'] [-> E]. by have [-> ->] := IH _ A A' E.
Qed.
Lemma nslash_not a b : ~ nslash (a ++ "/" ++ b)%string.
Proof. by rewrite nslash_app => - [_ H]. Qed.
Lemma last_sep a b a' b' : no_underscore b -> no_underscore b' -> (a ++ "_" ++ b = a' ++ "_" ++ b')%string -> a = a' /\ b = b'.
Proof.
  rewrite /no_underscore=> N N'. elim: a a' => [|x a IH] [|x' a'] /=.
  - by move=> [].
  - move=> [_ E]. exfalso. apply: N. rewrite E. elim: a' {E} => [|c s IHs] /=; [by left|by right].
  - move=> [_ E]. exfalso. apply: N'. rewrite -E. elim: a {IH E} => [|c s IHs] /=; [by left|by right].
  - move=> [-> /IH [-> ->]] //.
Qed.
Lemma digits_nounder s : all_chars is_digit s = true -> no_underscore s.
Proof. rewrite all_chars_list=> /forallb_forall F I. by have := F _ I. Qed.

(** ** Lists *)
Lemma by_key {A B} (k : A -> B) l x y : NoDup (map k l) -> In x l -> In y l -> k x = k y -> x = y.
Proof.
  elim: l => [|z l IH] //= N I I' E. inversion N as [|? ? NI N']; subst.
  destruct I as [<-|I], I' as [<-|I'] => //; last by apply: IH.
  - exfalso. apply: NI. rewrite E. by apply: in_map.
  - exfalso. apply: NI. rewrite -E. by apply: in_map.
Qed.
Lemma filter_flat {A B} (p : B -> bool) (f : A -> list B) l : filter p (flat_map f l) = flat_map (fun x => filter p (f x)) l.
Proof. elim: l => [|x l IH] //=. by rewrite filter_app IH. Qed.
Lemma flat_one {A B} (f : A -> list B) (k : A -> string) l x : NoDup (map k l) -> In x l -> (forall y, In y l -> k y <> k x -> f y = []) -> flat_map f l = f x.
Proof.
  elim: l => [|y l IH] //= N I H. inversion N as [|? ? NI N']; subst. destruct I as [<-|I].
  - suff -> : flat_map f l = [] by rewrite app_nil_r.
    have Z : forall y, In y l -> f y = [].
    { move=> z Iz. apply: (H z (or_intror Iz)). move=> E. apply: NI. apply/in_map_iff. by exists z. }
    clear -Z. elim: l Z => [|z l IH] Z //=. rewrite Z; [by left|]. apply: IH=> w Iw. apply: Z. by right.
  - rewrite (H y); [by left| |].
    + move=> E. apply: NI. apply/in_map_iff. by exists x.
    + apply: IH=> // z Iz. by apply: H; right.
Qed.
Lemma flat_none {A B} (f : A -> list B) l : (forall y, In y l -> f y = []) -> flat_map f l = [].
Proof. elim: l => [|z l IH] Z //=. rewrite Z; [by left|]. apply: IH=> w Iw. apply: Z. by right. Qed.
Lemma enum_nth {A} (l : list A) n m x : In (m, x) (enumerate_from n l) <-> exists k, m = (n + N.of_nat k)%N /\ nth_error l k = Some x.
Proof.
  elim: l n m => [|y l IH] n m /=.
  - split=> [[]|[[|k] [_ H]]] //.
  - split.
    + case=> [[<- <-]|/IH [k [-> H]]].
      * exists 0. split=> //. lia.
      * exists (S k). split=> //. lia.
    + case=> - [|k] /= [-> H].
      * left. injection H as ->. f_equal. lia.
      * right. apply/IH. exists k. split=> //. lia.
Qed.
Lemma enum_in {A} (l : list A) m x : In (m, x) (enumerate l) <-> exists k, m = N.of_nat k /\ nth_error l k = Some x.
Proof. rewrite enum_nth. split; move=> [k [-> H]]; exists k; split=> //; lia. Qed.
Lemma enum_nodup_from {A} (l : list A) n : NoDup (map fst (enumerate_from n l)).
Proof.
  elim: l n => [|y l IH] n /=; constructor=> //.
  move=> /in_map_iff [[m x] /= [-> /enum_nth [k [E _]]]]. lia.
Qed.
Lemma enum_flat {A B} (f : N * A -> list B) (l : list A) k x : nth_error l k = Some x ->
  (forall m y, m <> N.of_nat k -> f (m, y) = []) -> flat_map f (enumerate l) = f (N.of_nat k, x).
Proof.
  move=> H Z. apply: (flat_one f (fun p => dec (fst p))).
  - rewrite -(map_map fst dec). have := enum_nodup_from l 0%N. rewrite -/(enumerate l).
    elim: (map fst (enumerate l)) => [|a r IH] /= ND; first by constructor. inversion ND; subst. constructor; [|by apply: IH].
    move=> /in_map_iff [b [/dec_inj -> I]]. contradiction.
  - apply/enum_in. by exists k.
  - move=> [m y] _ /= D. apply: Z. move=> E. apply: D. by rewrite E.
Qed.

Lemma item_inj c c' sd sd' id id' : word (c_name c) -> word (c_name c') -> nslash sd -> nslash sd' ->
  item c sd id = item c' sd' id' -> c_name c = c_name c' /\ sd = sd' /\ id = id'.
Proof.
  move=> /word_nslash W /word_nslash W' S S' /string_app_inj_l /(slash_sep _ _ _ _ W W') [-> ] /(slash_sep _ _ _ _ S S') [-> /dec_inj ->] //.
Qed.

Lemma software_in s i : In i (software s) <-> built s i.
Proof. rewrite /software filter_In /built. split; move=> [A B]; split=> //; by destruct (i_hardware i). Qed.
Lemma software_nodup s : NoDup (map i_name (s_insts s)) -> NoDup (map i_name (software s)).
Proof.
  rewrite /software. elim: (s_insts s) => [|i l IH] //= N. inversion N as [|? ? NI N']; subst.
  destruct (i_hardware i) => /=; [by apply: IH|]. constructor; [|by apply: IH].
  move=> /in_map_iff [j [E /filter_In [I _]]]. apply: NI. rewrite -E. by apply: in_map.
Qed.

(** The files as a list of those of the instances *)
Definition env_list (bin : string) (i : inst) : list gen := match environment_files bin i with Ok l => l | Err _ => [] end.
Definition inst_list (bin : string) (conns : list conn) (i : inst) : list gen := match instance_files bin conns i with Ok l => l | Err _ => [] end.
Lemma mapM_flat {A B} (f : A -> res (list B)) l gs : mapM f l = Ok gs ->
  List.concat gs = flat_map (fun x => match f x with Ok r => r | Err _ => [] end) l /\ forall x, In x l -> exists r, f x = Ok r.
Proof.
  elim: l gs => [|x l IH] gs /=.
  - by move=> [<-].
  - destruct (f x) as [r|] eqn:E => //=. destruct (mapM f l) as [rs|] eqn:E2 => //= - [<-] /=.
    case: (IH _ eq_refl) => -> H. split=> // y [<-|/H] //. by exists r.
Qed.
Lemma files_list bin s gs : files bin s = Ok gs ->
  gs = mk_gen (bin ++ "/graph.dot")%string "assembly/" "graph.dot" false :: flat_map (inst_list bin (s_conns s)) (software s) /\
  forall i, In i (software s) -> exists r, instance_files bin (s_conns s) i = Ok r.
Proof.
  rewrite /files. destruct (mapM _ _) as [rs|] eqn:E => //= - [<-]. case: (mapM_flat _ _ _ E) => -> H. by split.
Qed.
(** The files of an instance in three parts: those of the component are around those of the connections. *)
Lemma inst_parts bin conns i r : instance_files bin conns i = Ok r -> exists a b,
  r = a ++ flat_map (fun c => from_files bin i c ++ to_files bin i c) conns ++ b /\
  (forall g, In g a \/ In g b -> g_item g = ("component/" ++ i_name i)%string /\ exists n, g_out g = (dir bin i ++ "/" ++ n)%string).
Proof.
  rewrite /instance_files. destruct (environment_files bin i) as [env|] eqn:E => //= R.
  injection R as <-. eexists (_ :: _ :: env ++ [_]), _. split.
  - cbn [app]. rewrite -!app_assoc. reflexivity.
  - have C : forall n t b, g_item (component_file bin i n t b) = ("component/" ++ i_name i)%string /\
      exists n0, g_out (component_file bin i n t b) = (dir bin i ++ "/" ++ n0)%string by move=> n t b; split=> //; exists n.
    have EE : forall g, In g env -> g_item g = ("component/" ++ i_name i)%string /\ exists n, g_out g = (dir bin i ++ "/" ++ n)%string.
    { move: E. rewrite /environment_files. destruct (eqb (i_env i) "c"); [|destruct (eqb (i_env i) "cakeml"); last by []].
      - move=> [<-] g /= [<-|[]]. apply: C.
      - move=> [<-] g /= [<-|[<-|[<-|[]]]]; apply: C. }
    move=> g [].
    + cbn [In]. move=> [<-|[<-|/in_app_iff [/EE //|[<-|[]]]]]; apply: C.
    + move=> /in_app_iff [/in_map_iff [t [<- _]]|]; first by apply: C.
      move=> /in_app_iff [/in_map_iff [t [<- _]]|]; first by apply: C.
      move=> /in_app_iff [|/in_app_iff [|/in_app_iff []]].
      * destruct (i_single i); last by []. cbn [In]. move=> [<-|[<-|[]]]; apply: C.
      * destruct (i_debug i); last by []. cbn [In]. move=> [<-|[]]; apply: C.
      * destruct (i_simple i); last by []. cbn [In]. move=> [<-|[]]; apply: C.
      * destruct (i_rump i); last by []. cbn [In]. move=> [<-|[]]; apply: C.
Qed.

Lemma filter_none {A} (p : A -> bool) l : (forall x, In x l -> p x = false) -> filter p l = [].
Proof. elim: l => [|x l IH] //= H. rewrite (H x); [by left|]. apply: IH=> y Iy. apply: H. by right. Qed.

(** The files of an end *)
Definition end_files (bin : string) (i : inst) (c : conn) (to : bool) (id : N) (e : cend) : list gen :=
  if eqb (e_inst e) (i_name i) then
    if to then
      if eqb (i_env i) "cakeml" then
        if eqb (k_cakeml_to (c_type c)) "" then [mk_gen (dir bin i ++ "/" ++ unique_name c id e ++ ".c")%string (item c "to" id) (k_to (c_type c)) true]
        else [mk_gen (dir bin i ++ "/connectorScript.sml")%string (item c "to" id) (k_cakeml_to (c_type c)) true]
      else mk_gen (dir bin i ++ "/" ++ unique_name c id e ++ ".c")%string (item c "to" id) (k_to (c_type c)) true ::
           header bin i c "to" id e (k_to_header (c_type c))
    else mk_gen (dir bin i ++ "/" ++ unique_name c id e ++ ".c")%string (item c "from" id) (k_from (c_type c)) true ::
         header bin i c "from" id e (k_from_header (c_type c))
  else [].
Definition side (to : bool) : string := if to then "to" else "from".
Definition ends_at (c : conn) (to : bool) : list cend := if to then c_to c else c_from c.
Lemma conn_files bin i c : from_files bin i c ++ to_files bin i c =
  flat_map (fun p => end_files bin i c false (fst p) (snd p)) (enumerate (c_from c)) ++ flat_map (fun p => end_files bin i c true (fst p) (snd p)) (enumerate (c_to c)).
Proof. f_equal; apply: flat_map_ext=> - [id e] //. Qed.
Lemma end_item bin i c to id e g : In g (end_files bin i c to id e) -> g_item g = item c (side to) id /\ e_inst e = i_name i /\
  (exists n, g_out g = (dir bin i ++ "/" ++ n)%string).
Proof.
  rewrite /end_files /header. destruct (eqb_spec (e_inst e) (i_name i)) as [E|]; last by [].
  destruct to; [destruct (eqb (i_env i) "cakeml"); [destruct (eqb (k_cakeml_to _) "")|]|].
  - cbn [In]. move=> [<-|[]]. split=> //. split=> //. eexists. reflexivity.
  - cbn [In]. move=> [<-|[]]. split=> //. split=> //. eexists. reflexivity.
  - cbn [In]. destruct (eqb (k_to_header _) ""); cbn [In].
    + move=> [<-|[]]. split=> //. split=> //. eexists. reflexivity.
    + move=> [<-|[<-|[]]]; split=> //; split=> //; eexists; first by reflexivity. rewrite [in RHS]/=. 
      instantiate (1 := ("include/" ++ unique_name c id e ++ ".h")%string). reflexivity.
  - cbn [In]. destruct (eqb (k_from_header _) ""); cbn [In].
    + move=> [<-|[]]. split=> //. split=> //. eexists. reflexivity.
    + move=> [<-|[<-|[]]]; split=> //; split=> //; eexists; first by reflexivity.
      instantiate (1 := ("include/" ++ unique_name c id e ++ ".h")%string). reflexivity.
Qed.

Lemma side_ns to : nslash (side to). Proof. by destruct to. Qed.
Lemma end_filter bin s gs c to k e i b : legal s -> files bin s = Ok gs -> In c (s_conns s) ->
  nth_error (ends_at c to) k = Some e -> built s i -> e_inst e = i_name i ->
  filter (fun g => eqb (g_item g) (item c (side to) (N.of_nat k)) && Bool.eqb (g_source g) b) gs =
  filter (fun g => Bool.eqb (g_source g) b) (end_files bin i c to (N.of_nat k) e).
Proof.
  move=> L F C K B E. case: (files_list _ _ _ F) => -> R. cbn [filter].
  set p := fun g => _.
  have -> : eqb (g_item (mk_gen (bin ++ "/graph.dot") "assembly/" "graph.dot" false)) (item c (side to) (N.of_nat k)) = false.
  { cbn [g_item]. apply/negP=> /eqb_eq. by rewrite /item. }
  cbn [andb]. rewrite filter_flat.
  rewrite (flat_one _ i_name _ i (software_nodup _ (l_insts _ L))); first by apply/software_in.
  - move=> j Ij D. case: (R _ Ij) => r Rj. rewrite /inst_list Rj. apply: filter_none=> g Ig.
    apply/negP=> /andP [/eqb_eq It _]. case: (inst_parts _ _ _ _ Rj) => a [z [Er H]]. rewrite Er in Ig.
    have H2 : ~ (In g a \/ In g z). { move=> /H [X _]. rewrite It in X. by rewrite /item in X. }
    move/in_app_iff: Ig => [Ia|/in_app_iff [Ic|Iz]]; [by apply: H2; left| |by apply: H2; right].
    move/in_flat_map: Ic => [c' [C' Ig]]. rewrite conn_files in Ig.
    have [to' [[id' e'] [Ie' Ig']]] : exists to' p', In p' (enumerate (ends_at c' to')) /\ In g (end_files bin j c' to' (fst p') (snd p')).
    { move/in_app_iff: Ig => [/in_flat_map [p' [A A']]|/in_flat_map [p' [A A']]]; [exists false, p'|exists true, p']; by split. }
    case: (end_item _ _ _ _ _ _ _ Ig') => It' [Ej _]. cbn [fst snd] in *. rewrite It in It'.
    case: (item_inj _ _ _ _ _ _ (proj1 (l_conn_names _ L _ C)) (proj1 (l_conn_names _ L _ C')) (side_ns _) (side_ns _) It') => En [Es Ei].
    have Ec : c = c' := by_key c_name _ _ _ (l_conns _ L) C C' En.
    subst c'. have Et : to = to' by destruct to, to'. subst to'. move/enum_in: Ie' => [k' [Ek' K']].
    have X : k' = k by lia. subst k'. rewrite K in K'. injection K' as <-. apply: D. by rewrite -E -Ej.
  - case: (R _ (proj2 (software_in _ _) B)) => r Ri. rewrite /inst_list Ri. case: (inst_parts _ _ _ _ Ri) => a [z [-> H]].
    have H2 : forall g, In g a \/ In g z -> p g = false.
    { move=> g /H [X _]. rewrite /p X. apply/negP=> /andP [/eqb_eq Y _]. by rewrite /item in Y. }
    rewrite !filter_app (filter_none p a); first by move=> g Ig; apply: H2; left.
    rewrite (filter_none p z); first by move=> g Ig; apply: H2; right. rewrite app_nil_r. cbn [app]. rewrite filter_flat.
    have S : forall c' to' id' e' g, In c' (s_conns s) -> In g (end_files bin i c' to' id' e') -> p g = true ->
      c_name c' = c_name c /\ to' = to /\ id' = N.of_nat k.
    { move=> c' to' id' e' g C' /end_item [It' _] /andP [/eqb_eq It _]. rewrite It in It'. move: (eq_sym It') => It''.
      case: (item_inj _ _ _ _ _ _ (proj1 (l_conn_names _ L _ C')) (proj1 (l_conn_names _ L _ C)) (side_ns _) (side_ns _) It'') => En [Es Ei].
      split=> //. split=> //. by destruct to, to'. }
    rewrite (flat_one _ c_name _ c (l_conns _ L) C).
    + move=> c' C' D. rewrite conn_files filter_app !filter_flat. rewrite !flat_none //.
      all: move=> [id' e'] _; apply: filter_none=> g Ig; apply/negP=> P; by case: (S _ _ _ _ _ C' Ig P).
    + rewrite conn_files filter_app !filter_flat.
      have Q : forall to', to' <> to -> flat_map (fun x => filter p (end_files bin i c to' (fst x) (snd x))) (enumerate (ends_at c to')) = [].
      { move=> to' D. apply: flat_none=> - [id' e'] _. apply: filter_none=> g Ig. apply/negP=> P. by case: (S _ _ _ _ _ C Ig P) => _ []. }
      have Q2 : flat_map (fun x => filter p (end_files bin i c to (fst x) (snd x))) (enumerate (ends_at c to)) =
        filter (fun g => Bool.eqb (g_source g) b) (end_files bin i c to (N.of_nat k) e).
      { rewrite (enum_flat _ _ _ _ K).
        - move=> m y D. apply: filter_none=> g Ig. apply/negP=> P. by case: (S _ _ _ _ _ C Ig P) => _ [_].
        - cbn [fst snd]. apply: filter_ext_in=> g /end_item [It _]. rewrite /p It eqb_refl //. }
      destruct to; rewrite -Q2; [have := Q false|have := Q true]; cbn [ends_at]=> -> //. by rewrite app_nil_r.
Qed.

Lemma str_dec_eqb {A} (s t : string) (x y : A) : (if eqb s t then x else y) = (match string_dec s t with left _ => x | right _ => y end).
Proof. destruct (eqb_spec s t), (string_dec s t) => //. Qed.

Lemma from_lemma bin s gs c id e i : legal s -> files bin s = Ok gs ->
  In c (s_conns s) -> nth_error (c_from c) id = Some e -> built s i -> e_inst e = i_name i ->
  let item := ("connector/" ++ c_name c ++ "/from/" ++ dec (N.of_nat id))%string in
  let name := (e_iface e ++ "_" ++ k_name (c_type c) ++ "_" ++ dec (N.of_nat id))%string in
  generated gs item true = [((bin ++ "/" ++ i_name i ++ "/" ++ name ++ ".c")%string, k_from (c_type c))] /\
  generated gs item false = (match string_dec (k_from_header (c_type c)) "" with left _ => [] | right _ =>
    [((bin ++ "/" ++ i_name i ++ "/include/" ++ name ++ ".h")%string, k_from_header (c_type c))] end).
Proof.
  move=> L F C K B E it name. have H := fun b => end_filter _ _ _ c false id e i b L F C K B E.
  rewrite /generated. split.
  - have := H true. rewrite /end_files E eqb_refl /header. rewrite {1}/item. cbn [side]=> ->.
    destruct (eqb (k_from_header (c_type c)) "") => /=; by rewrite /dir !string_app_assoc.
  - have := H false. rewrite /end_files E eqb_refl /header. rewrite {1}/item. cbn [side]=> ->.
    rewrite -str_dec_eqb. destruct (eqb (k_from_header (c_type c)) "") => //=. by rewrite /dir !string_app_assoc.
Qed.
Lemma to_lemma bin s gs c id e i : legal s -> files bin s = Ok gs ->
  In c (s_conns s) -> nth_error (c_to c) id = Some e -> built s i -> e_inst e = i_name i -> i_env i <> "cakeml" ->
  let item := ("connector/" ++ c_name c ++ "/to/" ++ dec (N.of_nat id))%string in
  let name := (e_iface e ++ "_" ++ k_name (c_type c) ++ "_" ++ dec (N.of_nat id))%string in
  generated gs item true = [((bin ++ "/" ++ i_name i ++ "/" ++ name ++ ".c")%string, k_to (c_type c))] /\
  generated gs item false = (match string_dec (k_to_header (c_type c)) "" with left _ => [] | right _ =>
    [((bin ++ "/" ++ i_name i ++ "/include/" ++ name ++ ".h")%string, k_to_header (c_type c))] end).
Proof.
  move=> L F C K B E NC it name. have H := fun b => end_filter _ _ _ c true id e i b L F C K B E.
  have NC' : eqb (i_env i) "cakeml" = false by apply/negP=> /eqb_eq.
  rewrite /generated. split.
  - have := H true. rewrite /end_files E eqb_refl NC' /header. rewrite {1}/item. cbn [side]=> ->.
    destruct (eqb (k_to_header (c_type c)) "") => /=; by rewrite /dir !string_app_assoc.
  - have := H false. rewrite /end_files E eqb_refl NC' /header. rewrite {1}/item. cbn [side]=> ->.
    rewrite -str_dec_eqb. destruct (eqb (k_to_header (c_type c)) "") => //=. by rewrite /dir !string_app_assoc.
Qed.
Lemma to_cakeml_lemma bin s gs c id e i : legal s -> files bin s = Ok gs ->
  In c (s_conns s) -> nth_error (c_to c) id = Some e -> built s i -> e_inst e = i_name i -> i_env i = "cakeml" ->
  let item := ("connector/" ++ c_name c ++ "/to/" ++ dec (N.of_nat id))%string in
  generated gs item false = [] /\
  generated gs item true = match string_dec (k_cakeml_to (c_type c)) "" with
    | left _ => [((bin ++ "/" ++ i_name i ++ "/" ++ e_iface e ++ "_" ++ k_name (c_type c) ++ "_" ++ dec (N.of_nat id) ++ ".c")%string, k_to (c_type c))]
    | right _ => [((bin ++ "/" ++ i_name i ++ "/connectorScript.sml")%string, k_cakeml_to (c_type c))] end.
Proof.
  move=> L F C K B E NC it. have H := fun b => end_filter _ _ _ c true id e i b L F C K B E.
  rewrite /generated -str_dec_eqb. split.
  - have := H false. rewrite /end_files E eqb_refl NC /header. rewrite {1}/item. cbn [side]=> ->.
    by destruct (eqb (k_cakeml_to (c_type c)) "").
  - have := H true. rewrite /end_files E eqb_refl NC /header. rewrite {1}/item. cbn [side]=> ->.
    destruct (eqb (k_cakeml_to (c_type c)) "") => /=; by rewrite /dir /unique_name !string_app_assoc.
Qed.

Lemma find_name (js : list inst) i : NoDup (map i_name js) -> In i js -> find (fun j => eqb (i_name j) (i_name i)) js = Some i.
Proof.
  elim: js => [|j l IH] // N. inversion N as [|? ? NI N']; subst. move=> I. cbn [find].
  destruct (eqb_spec (i_name j) (i_name i)) as [E|D].
  - f_equal. by apply: (by_key i_name (j :: l)) => //; left.
  - destruct I as [->|I]; [by case: D|by apply: IH].
Qed.

(** Where a generated file comes from *)
Lemma origin bin s gs g : files bin s = Ok gs -> In g gs ->
  g = mk_gen (bin ++ "/graph.dot")%string "assembly/" "graph.dot" false \/
  exists i r, built s i /\ instance_files bin (s_conns s) i = Ok r /\ In g r.
Proof.
  move=> F I. case: (files_list _ _ _ F) => E R. rewrite E in I. destruct I as [<-|I]; [by left|right].
  move/in_flat_map: I => [i [Ii Ig]]. case: (R _ Ii) => r Ri. exists i, r. split; [by apply/software_in|]. split=> //.
  by rewrite /inst_list Ri in Ig.
Qed.
Lemma conn_origin bin i c g : In g (from_files bin i c ++ to_files bin i c) ->
  exists to k e, nth_error (ends_at c to) k = Some e /\ In g (end_files bin i c to (N.of_nat k) e).
Proof.
  rewrite conn_files=> /in_app_iff [/in_flat_map [[id e] [A B]]|/in_flat_map [[id e] [A B]]].
  - exists false. move/enum_in: A => [k [E K]]. exists k, e. split=> //. by rewrite -E.
  - exists true. move/enum_in: A => [k [E K]]. exists k, e. split=> //. by rewrite -E.
Qed.

Lemma only_lemma bin s gs g pyint : legal s -> (forall n, pyint (dec (N.of_nat n)) = Ok (Z.of_nat n)) -> files bin s = Ok gs -> In g gs ->
  g_item g = "assembly/" /\ g_out g = (bin ++ "/graph.dot")%string \/
  exists i, built s i /\ (exists rest, g_out g = (bin ++ "/" ++ i_name i ++ "/" ++ rest)%string) /\
    exists entity, Runner_Model.resolve pyint (assembly_of s) (g_item g) = Ok (entity, Some (i_space i)) /\
      (entity = Runner_Model.EInst (runner_inst i) \/
       exists c to n e, In c (s_conns s) /\ nth_error (if to : bool then c_to c else c_from c) n = Some e /\ e_inst e = i_name i /\
         entity = Runner_Model.EEnd (runner_conn s c) to (runner_inst i)).
Proof.
  move=> L P F I. case: (origin _ _ _ _ F I) => [->|]; [by left|move=> OR; right]. move: OR => [i [r [B [R Ig]]]].
  exists i. split=> //. case: (inst_parts _ _ _ _ R) => a [z [Er H]].
  have NI : NoDup (map Runner_Model.in_name (Runner_Model.as_insts (assembly_of s))).
  { cbn. rewrite map_map. exact (l_insts _ L). }
  have CO : forall h, g_item h = ("component/" ++ i_name i)%string /\ (exists n, g_out h = (dir bin i ++ "/" ++ n)%string) -> g = h ->
    (exists rest, g_out g = (bin ++ "/" ++ i_name i ++ "/" ++ rest)%string) /\
    exists entity, Runner_Model.resolve pyint (assembly_of s) (g_item g) = Ok (entity, Some (i_space i)) /\
      (entity = Runner_Model.EInst (runner_inst i) \/
       exists c to n e, In c (s_conns s) /\ nth_error (if to : bool then c_to c else c_from c) n = Some e /\ e_inst e = i_name i /\
         entity = Runner_Model.EEnd (runner_conn s c) to (runner_inst i)).
  { move=> h [It [n O]] ->. split; first by exists n; rewrite O /dir !string_app_assoc.
    exists (Runner_Model.EInst (runner_inst i)). split; last by left. rewrite It.
    apply: (Runner_Proofs.resolve_component_lemma pyint (assembly_of s) (runner_inst i)) => //.
    - cbn. apply: in_map. exact (proj1 B).
    - cbn. apply: word_nslash. apply: (l_inst_names _ L). exact (proj1 B). }
  rewrite Er in Ig. move/in_app_iff: Ig => [Ia|/in_app_iff [Ic|Iz]]; [by apply: (CO g (H _ (or_introl Ia)))| |by apply: (CO g (H _ (or_intror Iz)))].
  move/in_flat_map: Ic => [c [C /conn_origin [to [k [e [K /end_item [It [Ee [n O]]]]]]]]].
  split; first by exists n; rewrite O /dir !string_app_assoc.
  exists (Runner_Model.EEnd (runner_conn s c) to (runner_inst i)). split.
  - have -> : g_item g = ("connector/" ++ Runner_Model.cn_name (runner_conn s c) ++ (if to then "/to/" else "/from/") ++ dec (N.of_nat k))%string.
    { rewrite It /item. by destruct to. }
    have -> : Some (i_space i) = Some (Runner_Model.in_space (runner_inst i)) by [].
    apply: (Runner_Proofs.resolve_connector_lemma pyint (assembly_of s) (runner_conn s c) to k) => //.
    + cbn. rewrite map_map. exact (l_conns _ L).
    + cbn. by apply: in_map.
    + cbn. apply: word_nslash. apply: (proj1 (l_conn_names _ L _ C)).
    + apply: digits_nslash. apply: dec_digits.
    + have X : runner_end s e = runner_inst i by rewrite /runner_end Ee (find_name _ _ (l_insts _ L) (proj1 B)).
      rewrite -X. destruct to; cbn; by apply: map_nth_error.
  - right. exists c, to, k, e. split=> //.
Qed.

Lemma mapM_err {A B} (f : A -> res B) l e : mapM f l = Err e -> exists x, In x l /\ f x = Err e.
Proof.
  elim: l => [|x l IH] //=. destruct (f x) as [r|e'] eqn:E => /=.
  - destruct (mapM f l) as [rs|e''] => //= H. case: (IH H) => y [I Y]. exists y. split=> //. by right.
  - move=> [<-]. exists x. split=> //. by left.
Qed.
Lemma environment_ok bin conns i : (exists r, instance_files bin conns i = Ok r) /\ (i_env i = "c" \/ i_env i = "cakeml") \/
  instance_files bin conns i = Err TemplateError /\ i_env i <> "c" /\ i_env i <> "cakeml".
Proof.
  rewrite /instance_files /environment_files. destruct (eqb_spec (i_env i) "c") as [E|E].
  - left. split; [|by left]. eexists. reflexivity.
  - destruct (eqb_spec (i_env i) "cakeml") as [E'|E']; [left|right]; split=> //; [|by right]. eexists. reflexivity.
Qed.
Lemma succeeds_lemma bin s : (forall i, built s i -> i_env i = "c" \/ i_env i = "cakeml") -> exists gs, files bin s = Ok gs.
Proof.
  move=> H. rewrite /files. destruct (mapM _ _) as [gs|e] eqn:E => /=; [by eexists|exfalso].
  case: (mapM_err _ _ _ E) => i [/software_in /H I F]. case: (environment_ok bin (s_conns s) i) => [[[r R] _]|[_ [N N']]].
  - by rewrite F in R.
  - by case: I.
Qed.
Lemma environment_lemma bin s : files bin s = Err TemplateError <-> exists i, built s i /\ i_env i <> "c" /\ i_env i <> "cakeml".
Proof.
  rewrite /files. destruct (mapM _ _) as [gs|e] eqn:E => /=.
  - split=> // - [i [B [N N']]]. case: (mapM_flat _ _ _ E) => _ H. case: (H i); first by apply/software_in.
    move=> r R. case: (environment_ok bin (s_conns s) i) => [[_ [X|X]]|[X _]] //. by rewrite R in X.
  - case: (mapM_err _ _ _ E) => i [/software_in B F].
    case: (environment_ok bin (s_conns s) i) => [[[r R] _]|[R [N N']]]; first by rewrite F in R.
    rewrite F in R. injection R as ->. split=> // _. by exists i.
Qed.
