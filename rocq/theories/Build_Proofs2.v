(** Proofs for C117: the names of the files. *)
From Coq Require Import List String Ascii Bool NArith ZArith Lia Permutation.
From Coq Require Import ssreflect ssrbool.
From Verif Require Import Prelude DecStr Chars Build_Model Build_Spec Build_Proofs.
Import ListNotations.
Open Scope string_scope. Open Scope list_scope.

(** Names of files in the directory of an instance *)
Definition env_names (i : inst) : list string :=
  if eqb (i_env i) "c" then ["camkes.environment.c"] else ["camkesStartScript.sml"; "camkesConstants.sml"; "camkesEndScript.sml"].
Definition names_a (i : inst) : list string :=
  ["camkes.c"; ("include/camkes-component-" ++ i_name i ++ ".h")%string] ++ env_names i ++ ["linker.lds"].
Definition names_b (i : inst) : list string :=
  map basename (i_sources i) ++ map (fun t => ("include/" ++ basename t)%string) (i_headers i) ++
  (if i_single i then ["seL4SingleThreadedComponent.template.c"; "include/seL4SingleThreadedComponent.template.h"] else []) ++
  (if i_debug i then ["camkes.debug.c"] else []) ++ (if i_simple i then ["camkes.simple.c"] else []) ++ (if i_rump i then ["camkes.rumprun.c"] else []).
Definition slot := (conn * bool * (N * cend))%type.
Definition s_end (q : slot) : cend := snd (snd q).
Definition slots (c : conn) : list slot := map (pair (c, false)) (enumerate (c_from c)) ++ map (pair (c, true)) (enumerate (c_to c)).
Definition slot_header (q : slot) (t : string) : list string :=
  let '(c, to, (id, e)) := q in if eqb t "" then [] else [("include/" ++ unique_name c id e ++ ".h")%string].
Definition slot_names (i : inst) (q : slot) : list string :=
  let '(c, to, (id, e)) := q in
  if to then
    if eqb (i_env i) "cakeml" then
      if eqb (k_cakeml_to (c_type c)) "" then [(unique_name c id e ++ ".c")%string] else ["connectorScript.sml"]
    else (unique_name c id e ++ ".c")%string :: slot_header q (k_to_header (c_type c))
  else (unique_name c id e ++ ".c")%string :: slot_header q (k_from_header (c_type c)).
Definition at_slot (i : inst) (q : slot) : bool := at_inst i (s_end q).
Definition conn_names (conns : list conn) (i : inst) : list string := flat_map (slot_names i) (filter (at_slot i) (flat_map slots conns)).
Definition names (conns : list conn) (i : inst) : list string := names_a i ++ conn_names conns i ++ names_b i.
Definition in_dir (bin : string) (i : inst) (n : string) : string := (bin ++ "/" ++ i_name i ++ "/" ++ n)%string.

Lemma dir_in bin i n : (dir bin i ++ "/" ++ n)%string = in_dir bin i n.
Proof. by rewrite /dir /in_dir !string_app_assoc. Qed.
Lemma flat_filter {A B} (f : A -> list B) p l : flat_map f (filter p l) = flat_map (fun x => if p x then f x else []) l.
Proof. elim: l => [|x l IH] //=. destruct (p x) => /=; by rewrite IH. Qed.
Lemma flat_flat {A B C} (f : A -> list B) (g : B -> list C) l : flat_map g (flat_map f l) = flat_map (fun x => flat_map g (f x)) l.
Proof. elim: l => [|x l IH] //=. by rewrite flat_map_app IH. Qed.
Lemma flat_mapf {A B C} (f : A -> B) (g : B -> list C) l : flat_map g (map f l) = flat_map (fun x => g (f x)) l.
Proof. elim: l => [|x l IH] //=. by rewrite IH. Qed.
Lemma map_flat {A B C} (f : A -> list B) (g : B -> C) l : map g (flat_map f l) = flat_map (fun x => map g (f x)) l.
Proof. elim: l => [|x l IH] //=. by rewrite map_app IH. Qed.

Lemma outs_end bin i c to id e : map g_out (end_files bin i c to id e) =
  map (in_dir bin i) (if at_slot i (c, to, (id, e)) then slot_names i (c, to, (id, e)) else []).
Proof.
  rewrite /end_files /at_slot /at_inst /s_end /slot_names /slot_header /header. cbn [snd].
  destruct (eqb (e_inst e) (i_name i)); last by [].
  have H : forall n, (dir bin i ++ "/include/" ++ n)%string = in_dir bin i ("include/" ++ n)%string by move=> n; rewrite -dir_in.
  destruct to; [destruct (eqb (i_env i) "cakeml"); [destruct (eqb (k_cakeml_to _) "")|destruct (eqb (k_to_header _) "")]|destruct (eqb (k_from_header _) "")];
    cbn [map g_out]; by rewrite ?H ?dir_in.
Qed.
Lemma outs_names bin conns i r : instance_files bin conns i = Ok r -> map g_out r = map (in_dir bin i) (names conns i).
Proof.
  rewrite /instance_files. destruct (environment_files bin i) as [env|] eqn:E; last by []. cbn [bind]. move=> R. injection R as <-.
  have EN : map g_out env = map (in_dir bin i) (env_names i).
  { move: E. rewrite /environment_files /env_names. destruct (eqb (i_env i) "c"); [|destruct (eqb (i_env i) "cakeml"); last by []];
      move=> [<-]; cbn [map component_file g_out]; by rewrite ?dir_in. }
  have CN : map g_out (flat_map (fun c => from_files bin i c ++ to_files bin i c) conns) = map (in_dir bin i) (conn_names conns i).
  { rewrite /conn_names flat_filter flat_flat !map_flat. apply: flat_map_ext=> c. rewrite conn_files /slots flat_map_app !flat_mapf !map_app !map_flat.
    f_equal; apply: flat_map_ext=> - [id e]; exact: outs_end. }
  move: CN. generalize (flat_map (fun c => from_files bin i c ++ to_files bin i c) conns). move=> X CN.
  rewrite /names /names_a /names_b.
  repeat (cbn [map app component_file g_out]; rewrite ?map_app). rewrite EN CN !map_map.
  repeat (cbn [map app component_file g_out]; rewrite -?app_assoc). rewrite !dir_in.
  f_equal. f_equal. f_equal. f_equal. f_equal. f_equal.
  - apply: map_ext=> t. rewrite -dir_in. reflexivity.
  - f_equal.
    + apply: map_ext=> t. rewrite -dir_in. reflexivity.
    + destruct (i_single i), (i_debug i), (i_simple i), (i_rump i); cbn [map app component_file g_out]; by rewrite ?dir_in.
Qed.

Lemma outputs_names bin s gs : files bin s = Ok gs ->
  outputs gs = (bin ++ "/graph.dot")%string :: flat_map (fun i => map (in_dir bin i) (names (s_conns s) i)) (software s).
Proof.
  move=> F. case: (files_list _ _ _ F) => -> R. rewrite /outputs. cbn [map g_out]. f_equal. rewrite map_flat.
  have : forall i, In i (software s) -> map g_out (inst_list bin (s_conns s) i) = map (in_dir bin i) (names (s_conns s) i).
  { move=> i /R [r Ri]. rewrite /inst_list Ri. by apply: outs_names. }
  elim: (software s) => [|i l IH] //= H. rewrite H; [by left|]. rewrite IH //. move=> j Ij. by apply: H; right.
Qed.

Lemma in_dir_inj bin i j n m : nslash (i_name i) -> nslash (i_name j) -> in_dir bin i n = in_dir bin j m -> i_name i = i_name j /\ n = m.
Proof. move=> S S' /string_app_inj_l /string_app_inj_l. by apply: slash_sep. Qed.
Lemma graph_not bin i n : (bin ++ "/graph.dot")%string <> in_dir bin i n.
Proof.
  move=> /string_app_inj_l E.
  have E' : "graph.dot" = (i_name i ++ "/" ++ n)%string. { by injection E. }
  apply: (nslash_not (i_name i) n). by rewrite -E'.
Qed.
Lemma out_in bin s gs i n : legal s -> files bin s = Ok gs -> built s i -> In (in_dir bin i n) (outputs gs) <-> In n (names (s_conns s) i).
Proof.
  move=> L F B. rewrite (outputs_names _ _ _ F). split.
  - move=> [/graph_not []|/in_flat_map [j [/software_in Bj /in_map_iff [m [E I]]]]].
    have W : forall k, built s k -> nslash (i_name k). { move=> k [Ik _]. by apply: word_nslash; apply: (l_inst_names _ L). }
    case: (in_dir_inj _ _ _ _ _ (W _ Bj) (W _ B) E) => En <-.
    have <- : j = i by apply: (by_key i_name _ _ _ (l_insts _ L) (proj1 Bj) (proj1 B)). done.
  - move=> I. right. apply/in_flat_map. exists i. split; [by apply/software_in|by apply: in_map].
Qed.

Lemma basename_nslash t : nslash (basename t).
Proof.
  elim: t => [|c r IH] //=. destruct (Ascii.eqb c "/") eqn:E => //.
  destruct (existsb _ _) eqn:X => //. rewrite /nslash /= E /=. rewrite all_chars_list.
  apply/forallb_forall=> d I. apply/negP=> /Ascii.eqb_eq D. subst d.
  have : existsb (Ascii.eqb "/") (list_ascii_of_string r) = true by apply/existsb_exists; exists "/"%char. by rewrite X.
Qed.
Lemma unique_nslash s c id e : legal s -> In c (s_conns s) -> In e (ends c) -> nslash (unique_name c id e).
Proof.
  move=> L C E. rewrite /unique_name !nslash_app. repeat split=> //.
  - apply: word_nslash. by apply: (l_ifaces _ L c).
  - apply: word_nslash. apply: (proj2 (l_conn_names _ L _ C)).
  - apply: digits_nslash. apply: dec_digits.
Qed.
Lemma slots_in conns c to id e : In (c, to, (id, e)) (flat_map slots conns) <-> In c conns /\ In (id, e) (enumerate (ends_at c to)).
Proof.
  rewrite in_flat_map. split.
  - move=> [c' [C /in_app_iff [/in_map_iff [q [Q I]]|/in_map_iff [q [Q I]]]]]; injection Q as <- <- ->; by split.
  - move=> [C I]. exists c. split=> //. apply/in_app_iff. destruct to; [right|left]; by apply: in_map.
Qed.
Lemma enum_end c to id e : In (id, e) (enumerate (ends_at c to)) -> In e (ends c).
Proof. move=> /enum_in [k [_ K]]. have I := nth_error_In _ _ K. apply/in_app_iff. destruct to; [by right|by left]. Qed.

Lemma included_lemma bin s gs i x : legal s -> files bin s = Ok gs -> built s i ->
  In x (includes (s_conns s) i) <-> In (bin ++ "/" ++ i_name i ++ "/include/" ++ x)%string (outputs gs).
Proof.
  move=> L F B. have -> : (bin ++ "/" ++ i_name i ++ "/include/" ++ x)%string = in_dir bin i ("include/" ++ x)%string by [].
  rewrite (out_in _ _ _ _ _ L F B).
  have S : forall q, In q (filter (at_slot i) (flat_map slots (s_conns s))) ->
    In ("include/" ++ x)%string (slot_names i q) -> In x (flat_map (conn_includes i) (s_conns s)).
  { move=> [[c to] [id e]] /filter_In [/slots_in [C Q] A]. rewrite /at_slot /at_inst /s_end in A. cbn [snd] in A.
    have NS := unique_nslash _ _ id _ L C (enum_end _ _ _ _ Q).
    have NC : ("include/" ++ x)%string <> (unique_name c id e ++ ".c")%string.
    { move=> E. have : nslash ("include/" ++ x)%string by rewrite E nslash_app; split. by []. }
    have K : forall t, In ("include/" ++ x)%string (slot_header (c, to, (id, e)) t) -> In x (header_name i c id e t).
    { move=> t. rewrite /slot_header /header_name. destruct (eqb t "") => //. move=> [E|[]]. left. by apply: (string_app_inj_l "include/"). }
    move=> I. apply/in_flat_map. exists c. split=> //. apply/in_app_iff. move: I. rewrite /slot_names. destruct to.
    - destruct (eqb (i_env i) "cakeml") eqn:EE; [destruct (eqb _ "")|].
      + by move=> [E|[]]; case: NC.
      + by move=> [E|[]].
      + move=> [E|/K I]; [by case: NC|]. right. apply/in_flat_map. exists (id, e). split=> //. by rewrite A ?EE.
    - move=> [E|/K I]; [by case: NC|]. left. apply/in_flat_map. exists (id, e). split=> //. by rewrite A. }
  have S' : In x (flat_map (conn_includes i) (s_conns s)) -> In ("include/" ++ x)%string (conn_names (s_conns s) i).
  { move=> /in_flat_map [c [C I]]. apply/in_flat_map.
    have K : forall to id e t, In x (header_name i c id e t) -> In ("include/" ++ x)%string (slot_header (c, to, (id, e)) t).
    { move=> to id e t. rewrite /slot_header /header_name. destruct (eqb t "") => //. move=> [<-|[]]. by left. }
    move/in_app_iff: I => [/in_flat_map [[id e] [Q I]]|/in_flat_map [[id e] [Q I]]].
    - exists (c, false, (id, e)). destruct (eqb (e_inst e) (i_name i)) eqn:A; last by []. split.
      + apply/filter_In. split=> //. by apply/slots_in.
      + right. by apply: K.
    - exists (c, true, (id, e)). destruct (eqb (e_inst e) (i_name i)) eqn:A; last by []. destruct (eqb (i_env i) "cakeml") eqn:EE; first by []. split.
      + apply/filter_In. split=> //. by apply/slots_in.
      + rewrite /slot_names EE. right. by apply: K. }
  have EV : ~ In ("include/" ++ x)%string (env_names i). { rewrite /env_names. destruct (eqb (i_env i) "c"); cbn; intuition discriminate. }
  rewrite /names /includes. split.
  - move=> [<-|/in_app_iff [I|/in_app_iff [I|I]]].
    + by right; left.
    + apply/in_app_iff. right. apply/in_app_iff. left. by apply: S'.
    + apply/in_app_iff. right. apply/in_app_iff. right. apply/in_app_iff. right. apply/in_app_iff. left.
      move/in_map_iff: I => [t [<- I]]. by apply: in_map.
    + apply/in_app_iff. right. apply/in_app_iff. right. apply/in_app_iff. right. apply/in_app_iff. right. apply/in_app_iff. left.
      destruct (i_single i); last by []. destruct I as [<-|[]]. by right; left.
  - move=> /in_app_iff [I|/in_app_iff [/in_flat_map [q [Q I]]|I]].
    + move: I => /in_app_iff [[E|[E|[]]]|/in_app_iff [/EV []|[E|[]]]] //. left. by apply: (string_app_inj_l "include/").
    + right. apply/in_app_iff. left. by apply: (S q).
    + right. apply/in_app_iff. right. apply/in_app_iff. move/in_app_iff: I => [/in_map_iff [t [E _]]|/in_app_iff [/in_map_iff [t [E I]]|I]].
      * have := basename_nslash t. by rewrite E.
      * left. rewrite -(string_app_inj_l "include/" _ _ E). by apply: in_map.
      * right. move: I. destruct (i_single i), (i_debug i), (i_simple i), (i_rump i); cbn [app In]; intros I;
          repeat (destruct I as [I|I]; first (by [] || (left; by apply: (string_app_inj_l "include/")))); done.
Qed.

(** ** Every file once *)
Lemma nodup_flat {A B C} (f : A -> list B) (k : A -> C) l : NoDup (map k l) -> (forall x, In x l -> NoDup (f x)) ->
  (forall x y o, In x l -> In y l -> In o (f x) -> In o (f y) -> k x = k y) -> NoDup (flat_map f l).
Proof.
  elim: l => [|x l IH] N H D; first by constructor. cbn [flat_map]. inversion N as [|? ? NI N']; subst.
  have N2 : NoDup (flat_map f l). { apply: IH=> //. - by move=> y I; apply: H; right. - by move=> y z o I I'; apply: D; right. }
  have N1 : NoDup (f x) by apply: H; left.
  have DD : forall o, In o (f x) -> ~ In o (flat_map f l).
  { move=> o I /in_flat_map [y [Iy Io]]. apply: NI. rewrite (D x y o) //; [by left|by right|by apply: in_map]. }
  clear -N1 N2 DD. elim: (f x) N1 DD => [|o r IHr] N1 DD //=. inversion N1; subst. constructor.
  - rewrite in_app_iff. case=> // I. by apply: (DD o); [left|].
  - apply: IHr=> // p Ip. by apply: DD; right.
Qed.
Lemma nodup_three {A} (a e b : list A) : NoDup (a ++ b) -> NoDup e -> (forall x, In x e -> ~ In x (a ++ b)) -> NoDup (a ++ e ++ b).
Proof.
  move=> N N' D. apply: (Permutation_NoDup (l := e ++ a ++ b)).
  - rewrite app_assoc (app_assoc a). apply: Permutation_app_tail. by apply: Permutation_app_comm.
  - elim: e N' D => [|x e IH] N' D //=. inversion N'; subst. constructor.
    + rewrite in_app_iff. case=> //. by apply: D; left.
    + apply: IH=> // y Iy. by apply: D; right.
Qed.
Lemma la_app a b : list_ascii_of_string (a ++ b)%string = list_ascii_of_string a ++ list_ascii_of_string b.
Proof. elim: a => [|c a IH] //=. by rewrite IH. Qed.
Lemma unique_chars s c id e : legal s -> In c (s_conns s) -> In e (ends c) ->
  In "_"%char (list_ascii_of_string (unique_name c id e)) /\ ~ In "-"%char (list_ascii_of_string (unique_name c id e)).
Proof.
  move=> L C E. rewrite /unique_name !la_app. split.
  - apply/in_app_iff. right. by left.
  - have W : forall w, word w -> ~ In "-"%char (list_ascii_of_string w).
    { move=> w W /W [I|[|]] //. revert I. cbn. intuition discriminate. }
    rewrite !in_app_iff. move=> [/(W _ (l_ifaces _ L _ _ C E)) //|[[|[]] //|[/(W _ (proj2 (l_conn_names _ L _ C))) //|[[|[]] //|]]]].
    have := dec_digits id. rewrite all_chars_list=> /forallb_forall H /H //.
Qed.
Lemma unique_inj c c' id id' e e' : no_underscore (k_name (c_type c)) -> no_underscore (k_name (c_type c')) ->
  unique_name c id e = unique_name c' id' e' -> e_iface e = e_iface e'.
Proof.
  rewrite /unique_name=> N N' E.
  have D := fun n => digits_nounder _ (dec_digits n).
  rewrite -!(string_app_assoc (k_name _)) in E.
  have E2 : ((e_iface e ++ "_" ++ k_name (c_type c)) ++ "_" ++ dec id = (e_iface e' ++ "_" ++ k_name (c_type c')) ++ "_" ++ dec id')%string.
  { rewrite !string_app_assoc. rewrite !string_app_assoc in E. exact E. }
  case: (last_sep _ _ _ _ (D id) (D id') E2) => E3 _. by case: (last_sep _ _ _ _ N N' E3).
Qed.
Lemma map_snd_enum {A} (l : list A) n : map snd (enumerate_from n l) = l.
Proof. elim: l n => [|x l IH] n //=. by rewrite IH. Qed.

Lemma slots_nodup s i : legal s -> NoDup (map (fun q => e_iface (s_end q)) (filter (at_slot i) (flat_map slots (s_conns s)))).
Proof.
  move=> L. have N := l_once _ L.
  have E : map (fun e => (e_inst e, e_iface e)) (flat_map ends (s_conns s)) = map (fun q => (e_inst (s_end q), e_iface (s_end q))) (flat_map slots (s_conns s)).
  { rewrite !map_flat. apply: flat_map_ext=> c. rewrite /ends /slots !map_app !map_map /s_end. cbn [snd].
    by rewrite -!(map_map snd (fun e => (e_inst e, e_iface e))) !map_snd_enum. }
  rewrite E in N. clear E. elim: (flat_map slots (s_conns s)) N => [|q l IH] N /=; first by constructor.
  inversion N as [|? ? NI N']; subst. destruct (at_slot i q) eqn:A; last by apply: IH. cbn [map]. constructor; last by apply: IH.
  move=> /in_map_iff [r [Er /filter_In [Ir Ar]]]. apply: NI. apply/in_map_iff. exists r. split=> //.
  move: A Ar. rewrite /at_slot /at_inst=> /eqb_eq A /eqb_eq Ar. by rewrite A Ar Er.
Qed.

Lemma slot_shape i q n : In n (slot_names i q) -> let '(c, to, (id, e)) := q in
  n = (unique_name c id e ++ ".c")%string \/ n = ("include/" ++ unique_name c id e ++ ".h")%string \/
  n = "connectorScript.sml" /\ to = true /\ i_env i = "cakeml" /\ k_cakeml_to (c_type c) <> "".
Proof.
  move: q => [[c to] [id e]]. rewrite /slot_names /slot_header.
  destruct to; [destruct (eqb_spec (i_env i) "cakeml"); [destruct (eqb_spec (k_cakeml_to (c_type c)) "")|destruct (eqb (k_to_header _) "")]|destruct (eqb (k_from_header _) "")];
    cbn [In]; intuition subst; auto.
Qed.

Lemma distinct_lemma bin s gs : legal s -> files bin s = Ok gs ->
  (forall c, In c (s_conns s) -> no_underscore (k_name (c_type c))) ->
  (forall i, built s i -> i_sources i = [] /\ i_headers i = []) ->
  (forall i c c' e e', built s i -> i_env i = "cakeml" -> In c (s_conns s) -> In c' (s_conns s) -> In e (c_to c) -> In e' (c_to c') ->
    e_inst e = i_name i -> e_inst e' = i_name i -> k_cakeml_to (c_type c) <> "" -> k_cakeml_to (c_type c') <> "" -> e_iface e = e_iface e') ->
  NoDup (outputs gs).
Proof.
  move=> L F U T K. rewrite (outputs_names _ _ _ F). constructor.
  { move=> /in_flat_map [i [_ /in_map_iff [n [E _]]]]. exact: (graph_not bin i n (eq_sym E)). }
  have W : forall k, built s k -> nslash (i_name k). { move=> k [Ik _]. by apply: word_nslash; apply: (l_inst_names _ L). }
  apply: (nodup_flat _ i_name).
  - by apply: software_nodup; apply: (l_insts _ L).
  - move=> i /software_in B. have NN : NoDup (names (s_conns s) i); last first.
    { elim: NN => [|n l NI _ IH] /=; constructor=> //. move=> /in_map_iff [m [E I]]. apply: NI.
      case: (in_dir_inj _ _ _ _ _ (W _ B) (W _ B) E) => _ <-. done. }
    case: (T _ B) => TS TH. rewrite /names. apply: nodup_three.
    + rewrite /names_a /names_b /env_names TS TH.
      destruct (eqb (i_env i) "c"), (i_single i), (i_debug i), (i_simple i), (i_rump i); cbn [map app];
        repeat (constructor; first by (cbn [In]; intuition discriminate)); by constructor.
    + apply: (nodup_flat _ (fun q => e_iface (s_end q))); first by apply: slots_nodup.
      * move=> [[c to] [id e]] /filter_In [/slots_in [C Q] _].
        have X : (unique_name c id e ++ ".c")%string <> ("include/" ++ unique_name c id e ++ ".h")%string.
        { move=> E. have := unique_nslash _ _ id _ L C (enum_end _ _ _ _ Q). move=> NS.
          have : nslash (unique_name c id e ++ ".c")%string by rewrite nslash_app. by rewrite E. }
        rewrite /slot_names /slot_header.
        destruct to; [destruct (eqb (i_env i) "cakeml"); [destruct (eqb (k_cakeml_to _) "")|destruct (eqb (k_to_header _) "")]|destruct (eqb (k_from_header _) "")];
          repeat (constructor; first by (cbn [In]; intuition congruence)); by constructor.
      * move=> [[c to] [id e]] [[c' to'] [id' e']] o /filter_In [/slots_in [C Q] A] /filter_In [/slots_in [C' Q'] A'] /slot_shape H /slot_shape H'.
        rewrite /s_end. cbn [snd]. have NS := unique_nslash _ _ id _ L C (enum_end _ _ _ _ Q). have NS' := unique_nslash _ _ id' _ L C' (enum_end _ _ _ _ Q').
        have UC := unique_chars _ _ id _ L C (enum_end _ _ _ _ Q). have UC' := unique_chars _ _ id' _ L C' (enum_end _ _ _ _ Q').
        have I := unique_inj c c' id id' e e' (U _ C) (U _ C').
        move: A A'. rewrite /at_slot /at_inst /s_end. cbn [snd]=> /eqb_eq A /eqb_eq A'.
        destruct H as [H|[H|[H [Ht [He Hk]]]]], H' as [H'|[H'|[H' [Ht' [He' Hk']]]]]; rewrite H in H'.
        -- apply: I. by apply: string_app_inj_r H'.
        -- exfalso. have : nslash (unique_name c id e ++ ".c")%string by rewrite nslash_app. by rewrite H'.
        -- exfalso. have : In "_"%char (list_ascii_of_string (unique_name c id e ++ ".c")%string) by rewrite la_app; apply/in_app_iff; left; case: UC.
           rewrite H'. cbn. intuition discriminate.
        -- exfalso. have : nslash (unique_name c' id' e' ++ ".c")%string by rewrite nslash_app. by rewrite -H'.
        -- apply: I. move/string_app_inj_l: H' => H'. by apply: string_app_inj_r H'.
        -- by [].
        -- exfalso. have : In "_"%char (list_ascii_of_string (unique_name c' id' e' ++ ".c")%string) by rewrite la_app; apply/in_app_iff; left; case: UC'.
           rewrite -H'. cbn. intuition discriminate.
        -- by [].
        -- subst to to'. apply: (K i c c') => //.
           ++ move/enum_in: Q => [k [_ X]]. exact: (nth_error_In _ _ X).
           ++ move/enum_in: Q' => [k [_ X]]. exact: (nth_error_In _ _ X).
    + move=> n /in_flat_map [[[c to] [id e]] [/filter_In [/slots_in [C Q] _] /slot_shape H]].
      have UC := unique_chars _ _ id _ L C (enum_end _ _ _ _ Q).
      have FX : forall m, In m (names_a i ++ names_b i) -> m <> "connectorScript.sml" /\
        (~ In "_"%char (list_ascii_of_string m) \/ In "-"%char (list_ascii_of_string m)).
      { rewrite /names_a /names_b /env_names TS TH=> m.
        have CH : m = ("include/camkes-component-" ++ i_name i ++ ".h")%string -> m <> "connectorScript.sml" /\
          (~ In "_"%char (list_ascii_of_string m) \/ In "-"%char (list_ascii_of_string m)).
        { move=> ->. split=> //. right. cbn. auto 20. }
        destruct (eqb (i_env i) "c"), (i_single i), (i_debug i), (i_simple i), (i_rump i); cbn [map app In]; intros I;
          repeat (destruct I as [I|I]; [solve [exact (CH (eq_sym I)) | subst m; split; [discriminate|left; cbn; intuition discriminate]]|]); destruct I. }
      move=> /FX [NC [NU|ND]]; destruct H as [H|[H|[H _]]]; subst n; try by [].
      * apply: NU. rewrite la_app in_app_iff. left. exact (proj1 UC).
      * apply: NU. rewrite (la_app "include/") (la_app (unique_name c id e)) !in_app_iff. right. left. exact (proj1 UC).
      * move: ND. rewrite la_app in_app_iff. move=> [I|I]; [exact (proj2 UC I)|by revert I; cbn; intuition discriminate].
      * move: ND. rewrite (la_app "include/") (la_app (unique_name c id e)) !in_app_iff. move=> [I|[I|I]]; [by revert I; cbn; intuition discriminate|exact (proj2 UC I)|by revert I; cbn; intuition discriminate].
  - move=> i j o /software_in B /software_in B' /in_map_iff [n [<- _]] /in_map_iff [m [E _]]. by case: (in_dir_inj _ _ _ _ _ (W _ B') (W _ B) E).
Qed.

(** ** Files of the component *)
Definition fst_part (bin : string) (i : inst) (env : list gen) (conns : list conn) : list gen :=
  [component_file bin i "camkes.c" "component.common.c" true;
   component_file bin i ("include/camkes-component-" ++ i_name i ++ ".h")%string "component.template.h" false] ++ env ++
  [component_file bin i "linker.lds" "linker.lds" false] ++ flat_map (fun c => from_files bin i c ++ to_files bin i c) conns.
Definition opt_part (bin : string) (i : inst) : list gen :=
  map (fun t => component_file bin i (basename t) t true) (i_sources i) ++
  map (fun t => component_file bin i ("include/" ++ basename t)%string t false) (i_headers i) ++
  (if i_single i then
     [component_file bin i "seL4SingleThreadedComponent.template.c" "seL4SingleThreadedComponent.template.c" true;
      component_file bin i "include/seL4SingleThreadedComponent.template.h" "seL4SingleThreadedComponent.template.h" true] else []) ++
  (if i_debug i then [component_file bin i "camkes.debug.c" "component.debug.c" true] else []) ++
  (if i_simple i then [component_file bin i "camkes.simple.c" "component.simple.c" true] else []) ++
  (if i_rump i then [component_file bin i "camkes.rumprun.c" "component.rumprun.c" true] else []).
Lemma component_lemma bin s gs i : legal s -> files bin s = Ok gs -> built s i ->
  let gen n t source := In (mk_gen (bin ++ "/" ++ i_name i ++ "/" ++ n)%string ("component/" ++ i_name i)%string t source) gs in
  gen "camkes.c" "component.common.c" true /\ gen ("include/camkes-component-" ++ i_name i ++ ".h")%string "component.template.h" false /\
  gen "linker.lds" "linker.lds" false /\ (i_env i = "c" -> gen "camkes.environment.c" "component.environment.c" true) /\
  (i_env i = "cakeml" -> gen "camkesStartScript.sml" "component.environment.start.cakeml" true /\ gen "camkesConstants.sml" "camkesConstants.sml" true /\
     gen "camkesEndScript.sml" "component.environment.end.cakeml" true) /\
  (forall t, In t (i_sources i) -> gen (basename t) t true) /\ (forall t, In t (i_headers i) -> gen ("include/" ++ basename t)%string t false) /\
  (i_single i = true -> gen "seL4SingleThreadedComponent.template.c" "seL4SingleThreadedComponent.template.c" true) /\
  (i_debug i = true -> gen "camkes.debug.c" "component.debug.c" true) /\ (i_simple i = true -> gen "camkes.simple.c" "component.simple.c" true) /\
  (i_rump i = true -> gen "camkes.rumprun.c" "component.rumprun.c" true).
Proof.
  move=> L F B gen. case: (files_list _ _ _ F) => E R.
  case: (R _ (proj2 (software_in _ _) B)) => r Ri.
  have H : forall n t b, In (component_file bin i n t b) r -> gen n t b.
  { move=> n t b I. rewrite /gen E. right. apply/in_flat_map. exists i. split; [by apply/software_in|]. rewrite /inst_list Ri.
    move: I. rewrite /component_file dir_in /in_dir. done. }
  move: Ri. rewrite /instance_files. destruct (environment_files bin i) as [env|] eqn:EN; last by []. cbn [bind]. move=> Ri.
  have Q : forall g, In g (fst_part bin i env (s_conns s)) \/ In g (opt_part bin i) -> In g r.
  { move=> g I. have -> : r = fst_part bin i env (s_conns s) ++ opt_part bin i by case: Ri => <-; rewrite /fst_part /opt_part -!app_assoc. by apply/in_app_iff. }
  have EE : forall g, In g env -> In g r by move=> g I; apply: Q; left; rewrite /fst_part !in_app_iff; right; left.
  split; [by apply: H; apply: Q; left; left|]. split; [by apply: H; apply: Q; left; right; left|].
  split; [by apply: H; apply: Q; left; rewrite /fst_part !in_app_iff; right; right; left; left|].
  split.
  { move=> C. apply: H. apply: EE. move: EN. rewrite /environment_files C. cbn. move=> [<-]. by left. }
  split.
  { move=> C. move: EN. rewrite /environment_files C. cbn. move=> [EN]. subst env.
    split; [by apply: H; apply: EE; left|]. split; [by apply: H; apply: EE; right; left|by apply: H; apply: EE; do 2 right; left]. }
  have O : forall g, In g (opt_part bin i) -> In g r by move=> g I; apply: Q; right.
  rewrite /opt_part in O. split; [|split; [|split; [|split; [|split]]]].
  - move=> t I. apply: H. apply: O. apply/in_app_iff. left. apply/in_map_iff. by exists t.
  - move=> t I. apply: H. apply: O. apply/in_app_iff. right. apply/in_app_iff. left. apply/in_map_iff. by exists t.
  - move=> X. apply: H. apply: O. rewrite X. do 2 (apply/in_app_iff; right). by left.
  - move=> X. apply: H. apply: O. rewrite X. do 3 (apply/in_app_iff; right). by left.
  - move=> X. apply: H. apply: O. rewrite X. do 4 (apply/in_app_iff; right). by left.
  - move=> X. apply: H. apply: O. rewrite X. do 5 (apply/in_app_iff; right). by left.
Qed.
Lemma component_only_lemma bin s gs i : legal s -> files bin s = Ok gs -> built s i -> i_sources i = [] ->
  let there n := In (bin ++ "/" ++ i_name i ++ "/" ++ n)%string (outputs gs) in
  (there "camkes.environment.c" -> i_env i = "c") /\ (there "camkesEndScript.sml" -> i_env i = "cakeml") /\
  (there "seL4SingleThreadedComponent.template.c" -> i_single i = true) /\ (there "camkes.debug.c" -> i_debug i = true) /\
  (there "camkes.simple.c" -> i_simple i = true) /\ (there "camkes.rumprun.c" -> i_rump i = true).
Proof.
  move=> L F B T there. case: (files_list _ _ _ F) => _ R. case: (R _ (proj2 (software_in _ _) B)) => r Ri.
  have EV : i_env i = "c" \/ i_env i = "cakeml". { case: (environment_ok bin (s_conns s) i) => [[_ //]|[X _]]. by rewrite Ri in X. }
  have H : forall n, ~ In "_"%char (list_ascii_of_string n) -> n <> "connectorScript.sml" -> there n -> In n (names_a i) \/ In n (names_b i).
  { move=> n NU NC. rewrite /there. change (bin ++ "/" ++ i_name i ++ "/" ++ n)%string with (in_dir bin i n). rewrite (out_in _ _ _ _ _ L F B) /names.
    move=> /in_app_iff [I|/in_app_iff [/in_flat_map [[[c to] [id e]] [/filter_In [/slots_in [C Q] _] /slot_shape S]]|I]]; [by left| |by right].
    exfalso. have UC := unique_chars _ _ id _ L C (enum_end _ _ _ _ Q). destruct S as [S|[S|[S _]]] => //; apply: NU; rewrite S.
    - rewrite la_app in_app_iff. left. exact (proj1 UC).
    - rewrite (la_app "include/") (la_app (unique_name c id e)) !in_app_iff. right. left. exact (proj1 UC). }
  have HD : forall n l, ~ In "/"%char (list_ascii_of_string n) -> ~ In n (map (fun t => ("include/" ++ basename t)%string) l).
  { move=> n l NS /in_map_iff [t [E _]]. apply: NS. rewrite -E. cbn. auto 20. }
  rewrite /names_a /names_b /env_names T in H. cbn [map app] in H.
  repeat split; move=> /H I;
    (have {}I := I ltac:(cbn; intuition discriminate) ltac:(discriminate));
    (destruct I as [I|I]; [|apply in_app_iff in I; destruct I as [I|I]; [exfalso; by apply: (HD _ _ _ I); cbn; intuition discriminate|]]);
    move: I; destruct EV as [EV|EV]; rewrite ?EV; destruct (i_single i), (i_debug i), (i_simple i), (i_rump i); cbn; intuition discriminate.
Qed.
