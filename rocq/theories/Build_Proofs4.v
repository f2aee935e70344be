(** Systems for the claims of C117 and C118 that do not hold, and for the examples. *)
From Coq Require Import List String Ascii Bool NArith ZArith Lia.
From Verif Require Import Prelude DecStr Chars Build_Model Build_Spec Build_Proofs Build_Proofs2 Build_Proofs3.
Import ListNotations.
Open Scope string_scope. Open Scope list_scope.

Definition wordb (s : string) : bool := forallb (fun c => existsb (Ascii.eqb c) ("_"%char :: "."%char :: letters_digits)) (list_ascii_of_string s).
Lemma wordb_ok s : wordb s = true -> word s.
Proof.
  unfold wordb, word. rewrite forallb_forall. intros H c I. specialize (H _ I). rewrite existsb_exists in H. destruct H as (d & J & E).
  apply Ascii.eqb_eq in E. subst d. destruct J as [J|[J|J]]; auto.
Qed.
Definition legalb (s : sys) : bool :=
  nodupb (map i_name (s_insts s)) && nodupb (map c_name (s_conns s)) &&
  nodupb (map (fun e => (e_inst e ++ " " ++ e_iface e)%string) (flat_map ends (s_conns s))) &&
  forallb (fun i => wordb (i_name i)) (s_insts s) &&
  forallb (fun c => wordb (c_name c) && wordb (k_name (c_type c)) && forallb (fun e => wordb (e_iface e)) (ends c)) (s_conns s).
Lemma legalb_ok s : legalb s = true -> legal s.
Proof.
  unfold legalb. rewrite !andb_true_iff, !forallb_forall. intros ((((A & B) & C) & D) & E).
  apply nodupb_ok in A, B, C.
  assert (F : forall c, In c (s_conns s) -> wordb (c_name c) = true /\ wordb (k_name (c_type c)) = true /\ forall e, In e (ends c) -> wordb (e_iface e) = true).
  { intros c I. specialize (E _ I). rewrite !andb_true_iff, forallb_forall in E. tauto. }
  split; auto.
  - apply (nodup_map_on _ _ _ C). intros x y _ _ H. injection H as H1 H2. now rewrite H1, H2.
  - intros i I. apply wordb_ok. auto.
  - intros c I. split; apply wordb_ok; apply F; auto.
  - intros c e I J. apply wordb_ok. destruct (F _ I) as (_ & _ & G). auto.
Qed.

Definition mk (n space : string) : inst := mk_inst n "T" false space "c" false false false false [] [].
Definition rpc : ctype := mk_ctype "seL4RPCCall" "from.template.c" "from.template.h" "to.template.c" "" "to.template.cakeml".
Definition foo : ctype := mk_ctype "Foo" "foo-from.c" "" "foo-to.c" "" "".
Definition sel4_foo : ctype := mk_ctype "seL4_Foo" "bar-from.c" "" "bar-to.c" "" "".
Definition call : ctype := mk_ctype "seL4DirectCall" "direct-from.c" "" "direct-to.c" "" "".

(** Interface x with connector seL4_Foo, interface x_seL4 with connector Foo *)
Definition shared : sys := mk_sys [mk "a" "a"; mk "b" "b"]
  [mk_conn "k" sel4_foo [mk_cend "a" "x" []] [mk_cend "b" "p" []]; mk_conn "l" foo [mk_cend "a" "x_seL4" []] [mk_cend "b" "q" []]].
Lemma distinct_refuted_lemma : exists bin s gs c c', legal s /\ files bin s = Ok gs /\ In c (s_conns s) /\ In c' (s_conns s) /\ c_name c <> c_name c' /\
  (forall i, In i (s_insts s) -> i_env i = "c" /\ i_sources i = [] /\ i_headers i = []) /\ exists o t t',
  generated gs ("connector/" ++ c_name c ++ "/from/0")%string true = [(o, t)] /\ generated gs ("connector/" ++ c_name c' ++ "/from/0")%string true = [(o, t')] /\ t <> t'.
Proof.
  do 2 eexists. exists (match files "bin" shared with Ok gs => gs | Err _ => [] end). do 2 eexists.
  split; [apply (legalb_ok shared); vm_compute; reflexivity|]. split; [instantiate (1 := "bin"); vm_compute; reflexivity|].
  split; [left; reflexivity|]. split; [right; left; reflexivity|]. split; [vm_compute; discriminate|].
  split; [intros i [<-|[<-|[]]]; auto|].
  exists "bin/a/x_seL4_Foo_0.c", "bar-from.c", "foo-from.c". split; [vm_compute; reflexivity|]. split; [vm_compute; reflexivity|discriminate].
Qed.

Definition cake : sys := mk_sys [mk "a" "a"; mk_inst "b" "T" false "b" "cakeml" false false false false [] []]
  [mk_conn "k" rpc [mk_cend "a" "x" []] [mk_cend "b" "p" []]; mk_conn "l" rpc [mk_cend "a" "y" []] [mk_cend "b" "q" []]].
Lemma cakeml_refuted_lemma : exists bin s gs c c', legal s /\ files bin s = Ok gs /\ In c (s_conns s) /\ In c' (s_conns s) /\ c_name c <> c_name c' /\
  (forall c, In c (s_conns s) -> no_underscore (k_name (c_type c))) /\ exists o t,
  generated gs ("connector/" ++ c_name c ++ "/to/0")%string true = [(o, t)] /\ generated gs ("connector/" ++ c_name c' ++ "/to/0")%string true = [(o, t)].
Proof.
  do 2 eexists. exists (match files "bin" cake with Ok gs => gs | Err _ => [] end). do 2 eexists.
  split; [apply (legalb_ok cake); vm_compute; reflexivity|]. split; [instantiate (1 := "bin"); vm_compute; reflexivity|].
  split; [left; reflexivity|]. split; [right; left; reflexivity|]. split; [vm_compute; discriminate|].
  split; [intros c [<-|[<-|[]]]; vm_compute; intuition discriminate|].
  exists "bin/b/connectorScript.sml", "to.template.cakeml". split; vm_compute; reflexivity.
Qed.

Definition device : sys := mk_sys [mk "a" "g"; mk_inst "d" "D" true "g" "c" false false false false [] []] [].
Lemma relocatable_refuted_lemma : exists s i, legal s /\ built s i /\ relocatable s i = true /\ linked s (i_space i) = false.
Proof.
  exists device. eexists. split; [apply legalb_ok; vm_compute; reflexivity|]. split; [split; [left; reflexivity|reflexivity]|]. split; reflexivity.
Qed.

(** Direct calls *)
Definition calls (s : sys) : list (conn * cend * string) :=
  flat_map (fun c => flat_map (fun e => map (fun m => (c, e, m)) (e_methods e)) (ends c)) (filter directb (s_conns s)).
Lemma calls_in s c e m : In c (s_conns s) -> direct c -> In e (ends c) -> In m (e_methods e) -> In (c, e, m) (calls s).
Proof.
  intros C D E M. apply in_flat_map. exists c. split; [apply filter_In; split; auto; now apply directb_ok|].
  apply in_flat_map. exists e. split; auto. now apply in_map.
Qed.
Definition properb (s : sys) : bool :=
  forallb (fun '(c, e, m) => forallb (fun '(c', e', m') =>
    if eqb (e_inst e) (e_inst e') && eqb (e_iface e ++ "_" ++ m)%string (e_iface e' ++ "_" ++ m')%string then eqb (e_iface e) (e_iface e') && eqb m m' else true) (calls s) &&
    negb (eqb (e_iface e ++ "_" ++ m)%string "_camkes_start") && negb (eqb (c_name c ++ "_" ++ m)%string "_camkes_start")) (calls s) &&
  forallb (fun c => nodupb (map e_inst (ends c)) && forallb (fun e => nodupb (e_methods e)) (ends c)) (filter directb (s_conns s)).
Lemma properb_ok s : properb s = true -> proper s.
Proof.
  unfold properb. rewrite andb_true_iff, !forallb_forall. intros (A & B). split.
  - intros c c' e e' m m' C C' D D' E E' I M M' Q.
    specialize (A _ (calls_in s c e m C D E M)). cbn beta iota in A. rewrite !andb_true_iff, forallb_forall in A. destruct A as ((A & _) & _).
    specialize (A _ (calls_in s c' e' m' C' D' E' M')). cbn beta iota in A. rewrite I, Q, !eqb_refl in A. cbn [andb] in A.
    apply andb_true_iff in A. destruct A as (A1 & A2). apply eqb_eq in A1, A2. auto.
  - intros c e m C D E M. specialize (A _ (calls_in s c e m C D E M)). cbn beta iota in A. rewrite !andb_true_iff, !negb_true_iff in A.
    destruct A as ((_ & A1) & A2). split; intros X; rewrite X in *; rewrite eqb_refl in *; discriminate.
  - intros c e C D E. specialize (B c). rewrite filter_In, directb_ok, andb_true_iff, forallb_forall in B. destruct (B (conj C D)) as (_ & F).
    apply nodupb_ok. auto.
  - intros c C D. specialize (B c). rewrite filter_In, directb_ok, andb_true_iff in B. destruct (B (conj C D)) as (F & _). now apply nodupb_ok.
Qed.
Definition clearb (s : sys) : bool :=
  forallb (fun '(c, e, m) => forallb (fun '(c', e', m') =>
    if eqb (c_name c ++ "_" ++ m)%string (c_name c' ++ "_" ++ m')%string then eqb (c_name c) (c_name c') && eqb m m' else true) (calls s)) (calls s) &&
  forallb (fun e => forallb (fun e' => if eqb (e_inst e ++ "_" ++ e_iface e)%string (e_inst e' ++ "_" ++ e_iface e')%string
    then eqb (e_inst e) (e_inst e') && eqb (e_iface e) (e_iface e') else true) (tos s)) (tos s).
Lemma clearb_ok s : clearb s = true -> clear s.
Proof.
  unfold clearb. rewrite andb_true_iff, !forallb_forall. intros (A & B). split.
  - intros c c' e e' m m' C C' D D' E E' M M' Q.
    specialize (A _ (calls_in s c e m C D E M)). cbn beta iota in A. rewrite forallb_forall in A.
    specialize (A _ (calls_in s c' e' m' C' D' E' M')). cbn beta iota in A. rewrite Q, eqb_refl in A.
    apply andb_true_iff in A. destruct A as (A1 & A2). apply eqb_eq in A1, A2. auto.
  - intros c c' e e' C C' D D' E E' Q.
    assert (T : forall c e, In c (s_conns s) -> direct c -> In e (c_to c) -> In e (tos s)).
    { intros k f K DK F. apply in_flat_map. exists k. split; auto. apply filter_In. split; auto. now apply directb_ok. }
    specialize (B _ (T _ _ C D E)). rewrite forallb_forall in B. specialize (B _ (T _ _ C' D' E')). rewrite Q, eqb_refl in B.
    apply andb_true_iff in B. destruct B as (B1 & B2). apply eqb_eq in B1, B2. auto.
Qed.
Definition tablesb (s : sys) (tables : inst -> list sym) : bool :=
  forallb (fun i => nodupb (map y_name (tables i)) && forallb (fun y => negb (eqb (y_name y) "") && negb (String.prefix "camkes connection " (y_name y))) (tables i)) (s_insts s).
Lemma prefix_app a b : String.prefix a (a ++ b)%string = true.
Proof. induction a as [|c a IH]; [now destruct b|]. simpl. destruct (ascii_dec c c); [exact IH|contradiction]. Qed.
Lemma tablesb_ok s tables : tablesb s tables = true -> tables_ok s tables.
Proof.
  unfold tablesb. rewrite forallb_forall. intros A i (I & _). specialize (A _ I). rewrite andb_true_iff, forallb_forall in A. destruct A as (A & B). split.
  - now apply nodupb_ok.
  - intros y Y. specialize (B _ Y). rewrite andb_true_iff, !negb_true_iff in B. destruct B as (B1 & B2). split.
    + intros E. rewrite E, eqb_refl in B1. discriminate.
    + intros n E. rewrite E, prefix_app in B2. discriminate.
Qed.

(** Instance a_b with interface c and instance a with interface b_c *)
Definition lost : sys := mk_sys [mk "x" "g"; mk "a_b" "g"; mk "a" "g"]
  [mk_conn "k" call [mk_cend "x" "p" ["m"]] [mk_cend "a_b" "c" ["m"]]; mk_conn "l" call [mk_cend "x" "q" ["m"]] [mk_cend "a" "b_c" ["m"]]].
Definition lost_tables (i : inst) : list sym :=
  if eqb (i_name i) "x" then [mk_sym "p_m" false; mk_sym "q_m" false; mk_sym "_camkes_start" true]
  else if eqb (i_name i) "a" then [mk_sym "b_c_m" true; mk_sym "_camkes_start" true] else [mk_sym "c_m" true; mk_sym "_camkes_start" true].
Lemma lost_refuted_lemma : exists s tables cs c f t m x y, legal s /\ proper s /\ tables_ok s tables /\ copies s tables = Ok cs /\
  In c (s_conns s) /\ direct c /\ In f (c_from c) /\ c_to c = [t] /\ In m (e_methods f) /\ In m (e_methods t) /\
  built s x /\ built s y /\ e_inst f = i_name x /\ e_inst t = i_name y /\ i_space x = i_space y /\
  In (mk_sym (e_iface f ++ "_" ++ m)%string false) (tables x) /\ In (mk_sym (e_iface t ++ "_" ++ m)%string true) (tables y) /\
  forall sx r, In (x, sx) cs -> In (mk_csym (e_iface f ++ "_" ++ m)%string r Undefined) sx -> definitions cs (i_space x) r = [].
Proof.
  exists lost, lost_tables, (match copies lost lost_tables with Ok cs => cs | Err _ => [] end),
    (mk_conn "l" call [mk_cend "x" "q" ["m"]] [mk_cend "a" "b_c" ["m"]]), (mk_cend "x" "q" ["m"]), (mk_cend "a" "b_c" ["m"]), "m", (mk "x" "g"), (mk "a" "g").
  split; [apply legalb_ok; vm_compute; reflexivity|]. split; [apply properb_ok; vm_compute; reflexivity|].
  split; [apply tablesb_ok; vm_compute; reflexivity|]. split; [vm_compute; reflexivity|].
  split; [right; left; reflexivity|]. split; [reflexivity|]. split; [left; reflexivity|]. split; [reflexivity|]. split; [left; reflexivity|]. split; [left; reflexivity|].
  split; [split; [left; reflexivity|reflexivity]|]. split; [split; [right; right; left; reflexivity|reflexivity]|].
  split; [reflexivity|]. split; [reflexivity|]. split; [reflexivity|]. split; [right; left; reflexivity|]. split; [left; reflexivity|].
  intros sx r I J. vm_compute in I.
  repeat match type of I with _ \/ _ => destruct I as [I|I] end; try contradiction; try discriminate I.
  injection I as <-. vm_compute in J.
  repeat match type of J with _ \/ _ => destruct J as [J|J] end; try contradiction; try discriminate J.
  all: injection J as <-; vm_compute; reflexivity.
Qed.

(** Connection a with method b_c and connection a_b with method c *)
Definition double : sys := mk_sys [mk "x" "g"; mk "w" "g"; mk "y" "g"; mk "z" "g"]
  [mk_conn "a" call [mk_cend "x" "p" ["b_c"]] [mk_cend "y" "r" ["b_c"]]; mk_conn "a_b" call [mk_cend "w" "q" ["c"]] [mk_cend "z" "t" ["c"]]].
Definition double_tables (i : inst) : list sym :=
  if eqb (i_name i) "x" then [mk_sym "p_b_c" false] else if eqb (i_name i) "w" then [mk_sym "q_c" false]
  else if eqb (i_name i) "y" then [mk_sym "r_b_c" true] else [mk_sym "t_c" true].
Lemma double_refuted_lemma : exists s tables cs c f t m x y, legal s /\ proper s /\ tables_ok s tables /\ copies s tables = Ok cs /\
  In c (s_conns s) /\ direct c /\ In f (c_from c) /\ c_to c = [t] /\ In m (e_methods f) /\ In m (e_methods t) /\
  built s x /\ built s y /\ e_inst f = i_name x /\ e_inst t = i_name y /\ i_space x = i_space y /\
  In (mk_sym (e_iface f ++ "_" ++ m)%string false) (tables x) /\ In (mk_sym (e_iface t ++ "_" ++ m)%string true) (tables y) /\
  forall sx r, In (x, sx) cs -> In (mk_csym (e_iface f ++ "_" ++ m)%string r Undefined) sx -> List.length (definitions cs (i_space x) r) = 2.
Proof.
  exists double, double_tables, (match copies double double_tables with Ok cs => cs | Err _ => [] end),
    (mk_conn "a" call [mk_cend "x" "p" ["b_c"]] [mk_cend "y" "r" ["b_c"]]), (mk_cend "x" "p" ["b_c"]), (mk_cend "y" "r" ["b_c"]), "b_c", (mk "x" "g"), (mk "y" "g").
  split; [apply legalb_ok; vm_compute; reflexivity|]. split; [apply properb_ok; vm_compute; reflexivity|].
  split; [apply tablesb_ok; vm_compute; reflexivity|]. split; [vm_compute; reflexivity|].
  split; [left; reflexivity|]. split; [reflexivity|]. split; [left; reflexivity|]. split; [reflexivity|]. split; [left; reflexivity|]. split; [left; reflexivity|].
  split; [split; [left; reflexivity|reflexivity]|]. split; [split; [right; right; left; reflexivity|reflexivity]|].
  split; [reflexivity|]. split; [reflexivity|]. split; [reflexivity|]. split; [left; reflexivity|]. split; [left; reflexivity|].
  intros sx r I J. vm_compute in I.
  repeat match type of I with _ \/ _ => destruct I as [I|I] end; try contradiction; try discriminate I.
  injection I as <-. vm_compute in J.
  repeat match type of J with _ \/ _ => destruct J as [J|J] end; try contradiction; try discriminate J.
  all: injection J as <-; vm_compute; reflexivity.
Qed.

(** A system with direct calls: two callers of one instance, another group, and hardware *)
Definition good : sys := mk_sys [mk "x" "g"; mk "w" "g"; mk "y" "g"; mk "z" "h"; mk_inst "d" "D" true "d" "c" false false false false [] []]
  [mk_conn "k" call [mk_cend "x" "p" ["run"; "stop"]; mk_cend "w" "p" ["run"; "stop"]] [mk_cend "y" "r" ["run"; "stop"]];
   mk_conn "l" rpc [mk_cend "z" "o" ["run"]] [mk_cend "y" "i" ["run"]]].
Definition good_tables (i : inst) : list sym :=
  if eqb (i_name i) "y" then [mk_sym "r_run" true; mk_sym "r_stop" true; mk_sym "main" true]
  else [mk_sym "p_run" false; mk_sym "main" true].
