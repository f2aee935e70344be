(** C93-C96: the parser from stage 5 to stage 10 (camkes/parser/parser.py). *)
From Coq Require Import List String NArith ZArith.
From Verif Require Import Prelude Whole_Model Whole_Spec Whole_Proofs6 Whole_Proofs7 Whole_Proofs8.
From Verif Require Flatten_Model AttrRef_Model Merge_Model AttrRef_Spec Freeze_Spec.
Import ListNotations.
Open Scope string_scope.
Open Scope list_scope.

(** * C93 Instances and address spaces *)
(** The instances of the parsed system are the declared ones, one for each path. *)
Theorem C93_instances : forall S r, scoped S -> whole S = Ok r ->
  NoDup (map fst (r_insts r)) /\
  forall n, In n (map fst (r_insts r)) <->
    exists p b i g, place S p b /\ member b i g /\ n = dotted (p ++ [w_name i]).
Proof. exact whole_names. Qed.
Print Assumptions C93_instances.

(** Two of them share an address space only when they are members of one group of one
    composition. *)
Theorem C93_spaces : forall S r p b i g s p' b' i' g' s', scoped S -> whole S = Ok r ->
  place S p b -> member b i g -> place S p' b' -> member b' i' g' ->
  In (dotted (p ++ [w_name i]), s) (r_insts r) -> In (dotted (p' ++ [w_name i']), s') (r_insts r) ->
  (s = s' <-> p = p' /\ b = b' /\ (i = i' /\ g = g' \/ exists k, g = Some k /\ g' = Some k)).
Proof. exact whole_spaces. Qed.
Print Assumptions C93_spaces.

(** No two instances or connections have the same name. *)
Theorem C93_different_names : forall S r, whole S = Ok r ->
  NoDup (map fst (r_insts r) ++ map Merge_Model.m_name (r_conns r)).
Proof. exact whole_distinct. Qed.
Print Assumptions C93_different_names.

(** * C94 Connections *)
(** Every end that is written means exactly one interface, of an instance of the system. *)
Theorem C94_ends : forall S r w e, scoped S -> resolved S -> whole S = Ok r -> written S w ->
  In e (Flatten_Model.c_from (snd w)) \/ In e (Flatten_Model.c_to (snd w)) ->
  exists q i, means S (fst w) e q i /\ (exists s, In (dotted q, s) (r_insts r)) /\
    forall q' i', means S (fst w) e q' i' -> q' = q /\ i' = i.
Proof. exact whole_means. Qed.
Print Assumptions C94_ends.

(** The ends of a connection that is written are together in one of the parsed system. *)
Theorem C94_kept : forall S r w, scoped S -> resolved S -> whole S = Ok r -> written S w ->
  exists d, In d (r_conns r) /\ Merge_Model.m_type d = Flatten_Model.c_type (snd w) /\
  (forall q i, from_of S w q i -> In (interface_name q i) (Merge_Model.m_from d)) /\
  (forall q i, to_of S w q i -> In (interface_name q i) (Merge_Model.m_to d)).
Proof. exact whole_conn_kept. Qed.
Print Assumptions C94_kept.

(** The connections that are written are divided into parts, each of which becomes one
    connection of the parsed system; its name is made of their names in order. *)
Theorem C94_parts : forall S r, scoped S -> resolved S -> whole S = Ok r ->
  exists parts, (forall w, written S w <-> In w (List.concat parts)) /\ NoDup (List.concat parts) /\
    Forall2 (comes_from S) parts (r_conns r).
Proof. exact whole_parts. Qed.
Print Assumptions C94_parts.

(** A connection of the parsed system has the ends of connections of its type that are
    written and are chained by interfaces they share, and no others. *)
Theorem C94_made : forall S r d, scoped S -> resolved S -> whole S = Ok r -> In d (r_conns r) ->
  exists ws, ws <> [] /\
  (forall w, In w ws -> written S w /\ Flatten_Model.c_type (snd w) = Merge_Model.m_type d) /\
  (forall e, In e (Merge_Model.m_from d) <-> exists w q i, In w ws /\ from_of S w q i /\ e = interface_name q i) /\
  (forall e, In e (Merge_Model.m_to d) <-> exists w q i, In w ws /\ to_of S w q i /\ e = interface_name q i) /\
  (forall w w', In w ws -> In w' ws -> chained S w w').
Proof. exact whole_conn_made. Qed.
Print Assumptions C94_made.

(** No interface is at the same side of two connections. *)
Theorem C94_apart : forall S r d d' e, scoped S -> resolved S -> whole S = Ok r ->
  In d (r_conns r) -> In d' (r_conns r) ->
  (In e (Merge_Model.m_from d) /\ In e (Merge_Model.m_from d')) \/
  (In e (Merge_Model.m_to d) /\ In e (Merge_Model.m_to d')) -> d = d'.
Proof. exact whole_conn_apart. Qed.
Print Assumptions C94_apart.

(** * C95 Attribute values *)
(** An attribute has in the parsed system the value of its setting, following
    references through the hierarchy and into dictionaries, or its default.  Missing:
    lookups in dictionaries that are not the direct setting of the attribute referred to,
    where they go wrong (C07). *)
Theorem C95_values_partial : forall S r q x v, scoped S -> plain_refs S -> whole S = Ok r ->
  q <> [] -> Forall id_ok q ->
  (Freeze_Spec.value_at (r_values r) (dotted q) x = Some v <-> has_value S q x v).
Proof. exact whole_values. Qed.
Print Assumptions C95_values_partial.

(** With a lookup through another reference the attribute gets the whole dictionary. *)
Definition r_leaf : block := mk_block [] [] [] [] [] [("x", None)].
Definition r_dict : AttrRef_Model.value := AttrRef_Model.VDict [(AttrRef_Model.KStr "k", AttrRef_Model.Atom "1")].
Definition r_asm : block :=
  mk_block [mk_winst "a" "a" 0; mk_winst "b" "b" 0; mk_winst "c" "c" 0] [] [] []
    [AttrRef_Model.mk_setting "a" "x" (AttrRef_Model.Ref "b.x" (Some [AttrRef_Model.KStr "k"]));
     AttrRef_Model.mk_setting "b" "x" (AttrRef_Model.Ref "c.x" None);
     AttrRef_Model.mk_setting "c" "x" (AttrRef_Model.Conc r_dict)] [].
Theorem C95_chained_lookup_refuted : exists S r q x v w, whole S = Ok r /\ Forall id_ok q /\
  has_value S q x v /\ Freeze_Spec.value_at (r_values r) (dotted q) x = Some w /\ w <> v.
Proof.
  exists [IComp r_leaf; IAsm r_asm]. eexists. exists ["a"], "x", (AttrRef_Model.Atom "1"), r_dict.
  assert (T: forall s, In s (bl_settings r_asm) ->
    set_at [IComp r_leaf; IAsm r_asm] [AttrRef_Model.s_inst s] (AttrRef_Model.s_attr s) (AttrRef_Model.s_val s) []).
  { intros s I. exists r_asm, s. split; [apply pl_root; cbn; tauto|]. repeat split. exact I. }
  split; [vm_compute; reflexivity|]. split; [repeat constructor|]. split; [|split; [vm_compute; reflexivity|discriminate]].
  apply (hv_ref _ _ _ [] ["b"] "x" (Some [AttrRef_Model.KStr "k"]) r_dict).
  - apply (T (AttrRef_Model.mk_setting "a" "x" (AttrRef_Model.Ref "b.x" (Some [AttrRef_Model.KStr "k"])))). cbn. tauto.
  - repeat constructor.
  - apply (hv_ref _ _ _ [] ["c"] "x" None r_dict).
    + apply (T (AttrRef_Model.mk_setting "b" "x" (AttrRef_Model.Ref "c.x" None))). cbn. tauto.
    + repeat constructor.
    + apply (hv_set _ _ _ _ []). apply (T (AttrRef_Model.mk_setting "c" "x" (AttrRef_Model.Conc r_dict))). cbn. tauto.
    + constructor.
  - eapply AttrRef_Spec.lk_dict; [exists [], []; split; [reflexivity|intros []]|constructor].
Qed.
Print Assumptions C95_chained_lookup_refuted.

(** * C96 Acceptance *)
(** Well-scoped specifications are accepted when no attribute is set twice, references
    have values, instances and connections have different names, and every connection
    shares at most one of its ends, with connections of its type.  Missing: lookups
    other than in C95, and connections that share several ends (C08). *)
Theorem C96_accepts_partial : forall S, scoped S -> resolved S -> plain_refs S -> acceptable S ->
  exists r, whole S = Ok r.
Proof. exact whole_accepts. Qed.
Print Assumptions C96_accepts_partial.

(** * A specification with two assemblies, groups with and without names, exports and
    references through the hierarchy *)
Definition nm (s : string) := AttrRef_Model.Conc (AttrRef_Model.Atom s).
Definition loose (n : string) (t : nat) := mk_winst n n t.
Definition e_leaf : block :=
  mk_block [] [] [] [] [] [("x", Some (AttrRef_Model.Atom "7")); ("y", None)].
Definition e_mid : block :=
  mk_block [loose "l" 0] [mk_wgroup None [loose "m" 0; loose "n" 0]]
    [Flatten_Model.mk_conn "c" "RPC" [Flatten_Model.mk_cend (Some "l") "a"] [Flatten_Model.mk_cend None "b"]]
    [Flatten_Model.mk_export "l" "srv" "svc"]
    [AttrRef_Model.mk_setting "l" "x" (AttrRef_Model.Ref "m.x" None);
     AttrRef_Model.mk_setting "m" "y" (nm "3")] [("k", None)].
Definition e_dict : AttrRef_Model.value :=
  AttrRef_Model.VDict [(AttrRef_Model.KStr "b", AttrRef_Model.Atom "1");
    (AttrRef_Model.KStr "a", AttrRef_Model.VList [AttrRef_Model.Atom "5"; AttrRef_Model.Atom "9"])].
Definition e_keys := [AttrRef_Model.KStr "a"; AttrRef_Model.KInt (-1)%Z].
Definition e_one : block :=
  mk_block [loose "p" 1] [mk_wgroup (Some "g") [loose "q" 1; loose "r" 0]]
    [Flatten_Model.mk_conn "k1" "RPC" [Flatten_Model.mk_cend (Some "p") "svc"] [Flatten_Model.mk_cend (Some "r") "in"]]
    [] [AttrRef_Model.mk_setting "p" "k" (AttrRef_Model.Ref "p.m.y" None);
        AttrRef_Model.mk_setting "r" "y" (AttrRef_Model.Conc e_dict)] [].
Definition e_two : block :=
  mk_block [] [mk_wgroup None [loose "s" 0]]
    [Flatten_Model.mk_conn "k2" "RPC" [Flatten_Model.mk_cend (Some "q") "svc"] [Flatten_Model.mk_cend (Some "r") "in"]]
    [] [AttrRef_Model.mk_setting "s" "y" (AttrRef_Model.Ref "p.k" None);
        AttrRef_Model.mk_setting "s" "x" (AttrRef_Model.Ref "r.y" (Some e_keys))] [].
Definition e_spec : list item := [IComp e_leaf; IAsm e_one; IComp e_mid; IAsm e_two].

Example e_parsed : exists r, whole e_spec = Ok r /\
  r_insts r = [("p", "p"); ("q", "g"); ("r", "g"); ("s", "unamed_group_1");
    ("p.l", "p.l"); ("p.m", "p.unamed_group_0"); ("p.n", "p.unamed_group_0");
    ("q.l", "q.l"); ("q.m", "q.unamed_group_0"); ("q.n", "q.unamed_group_0")] /\
  r_conns r = [Merge_Model.mk_mconn "p.c" "RPC" ["p.l.a"] ["p.b"];
    Merge_Model.mk_mconn "q.c" "RPC" ["q.l.a"] ["q.b"];
    Merge_Model.mk_mconn "k1.k2" "RPC" ["p.l.srv"; "q.l.srv"] ["r.in"]] /\
  map (fun ia => Freeze_Spec.value_at (r_values r) (fst ia) (snd ia))
    [("p", "k"); ("s", "y"); ("p.l", "x"); ("p.m", "y"); ("r", "x"); ("s", "x"); ("p.n", "y")] =
  map (option_map AttrRef_Model.Atom) [Some "3"; Some "3"; Some "7"; Some "3"; Some "7"; Some "9"; None].
Proof. eexists. vm_compute. repeat split. Qed.

(** It meets the hypotheses. *)
Lemma e_composition bs : composition e_spec bs -> bs = [e_one; e_two] \/ bs = [e_leaf] \/ bs = [e_mid].
Proof. intros [|b I]; [left; reflexivity|]. cbn in I. destruct I as [<-|[<-|[]]]; tauto. Qed.
Ltac e_cases H :=
  apply e_composition in H; destruct H as [->|[->| ->]].
Ltac no_dup := repeat constructor; cbn; intuition discriminate.
Example e_scoped : scoped e_spec.
Proof.
  split.
  - intros bs H. e_cases H; no_dup.
  - intros bs H. e_cases H; no_dup.
  - intros bs H. e_cases H; no_dup.
  - intros b I. cbn in I. destruct I as [<-|[<-|[]]]; no_dup.
  - intros bs b H I. e_cases H; cbn in I; repeat destruct I as [<-|I]; try contradiction;
      (split; [|split; [|split; [|split]]]); repeat constructor; intros n E; discriminate E.
  - intros bs b i H I J. e_cases H; cbn in I; repeat destruct I as [<-|I]; try contradiction;
      cbn in J; repeat destruct J as [<-|J]; try contradiction; reflexivity.
Qed.
Definition e_places : list (path * block) :=
  [([], e_one); ([], e_two); (["p"], e_mid); (["q"], e_mid); (["r"], e_leaf); (["s"], e_leaf);
   (["p"; "l"], e_leaf); (["p"; "m"], e_leaf); (["p"; "n"], e_leaf);
   (["q"; "l"], e_leaf); (["q"; "m"], e_leaf); (["q"; "n"], e_leaf)].
Definition members (b : block) : list (winst * option nat) :=
  map (fun i => (i, None)) (bl_insts b) ++
  flat_map (fun kg => map (fun i => (i, Some (fst kg))) (wg_insts (snd kg)))
    (combine (seq 0 (List.length (bl_groups b))) (bl_groups b)).
Ltac each H := repeat destruct H as [H|H]; try contradiction; try (injection H as <- <-).
Lemma e_member b i g : In b [e_one; e_two; e_mid; e_leaf] -> member b i g -> In (i, g) (members b).
Proof.
  intros I M. destruct g as [k|].
  - destruct M as [gr [K J]]. cbn in I. repeat destruct I as [<-|I]; try contradiction;
      destruct k as [|[|k]]; try discriminate K; cbn in K; injection K as <-; cbn in J;
      repeat destruct J as [<-|J]; try contradiction; cbn; tauto.
  - unfold members. apply in_app_iff. left. apply in_map_iff. exists i. split; [reflexivity|exact M].
Qed.
Lemma e_place p b : place e_spec p b -> In (p, b) e_places.
Proof.
  induction 1 as [b I|p b i g c _ IH M B].
  - cbn in I. repeat destruct I as [I|I]; try contradiction; try discriminate I; injection I as <-; cbn; tauto.
  - assert (J: In (i, g) (members b)).
    { apply e_member; [|exact M]. apply (in_map snd) in IH. cbn in IH. cbn. tauto. }
    cbn in IH. repeat destruct IH as [IH|IH]; try contradiction; injection IH as <- <-;
      cbn in J; repeat destruct J as [J|J]; try contradiction; injection J as <- <-;
      cbn in B; injection B as <-; cbn; tauto.
Qed.
Lemma place_e p b : In (p, b) e_places -> place e_spec p b.
Proof.
  assert (P1: place e_spec [] e_one) by (apply pl_root; cbn; tauto).
  assert (P2: place e_spec [] e_two) by (apply pl_root; cbn; tauto).
  assert (A: forall p b i g c, place e_spec p b -> member b i g ->
    nth_error (components e_spec) (w_type i) = Some c -> place e_spec (p ++ [w_name i]) c)
    by (intros; eapply pl_below; eassumption).
  assert (Mp: member e_one (loose "p" 1) None) by (cbn; tauto).
  assert (Mq: member e_one (loose "q" 1) (Some 0)) by (eexists; split; [reflexivity|cbn; tauto]).
  assert (Mr: member e_one (loose "r" 0) (Some 0)) by (eexists; split; [reflexivity|cbn; tauto]).
  assert (Ms: member e_two (loose "s" 0) (Some 0)) by (eexists; split; [reflexivity|cbn; tauto]).
  assert (Ml: member e_mid (loose "l" 0) None) by (cbn; tauto).
  assert (Mm: member e_mid (loose "m" 0) (Some 0)) by (eexists; split; [reflexivity|cbn; tauto]).
  assert (Mn: member e_mid (loose "n" 0) (Some 0)) by (eexists; split; [reflexivity|cbn; tauto]).
  pose proof (A [] _ _ _ e_mid P1 Mp eq_refl) as Pp. pose proof (A [] _ _ _ e_mid P1 Mq eq_refl) as Pq.
  intros I. cbn in I. repeat destruct I as [I|I]; try contradiction; injection I as <- <-; try assumption;
    first [exact (A [] _ _ _ e_leaf P1 Mr eq_refl) | exact (A [] _ _ _ e_leaf P2 Ms eq_refl)
          |exact (A _ _ _ _ e_leaf Pp Ml eq_refl) | exact (A _ _ _ _ e_leaf Pp Mm eq_refl)
          |exact (A _ _ _ _ e_leaf Pp Mn eq_refl) | exact (A _ _ _ _ e_leaf Pq Ml eq_refl)
          |exact (A _ _ _ _ e_leaf Pq Mm eq_refl) | exact (A _ _ _ _ e_leaf Pq Mn eq_refl)].
Qed.
Ltac e_named :=
  first [ exists e_one, (loose "p" 1), None; split; [apply place_e; cbn; tauto|split; [cbn; tauto|reflexivity]]
        | exists e_one, (loose "q" 1), (Some 0); split; [apply place_e; cbn; tauto|split; [eexists; split; [reflexivity|cbn; tauto]|reflexivity]]
        | exists e_one, (loose "r" 0), (Some 0); split; [apply place_e; cbn; tauto|split; [eexists; split; [reflexivity|cbn; tauto]|reflexivity]]
        | exists e_mid, (loose "l" 0), None; split; [apply place_e; cbn; tauto|split; [cbn; tauto|reflexivity]]].
Example e_resolved : resolved e_spec.
Proof.
  split.
  - intros p b x P X. apply e_place in P. cbn in P. repeat destruct P as [P|P]; try contradiction;
      injection P as <- <-; cbn in X; repeat destruct X as [<-|X]; try contradiction;
      (split; [discriminate|split; [e_named|reflexivity]]).
  - intros p b k e P K E. apply e_place in P. cbn in P. repeat destruct P as [P|P]; try contradiction;
      injection P as <- <-; cbn in K; repeat destruct K as [<-|K]; try contradiction;
      cbn in E; destruct E as [E|E]; repeat destruct E as [<-|E]; try contradiction;
      (split; [reflexivity|]); cbn; try discriminate; e_named.
Qed.
Ltac e_set b s := exists b, s; split; [apply place_e; cbn; tauto|split; [cbn; tauto|split; [reflexivity|split; reflexivity]]].
Example e_plain : plain_refs e_spec.
Proof.
  intros q a p r lk [b [s [P [I [E1 [E2 E3]]]]]]. apply e_place in P. cbn in P.
  repeat destruct P as [P|P]; try contradiction; injection P as <- <-; cbn in I;
    repeat destruct I as [<-|I]; try contradiction; cbn in E3; try discriminate E3; injection E3 as <- <-.
  - exists ["p"; "m"], "y". split; [reflexivity|split; [repeat constructor|split; [discriminate|intros N; destruct (N eq_refl)]]].
  - exists ["p"], "k". split; [reflexivity|split; [repeat constructor|split; [discriminate|intros N; destruct (N eq_refl)]]].
  - exists ["r"], "y". split; [reflexivity|split; [repeat constructor|split; [discriminate|]]].
    intros _. eexists; exists []. e_set e_one (AttrRef_Model.mk_setting "r" "y" (AttrRef_Model.Conc e_dict)).
  - exists ["m"], "x". split; [reflexivity|split; [repeat constructor|split; [discriminate|intros N; destruct (N eq_refl)]]].
  - exists ["m"], "x". split; [reflexivity|split; [repeat constructor|split; [discriminate|intros N; destruct (N eq_refl)]]].
Qed.

(** The ends of its connections *)
Definition e_c := Flatten_Model.mk_conn "c" "RPC" [Flatten_Model.mk_cend (Some "l") "a"] [Flatten_Model.mk_cend None "b"].
Definition e_k1 := Flatten_Model.mk_conn "k1" "RPC" [Flatten_Model.mk_cend (Some "p") "svc"] [Flatten_Model.mk_cend (Some "r") "in"].
Definition e_k2 := Flatten_Model.mk_conn "k2" "RPC" [Flatten_Model.mk_cend (Some "q") "svc"] [Flatten_Model.mk_cend (Some "r") "in"].
Definition e_ends : list ((path * Flatten_Model.conn) * (bool * path * string)) :=
  [((["p"], e_c), (true, ["p"; "l"], "a")); ((["p"], e_c), (false, ["p"], "b"));
   ((["q"], e_c), (true, ["q"; "l"], "a")); ((["q"], e_c), (false, ["q"], "b"));
   (([], e_k1), (true, ["p"; "l"], "srv")); (([], e_k1), (false, ["r"], "in"));
   (([], e_k2), (true, ["q"; "l"], "srv")); (([], e_k2), (false, ["r"], "in"))].
Lemma e_written w : written e_spec w -> In w [(["p"], e_c); (["q"], e_c); ([], e_k1); ([], e_k2)].
Proof.
  intros [b [P K]]. destruct w as [p k]. cbn [fst snd] in P, K. apply e_place in P. cbn in P.
  repeat destruct P as [P|P]; try contradiction; injection P as <- <-; cbn in K;
    repeat destruct K as [<-|K]; try contradiction; cbn; tauto.
Qed.
Ltac e_own := eapply sf_own; [discriminate|apply place_e; cbn; tauto|reflexivity].
Ltac e_via := eapply sf_export; [discriminate|apply place_e; cbn; tauto|reflexivity|cbn; e_own].
Lemma e_end w k : written e_spec w -> end_of e_spec w k -> In (w, k) e_ends.
Proof.
  intros W E. destruct e_parsed as [r [R _]]. destruct k as [[side q] i].
  assert (X: exists e, (if side then In e (Flatten_Model.c_from (snd w)) else In e (Flatten_Model.c_to (snd w))) /\
    means e_spec (fst w) e q i) by (destruct side; exact E).
  destruct X as [e [I M]].
  assert (U: forall q' i', means e_spec (fst w) e q' i' -> (q, i) = (q', i')).
  { intros q' i' M'. assert (I': In e (Flatten_Model.c_from (snd w)) \/ In e (Flatten_Model.c_to (snd w)))
      by (destruct side; tauto).
    destruct (whole_means _ _ _ _ e_scoped e_resolved R W I') as [q0 [i0 [_ [_ D]]]].
    destruct (D _ _ M) as [-> ->]. destruct (D _ _ M') as [-> ->]. reflexivity. }
  clear E M. apply e_written in W. unfold means in U. cbn in W. repeat destruct W as [<-|W]; try contradiction;
    destruct side; cbn in I; destruct I as [<-|[]]; cbn [fst Flatten_Spec.end_path Flatten_Model.e_inst Flatten_Model.e_iface] in U.
  - assert (M: stands_for e_spec (["p"; "l"], "a") (["p"; "l"], "a")) by e_own.
    injection (U _ _ M) as -> ->. cbn. tauto.
  - assert (M: stands_for e_spec (["p"], "b") (["p"], "b")) by e_own.
    injection (U _ _ M) as -> ->. cbn. tauto.
  - assert (M: stands_for e_spec (["q"; "l"], "a") (["q"; "l"], "a")) by e_own.
    injection (U _ _ M) as -> ->. cbn. tauto.
  - assert (M: stands_for e_spec (["q"], "b") (["q"], "b")) by e_own.
    injection (U _ _ M) as -> ->. cbn. tauto.
  - assert (M: stands_for e_spec (["p"], "svc") (["p"; "l"], "srv")) by e_via.
    injection (U _ _ M) as -> ->. cbn. tauto.
  - assert (M: stands_for e_spec (["r"], "in") (["r"], "in")) by e_own.
    injection (U _ _ M) as -> ->. cbn. tauto.
  - assert (M: stands_for e_spec (["q"], "svc") (["q"; "l"], "srv")) by e_via.
    injection (U _ _ M) as -> ->. cbn. tauto.
  - assert (M: stands_for e_spec (["r"], "in") (["r"], "in")) by e_own.
    injection (U _ _ M) as -> ->. cbn. tauto.
Qed.
Lemma e_shared w w' k : written e_spec w -> written e_spec w' -> w' <> w -> end_of e_spec w k -> end_of e_spec w' k ->
  k = (false, ["r"], "in").
Proof.
  intros W W' N E E'. apply (e_end _ _ W) in E. apply (e_end _ _ W') in E'. clear W W'.
  cbn in E. repeat destruct E as [E|E]; try contradiction; injection E as <- <-;
    cbn in E'; repeat destruct E' as [E'|E']; try contradiction; try (discriminate E');
    injection E' as <-; try reflexivity; exfalso; apply N; reflexivity.
Qed.
Lemma e_value_my p : In p ["p"; "q"] -> has_value e_spec [p; "m"] "y" (AttrRef_Model.Atom "3").
Proof.
  intros [<-|[<-|[]]]; [apply (hv_set _ _ _ _ ["p"])|apply (hv_set _ _ _ _ ["q"])];
    e_set e_mid (AttrRef_Model.mk_setting "m" "y" (nm "3")).
Qed.
Lemma e_value_lx p : In p ["p"; "q"] -> has_value e_spec [p; "l"] "x" (AttrRef_Model.Atom "7").
Proof.
  intros I. apply (hv_ref _ _ _ [p] ["m"] "x" None (AttrRef_Model.Atom "7")).
  - destruct I as [<-|[<-|[]]]; e_set e_mid (AttrRef_Model.mk_setting "l" "x" (AttrRef_Model.Ref "m.x" None)).
  - repeat constructor.
  - apply hv_default.
    + intros w p' [b [s [P [J [E1 [E2 _]]]]]]. apply e_place in P. cbn in P. repeat destruct P as [P|P]; try contradiction;
        injection P as <- <-; cbn in J; repeat destruct J as [<-|J]; try contradiction; try discriminate E2; discriminate E1.
    + split; [discriminate|]. exists e_leaf. split; [|cbn; tauto].
      destruct I as [<-|[<-|[]]]; apply place_e; cbn; tauto.
  - constructor.
Qed.
Lemma e_value_pk : has_value e_spec ["p"] "k" (AttrRef_Model.Atom "3").
Proof.
  apply (hv_ref _ _ _ [] ["p"; "m"] "y" None (AttrRef_Model.Atom "3")).
  - e_set e_one (AttrRef_Model.mk_setting "p" "k" (AttrRef_Model.Ref "p.m.y" None)).
  - repeat constructor.
  - apply (e_value_my "p"). cbn. tauto.
  - constructor.
Qed.
Lemma e_value_sy : has_value e_spec ["s"] "y" (AttrRef_Model.Atom "3").
Proof.
  apply (hv_ref _ _ _ [] ["p"] "k" None (AttrRef_Model.Atom "3")).
  - e_set e_two (AttrRef_Model.mk_setting "s" "y" (AttrRef_Model.Ref "p.k" None)).
  - repeat constructor.
  - exact e_value_pk.
  - constructor.
Qed.
Lemma e_value_ry : has_value e_spec ["r"] "y" e_dict.
Proof. apply (hv_set _ _ _ _ []). e_set e_one (AttrRef_Model.mk_setting "r" "y" (AttrRef_Model.Conc e_dict)). Qed.
Lemma e_value_sx : has_value e_spec ["s"] "x" (AttrRef_Model.Atom "9").
Proof.
  apply (hv_ref _ _ _ [] ["r"] "y" (Some e_keys) e_dict).
  - e_set e_two (AttrRef_Model.mk_setting "s" "x" (AttrRef_Model.Ref "r.y" (Some e_keys))).
  - repeat constructor.
  - exact e_value_ry.
  - eapply AttrRef_Spec.lk_dict.
    + exists [(AttrRef_Model.KStr "b", AttrRef_Model.Atom "1")], []. split; [reflexivity|].
      intros [E|[]]. discriminate E.
    + apply (AttrRef_Spec.lk_list_neg _ 0 (AttrRef_Model.Atom "9")); [reflexivity|constructor].
Qed.
Example e_acceptable : acceptable e_spec.
Proof.
  split.
  - discriminate.
  - intros k b i g B M. assert (J: In (i, g) (members b)).
    { apply e_member; [|exact M]. apply nth_error_In in B. cbn in B. cbn. tauto. }
    destruct k as [|[|[|k]]]; cbn in B; try discriminate B; injection B as <-; cbn in J;
      repeat destruct J as [J|J]; try contradiction; injection J as <- _; cbn; repeat constructor.
  - intros b i g B M. assert (J: In (i, g) (members b)) by (apply e_member; [cbn in B; cbn; tauto|exact M]).
    cbn in B. repeat destruct B as [<-|B]; try contradiction; cbn in J; repeat destruct J as [J|J]; try contradiction;
      injection J as <- _; cbn; repeat constructor.
  - intros p b b' i g k P P' M K.
    assert (J: In (i, g) (members b)).
    { apply e_member; [|exact M]. apply e_place in P. apply (in_map snd) in P. cbn in P. cbn. tauto. }
    assert (W: written e_spec (p, k)) by (exists b'; split; assumption).
    apply e_written in W. apply e_place in P. clear M K P'.
    cbn in W. repeat destruct W as [W|W]; try contradiction; injection W as <- <-;
      cbn in P; repeat destruct P as [P|P]; try contradiction; try discriminate P; injection P as <-;
      cbn in J; repeat destruct J as [J|J]; try contradiction; injection J as <- _; discriminate.
  - intros bs H. e_cases H; no_dup.
  - intros q a v p SA. destruct SA as [b [s [P [J [E1 [E2 _]]]]]].
    subst q a. apply e_place in P. cbn in P. repeat destruct P as [P|P]; try contradiction;
      injection P as <- <-; cbn in J; repeat destruct J as [<-|J]; try contradiction; cbn; eexists;
      first [exact e_value_pk|exact e_value_sy|exact e_value_ry|exact e_value_sx
            |apply e_value_my; cbn; tauto|apply e_value_lx; cbn; tauto].
  - intros w w1 w2 k1 k2 W W1 W2 N1 N2 A1 B1 A2 B2.
    rewrite (e_shared _ _ _ W W1 N1 A1 B1), (e_shared _ _ _ W W2 N2 A2 B2). reflexivity.
  - intros w w' W W' _. apply e_written in W. apply e_written in W'. cbn in W, W'.
    repeat destruct W as [<-|W]; try contradiction; repeat destruct W' as [<-|W']; try contradiction; reflexivity.
Qed.
