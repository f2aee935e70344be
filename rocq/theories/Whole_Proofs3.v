(** Instances and address spaces of the parsed system. *)
From Coq Require Import ssreflect ssrbool List String Ascii Bool Arith NArith Lia.
From Verif Require Import Prelude DecStr Flatten_Model Flatten_Spec Flatten_Proofs Flatten_Proofs2.
From Verif Require AttrRef_Model Merge_Model Freeze_Model.
From Verif Require Import Whole_Model Whole_Spec Whole_Proofs Whole_Proofs2.
Import ListNotations.
Open Scope string_scope.
Open Scope list_scope.

Lemma whole_stages S r : whole S = Ok r ->
  exists la lc S' a rest ts root fl ss cs vs,
    stages S la lc S' a rest ts root /\ transform root = Ok fl /\
    AttrRef_Model.resolve (attributes (f_insts fl)) (f_settings fl) = Ok ss /\
    Merge_Model.merge (map to_mconn (f_conns fl)) = Ok cs /\
    mapM concrete ss = Ok vs /\
    Freeze_Model.freeze_configuration (Some (attributes (f_insts fl))) vs = Ok (r_values r) /\
    r_insts r = map (fun i => (iname i, ias i)) (f_insts fl) /\ r_conns r = cs.
Proof.
  rewrite /whole. case C: (collapse 0 S) => [S' n].
  case: (collapse_spec _ _ _ _ C) => la [lc [LA LC]].
  move=> /bind_Ok [a' [A /bind_Ok [ts [T /bind_Ok [root [R /bind_Ok [fl [F H]]]]]]]].
  move: H => /bind_Ok [ss [SS /bind_Ok [cs [CS]]]].
  case: (negb _) => // /bind_Ok [vs [VS /bind_Ok [m [M [<-]]]]].
  move: A. rewrite /compose. case E: (assemblies S') => [|a rest] // [EA]. subst a'.
  exists la, lc, S', a, rest, ts, root, fl, ss, cs, vs. split=> //=.
  split=> //; [exact: unfold_all_rep|exact: unfold_rep].
Qed.

(** * Members and places are found by their names *)
Definition all_members (b : block) : list winst := bl_insts b ++ flat_map wg_insts (bl_groups b).
Lemma all_members_names b : map w_name (all_members b) = loose_names b ++ grouped_names b.
Proof. by rewrite /all_members map_app map_flat_map. Qed.
Lemma member_all b i g : member b i g -> In i (all_members b).
Proof.
  rewrite /all_members in_app_iff. case: g => [k|] /=; last by left.
  move=> [gr [K I]]. right. apply/in_flat_map. exists gr. split=> //. exact: nth_error_In K.
Qed.
Lemma member_group b i j g h : NoDup (loose_names b ++ grouped_names b) -> member b i g -> member b j h ->
  w_name i = w_name j -> i = j /\ g = h.
Proof.
  move=> N MI MJ E. have ? : i = j.
  { rewrite -all_members_names in N. apply: (NoDup_map_In _ _ _ _ _ _ N _ _ E); [exact: member_all MI|exact: member_all MJ]. }
  subst j. split=> //.
  have X: forall k, member b i None -> member b i (Some k) -> False.
  { move=> k MN [gr [K I]]. apply: (NoDup_app_disjoint _ _ _ N (w_name i)); first exact: in_map.
    apply/in_flat_map. exists gr. split; [exact: nth_error_In K|exact: in_map]. }
  case: g MI => [k|] MI; case: h MJ => [k'|] MJ //.
  - f_equal. case: MI MJ => [gr [K I]] [gr' [K' I']].
    apply: (NoDup_flat_map_nth _ _ _ _ (NoDup_app_remove_l _ _ _ N) _ _ _ _ (w_name i) K K'); exact: in_map.
  - exfalso. exact: X MJ MI.
  - exfalso. exact: X MI MJ.
Qed.
Lemma place_inv S p n b : place S (p ++ [n]) b ->
  exists b0 i g, place S p b0 /\ member b0 i g /\ w_name i = n /\ nth_error (components S) (w_type i) = Some b.
Proof.
  move E: (p ++ [n]) => q P. case: P E => {q b} [b _|q b0 i g b P M B] E; first by case: (p) E.
  case: (app_inj_tail _ _ _ _ E) => ? ?. subst. by exists b0, i, g.
Qed.
Lemma place_comp S p b : place S p b -> p <> [] -> In b (components S).
Proof. move=> P NE. move: P NE => [b0 _ []//|q b0 i g c _ _ B _]. exact: nth_error_In B. Qed.
Lemma place_root S b : place S [] b -> In b (assemblies S).
Proof.
  move E: [] => p P. case: P E => {p b} [b I _|p b i g c _ _ _]; first exact/assemblies_In.
  by case: p.
Qed.
Lemma place_nodup S p b : scoped S -> place S p b -> NoDup (loose_names b ++ grouped_names b).
Proof.
  move=> W P. case: (list_eq_dec string_dec p []) => [E|NE].
  - subst p. move/place_root: P => I.
    exact: NoDup_flat_map_elem (sc_insts _ W _ (co_root S)) I.
  - have I := place_comp _ _ _ P NE. have := sc_insts _ W _ (co_comp _ _ I). by rewrite /= app_nil_r.
Qed.
Lemma siblings S p b b' i i' g g' : scoped S -> (p <> [] -> b = b') -> place S p b -> place S p b' ->
  member b i g -> member b' i' g' -> w_name i = w_name i' -> b = b' /\ i = i' /\ g = g'.
Proof.
  move=> W D P P' M M' E. have X: b = b'.
  { case: (list_eq_dec string_dec p []) => [?|NE]; last exact: D.
    subst p. move/place_root: P => I. move/place_root: P' => I'.
    case: (In_nth_error _ _ I) => m B. case: (In_nth_error _ _ I') => m' B'.
    have ? : m = m'; last by subst; rewrite B in B'; case: B'.
    apply: (NoDup_flat_map_nth _ _ _ _ (sc_insts _ W _ (co_root S)) _ _ _ _ (w_name i) B B').
    - rewrite -all_members_names. apply: in_map. exact: member_all M.
    - rewrite -all_members_names E. apply: in_map. exact: member_all M'. }
  split=> //. subst b'. exact: member_group (place_nodup _ _ _ W P) M M' E.
Qed.
Lemma place_det S : scoped S -> forall p b b', place S p b -> place S p b' -> p <> [] -> b = b'.
Proof.
  move=> W. elim/rev_ind => [|n p IH] b b' P P' NE //.
  case: (place_inv _ _ _ _ P) => b0 [i [g [Q [M [E B]]]]].
  case: (place_inv _ _ _ _ P') => b0' [i' [g' [Q' [M' [E' B']]]]].
  have EN: w_name i = w_name i' by rewrite E E'.
  case: (siblings _ _ _ _ _ _ _ _ W (IH _ _ Q Q') Q Q' M M' EN) => _ [? _].
  subst i'. rewrite B in B'. by case: B'.
Qed.

Section Whole.
Variables (S : list item) (la lc : list (list string)) (S' : list item) (a : block) (rest : list block)
  (ts : list comp) (root : comp) (fl : flat).
Hypothesis G : stages S la lc S' a rest ts root.
Hypothesis W : scoped S.
Hypothesis F : transform root = Ok fl.

(** The blocks of the composition at a path, with the labels of their groups *)
Lemma path_insts p c : at_path root p c -> exists bs lss bs', coll_all 0 bs lss bs' /\ composition S bs /\
  (forall b, place S p b <-> In b bs) /\
  (forall x, In x (insts_of c) <-> exists m b ls i g s t,
     nth_error bs m = Some b /\ nth_error lss m = Some ls /\ space_of b ls i g s /\
     nth_error ts (w_type i) = Some t /\ x = Inst (w_name i) s t).
Proof.
  move=> A. case: (at_place _ _ _ _ _ _ _ _ G _ _ A) => [[-> ->]|[NE [k [b [K [B P]]]]]].
  - exists (assemblies S), la, (assemblies S'). split; first exact: sg_asm G.
    split; first exact: co_root. split; last exact: asm_In G.
    move=> b. split; first exact: place_root. move=> I. apply: pl_root. exact/assemblies_In.
  - case: (rep_comp _ _ _ _ _ _ _ _ G _ _ K) => ls [b0 [b' [L [B0 [C R]]]]].
    rewrite B in B0. case: B0 => ?; subst b0.
    have [n [m LB]] : exists n m, labelled n (wishes b) (map w_name (bl_insts b) ++ ls) m.
    { have X: forall n bs lss bs', coll_all n bs lss bs' -> forall k b ls, nth_error bs k = Some b -> nth_error lss k = Some ls ->
        exists n m, labelled n (wishes b) (map w_name (bl_insts b) ++ ls) m.
      { move=> ? ? ? ?. elim=> [n|n m b0 bs ls0 lss b0' bs' _ LB _ IH] [|k0] b1 ls1 //=; last exact: IH.
        move=> [<-] [<-]. by exists n, m. }
      exact: X (sg_comp _ _ _ _ _ _ _ _ G) _ _ _ B L. }
    exists [b], [ls], [b']. split.
    { apply: ca_cons C _ (ca_nil _). apply: labelled_le LB _. lia. }
    split; first exact: comp_composition B. split.
    + move=> b0. split.
      * move=> P0. left. exact: (place_det _ W _ _ _ P P0 NE).
      * by move=> [<-|[]].
    + move=> x. rewrite (comp_In _ _ _ _ _ _ _ C R K). split.
      * move=> [i [g [s [t H]]]]. by exists 0, b, ls, i, g, s, t.
      * move=> [[|[|m0]] [b1 [ls1 [i [g [s [t [H1 [H2 H3]]]]]]]]] //=.
        simpl in H1, H2. case: H1 => ?. case: H2 => ?. subst. by exists i, g, s, t.
Qed.

Lemma place_path p b i g : place S p b -> member b i g -> exists c, at_path root p c.
Proof.
  move=> P M. case: (place_at _ _ _ _ _ _ _ _ G _ _ P) => [[-> _]|[_ [c [k [A _]]]]]; last by exists c.
  exists root. exact: at_here.
Qed.
(** Every declared instance is in the hierarchy, and nothing else is. *)
Lemma insts_iff p c n : at_path root p c ->
  (In n (map iname (insts_of c)) <-> exists b i g, place S p b /\ member b i g /\ w_name i = n).
Proof.
  move=> A. case: (path_insts _ _ A) => bs [lss [bs' [CA [CO [PL IN]]]]]. rewrite in_map_iff. split.
  - move=> [x [<- /IN [m [b [ls [i [g [s [t [B [L [SP [T ->]]]]]]]]]]]]].
    exists b, i, g. split; first by apply/PL; exact: nth_error_In B.
    split=> //. exact: space_of_member SP.
  - move=> [b [i [g [P [M <-]]]]]. move/PL: (P) => /(In_nth_error _ _) [m B].
    case: (coll_all_nth _ _ _ _ CA m) => [H _]. case: (H _ B) => ls [b' [L [_ C]]].
    case: (member_space_of _ _ _ _ _ C M) => s SP.
    have [t T]: exists t, nth_error ts (w_type i) = Some t.
    { apply: (member_type _ _ _ _ _ _ _ _ G b i g) => //.
      case: (list_eq_dec string_dec p []) => [E|NE].
      - left. subst p. exact: place_root P.
      - right. exact: place_comp P NE. }
    exists (Inst (w_name i) s t). split=> //. apply/IN. by exists m, b, ls, i, g, s, t.
Qed.

Lemma root_as_ids : as_ids root.
Proof.
  move=> p c x A X. case: (path_insts _ _ A) => bs [lss [bs' [CA [CO [PL IN]]]]].
  move/IN: X => [m [b [ls [i [g [s [t [B [L [SP [T ->]]]]]]]]]]] /=.
  case: (coll_all_labelled _ _ _ _ CA) => n LB.
  have I: In s (flat_map labels_of (combine bs lss)).
  { apply/in_flat_map. exists (b, ls). split; first exact: nth_error_In (nth_error_combine _ _ _ _ _ _ _ B L).
    rewrite /labels_of /= in_app_iff. case: g SP => [k|] /=.
    - move=> [K _]. right. exact: nth_error_In K.
    - move=> [I ->]. left. rewrite (sc_fresh _ W _ _ _ CO (nth_error_In _ _ B) I). exact: in_map. }
  case: (labelled_In _ _ _ _ _ LB I) => [|[k [_ ->]]]; last exact: made_up_dot_free.
  rewrite somes_wishes => /in_flat_map [b0 [I0 J]].
  case: (sc_ids _ W _ _ CO I0) => [/Forall_forall H _]. apply: H. rewrite !in_app_iff in J *. tauto.
Qed.
Lemma names_nodup : NoDup (map iname (f_insts fl)).
Proof. exact: flat_names_NoDup (root_wf _ _ _ _ _ _ _ _ G W) F. Qed.
Lemma names_iff n : In n (map iname (f_insts fl)) <->
  exists p b i g, place S p b /\ member b i g /\ n = dotted (p ++ [w_name i]).
Proof.
  rewrite (transform_insts _ _ F) map_map in_map_iff. split.
  - move=> [[p x] [<- /all_of_In [c [A X]]]] /=.
    have: In (iname x) (map iname (insts_of c)) by apply: in_map.
    move/(insts_iff _ _ _ A) => [b [i [g [P [M E]]]]]. exists p, b, i, g. by rewrite E.
  - move=> [p [b [i [g [P [M ->]]]]]]. case: (place_path _ _ _ _ P M) => c A.
    have: In (w_name i) (map iname (insts_of c)) by apply/(insts_iff _ _ _ A); exists b, i, g.
    move/in_map_iff => [x [E X]]. exists (p, x). rewrite /= E. split=> //. apply/all_of_In. by exists c.
Qed.
Lemma flat_inst p c b i g s : at_path root p c -> place S p b -> member b i g ->
  In (dotted (p ++ [w_name i]), s) (map (fun x => (iname x, ias x)) (f_insts fl)) ->
  exists x, In x (insts_of c) /\ iname x = w_name i /\ s = dotted (p ++ [ias x]).
Proof.
  move=> A P M. rewrite (transform_insts _ _ F) map_map => /in_map_iff [[q x] [E X]]. simpl in E.
  case: E => E ES. have WF := root_wf _ _ _ _ _ _ _ _ G W.
  have D := inst_path_dot_free _ _ _ WF X.
  have: In (w_name i) (map iname (insts_of c)) by apply/(insts_iff _ _ _ A); exists b, i, g.
  move/in_map_iff => [y [EY Y]].
  have D': Forall (fun s => dot_free s = true) (p ++ [w_name i]).
  { rewrite -EY. apply: inst_path_dot_free WF _. apply/all_of_In. by exists c. }
  have [? EN] : q = p /\ iname x = w_name i.
  { apply: snoc_inj. apply: dotted_inj E => //; [by case: (q)|by case: (p)]. }
  subst q. move/all_of_In: X => [c' [A' X]]. have ? := at_path_det _ _ _ _ WF A A'. subst c'.
  by exists x.
Qed.
Lemma spaces_iff p b i g s p' b' i' g' s' :
  place S p b -> member b i g -> place S p' b' -> member b' i' g' ->
  In (dotted (p ++ [w_name i]), s) (map (fun x => (iname x, ias x)) (f_insts fl)) ->
  In (dotted (p' ++ [w_name i']), s') (map (fun x => (iname x, ias x)) (f_insts fl)) ->
  (s = s' <-> p = p' /\ b = b' /\ (i = i' /\ g = g' \/ exists k, g = Some k /\ g' = Some k)).
Proof.
  move=> P M P' M' H H'. case: (place_path _ _ _ _ P M) => c A. case: (place_path _ _ _ _ P' M') => c' A'.
  case: (flat_inst _ _ _ _ _ _ A P M H) => x [X [EX ES]].
  case: (flat_inst _ _ _ _ _ _ A' P' M' H') => x' [X' [EX' ES']].
  have WF := root_wf _ _ _ _ _ _ _ _ G W.
  have ID: forall p c x, at_path root p c -> In x (insts_of c) -> Forall (fun s => dot_free s = true) (p ++ [ias x]).
  { move=> p0 c0 x0 A0 X0. apply/Forall_app. split; first exact: at_path_dot_free WF A0.
    constructor=> //. exact: root_as_ids A0 X0. }
  (* both at the same path *)
  have KEY: p = p' -> (ias x = ias x' <-> b = b' /\ (i = i' /\ g = g' \/ exists k, g = Some k /\ g' = Some k)).
  { move=> E. subst p'. have ? := at_path_det _ _ _ _ WF A A'. subst c'. clear A'.
    case: (path_insts _ _ A) => bs [lss [bs' [CA [CO [PL IN]]]]].
    move/IN: X => [m [b1 [ls [i1 [g1 [s1 [t [B [L [SP [T E1]]]]]]]]]]].
    move/IN: X' => [m' [b1' [ls' [i1' [g1' [s1' [t' [B' [L' [SP' [T' E1']]]]]]]]]]].
    subst x x'. simpl in EX, EX' |- *.
    have PB: place S p b1 by apply/PL; exact: nth_error_In B.
    have PB': place S p b1' by apply/PL; exact: nth_error_In B'.
    have DT: forall b b', place S p b -> place S p b' -> p <> [] -> b = b' by move=> b2 b2' Q Q'; apply: (place_det _ W _ _ _ Q Q').
    case: (siblings _ _ _ _ _ _ _ _ W (DT _ _ PB P) PB P (space_of_member _ _ _ _ _ SP) M EX) => ? [? ?].
    case: (siblings _ _ _ _ _ _ _ _ W (DT _ _ PB' P') PB' P' (space_of_member _ _ _ _ _ SP') M' EX') => ? [? ?].
    subst b1 i1 g1 b1' i1' g1'. split.
    - move=> E. subst s1'.
      case: (spaces_apart _ _ _ _ _ _ _ _ _ _ _ _ _ _ _ CA (sc_spaces _ W _ CO) _ _ B L B' L' SP SP').
      + move=> b0 I0. by case: (sc_ids _ W _ _ CO I0) => [_ [? _]].
      + move=> b0 i0. exact: sc_fresh W _ _ _ CO.
      + move=> ?. subst m'. rewrite B in B'. case: B' => ?. subst b'. case=> [[E1 [E2 E3]]|K]; split=> //; last by right.
        left. subst g g'. by apply: member_group (place_nodup _ _ _ W P) M M' E3.
    - move=> [? D]. subst b'.
      have NM: w_name i = w_name i' \/ exists k, g = Some k /\ g' = Some k by case: D => [[-> _]|]; [left|right].
      have ? : m = m'.
      { have IM: In (w_name i) (loose_names b ++ grouped_names b)
          by rewrite -all_members_names; apply: in_map; exact: member_all M.
        exact: (NoDup_flat_map_nth _ _ _ _ (sc_insts _ W _ CO) _ _ _ _ (w_name i) B B' IM IM). }
      subst m'. rewrite L in L'. case: L' => ?. subst ls'.
      case: D => [[? ?]|[k [? ?]]]; subst.
      + case: g' {M M' NM} SP SP' => [k|] /= [S1 E1] [S2 E2]; [by rewrite S1 in S2; case: S2|by rewrite E1 E2].
      + move: SP SP' => /= [S1 _] [S2 _]. rewrite S1 in S2. by case: S2. }
  rewrite ES ES'. split.
  - move=> E. have [? EA] : p = p' /\ ias x = ias x'.
    { apply: snoc_inj. apply: dotted_inj E; [exact: ID A X|exact: ID A' X'|by case: (p)|by case: (p')]. }
    split=> //. exact/(KEY ltac:(assumption)).
  - move=> [E1 E2]. by rewrite E1 (proj2 (KEY E1) E2).
Qed.
End Whole.
