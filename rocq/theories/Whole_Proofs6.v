(** The statements about the parsed system. *)
From Coq Require Import ssreflect ssrbool List String Ascii Bool Arith NArith Lia Relation_Operators ListDec.
From Verif Require Import Prelude Flatten_Model Flatten_Spec Flatten_Proofs Flatten_Proofs2.
From Verif Require Merge_Model Freeze_Model Freeze_Spec Freeze_Proofs AttrRef_Model AttrRef_Spec AttrRef_Proofs.
From Verif Require Import Whole_Model Whole_Spec Whole_Proofs Whole_Proofs2 Whole_Proofs3 Whole_Proofs4 Whole_Proofs5.
Import ListNotations.
Open Scope string_scope.
Open Scope list_scope.

Lemma whole_names S r : scoped S -> whole S = Ok r ->
  NoDup (map fst (r_insts r)) /\
  forall n, In n (map fst (r_insts r)) <->
    exists p b i g, place S p b /\ member b i g /\ n = dotted (p ++ [w_name i]).
Proof.
  move=> W /whole_stages [la [lc [S' [a [rest [ts [root [fl [ss [cs [vs [G [F [R [M [C [FR [-> _]]]]]]]]]]]]]]]]]].
  rewrite map_map /=. split; first exact: names_nodup G W F. exact: names_iff G W F.
Qed.
Lemma whole_spaces S r p b i g s p' b' i' g' s' : scoped S -> whole S = Ok r ->
  place S p b -> member b i g -> place S p' b' -> member b' i' g' ->
  In (dotted (p ++ [w_name i]), s) (r_insts r) -> In (dotted (p' ++ [w_name i']), s') (r_insts r) ->
  (s = s' <-> p = p' /\ b = b' /\ (i = i' /\ g = g' \/ exists k, g = Some k /\ g' = Some k)).
Proof.
  move=> W /whole_stages [la [lc [S' [a [rest [ts [root [fl [ss [cs [vs [G [F [R [M [C [FR [-> _]]]]]]]]]]]]]]]]]].
  exact: spaces_iff G W F _ _ _ _ _ _ _ _ _ _.
Qed.
Lemma whole_conn_kept S r w : scoped S -> resolved S -> whole S = Ok r -> written S w ->
  exists d, In d (r_conns r) /\ Merge_Model.m_type d = c_type (snd w) /\
  (forall q i, from_of S w q i -> In (interface_name q i) (Merge_Model.m_from d)) /\
  (forall q i, to_of S w q i -> In (interface_name q i) (Merge_Model.m_to d)).
Proof.
  move=> W RE /whole_stages [la [lc [S' [a [rest [ts [root [fl [ss [cs [vs [G [F [R [M [C [FR [_ ->]]]]]]]]]]]]]]]]]].
  exact: (conn_kept _ _ _ _ _ _ _ _ _ G W RE F _ M w).
Qed.
Lemma whole_conn_made S r d : scoped S -> resolved S -> whole S = Ok r -> In d (r_conns r) ->
  exists ws, ws <> [] /\
  (forall w, In w ws -> written S w /\ c_type (snd w) = Merge_Model.m_type d) /\
  (forall e, In e (Merge_Model.m_from d) <-> exists w q i, In w ws /\ from_of S w q i /\ e = interface_name q i) /\
  (forall e, In e (Merge_Model.m_to d) <-> exists w q i, In w ws /\ to_of S w q i /\ e = interface_name q i) /\
  (forall w w', In w ws -> In w' ws -> chained S w w').
Proof.
  move=> W RE /whole_stages [la [lc [S' [a [rest [ts [root [fl [ss [cs [vs [G [F [R [M [C [FR [_ ->]]]]]]]]]]]]]]]]]].
  exact: (conn_made _ _ _ _ _ _ _ _ _ G W RE F _ M d).
Qed.
Lemma whole_conn_apart S r d d' e : scoped S -> resolved S -> whole S = Ok r ->
  In d (r_conns r) -> In d' (r_conns r) ->
  (In e (Merge_Model.m_from d) /\ In e (Merge_Model.m_from d')) \/
  (In e (Merge_Model.m_to d) /\ In e (Merge_Model.m_to d')) -> d = d'.
Proof.
  move=> W RE /whole_stages [la [lc [S' [a [rest [ts [root [fl [ss [cs [vs [G [F [R [M [C [FR [_ ->]]]]]]]]]]]]]]]]]].
  exact: (conn_apart _ _ _ _ _ _ _ _ _ G W RE F _ M d d' e).
Qed.
(** An end means one interface, of a real instance. *)
Lemma whole_means S r w e : scoped S -> resolved S -> whole S = Ok r -> written S w ->
  In e (c_from (snd w)) \/ In e (c_to (snd w)) ->
  exists q i, means S (fst w) e q i /\ (exists s, In (dotted q, s) (r_insts r)) /\
    forall q' i', means S (fst w) e q' i' -> q' = q /\ i' = i.
Proof.
  move=> W RE /whole_stages [la [lc [S' [a [rest [ts [root [fl [ss [cs [vs [G [F [R [M [C [FR [-> _]]]]]]]]]]]]]]]]]].
  move=> WW E.
  have WF := root_wf _ _ _ _ _ _ _ _ G W. have RF := root_refs _ _ _ _ _ _ _ _ G W RE.
  have I: In w (all_conns root) by exact/(written_all _ _ _ _ _ _ _ _ G W).
  have FA := transform_conns _ _ WF RF F.
  case: (Forall2_In_l _ _ _ _ _ _ FA I) => c' [_ [_ [_ [FF FT]]]].
  have [q [i SF]] : exists q i, Flatten_Spec.stands_for root (end_path (fst w) e, e_iface e) (q, i).
  { case: E => E; [case: (Forall2_In_l _ _ _ _ _ _ FF E)|case: (Forall2_In_l _ _ _ _ _ _ FT E)];
      move=> e' [_ [q [i [SF _]]]]; by exists q, i. }
  have NE: end_path (fst w) e <> [].
  { case: w WW I E {FF FT SF FA} => p k WW I E. move/(all_of_In _ conns_of): I => [c [A K]].
    case: RF => _ /(_ _ _ _ _ A K E). rewrite /end_path /=. case: (e_inst e) => [n _|//]. by case: (p). }
  have SF' := stands_from _ _ _ _ _ _ _ _ G W _ _ SF NE.
  exists q, i. split=> //. split.
  - case: (stands_path _ _ _ _ _ _ _ _ G RE _ _ SF') => /= NQ [[c A] _].
    case: (exists_last NQ) => p [n EQ]. subst q.
    case: (at_path_snoc_inv _ _ _ _ A) => d [x [A' [X [E1 E2]]]]. exists (dotted (p ++ [ias x])).
    rewrite (transform_insts _ _ F) map_map. apply/in_map_iff. exists (p, x). rewrite /= E1. split=> //.
    apply/(all_of_In _ insts_of). by exists d.
  - move=> q' i' M'. have M2 := stands_to _ _ _ _ _ _ _ _ G W _ _ M'.
    have := stands_for_det _ _ _ _ WF M2 SF. by case.
Qed.
Lemma whole_values S r q x v : scoped S -> plain_refs S -> whole S = Ok r ->
  q <> [] -> Forall id_ok q ->
  (Freeze_Spec.value_at (r_values r) (dotted q) x = Some v <-> has_value S q x v).
Proof.
  move=> W PR /whole_stages [la [lc [S' [a [rest [ts [root [fl [ss [cs [vs [G [F [R [M [C [FR _]]]]]]]]]]]]]]]]] NE FQ.
  have ND: NoDup (map fst vs).
  { have [_ H] := Freeze_Proofs.configuration_duplicates (Some (attributes (f_insts fl))) vs.
    have DE: ListDec.decidable_eq (string * string).
    { move=> [y1 y2] [z1 z2]. case: (string_dec y1 z1) => [->|N]; last by right; case.
      case: (string_dec y2 z2) => [->|N]; [by left|by right; case]. }
    case: (ListDec.NoDup_decidable DE (map fst vs)) => [//|N].
    by rewrite (H N) in FR. }
  have U: forall i y j k, AttrRef_Spec.sets (f_settings fl) j i y -> AttrRef_Spec.sets (f_settings fl) k i y -> j = k.
  { case: (AttrRef_Proofs.resolve_general _ _ _ R) => val [_ EO]. rewrite EO in C. case: (resolved_sets _ _ _ C) => _. exact. }
  have LD := direct_lookups _ _ _ _ _ _ _ _ _ G W F PR U.
  case: (AttrRef_Proofs.resolve_correct _ _ _ LD R) => val [DEN EO]. subst ss.
  case: (resolved_sets _ _ _ C) => IS UN.
  have AN := attrs_NoDup _ _ _ _ _ _ _ _ _ G W F. have IN := insts_NoDup _ _ _ _ _ _ _ _ _ G W F.
  have LK: Freeze_Spec.value_at (r_values r) (dotted q) x = Some v <->
     Freeze_Spec.is_set vs (dotted q) x v \/
     ((forall w, ~ Freeze_Spec.is_set vs (dotted q) x w) /\ Freeze_Spec.has_default (attributes (f_insts fl)) (dotted q) x v).
  { exact: (Freeze_Proofs.configuration_lookup _ _ _ _ _ _ IN AN FR). }
  have DJ: forall j, AttrRef_Spec.sets (f_settings fl) j (dotted q) x -> AttrRef_Spec.denotes (attributes (f_insts fl)) (f_settings fl) j (val j).
  { move=> j [s [N _]]. apply: DEN. apply/nth_error_Some. by rewrite N. }
  rewrite LK. split.
  - case=> [/IS [j [SE ->]]|[NS DF]].
    + case: (sets_set_at _ _ _ _ _ _ _ _ _ G W F _ _ _ FQ NE SE) => p [s [N [b [s0 [P [I [E1 [E2 E3]]]]]]]].
      move/(setting_iff _ _ _ _ _ _ _ _ _ G W F): (nth_error_In _ _ N) => [p1 [b1 [s1 [P1 [I1 ES]]]]].
      have D := DJ _ SE. rewrite ES in N.
      have := denotes_value _ _ _ _ _ _ _ _ _ G W F PR _ _ D _ _ _ P1 I1 N.
      case: SE => s2 [N2 [E4 E5]]. rewrite N in N2. case: N2 => ?. subst s2. simpl in E4, E5.
      have -> : p1 ++ [s_inst s1] = q.
      { apply: dotted_inj E4 => //; [by case: (setting_ids _ _ _ _ _ _ _ _ G W _ _ _ P1 I1)|by case: (p1)]. }
      by rewrite E5.
    + apply: hv_default.
      * apply/(none_set _ _ _ _ _ _ _ _ _ G W F _ _ FQ NE) => k SE. apply: (NS (val k)). apply/IS. by exists k.
      * exact/(has_default_iff _ _ _ _ _ _ _ _ _ G W F _ _ _ FQ NE).
  - move=> HV. case: (value_denotes _ _ _ _ _ _ _ _ _ G W F PR U _ _ _ HV FQ NE) => [[j [SE D]]|[NS DF]].
    + left. apply/IS. exists j. split=> //. exact: AttrRef_Proofs.denotes_det D (DJ _ SE).
    + right. split; last exact/(has_default_iff _ _ _ _ _ _ _ _ _ G W F _ _ _ FQ NE).
      move=> w /IS [j [SE _]]. exact: NS SE.
Qed.
