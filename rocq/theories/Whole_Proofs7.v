(** Specifications that are accepted. *)
From Coq Require Import ssreflect ssrbool List String Ascii Bool Arith NArith Lia Permutation.
From Verif Require Import Prelude DecStr Flatten_Model Flatten_Spec Flatten_Proofs Flatten_Proofs2.
From Verif Require Merge_Model Merge_Spec Merge_Proofs Merge_Proofs2 Merge_Proofs3 Freeze_Model Freeze_Spec Freeze_Proofs.
From Verif Require Import AttrRef_Model AttrRef_Spec AttrRef_Proofs.
From Verif Require Import Whole_Model Whole_Spec Whole_Proofs Whole_Proofs2 Whole_Proofs3 Whole_Proofs4 Whole_Proofs5.
Import ListNotations.
Open Scope string_scope.
Open Scope list_scope.

(** * Unfolding *)
Lemma unfold_ok ts b : (forall i, In i (bl_insts b) -> w_type i < List.length ts) -> exists c, unfold ts b = Ok c.
Proof.
  move=> H. rewrite /unfold. have [l ->] : exists l, mapM (attach ts) (bl_insts b) = Ok l; last by eexists.
  elim: (bl_insts b) H => [|i l IH] H /=; first by eexists.
  have [t T] : exists t, nth_error ts (w_type i) = Some t.
  { case E: (nth_error ts (w_type i)) => [t|]; first by exists t. move/nth_error_None: E => L.
    have := H i (or_introl eq_refl). lia. }
  case: IH => [j J|m E]; first by apply: H; right. rewrite /attach T /= E /=. by eexists.
Qed.
Lemma unfold_all_ok bs : (forall k b i, nth_error bs k = Some b -> In i (bl_insts b) -> w_type i < k) ->
  exists ts, unfold_all bs = Ok ts /\ List.length ts = List.length bs.
Proof.
  rewrite /unfold_all. have G: forall bs ts0, (forall k b i, nth_error bs k = Some b -> In i (bl_insts b) -> w_type i < List.length ts0 + k) ->
    exists ts, foldM (fun ts b => t <- unfold ts b ;; Ok (ts ++ [t])) bs ts0 = Ok ts /\ List.length ts = List.length ts0 + List.length bs.
  { elim=> [|b l IH] ts0 H /=; first by exists ts0; rewrite Nat.add_0_r.
    have [t T] : exists t, unfold ts0 b = Ok t.
    { apply: unfold_ok => i I. have := H 0 b i eq_refl I. lia. }
    rewrite T /=. case: (IH (ts0 ++ [t])) => [k b0 i N I|ts [E L]].
    - rewrite app_length /=. have := H (Datatypes.S k) b0 i N I. lia.
    - exists ts. split=> //. rewrite L app_length /=. lia. }
  move=> H. case: (G bs [] H) => ts [E L]. by exists ts.
Qed.
Lemma coll_all_length n bs lss bs' : coll_all n bs lss bs' -> List.length bs' = List.length bs.
Proof. by elim=> //= ? ? ? ? ? ? ? ? _ _ _ ->. Qed.
Lemma whole_unfolds S S' n la lc : acceptable S -> collapse 0 S = (S', n) ->
  coll_all 0 (assemblies S) la (assemblies S') -> coll_all 0 (components S) lc (components S') ->
  exists a rest ts root, compose S' = Ok (fold_left absorb rest a) /\ unfold_all (components S') = Ok ts /\
    unfold ts (fold_left absorb rest a) = Ok root /\ stages S la lc S' a rest ts root.
Proof.
  move=> AC C LA LC.
  case E: (assemblies S') => [|a rest].
  { exfalso. apply: (ac_assembly _ AC). have := coll_all_length _ _ _ _ LA. rewrite E. by case: (assemblies S). }
  case: (unfold_all_ok (components S')) => [k b' i N I|ts [T L]].
  { case: (coll_all_nth _ _ _ _ LC k) => [_ H]. case: (H _ N) => ls [b [_ [B CB]]].
    move/(collapsed_In _ _ _ _ CB): I => [j [g [s [SP [_ [-> _]]]]]].
    exact: ac_before AC _ _ _ _ B (space_of_member _ _ _ _ _ SP). }
  case: (unfold_ok ts (fold_left absorb rest a)) => [i I|root R].
  { rewrite L (coll_all_length _ _ _ _ LC). move: I. case: (absorb_all rest a) => [-> _].
    rewrite -E => /in_flat_map [b' [/(In_nth_error _ _) [m M] J]].
    case: (coll_all_nth _ _ _ _ LA m) => [_ H]. case: (H _ M) => ls [b [_ [B CB]]].
    move/(collapsed_In _ _ _ _ CB): J => [j [g [s [SP [_ [-> _]]]]]].
    exact: ac_types AC _ _ _ (nth_error_In _ _ B) (space_of_member _ _ _ _ _ SP). }
  exists a, rest, ts, root. rewrite /compose E. split=> //. split=> //. split=> //.
  split=> //; [exact: unfold_all_rep|exact: unfold_rep].
Qed.

(** * Names with dots *)
Lemma dotted_app p q : p <> [] -> q <> [] -> dotted (p ++ q) = (dotted p ++ "." ++ dotted q)%string.
Proof.
  move=> NP NQ. elim: p NP => [|n p IH] // _. case: p IH => [|m p] IH.
  - rewrite -app_comm_cons dotted_cons //.
  - rewrite -app_comm_cons (dotted_cons n ((m :: p) ++ q)) // IH // (dotted_cons n (m :: p)) //.
    by rewrite !string_app_assoc.
Qed.
Lemma concat_dotted ls : Forall (fun p => p <> []) ls -> String.concat "." (map dotted ls) = dotted (List.concat ls).
Proof.
  elim: ls => [|p ls IH] // H. inversion H as [|? ? NP H']; subst. move: (IH H') => {IH}.
  case: ls H' {H} => [|q ls] H' E; first by rewrite /= app_nil_r.
  have NC: List.concat (q :: ls) <> [] by inversion H' as [|? ? NQ ?]; subst; case: (q) NQ.
  have -> : List.concat (p :: q :: ls) = p ++ List.concat (q :: ls) by [].
  rewrite dotted_app // -E. reflexivity.
Qed.
Lemma distinct_NoDup l : NoDup l -> distinct l = true.
Proof.
  elim=> [|x l' NI _ IH] //=. rewrite IH andbT. case E: (memb x l') => //. by move/memb_In: E.
Qed.
Lemma NoDup_distinct l : distinct l = true -> NoDup l.
Proof.
  elim: l => [|x l IH] /=; first by constructor. move=> /andP [M D]. constructor; last exact: IH.
  move/memb_In => E. by rewrite E in M.
Qed.
Lemma place_prefix S p n : forall t b, place S (p ++ n :: t) b -> names_at S p n.
Proof.
  elim/rev_ind => [|m t IH] b P.
  - case: (place_inv _ _ _ _ P) => b0 [i [g [P0 [M [E _]]]]]. by exists b0, i, g.
  - have P': place S ((p ++ n :: t) ++ [m]) b by rewrite -app_assoc.
    case: (place_inv _ _ _ _ P') => b0 [i [g [P0 _]]]. exact: IH P0.
Qed.

Section Accept.
Variables (S : list item) (la lc : list (list string)) (S' : list item) (a : block) (rest : list block)
  (ts : list comp) (root : comp) (fl : flat).
Hypothesis G : stages S la lc S' a rest ts root.
Hypothesis W : scoped S.
Hypothesis RE : resolved S.
Hypothesis PR : plain_refs S.
Hypothesis AC : acceptable S.
Hypothesis F : transform root = Ok fl.
Notation cs := (map to_mconn (f_conns fl)).
Notation SS := (f_settings fl).
Notation insts := (attributes (f_insts fl)).
Notation pre := (pre root fl).

Definition full (w : path * conn) : path := fst w ++ [c_name (snd w)].
Lemma pre_name w c : pre w c -> Merge_Model.m_name c = dotted (full w).
Proof.
  move=> [k [A B]]. have FA := transform_conns _ _ (root_wf _ _ _ _ _ _ _ _ G W) (root_refs _ _ _ _ _ _ _ _ G W RE) F.
  case: (Forall2_nth _ _ _ _ _ FA k) => [H _]. case: (H _ A) => c' [N [E _]].
  rewrite nth_error_map N /= in B. by case: B => <-.
Qed.
Lemma full_free w : written S w -> free (full w).
Proof.
  case: w => p k [b [P K]]. apply/Forall_app. split; first exact: (place_free _ _ _ _ _ _ _ _ G W _ _ P).
  constructor=> //. case: (place_composition _ _ _ P) => bs [CO IB].
  case: (sc_ids _ W _ _ CO IB) => [_ [_ [/Forall_forall H _]]]. exact: H.
Qed.
(** Names of connections and of instances are no beginnings of each other. *)
Lemma full_apart w w' r r' : written S w -> written S w' -> full w ++ r = full w' ++ r' ->
  full w = full w'.
Proof.
  case: w => p k; case: w' => p' k' [b [P K]] [b' [P' K']]. rewrite /full /= -!app_assoc /= in P K P' K' * => E.
  have X: forall p k b p' k' b' r r' x l, place S p b -> In k (bl_conns b) -> place S p' b' -> p' = p ++ x :: l ->
     c_name k :: r = (x :: l) ++ c_name k' :: r' -> False.
  { move=> p1 k1 b1 p2 k2 b2 r1 r2 x l P1 K1 P2 E1 [E2 _]. subst p2 x. case: (place_prefix _ _ _ _ _ P2) => b3 [i [g [P3 [M3 E3]]]].
    exact: ac_names AC _ _ _ _ _ _ P3 P1 M3 K1 E3. }
  case: (app_eq_app _ _ _ _ E) => l [[E1 E2]|[E1 E2]]; case: l E1 E2 => [|x l] E1 E2.
  - rewrite app_nil_r in E1. subst p'. by case: E2 => ->.
  - exfalso. exact: X P' K' P E1 E2.
  - rewrite app_nil_r in E1. subst p'. by case: E2 => ->.
  - exfalso. exact: X P K P' E1 E2.
Qed.
Lemma full_inst w r p b i g : written S w -> place S p b -> member b i g -> p ++ [w_name i] = full w ++ r -> False.
Proof.
  case: w => q k [b' [Q K]] P M. rewrite /full /= -app_assoc /= in Q K * => E.
  case: (app_eq_app _ _ _ _ E) => l [[E1 E2]|[E1 E2]]; case: l E1 E2 => [|x l] E1 E2.
  - rewrite app_nil_r in E1. subst q. case: E2 => E2 _. exact: ac_names AC _ _ _ _ _ _ P Q M K (eq_sym E2).
  - case: E2 => E2 _. subst p x. case: (place_prefix _ _ _ _ _ P) => b3 [i3 [g3 [P3 [M3 E3]]]].
    exact: ac_names AC _ _ _ _ _ _ P3 Q M3 K E3.
  - rewrite app_nil_r in E1. subst q. case: E2 => E2 _. exact: ac_names AC _ _ _ _ _ _ P Q M K E2.
  - case: E2 => _ E2. by case: l E2 {E1}.
Qed.

(** ** Merging *)
Lemma end_pre w c k : pre w c -> Merge_Spec.has_end c k ->
  exists q i, end_of S w (negb (fst k), q, i) /\ snd k = interface_name q i.
Proof.
  move=> P. case: (pre_image _ _ _ _ _ _ _ _ _ G W RE F _ _ P) => _ [FI TI].
  case: k => [[|] e]; rewrite /Merge_Spec.has_end /=; [move/TI|move/FI]; by move=> [q [i [H ->]]]; exists q, i.
Qed.
Lemma end_inj w w' s q i q' i' : written S w -> written S w' -> end_of S w (s, q, i) -> end_of S w' (s, q', i') ->
  interface_name q i = interface_name q' i' -> q = q' /\ i = i'.
Proof.
  move=> WW WW'. case: s => /= -[e [I M]] [e' [I' M']] E.
  - exact: (means_inj _ _ _ _ _ _ _ _ G W RE _ _ _ _ _ _ _ _ WW WW' (or_introl I) (or_introl I') M M' E).
  - exact: (means_inj _ _ _ _ _ _ _ _ G W RE _ _ _ _ _ _ _ _ WW WW' (or_intror I) (or_intror I') M M' E).
Qed.
Lemma merge_ok : exists out, Merge_Model.merge cs = Ok out.
Proof.
  apply: Merge_Proofs2.merge_accepts; first exact: mconns_NoDup G W RE F.
  - move=> c k1 k2 d1 d2 C D1 D2 N1 N2 C1 H1 C2 H2.
    have OP := of_pre _ _ _ _ _ _ _ _ _ G W RE F. have PI := pre_In _ _ _ _ _ _ _ _ fl G W.
    case: (OP _ C) => w P. case: (OP _ D1) => w1 P1. case: (OP _ D2) => w2 P2.
    have [WW _] := PI _ _ P. have [WW1 _] := PI _ _ P1. have [WW2 _] := PI _ _ P2.
    have PF: forall w c c', pre w c -> pre w c' -> c = c'.
    { move=> w0 c0 c0' Q Q'. apply: (NoDup_map_In _ _ _ _ _ _ (mnames_NoDup _ _ _ _ _ _ _ _ _ G W RE F)).
      - by case: (PI _ _ Q). - by case: (PI _ _ Q'). - by rewrite (pre_name _ _ Q) (pre_name _ _ Q'). }
    case: (end_pre _ _ _ P C1) => q [i [A E]]. case: (end_pre _ _ _ P1 H1) => q1 [i1 [A1 E1]].
    case: (end_pre _ _ _ P C2) => q' [i' [A' E']]. case: (end_pre _ _ _ P2 H2) => q2 [i2 [A2 E2]].
    rewrite E in E1. rewrite E' in E2.
    case: (end_inj _ _ _ _ _ _ _ WW WW1 A A1 E1) => ? ?. case: (end_inj _ _ _ _ _ _ _ WW WW2 A' A2 E2) => ? ?. subst q1 i1 q2 i2.
    have NW1: w1 <> w by move=> X; subst w1; apply: N1; exact: PF P1 P.
    have NW2: w2 <> w by move=> X; subst w2; apply: N2; exact: PF P2 P.
    have := ac_shared _ AC _ _ _ _ _ WW WW1 WW2 NW1 NW2 A A1 A' A2.
    case: k1 C1 H1 E {A A1 E1} => s1 e1 /= _ _ ->. case: k2 C2 H2 E' {A' A2 E2} => s2 e2 /= _ _ ->.
    case=> ES -> ->. by case: (s1) (s2) ES => -[].
  - move=> c d C D SH.
    have OP := of_pre _ _ _ _ _ _ _ _ _ G W RE F. have PI := pre_In _ _ _ _ _ _ _ _ fl G W.
    case: (OP _ C) => w P. case: (OP _ D) => w' P'.
    have [WW _] := PI _ _ P. have [WW' _] := PI _ _ P'.
    have SB := share_back _ _ _ _ _ _ _ _ _ G W RE F _ _ _ _ P P' SH.
    case: (pre_image _ _ _ _ _ _ _ _ _ G W RE F _ _ P) => -> _. case: (pre_image _ _ _ _ _ _ _ _ _ G W RE F _ _ P') => -> _.
    exact: ac_type AC _ _ WW WW' SB.
Qed.
Variable out : list Merge_Model.mconn.
Hypothesis M : Merge_Model.merge cs = Ok out.
Lemma part_name P d : Merge_Spec.makes P d -> incl P cs ->
  exists w c r, pre w c /\ In c P /\ Merge_Model.m_name d = dotted (full w ++ r) /\ free (full w ++ r).
Proof.
  move=> MK IP. have OP := of_pre _ _ _ _ _ _ _ _ _ G W RE F. have PI := pre_In _ _ _ _ _ _ _ _ fl G W.
  case: MK => [E|[L [_ [l [PM [_ EN]]]]]].
  - subst P. case: (OP d (IP d (or_introl eq_refl))) => w PW. exists w, d, []. rewrite app_nil_r.
    split=> //. split; first by left. split; first exact: pre_name. apply: full_free. by case: (PI _ _ PW).
  - have [ws FW] : exists ws, Forall2 (fun w n => exists c, In c P /\ pre w c /\ n = dotted (full w)) ws l.
    { have: forall n, In n l -> In n (map Merge_Model.m_name P) by move=> n; exact: Permutation_in PM.
      elim: (l) => [|n m IH] H; first by exists []; constructor.
      case/in_map_iff: (H n (or_introl eq_refl)) => c [<- IC]. case: (OP _ (IP _ IC)) => w PW.
      case: IH => [x X|ws FW]; first by apply: H; right. exists (w :: ws). constructor=> //.
      exists c. split=> //. split=> //. exact: pre_name. }
    have EL: l = map dotted (map full ws).
    { elim: FW => [|w n ws' l' [c [_ [_ ->]]] _ IH] //=. by rewrite IH. }
    have NL: Forall (fun p : path => p <> []) (map full ws).
    { apply/Forall_forall => p /in_map_iff [w [<- _]]. rewrite /full. by case: (fst w). }
    have FF: free (List.concat (map full ws)).
    { elim: FW => [|w n ws' l' [c [_ [PW _]]] _ IH] /=; first by constructor. apply/Forall_app. split=> //.
      apply: full_free. by case: (PI _ _ PW). }
    rewrite EN EL concat_dotted //. case: ws FW {EL NL} FF => [|w ws] FW FF.
    + inversion FW. subst l. have := Permutation_length PM. rewrite map_length /=. lia.
    + inversion FW as [|? n ? l' [c [IC [PW _]]] _]; subst. by exists w, c, (List.concat (map full ws)).
Qed.
Lemma names_distinct : NoDup (map iname (f_insts fl) ++ map Merge_Model.m_name out).
Proof.
  have NC := mconns_NoDup _ _ _ _ _ _ _ _ _ G W RE F.
  case: (Merge_Proofs3.merge_partition _ _ NC M) => parts [PM FA].
  have PI := pre_In _ _ _ _ _ _ _ _ fl G W.
  have IP: forall P, In P parts -> incl P cs.
  { move=> P I c C. apply: (Permutation_in _ PM). apply/in_concat. by exists P. }
  have ND: NoDup (flat_map (fun P => P) parts).
  { rewrite flat_map_concat_map map_id. apply: Permutation_NoDup NC. exact: Permutation_sym. }
  apply: NoDup_app_intro; first exact: (names_nodup _ _ _ _ _ _ _ _ _ G W F).
  - apply/NoDup_nth_error => i j. rewrite map_length => LI. rewrite !nth_error_map.
    case D: (nth_error out i) => [d|]; last by move/nth_error_None: D; lia.
    case D': (nth_error out j) => [d'|] // [EN].
    case: (Forall2_nth _ _ _ _ _ FA i) => [_ H]. case: (H _ D) => P [N [MK _]].
    case: (Forall2_nth _ _ _ _ _ FA j) => [_ H']. case: (H' _ D') => P' [N' [MK' _]].
    case: (part_name _ _ MK (IP _ (nth_error_In _ _ N))) => w [c [r [PW [IC [E FR]]]]].
    case: (part_name _ _ MK' (IP _ (nth_error_In _ _ N'))) => w' [c' [r' [PW' [IC' [E' FR']]]]].
    have EF: full w ++ r = full w' ++ r'.
    { apply: dotted_inj => //; [by rewrite /full; case: (fst w)|by rewrite /full; case: (fst w')|by rewrite -E -E']. }
    have EW := full_apart _ _ _ _ (proj1 (PI _ _ PW)) (proj1 (PI _ _ PW')) EF.
    have ? : c = c'.
    { apply: (NoDup_map_In _ _ _ _ _ _ (mnames_NoDup _ _ _ _ _ _ _ _ _ G W RE F)).
      - by case: (PI _ _ PW). - by case: (PI _ _ PW'). - by rewrite (pre_name _ _ PW) (pre_name _ _ PW') EW. }
    subst c'. exact: (NoDup_flat_map_nth _ _ _ _ ND _ _ _ _ c N N' IC IC').
  - move=> n /(names_iff _ _ _ _ _ _ _ _ _ G W F) [p [b [i [g [P [MB E]]]]]] /in_map_iff [d [E' D]].
    case: (Forall2_In_r _ _ _ _ _ _ FA D) => Q [IQ [MK _]].
    case: (part_name _ _ MK (IP _ IQ)) => w [c [r [PW [IC [EN FR]]]]].
    apply: (full_inst w r p b i g) => //; first by case: (PI _ _ PW).
    apply: dotted_inj => //.
    + have [c0 A] := place_path _ _ _ _ _ _ _ _ G _ _ _ _ P MB. apply/Forall_app.
      split; first exact: (place_free _ _ _ _ _ _ _ _ G W _ _ P). constructor=> //.
      case: (place_composition _ _ _ P) => bs [CO IB]. case: (sc_ids _ W _ _ CO IB) => [/Forall_forall H _]. apply: H.
      rewrite app_assoc in_app_iff. left. rewrite -all_members_names. apply: in_map. exact: member_all MB.
    + by case: (p).
    + rewrite /full. by case: (fst w).
    + by rewrite -E -EN E'.
Qed.

(** ** Settings *)
Lemma set_once : NoDup (map (fun s => (s_inst s, s_attr s)) SS).
Proof.
  rewrite (transform_settings _ _ F) map_map.
  have WF := root_wf _ _ _ _ _ _ _ _ G W.
  have N: NoDup (map (fun ps => (fst ps, (s_inst (snd ps), s_attr (snd ps)))) (all_settings root)).
  { apply: (NoDup_pairs _ _ _ settings_of (fun s => (s_inst s, s_attr s))); first exact: walk_NoDup.
    move=> p c /walk_at A. case: (at_place _ _ _ _ _ _ _ _ G _ _ A) => [[_ ->]|[NE [k [b [K [B P]]]]]].
    - rewrite (asm_settings _ _ _ _ _ _ _ _ G) map_flat_map. exact: ac_once AC _ (co_root S).
    - case: (path_block _ _ _ _ _ _ _ _ G W _ _ _ A P NE) => ls [b' [C R]].
      rewrite (rp_settings _ _ _ R) (cl_settings _ _ _ C).
      have := ac_once _ AC _ (comp_composition _ _ _ B). by rewrite /= app_nil_r. }
  have DF: forall p s, In (p, s) (all_settings root) -> free (p ++ [s_inst s]).
  { move=> p s /(all_of_In _ settings_of) [c [A I]].
    move/(settings_iff _ _ _ _ _ _ _ _ G W _ _ _ A): I => [b [P I]].
    by case: (setting_ids _ _ _ _ _ _ _ _ G W _ _ _ P I). }
  elim: (all_settings root) N DF => [|[p s] l IH] N DF /=; first by constructor.
  inversion N as [|? ? NI N2]; subst. constructor; last by apply: IH => // q t I; apply: DF; right.
  move=> /in_map_iff [[q t] [E J]]. apply: NI. apply/in_map_iff. exists (q, t). split=> //.
  simpl in E |- *. case: E => E1 E2.
  have [-> ->] : q = p /\ s_inst t = s_inst s; last by rewrite E2.
  apply: snoc_inj. apply: dotted_inj E1; [apply: DF; by right|apply: DF; by left|by case: (q)|by case: (p)].
Qed.
Lemma sets_once i x j k : sets SS j i x -> sets SS k i x -> j = k.
Proof.
  move=> [s [N [E1 E2]]] [s' [N' [E1' E2']]]. have ND := set_once. rewrite NoDup_nth_error in ND. apply: ND.
  - rewrite map_length. apply/nth_error_Some. by rewrite N.
  - by rewrite !nth_error_map N N' /= E1 E2 E1' E2'.
Qed.
Lemma lookups_fine : lookups_direct SS.
Proof. exact: direct_lookups G W F PR sets_once. Qed.
Lemma resolve_ok : exists ss, resolve insts SS = Ok ss.
Proof.
  apply: resolve_complete; first exact: lookups_fine.
  move=> j. move/nth_error_Some. case N: (nth_error SS j) => [s'|] // _.
  move/(setting_iff _ _ _ _ _ _ _ _ _ G W F): (nth_error_In _ _ N) => [p [b [s [P [I E]]]]]. subst s'.
  have SA := set_at_intro _ _ _ _ P I. case: (ac_values _ AC _ _ _ _ SA) => v HV.
  have SE: sets SS j (dotted (p ++ [s_inst s])) (s_attr s) by exists (setting_at p s).
  have NE: p ++ [s_inst s] <> [] by case: (p).
  have FR: free (p ++ [s_inst s]) by case: (setting_ids _ _ _ _ _ _ _ _ G W _ _ _ P I).
  case: (value_denotes _ _ _ _ _ _ _ _ _ G W F PR sets_once _ _ _ HV FR NE) => [[k [SK D]]|[NS _]].
  - rewrite (sets_once _ _ _ _ SE SK). by exists v.
  - case: (NS _ SE).
Qed.
Variable ss : list setting.
Hypothesis R : resolve insts SS = Ok ss.
Lemma values_ok : exists vs, mapM concrete ss = Ok vs /\ NoDup (map fst vs).
Proof.
  case: (resolve_correct _ _ _ lookups_fine R) => val [_ ->]. rewrite /resolved_as.
  set numbered := combine (seq 0 (List.length SS)) SS.
  set order := filter (fun js => negb (holds_ref (snd js))) numbered ++ filter (fun js => holds_ref (snd js)) numbered.
  exists (map (fun js => (s_inst (snd js), s_attr (snd js), val (fst js))) order). split.
  - elim: (order) => [|js o IH] //=. by rewrite IH.
  - rewrite map_map /=. have PM: Permutation order numbered by exact: filter_split.
    have E: map (fun js : nat * setting => (s_inst (snd js), s_attr (snd js))) numbered = map (fun s => (s_inst s, s_attr s)) SS.
    { rewrite /numbered. have X: forall l k, map (fun js : nat * setting => (s_inst (snd js), s_attr (snd js))) (combine (seq k (List.length l)) l) = map (fun s => (s_inst s, s_attr s)) l.
      { elim=> [|s l IH] k //=. by rewrite IH. } exact: X. }
    have ND := set_once. rewrite -E in ND. apply: Permutation_NoDup ND. apply: Permutation_map. exact: Permutation_sym.
Qed.
End Accept.

Lemma whole_accepts S : scoped S -> resolved S -> plain_refs S -> acceptable S -> exists r, whole S = Ok r.
Proof.
  move=> W RE PR AC. rewrite /whole. case C: (collapse 0 S) => [S' n].
  case: (collapse_spec _ _ _ _ C) => la [lc [LA LC]].
  case: (whole_unfolds _ _ _ _ _ AC C LA LC) => a [rest [ts [root [-> [T [U G]]]]]] /=. rewrite T /= U /=.
  case: (transform_total _ (root_wf _ _ _ _ _ _ _ _ G W) (root_refs _ _ _ _ _ _ _ _ G W RE)) => fl F.
  rewrite F /=. case: (resolve_ok _ _ _ _ _ _ _ _ _ G W PR AC F) => ss R. rewrite R /=.
  case: (merge_ok _ _ _ _ _ _ _ _ _ G W RE AC F) => out M. rewrite M /=.
  rewrite (distinct_NoDup _ (names_distinct _ _ _ _ _ _ _ _ _ G W RE AC F _ M)) /=.
  case: (values_ok _ _ _ _ _ _ _ _ _ G W PR AC F _ R) => vs [-> ND] /=.
  case: (Freeze_Proofs.configuration_duplicates (Some (attributes (f_insts fl))) vs) => [H _].
  case: (H ND) => m ->. by eexists.
Qed.
