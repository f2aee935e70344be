(** The hierarchy of a parsed specification and its paths. *)
From Coq Require Import ssreflect ssrbool List String Ascii Bool Arith NArith Lia.
From Verif Require Import Prelude DecStr Flatten_Model Flatten_Spec Flatten_Proofs Flatten_Proofs2.
From Verif Require Import Whole_Model Whole_Spec Whole_Proofs.
Import ListNotations.
Open Scope string_scope.
Open Scope list_scope.

(** What stages 5 and 6 and the unfolding give *)
Record stages (S : list item) (la lc : list (list string)) (S' : list item) (a : block)
    (rest : list block) (ts : list comp) (root : comp) : Prop := {
  sg_asm : coll_all 0 (assemblies S) la (assemblies S');
  sg_comp : coll_all 0 (components S) lc (components S');
  sg_first : assemblies S' = a :: rest;
  sg_ts : Forall2 (rep ts) (components S') ts;
  sg_root : rep ts (fold_left absorb rest a) root }.

Section Hierarchy.
Variables (S : list item) (la lc : list (list string)) (S' : list item) (a : block) (rest : list block)
  (ts : list comp) (root : comp).
Hypothesis G : stages S la lc S' a rest ts root.
Hypothesis W : scoped S.

Lemma assemblies_In b : In b (assemblies S) <-> In (IAsm b) S.
Proof.
  rewrite /assemblies in_flat_map. split.
  - move=> [[x|x] [I /=]] //. by case=> // <-.
  - move=> I. exists (IAsm b). split=> //. by left.
Qed.

(** ** Components *)
Lemma comp_rep k b : nth_error (components S) k = Some b ->
  exists ls b' c, nth_error lc k = Some ls /\ collapsed b ls b' /\ rep ts b' c /\ nth_error ts k = Some c.
Proof.
  move=> B. case: (coll_all_nth _ _ _ _ (sg_comp _ _ _ _ _ _ _ _ G) k) => [H _].
  case: (H _ B) => ls [b' [L [B' C]]].
  case: (Forall2_nth _ _ _ _ _ (sg_ts _ _ _ _ _ _ _ _ G) k) => [H2 _].
  case: (H2 _ B') => c [T R]. by exists ls, b', c.
Qed.
Lemma rep_comp k c : nth_error ts k = Some c ->
  exists ls b b', nth_error lc k = Some ls /\ nth_error (components S) k = Some b /\ collapsed b ls b' /\ rep ts b' c.
Proof.
  move=> T. case: (Forall2_nth _ _ _ _ _ (sg_ts _ _ _ _ _ _ _ _ G) k) => [_ H].
  case: (H _ T) => b' [B' R].
  case: (coll_all_nth _ _ _ _ (sg_comp _ _ _ _ _ _ _ _ G) k) => [_ H2].
  case: (H2 _ B') => ls [b [L [B C]]]. by exists ls, b, b'.
Qed.
Lemma rep_In b' c x : rep ts b' c ->
  (In x (insts_of c) <-> exists i t, In i (bl_insts b') /\ nth_error ts (w_type i) = Some t /\
    x = Inst (w_name i) (w_space i) t).
Proof.
  move=> R. split.
  - move=> I. case: (Forall2_In_r _ _ _ _ _ _ (rp_insts _ _ _ R) I) => i [J [t [T ->]]]. by exists i, t.
  - move=> [i [t [I [T ->]]]]. case: (Forall2_In_l _ _ _ _ _ _ (rp_insts _ _ _ R) I) => y [J [t' [T' E]]].
    rewrite T in T'. case: T' => ?; subst. exact: J.
Qed.
Lemma rep_names b' c : rep ts b' c -> map iname (insts_of c) = map w_name (bl_insts b').
Proof.
  case=> A _ _ _ _. elim: A => [|i x l m [t [_ ->]] _ IH] //=. by rewrite IH.
Qed.
Lemma comp_In k b ls b' c x : collapsed b ls b' -> rep ts b' c -> nth_error ts k = Some c ->
  (In x (insts_of c) <-> exists i g s t, space_of b ls i g s /\ nth_error ts (w_type i) = Some t /\
    x = Inst (w_name i) s t).
Proof.
  move=> C R _. rewrite (rep_In _ _ _ R). split.
  - move=> [j [t [/(collapsed_In _ _ _ _ C) [i [g [s [P [E1 [E2 E3]]]]]] [T ->]]]].
    exists i, g, s, t. rewrite E1 E3 -E2. by [].
  - move=> [i [g [s [t [P [T ->]]]]]]. exists (mk_winst (w_name i) s (w_type i)), t. split=> //.
    apply/(collapsed_In _ _ _ _ C). by exists i, g, s.
Qed.

(** ** The assembly *)
Lemma asm_In x : In x (insts_of root) <->
  exists m b ls i g s t, nth_error (assemblies S) m = Some b /\ nth_error la m = Some ls /\
    space_of b ls i g s /\ nth_error ts (w_type i) = Some t /\ x = Inst (w_name i) s t.
Proof.
  rewrite (rep_In _ _ _ (sg_root _ _ _ _ _ _ _ _ G)).
  case: (absorb_all rest a) => [-> _]. rewrite -(sg_first _ _ _ _ _ _ _ _ G). split.
  - move=> [j [t [/in_flat_map [b' [/(In_nth_error _ _) [m M] J]] [T ->]]]].
    case: (coll_all_nth _ _ _ _ (sg_asm _ _ _ _ _ _ _ _ G) m) => [_ H].
    case: (H _ M) => ls [b [L [B C]]].
    move/(collapsed_In _ _ _ _ C): J => [i [g [s [P [E1 [E2 E3]]]]]].
    exists m, b, ls, i, g, s, t. by rewrite -E1 -E2 E3.
  - move=> [m [b [ls [i [g [s [t [B [L [P [T ->]]]]]]]]]]].
    case: (coll_all_nth _ _ _ _ (sg_asm _ _ _ _ _ _ _ _ G) m) => [H _].
    case: (H _ B) => ls' [b' [L' [B' C]]]. rewrite L in L'. case: L' => ?; subst ls'.
    exists (mk_winst (w_name i) s (w_type i)), t. split=> //.
    apply/in_flat_map. exists b'. split; first exact: nth_error_In B'.
    apply/(collapsed_In _ _ _ _ C). by exists i, g, s.
Qed.
Lemma coll_all_map n bs lss bs' A (f : block -> list A) (g : block -> list A) :
  (forall b ls b', collapsed b ls b' -> f b' = g b) ->
  coll_all n bs lss bs' -> flat_map f bs' = flat_map g bs.
Proof. move=> H. elim=> //= n0 m b bs0 ls lss0 b' bs0' C _ _ ->. by rewrite (H _ _ _ C). Qed.
Lemma asm_names : map iname (insts_of root) =
  flat_map (fun b => loose_names b ++ grouped_names b) (assemblies S).
Proof.
  rewrite (rep_names _ _ (sg_root _ _ _ _ _ _ _ _ G)).
  case: (absorb_all rest a) => [-> _]. rewrite -(sg_first _ _ _ _ _ _ _ _ G).
  rewrite map_flat_map. apply: coll_all_map (sg_asm _ _ _ _ _ _ _ _ G) => b ls b'. exact: collapsed_names.
Qed.
Lemma asm_conns : conns_of root = flat_map bl_conns (assemblies S).
Proof.
  rewrite (rp_conns _ _ _ (sg_root _ _ _ _ _ _ _ _ G)).
  case: (absorb_all rest a) => [_ [-> _]]. rewrite -(sg_first _ _ _ _ _ _ _ _ G).
  apply: coll_all_map (sg_asm _ _ _ _ _ _ _ _ G) => b ls b'. exact: cl_conns.
Qed.
Lemma asm_settings : settings_of root = flat_map bl_settings (assemblies S).
Proof.
  rewrite (rp_settings _ _ _ (sg_root _ _ _ _ _ _ _ _ G)).
  case: (absorb_all rest a) => [_ [_ [-> _]]]. rewrite -(sg_first _ _ _ _ _ _ _ _ G).
  apply: coll_all_map (sg_asm _ _ _ _ _ _ _ _ G) => b ls b'. exact: cl_settings.
Qed.

Lemma member_type b i g : In b (assemblies S) \/ In b (components S) -> member b i g ->
  exists t, nth_error ts (w_type i) = Some t.
Proof.
  move=> H M. case: H => I; case: (In_nth_error _ _ I) => m B.
  - case: (coll_all_nth _ _ _ _ (sg_asm _ _ _ _ _ _ _ _ G) m) => [H _].
    case: (H _ B) => ls [b' [L [B' C]]]. case: (member_space_of _ _ _ _ _ C M) => s SP.
    have J: In (mk_winst (w_name i) s (w_type i)) (bl_insts b').
    { apply/(collapsed_In _ _ _ _ C). by exists i, g, s. }
    have R := rp_insts _ _ _ (sg_root _ _ _ _ _ _ _ _ G).
    case: (absorb_all rest a) => [E _]. rewrite E -(sg_first _ _ _ _ _ _ _ _ G) in R.
    have {}J: In (mk_winst (w_name i) s (w_type i)) (flat_map bl_insts (assemblies S')).
    { apply/in_flat_map. exists b'. split=> //. exact: nth_error_In B'. }
    case: (Forall2_In_l _ _ _ _ _ _ R J) => x [_ [t [T _]]]. by exists t.
  - case: (comp_rep _ _ B) => ls [b' [c [L [C [R K]]]]]. case: (member_space_of _ _ _ _ _ C M) => s SP.
    have J: In (mk_winst (w_name i) s (w_type i)) (bl_insts b').
    { apply/(collapsed_In _ _ _ _ C). by exists i, g, s. }
    case: (Forall2_In_l _ _ _ _ _ _ (rp_insts _ _ _ R) J) => x [_ [t [T _]]]. by exists t.
Qed.

(** ** Paths *)
Lemma at_path_snoc_inv c p n d : at_path c (p ++ [n]) d ->
  exists e x, at_path c p e /\ In x (insts_of e) /\ iname x = n /\ itype x = d.
Proof.
  elim: p c => [|m p IH] c /= H; inversion H as [|? x ? ? I A]; subst.
  - inversion A; subst. exists c, x. split=> //. exact: at_here.
  - case: (IH _ A) => e [y [A' [Y [E1 E2]]]]. exists e, y. split=> //. exact: at_below.
Qed.
Lemma at_place : forall p c, at_path root p c ->
  p = [] /\ c = root \/
  p <> [] /\ exists k b, nth_error ts k = Some c /\ nth_error (components S) k = Some b /\ place S p b.
Proof.
  elim/rev_ind => [|n p IH] c A; first by left; inversion A.
  right. split; first by case: (p).
  case: (at_path_snoc_inv _ _ _ _ A) => e [x [A' [X [E1 E2]]]].
  case: (IH _ A') => [[-> ?]|[NE [k [b [K [B P]]]]]].
  - subst e. move/asm_In: X => [m [b [ls [i [g [s [t [B [L [P [T E]]]]]]]]]]]. subst x.
    case: (rep_comp _ _ T) => ls' [b2 [b2' [_ [B2 _]]]]. exists (w_type i), b2.
    rewrite -E2 /=. split=> //. split=> //. rewrite -E1 /=.
    apply: (pl_below _ [] b i g) B2; last exact: space_of_member P.
    apply: pl_root. apply/assemblies_In. exact: nth_error_In B.
  - case: (rep_comp _ _ K) => ls [b0 [b' [L [B0 [C R]]]]]. rewrite B in B0. case: B0 => ?; subst b0.
    move/(comp_In _ _ _ _ _ _ C R K): X => [i [g [s [t [PS [T E]]]]]]. subst x.
    case: (rep_comp _ _ T) => ls' [b2 [b2' [_ [B2 _]]]]. exists (w_type i), b2.
    rewrite -E2 /=. split=> //. split=> //. rewrite -E1 /=.
    apply: pl_below P _ B2. exact: space_of_member PS.
Qed.
Lemma place_at p b : place S p b ->
  p = [] /\ In b (assemblies S) \/
  p <> [] /\ exists c k, at_path root p c /\ nth_error ts k = Some c /\ nth_error (components S) k = Some b.
Proof.
  elim=> {p b} [b I|p b i g c P IH M B].
  - left. split=> //. exact/assemblies_In.
  - right. split; first by case: (p).
    case: (comp_rep _ _ B) => ls [b' [t [L [C [R T]]]]].
    case: IH => [[-> I]|[NE [e [k [A [K B0]]]]]].
    + case: (In_nth_error _ _ I) => m Bm.
      case: (coll_all_nth _ _ _ _ (sg_asm _ _ _ _ _ _ _ _ G) m) => [H _].
      case: (H _ Bm) => ls0 [b0' [L0 [_ C0]]]. case: (member_space_of _ _ _ _ _ C0 M) => s SP.
      exists t, (w_type i). split=> //. apply: (at_path_snoc root [] root (Inst (w_name i) s t)); first exact: at_here.
      apply/asm_In. by exists m, b, ls0, i, g, s, t.
    + case: (rep_comp _ _ K) => ls0 [b0 [b0' [L0 [B1 [C0 R0]]]]]. rewrite B0 in B1. case: B1 => ?; subst b0.
      case: (member_space_of _ _ _ _ _ C0 M) => s SP.
      exists t, (w_type i). split=> //. apply: (at_path_snoc root p e (Inst (w_name i) s t)) => //.
      apply/(comp_In _ _ _ _ _ _ C0 R0 K). by exists i, g, s, t.
Qed.

(** ** Well-scoped *)
Lemma comp_composition k b : nth_error (components S) k = Some b -> composition S [b].
Proof. move=> B. apply: co_comp. exact: nth_error_In B. Qed.
Lemma root_wf : wf root.
Proof.
  move=> p c A. case: (at_place _ _ A) => [[_ ->]|[_ [k [b [K [B _]]]]]].
  - have E := asm_names. split.
    + rewrite E. exact: sc_insts W _ (co_root S).
    + apply/Forall_forall => x X. have: In (iname x) (map iname (insts_of root)) by apply: in_map.
      rewrite E => /in_flat_map [b [I J]].
      case: (sc_ids _ W _ _ (co_root S) I) => [/Forall_forall F _]. apply: F.
      rewrite !in_app_iff in J *. tauto.
  - case: (rep_comp _ _ K) => ls [b0 [b' [L [B1 [C R]]]]]. rewrite B in B1. case: B1 => ?; subst b0.
    have E: map iname (insts_of c) = loose_names b ++ grouped_names b.
    { rewrite (rep_names _ _ R). exact: collapsed_names C. }
    split.
    + rewrite E. have := sc_insts _ W _ (comp_composition _ _ B). by rewrite /= app_nil_r.
    + apply/Forall_forall => x X. have: In (iname x) (map iname (insts_of c)) by apply: in_map.
      rewrite E => J.
      case: (sc_ids _ W _ _ (comp_composition _ _ B) (or_introl eq_refl)) => [/Forall_forall F _]. apply: F.
      rewrite !in_app_iff in J *. tauto.
Qed.
Lemma place_unique p b k c : place S p b -> p <> [] -> at_path root p c -> nth_error ts k = Some c ->
  exists k', nth_error ts k' = Some c /\ nth_error (components S) k' = Some b.
Proof.
  move=> P NE A K. case: (place_at _ _ P) => [[E _]|[_ [c' [k' [A' [K' B']]]]]]; first by case: NE.
  have E := at_path_det _ _ _ _ root_wf A A'. subst c'. by exists k'.
Qed.
End Hierarchy.
