(** Connections of the parsed system. *)
From Coq Require Import ssreflect ssrbool List String Ascii Bool Arith NArith Lia Relation_Operators.
From Verif Require Import Prelude DecStr Flatten_Model Flatten_Spec Flatten_Proofs Flatten_Proofs2.
From Verif Require AttrRef_Model Merge_Model Merge_Spec Merge_Proofs Merge_Proofs2 Freeze_Model.
From Verif Require Import Whole_Model Whole_Spec Whole_Proofs Whole_Proofs2 Whole_Proofs3.
Import ListNotations.
Open Scope string_scope.
Open Scope list_scope.

(** * Paths of compositions are different *)
Lemma walk_NoDup c : wf c -> NoDup (map fst (walk c)).
Proof.
  elim/comp_rect': c => l cs es ss ats IH WF. rewrite walk_eq /=.
  have [N _] := WF [] _ (at_here _). simpl in N. constructor.
  - move=> /in_map_iff [[p d] [/= E /in_flat_map [i [_ /in_map_iff [[q e] [[E2 _] _]]]]]]. by subst.
  - rewrite map_flat_map.
    rewrite (flat_map_ext _ (fun i => map (cons (iname i)) (map fst (walk (itype i))))).
    { move=> i. by rewrite !map_map. }
    apply: NoDup_flat_map_heads => // i I.
    move/Forall_forall: IH => /(_ _ I). apply. exact: wf_sub WF I.
Qed.
Lemma NoDup_pairs A B C (f : A -> list B) (g : B -> C) (l : list (path * A)) :
  NoDup (map fst l) -> (forall p x, In (p, x) l -> NoDup (map g (f x))) ->
  NoDup (map (fun px => (fst px, g (snd px))) (flat_map (fun pc => map (pair (fst pc)) (f (snd pc))) l)).
Proof.
  elim: l => [|[p x] l IH] /= N H; first by constructor.
  inversion N as [|? ? NI N2]; subst. rewrite map_app map_map /=. apply: NoDup_app_intro.
  - rewrite -(map_map g (fun n => (p, n))). apply: FinFun.Injective_map_NoDup; first by move=> ? ? [].
    apply: (H p). by left.
  - apply: IH => // q y Y. apply: (H q). by right.
  - move=> z /in_map_iff [y [<- _]] /in_map_iff [[q y'] [[E _]]]. simpl in E.
    move=> /in_flat_map [[q' x'] [X /in_map_iff [? [[E2 _] _]]]]. apply: NI. simpl in E2.
    rewrite -E -E2. exact: (in_map fst _ _ X).
Qed.

Lemma Forall2_with_In A B (R : A -> B -> Prop) l m : Forall2 R l m -> Forall2 (fun x y => In x l /\ R x y) l m.
Proof.
  elim=> [|x y l0 m0 X _ IH]; constructor; first by split=> //; left.
  apply: Forall2_weaken IH => ? ? [? ?]. split=> //. by right.
Qed.

Section Connections.
Variables (S : list item) (la lc : list (list string)) (S' : list item) (a : block) (rest : list block)
  (ts : list comp) (root : comp) (fl : flat).
Hypothesis G : stages S la lc S' a rest ts root.
Hypothesis W : scoped S.

Lemma path_block p c b : at_path root p c -> place S p b -> p <> [] ->
  exists ls b', collapsed b ls b' /\ rep ts b' c.
Proof.
  move=> A P NE. case: (at_place _ _ _ _ _ _ _ _ G _ _ A) => [[? _]|[_ [k [b0 [K [B P0]]]]]] //.
  case: (rep_comp _ _ _ _ _ _ _ _ G _ _ K) => ls [b1 [b' [L [B1 [C R]]]]].
  rewrite B in B1. case: B1 => ?. subst b1. have ? := place_det _ W _ _ _ P P0 NE. subst b0.
  by exists ls, b'.
Qed.
Lemma path_has p c : at_path root p c -> p <> [] -> exists b, place S p b.
Proof. move=> A NE. case: (at_place _ _ _ _ _ _ _ _ G _ _ A) => [[? _]|[_ [k [b [_ [_ P]]]]]] //. by exists b. Qed.
Lemma has_path p b : place S p b -> exists c, at_path root p c.
Proof.
  move=> P. case: (place_at _ _ _ _ _ _ _ _ G _ _ P) => [[-> _]|[_ [c [k [A _]]]]]; last by exists c.
  exists root. exact: at_here.
Qed.
Lemma in_root A (f : block -> list A) x : In x (flat_map f (assemblies S)) <-> exists b, place S [] b /\ In x (f b).
Proof.
  rewrite in_flat_map. split=> -[b [P X]]; exists b; split=> //.
  - apply: pl_root. exact/assemblies_In.
  - exact: place_root P.
Qed.
Lemma conns_iff p c k : at_path root p c -> (In k (conns_of c) <-> exists b, place S p b /\ In k (bl_conns b)).
Proof.
  move=> A. case: (list_eq_dec string_dec p []) => [E|NE].
  - subst p. have ? : c = root by inversion A. subst c. rewrite (asm_conns _ _ _ _ _ _ _ _ G). exact: in_root.
  - case: (path_has _ _ A NE) => b P. case: (path_block _ _ _ A P NE) => ls [b' [C R]].
    rewrite (rp_conns _ _ _ R) (cl_conns _ _ _ C). split; first by move=> I; exists b.
    move=> [b0 [P0 I]]. by rewrite (place_det _ W _ _ _ P P0 NE).
Qed.
Lemma settings_iff p c s : at_path root p c -> (In s (settings_of c) <-> exists b, place S p b /\ In s (bl_settings b)).
Proof.
  move=> A. case: (list_eq_dec string_dec p []) => [E|NE].
  - subst p. have ? : c = root by inversion A. subst c. rewrite (asm_settings _ _ _ _ _ _ _ _ G). exact: in_root.
  - case: (path_has _ _ A NE) => b P. case: (path_block _ _ _ A P NE) => ls [b' [C R]].
    rewrite (rp_settings _ _ _ R) (cl_settings _ _ _ C). split; first by move=> I; exists b.
    move=> [b0 [P0 I]]. by rewrite (place_det _ W _ _ _ P P0 NE).
Qed.
Lemma exports_eq p c b : at_path root p c -> place S p b -> p <> [] -> exports_of c = bl_exports b.
Proof.
  move=> A P NE. case: (path_block _ _ _ A P NE) => ls [b' [C R]].
  by rewrite (rp_exports _ _ _ R) (cl_exports _ _ _ C).
Qed.
Lemma attrs_eq p c b : at_path root p c -> place S p b -> p <> [] -> attrs_of c = bl_attrs b.
Proof.
  move=> A P NE. case: (path_block _ _ _ A P NE) => ls [b' [C R]].
  by rewrite (rp_attrs _ _ _ R) (cl_attrs _ _ _ C).
Qed.
Lemma root_exports x : In x (exports_of root) -> exists b, place S [] b /\ In x (bl_exports b).
Proof.
  rewrite (rp_exports _ _ _ (sg_root _ _ _ _ _ _ _ _ G)).
  case: (absorb_all rest a) => [_ [_ [_ ->]]] X.
  case: (coll_all_nth _ _ _ _ (sg_asm _ _ _ _ _ _ _ _ G) 0) => [_ H].
  rewrite (sg_first _ _ _ _ _ _ _ _ G) in H. case: (H a eq_refl) => ls [b [L [B C]]].
  exists b. rewrite -(cl_exports _ _ _ C). split=> //. apply: pl_root. apply/assemblies_In. exact: nth_error_In B.
Qed.

Lemma conn_names_NoDup p c : at_path root p c -> NoDup (map c_name (conns_of c)).
Proof.
  move=> A. case: (at_place _ _ _ _ _ _ _ _ G _ _ A) => [[_ ->]|[NE [k [b [K [B P]]]]]].
  - rewrite (asm_conns _ _ _ _ _ _ _ _ G) map_flat_map. exact: sc_conns W _ (co_root S).
  - case: (path_block _ _ _ A P NE) => ls [b' [C R]]. rewrite (rp_conns _ _ _ R) (cl_conns _ _ _ C).
    have := sc_conns _ W _ (comp_composition _ _ _ B). by rewrite /= app_nil_r.
Qed.
Lemma place_composition p b : place S p b -> exists bs, composition S bs /\ In b bs.
Proof.
  move=> P. case: (list_eq_dec string_dec p []) => [E|NE].
  - subst p. exists (assemblies S). split; [exact: co_root|exact: place_root].
  - exists [b]. split; [apply: co_comp; exact: place_comp P NE|by left].
Qed.
Lemma conn_dot_free p c k : at_path root p c -> In k (conns_of c) -> dot_free (c_name k) = true.
Proof.
  move=> A /(conns_iff _ _ _ A) [b [P I]]. case: (place_composition _ _ P) => bs [CO IB].
  case: (sc_ids _ W _ _ CO IB) => [_ [_ [/Forall_forall H _]]]. exact: H.
Qed.

Hypothesis RE : resolved S.
Lemma root_refs : refs_ok root.
Proof.
  have NA: forall p c n, at_path root p c -> names_at S p n -> In n (map iname (insts_of c)).
  { move=> p c n A H. exact/(insts_iff _ _ _ _ _ _ _ _ G W _ _ _ A). }
  split.
  - move=> p c x A X. case: (list_eq_dec string_dec p []) => [E|NE].
    + subst p. have ? : c = root by inversion A. subst c. case: (root_exports _ X) => b [P I].
      by case: (re_exports _ RE _ _ _ P I).
    + split=> //. case: (path_has _ _ A NE) => b P. rewrite (exports_eq _ _ _ A P NE) in X.
      case: (re_exports _ RE _ _ _ P X) => _ [N _]. exact: NA A N.
  - move=> p c k e A /(conns_iff _ _ _ A) [b [P K]] E.
    case: (re_ends _ RE _ _ _ _ P K E) => _. case: (e_inst e) => [n|] //. exact: NA.
Qed.

(** * What ends stand for *)
Lemma stands_to s t : stands_for S s t -> Flatten_Spec.stands_for root s t.
Proof.
  elim=> [p i b NE P L|p i b x q NE P L _ IH]; case: (has_path _ _ P) => c A.
  - apply: sf_real (A) _. by rewrite (exports_eq _ _ _ A P NE).
  - apply: Flatten_Spec.sf_export (A) _ IH. by rewrite (exports_eq _ _ _ A P NE).
Qed.
Lemma stands_from s t : Flatten_Spec.stands_for root s t -> fst s <> [] -> stands_for S s t.
Proof.
  elim=> [p i c A L|p i c x q A L _ IH] /= NE; case: (path_has _ _ A NE) => b P;
    rewrite (exports_eq _ _ _ A P NE) in L.
  - exact: sf_own NE P L.
  - apply: Whole_Spec.sf_export NE P L _. apply: IH => /=. by case: (p).
Qed.
Lemma stands_path s t : stands_for S s t -> fst t <> [] /\ (exists c, at_path root (fst t) c) /\
  (dot_free (snd s) = true -> dot_free (snd t) = true).
Proof.
  elim=> [p i b NE P L|p i b x q NE P L _ [IH1 [IH2 IH3]]] /=.
  - split=> //. split=> //. exact: has_path P.
  - split=> //. split=> // _. apply: IH3. have I := last_export_In _ _ _ L.
    by case: (re_exports _ RE _ _ _ P I) => _ [_ ?].
Qed.

(** A connection of the parsed system before merging, for one that is written *)
Definition image (pk : path * conn) (m : Merge_Model.mconn) : Prop :=
  Merge_Model.m_type m = c_type (snd pk) /\
  (forall e, In e (Merge_Model.m_from m) <-> exists q i, from_of S pk q i /\ e = interface_name q i) /\
  (forall e, In e (Merge_Model.m_to m) <-> exists q i, to_of S pk q i /\ e = interface_name q i).
Hypothesis F : transform root = Ok fl.
Lemma dotted_snoc q i : q <> [] -> dotted (q ++ [i]) = (dotted q ++ "." ++ i)%string.
Proof.
  elim: q => [|n q IH] // _. case: q IH => [|m q] IH //.
  rewrite -app_comm_cons (dotted_cons n ((m :: q) ++ [i])) // IH // (dotted_cons n (m :: q)) //.
  by rewrite !string_app_assoc.
Qed.
Lemma ends_image p c k l l' : at_path root p c -> In k (conns_of c) -> incl l (c_from k) \/ incl l (c_to k) ->
  Forall2 (end_ok root p) l l' ->
  forall e, In e (map end_name l') <-> exists q i e0, In e0 l /\ means S p e0 q i /\ e = interface_name q i.
Proof.
  move=> A K IL FA e.
  have NE: forall e0, In e0 l -> end_path p e0 <> [].
  { move=> e0 I. have H: In e0 (c_from k) \/ In e0 (c_to k) by case: IL => IL; [left|right]; apply: IL.
    case: root_refs => _ /(_ _ _ _ _ A K H). rewrite /end_path. case: (e_inst e0) => [n _|//]. by case: (p). }
  rewrite in_map_iff. split.
  - move=> [e' [<- I]]. case: (Forall2_In_r _ _ _ _ _ _ FA I) => e0 [I0 [q [i [SF ->]]]].
    have SF' := stands_from _ _ SF (NE _ I0). exists q, i, e0. split=> //. split=> //.
    rewrite /end_name /interface_name /= dotted_snoc //. by case: (stands_path _ _ SF').
  - move=> [q [i [e0 [I0 [M ->]]]]]. case: (Forall2_In_l _ _ _ _ _ _ FA I0) => e' [I' [q' [i' [SF E]]]].
    have M' := stands_to _ _ M.
    have [? ?] : q = q' /\ i = i'.
    { have := stands_for_det _ _ _ _ (root_wf _ _ _ _ _ _ _ _ G W) M' SF. by case. }
    subst q' i'. exists e'. split=> //. rewrite E /end_name /interface_name /= dotted_snoc //.
    by case: (stands_path _ _ M).
Qed.
Lemma written_all pk : written S pk <-> In pk (all_conns root).
Proof.
  case: pk => p k. rewrite /written (all_of_In _ conns_of). split.
  - move=> [b [/= P K]]. case: (has_path _ _ P) => c A. exists c. split=> //. apply/(conns_iff _ _ _ A). by exists b.
  - move=> [c [A /(conns_iff _ _ _ A) [b [P K]]]]. by exists b.
Qed.
Lemma images : Forall2 image (all_conns root) (map to_mconn (f_conns fl)).
Proof.
  have R: Forall2 (fun pc c' => In pc (all_conns root) /\ conn_ok root (fst pc) (snd pc) c') (all_conns root) (f_conns fl).
  { have := transform_conns _ _ (root_wf _ _ _ _ _ _ _ _ G W) root_refs F.
    exact: Forall2_with_In. }
  elim: R => [|[p k] c' l m [I [EN [ET [EF EO]]]] _ IH] /=; constructor=> //.
  move/(all_of_In _ conns_of): I => [c [A K]]. split=> //=. split.
  - move=> e. rewrite (ends_image _ _ _ _ _ A K (or_introl (incl_refl _)) EF e). split.
    + move=> [q [i [e0 [I0 [M ->]]]]]. exists q, i. split=> //. by exists e0.
    + move=> [q [i [[e0 [I0 M]] ->]]]. by exists q, i, e0.
  - move=> e. rewrite (ends_image _ _ _ _ _ A K (or_intror (incl_refl _)) EO e). split.
    + move=> [q [i [e0 [I0 [M ->]]]]]. exists q, i. split=> //. by exists e0.
    + move=> [q [i [[e0 [I0 M]] ->]]]. by exists q, i, e0.
Qed.
Lemma mnames_NoDup : NoDup (map Merge_Model.m_name (map to_mconn (f_conns fl))).
Proof.
  rewrite map_map /=.
  have WF := root_wf _ _ _ _ _ _ _ _ G W.
  have N: NoDup (map (fun pk => (fst pk, c_name (snd pk))) (all_conns root)).
  { apply: NoDup_pairs; first exact: walk_NoDup. move=> p x /walk_at A. exact: conn_names_NoDup A. }
  have DF: forall p k, In (p, k) (all_conns root) -> Forall (fun s => dot_free s = true) (p ++ [c_name k]).
  { move=> p0 k0 /(all_of_In _ conns_of) [c [A K]]. apply/Forall_app.
    split; first exact: at_path_dot_free WF A. constructor=> //. exact: conn_dot_free A K. }
  have H: Forall2 (fun pk c' => Forall (fun s => dot_free s = true) (fst pk ++ [c_name (snd pk)]) /\
      c_name c' = dotted (fst pk ++ [c_name (snd pk)])) (all_conns root) (f_conns fl).
  { apply: Forall2_weaken (Forall2_with_In _ _ _ _ _ (transform_conns _ _ WF root_refs F)) => -[p k] c' [I [E _]].
    split=> //. exact: DF. }
  elim: H N => [|[p k] c' l0 m0 [D EN] FA IH] N /=; first by constructor.
  inversion N as [|? ? NI N2]; subst. constructor; last exact: IH.
  move=> /in_map_iff [d' [E J]]. apply: NI. apply/in_map_iff.
  case: (Forall2_In_r _ _ _ _ _ _ FA J) => [[q j] [I [D' EN']]]. exists (q, j). split=> //.
  simpl in *. rewrite EN EN' in E.
  have [? ?] : q = p /\ c_name j = c_name k; last by subst q; congruence.
  apply: snoc_inj. apply: dotted_inj E => //; [by case: (q)|by case: (p)].
Qed.
Lemma mconns_NoDup : NoDup (map to_mconn (f_conns fl)).
Proof. exact: (NoDup_map_inv Merge_Model.m_name) mnames_NoDup. Qed.

Definition pre (w : path * conn) (c : Merge_Model.mconn) : Prop :=
  exists k, nth_error (all_conns root) k = Some w /\ nth_error (map to_mconn (f_conns fl)) k = Some c.
Lemma pre_image w c : pre w c -> image w c.
Proof.
  move=> [k [A B]]. case: (Forall2_nth _ _ _ _ _ images k) => [H _].
  case: (H _ A) => c' [B' I]. rewrite B in B'. case: B' => ?. by subst.
Qed.
Lemma pre_unique w w' c : pre w c -> pre w' c -> w = w'.
Proof.
  move=> [k [A B]] [k' [A' B']]. have E: k = k'.
  { have N := mconns_NoDup. rewrite NoDup_nth_error in N. apply: N; last by rewrite B.
    apply/nth_error_Some. by rewrite B. }
  subst k'. rewrite A in A'. by case: A'.
Qed.
Lemma pre_of w : written S w -> exists c, pre w c.
Proof.
  move=> /written_all /(In_nth_error _ _) [k A]. case: (Forall2_nth _ _ _ _ _ images k) => [H _].
  case: (H _ A) => c [B _]. by exists c, k.
Qed.
Lemma of_pre c : In c (map to_mconn (f_conns fl)) -> exists w, pre w c.
Proof.
  move=> /(In_nth_error _ _) [k B]. case: (Forall2_nth _ _ _ _ _ images k) => [_ H].
  case: (H _ B) => w [A _]. by exists w, k.
Qed.
Lemma pre_In w c : pre w c -> written S w /\ In c (map to_mconn (f_conns fl)).
Proof. move=> [k [A B]]. split; [apply/written_all; exact: nth_error_In A|exact: nth_error_In B]. Qed.

Lemma means_inj w w' e e' q i q' i' : written S w -> written S w' ->
  (In e (c_from (snd w)) \/ In e (c_to (snd w))) -> (In e' (c_from (snd w')) \/ In e' (c_to (snd w'))) ->
  means S (fst w) e q i -> means S (fst w') e' q' i' -> interface_name q i = interface_name q' i' ->
  q = q' /\ i = i'.
Proof.
  move=> [b [P K]] [b' [P' K']] E E' M M' EQ.
  have WF := root_wf _ _ _ _ _ _ _ _ G W.
  have D: forall p e b k q i, place S p b -> In k (bl_conns b) -> In e (c_from k) \/ In e (c_to k) ->
    means S p e q i -> Forall (fun s => dot_free s = true) (q ++ [i]).
  { move=> p0 e0 b0 k0 q0 i0 P0 K0 E0 M0. case: (stands_path _ _ M0) => /= _ [[c A] H].
    apply/Forall_app. split; first exact: at_path_dot_free WF A. constructor=> //. apply: H.
    by case: (re_ends _ RE _ _ _ _ P0 K0 E0). }
  apply: snoc_inj. apply: dotted_inj EQ; [exact: D P K E M|exact: D P' K' E' M'|by case: (q)|by case: (q')].
Qed.
Lemma share_back w w' c c' : pre w c -> pre w' c' -> Merge_Spec.share c c' -> share S w w'.
Proof.
  move=> PW PW'. have [WW _] := pre_In _ _ PW. have [WW' _] := pre_In _ _ PW'.
  case: (pre_image _ _ PW) => _ [FI TI]. case: (pre_image _ _ PW') => _ [FI' TI'].
  case=> [[e [/TI [q [i [[x [X M]] EE]]] /TI' [q' [i' [[x' [X' M']] E]]]]]|
          [e [/FI [q [i [[x [X M]] EE]]] /FI' [q' [i' [[x' [X' M']] E]]]]]]; subst e; exists q, i; [right|left].
  - case: (means_inj _ _ _ _ _ _ _ _ WW WW' (or_intror X) (or_intror X') M M' E) => ? ?. subst q' i'.
    split; [by exists x|by exists x'].
  - case: (means_inj _ _ _ _ _ _ _ _ WW WW' (or_introl X) (or_introl X') M M' E) => ? ?. subst q' i'.
    split; [by exists x|by exists x'].
Qed.
Lemma linked_chained c c' : Merge_Spec.linked (map to_mconn (f_conns fl)) c c' ->
  forall w w', pre w c -> pre w' c' -> chained S w w'.
Proof.
  elim=> {c c'} [c|c d c' [IC [ID SH]] _ IH] w w' P P'.
  - rewrite (pre_unique _ _ _ P P'). exact: rt1n_refl.
  - case: (of_pre _ ID) => v PV. apply: (Relation_Operators.rt1n_trans _ _ _ v); last exact: IH PV P'.
    split; first by case: (pre_In _ _ P). split; first by case: (pre_In _ _ PV).
    exact: share_back P PV SH.
Qed.

Variable out : list Merge_Model.mconn.
Hypothesis M : Merge_Model.merge (map to_mconn (f_conns fl)) = Ok out.
Lemma conn_kept w : written S w -> exists d, In d out /\ Merge_Model.m_type d = c_type (snd w) /\
  (forall q i, from_of S w q i -> In (interface_name q i) (Merge_Model.m_from d)) /\
  (forall q i, to_of S w q i -> In (interface_name q i) (Merge_Model.m_to d)).
Proof.
  move=> WW. case: (pre_of _ WW) => c P. have [_ IC] := pre_In _ _ P.
  case: (Merge_Proofs2.merge_keeps _ _ _ mconns_NoDup M IC) => d [D [T [IF IT]]].
  case: (pre_image _ _ P) => ET [FI TI]. exists d. split=> //. split; first by rewrite T.
  split=> q i H; [apply: IF; apply/FI|apply: IT; apply/TI]; by exists q, i.
Qed.
Lemma conn_made d : In d out -> exists ws, ws <> [] /\
  (forall w, In w ws -> written S w /\ c_type (snd w) = Merge_Model.m_type d) /\
  (forall e, In e (Merge_Model.m_from d) <-> exists w q i, In w ws /\ from_of S w q i /\ e = interface_name q i) /\
  (forall e, In e (Merge_Model.m_to d) <-> exists w q i, In w ws /\ to_of S w q i /\ e = interface_name q i) /\
  (forall w w', In w ws -> In w' ws -> chained S w w').
Proof.
  move=> D. case: (Merge_Proofs2.merge_linked _ _ _ mconns_NoDup M D) => cs [NE [IC [[T [TO FR]] LK]]].
  have [ws FW] : exists ws, Forall2 pre ws cs.
  { elim: cs IC {NE T TO FR LK} => [|c cs IH] IC; first by exists []; constructor.
    case: (of_pre c (IC _ (or_introl eq_refl))) => w P.
    have [ws FW] := IH (fun x X => IC _ (or_intror X)). exists (w :: ws). by constructor. }
  exists ws. split. { move=> E. subst ws. inversion FW. by subst. }
  split. { move=> w I. case: (Forall2_In_l _ _ _ _ _ _ FW I) => c [J P]. split; first by case: (pre_In _ _ P).
    case: (pre_image _ _ P) => <- _. exact: T. }
  split; [|split].
  - move=> e. rewrite FR. split.
    + move=> [c [J E]]. case: (Forall2_In_r _ _ _ _ _ _ FW J) => w [I P].
      case: (pre_image _ _ P) => _ [FI _]. move/FI: E => [q [i [H ->]]]. by exists w, q, i.
    + move=> [w [q [i [I [H ->]]]]]. case: (Forall2_In_l _ _ _ _ _ _ FW I) => c [J P]. exists c. split=> //.
      case: (pre_image _ _ P) => _ [FI _]. apply/FI. by exists q, i.
  - move=> e. rewrite TO. split.
    + move=> [c [J E]]. case: (Forall2_In_r _ _ _ _ _ _ FW J) => w [I P].
      case: (pre_image _ _ P) => _ [_ TI]. move/TI: E => [q [i [H ->]]]. by exists w, q, i.
    + move=> [w [q [i [I [H ->]]]]]. case: (Forall2_In_l _ _ _ _ _ _ FW I) => c [J P]. exists c. split=> //.
      case: (pre_image _ _ P) => _ [_ TI]. apply/TI. by exists q, i.
  - move=> w w' I I'. case: (Forall2_In_l _ _ _ _ _ _ FW I) => c [J P].
    case: (Forall2_In_l _ _ _ _ _ _ FW I') => c' [J' P']. exact: linked_chained (LK _ _ J J') _ _ P P'.
Qed.
Lemma conn_apart d d' e : In d out -> In d' out ->
  (In e (Merge_Model.m_from d) /\ In e (Merge_Model.m_from d')) \/
  (In e (Merge_Model.m_to d) /\ In e (Merge_Model.m_to d')) -> d = d'.
Proof.
  move=> D D' H. apply: (Merge_Proofs2.merge_no_share _ _ _ _ mconns_NoDup M D D').
  case: H => [[? ?]|[? ?]]; [right|left]; by exists e.
Qed.
End Connections.
