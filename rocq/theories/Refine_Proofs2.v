(** Proofs about the labels that the generated theory claims for components. *)
From Coq Require Import List String Ascii Bool NArith.
From Coq Require Import ssreflect ssrbool.
From Verif Require Import Prelude DecStr Chars Labels_Model Labels_Spec Labels_Proofs Isabelle_Model Isabelle_Spec Isabelle_Proofs
  Threads_Model Threads_Proofs Refine_Model Refine_Spec Refine_Proofs.
Import ListNotations.
Open Scope string_scope. Open Scope list_scope.

Lemma sapp_assoc (a b c : string) : ((a ++ b) ++ c = a ++ (b ++ c))%string.
Proof. by elim: a => [|x a IH] //=; rewrite IH. Qed.
Lemma primed_app a b : primed (a ++ b) = (primed a ++ primed b)%string.
Proof. by elim: a => [|x a IH] //=; rewrite IH. Qed.
Lemma ident_app a s : object_name a -> isabelle_ident (a ++ s) = Ok (primed a ++ primed s)%string.
Proof. move=> [c [r [-> [W _]]]]. by rewrite /isabelle_ident -primed_app start_pattern // replace_primed. Qed.
Lemma sanitize_chars n : all_chars name_char n = true -> sanitize n = replace "." "_" n.
Proof.
  elim: n => [|c n IH] //= /andP [C /IH ->]. f_equal. move: C. rewrite /name_char /word_char /alnum.
  case: (Ascii.eqb_spec c ".") => [->|N] //. rewrite orb_false_r.
  case: (N.eqb_spec (N_of_ascii c) 95) => [X|X].
  - move=> _. have -> : c = "_"%char by rewrite -(ascii_N_embedding c) X. by [].
  - by do 6 case: N.leb.
Qed.
Lemma sanitize_name n : object_name n -> sanitize n = replace "." "_" n.
Proof. by move=> /object_chars /sanitize_chars. Qed.

Lemma space_objs_has l seen i s : In i l -> ri_hardware i = false -> ~ In (li_space (ri i)) seen -> s = "_cnode" \/ s = "_group_bin_pd" ->
  In (mk_obj (li_space (ri i) ++ s)%string None Other, li_space (ri i)) (space_objs seen l).
Proof.
  elim: l seen => [|j l IH] seen //. cbn [In space_objs]. move=> I H N Z. case: (string_dec (li_space (ri j)) (li_space (ri i))) => [E|E].
  - case: I => [J|I].
    + subst j. rewrite H. cbn [orb]. have -> : memb (li_space (ri i)) seen = false by apply/memb_nIn.
      case: Z => ->; [by left|by right; left].
    + rewrite E. have -> : memb (li_space (ri i)) seen = false by apply/memb_nIn. case: (ri_hardware j); cbn [orb]; first exact: IH.
      case: Z => ->; [by left|by right; left].
  - case: I => [J|I]; first by subst j. case: orb; first exact: IH. right; right. apply: IH => //. by move=> [].
Qed.
Lemma tcb_objs_has l i : In i l -> ri_hardware i = false ->
  In (mk_obj (li_name (ri i) ++ "_" ++ control_name (li_name (ri i)) ++ "_tcb")%string None Other, li_name (ri i)) (tcb_objs l).
Proof. move=> I H. apply/in_flat_map. exists i. split=> //. rewrite H. by left. Qed.

Lemma sanity_ok insts cs m allocated : separated (map ri insts) cs -> integrity_group_labels (map ri insts) cs = Ok m ->
  by_groups (map ri insts) ->
  (forall i, In i insts -> object_name (li_name (ri i)) /\ object_name (li_space (ri i)) /\ (ri_control i = true -> ri_hardware i = false)) ->
  incl (space_objs [] insts ++ tcb_objs insts) allocated ->
  (forall o l, In (o, l) allocated -> object_name (o_name o) /\ kept (o_name o)) ->
  NoDup (map (fun x => o_name (fst x)) allocated) ->
  exists e c, obj_labels m (labels_of allocated) = Ok e /\ sanity m insts = Ok c /\ (forall id g, In (id, g) c -> says e id g) /\
    forall i mn, In i insts -> ri_control i = true -> mangled (li_name (ri i)) mn ->
      incl [(constant (li_space (ri i) ++ "_cnode"), li_space (ri i));
            (constant (li_name (ri i) ++ "_" ++ mn ++ "_0_control_tcb"), li_space (ri i));
            (constant (li_space (ri i) ++ "_group_bin_pd"), li_space (ri i))] c.
Proof.
  move=> S E G N A H D. have H' o l (I : In (o, l) allocated) := proj1 (H o l I).
  have [e [EO _]] := objects_labelled m _ H'. exists e.
  pose sane i := let group := li_space (ri i) in if ri_control i then
    [(constant (group ++ "_cnode"), group);
     (constant (li_name (ri i) ++ "_" ++ sanitize (li_name (ri i)) ++ "_0_control_tcb"), group);
     (constant (group ++ "_group_bin_pd"), group)] else [].
  have SE : mapM (sanity1 m) insts = Ok (map sane insts).
  { apply: mapM_map => i I. have [N1 [N2 _]] := N i I. rewrite /sanity1 /sane. case: ri_control => //.
    have M := group_is_space _ _ _ S E G (ri i) (in_map ri _ _ I). rewrite group_label M. cbv zeta.
    rewrite (name_ident _ N2) (ident_app _ _ N1) (ident_app _ _ N2). cbn [bind]. rewrite (sanitize_name _ N1) /constant.
    rewrite !primed_app. do 2 f_equal; [f_equal; by rewrite sapp_assoc|]. f_equal; [f_equal|].
    - rewrite !sapp_assoc. f_equal.
    - do 2 f_equal. by rewrite sapp_assoc. }
  exists (List.concat (map sane insts)). split=> //. split; first by rewrite /sanity SE. split.
  - move=> id g /in_concat [x [/in_map_iff [i [<- I]]]]. rewrite /sane. case C: (ri_control i) => //.
    have [N1 [N2 /(_ C) HW]] := N i I.
    have O o l (J : In (o, l) allocated) : says e (constant (o_name o)) (label m l).
    { have [e' [E' Y]] := one_label m _ o l H' D J (proj2 (H o l J)). by move: E'; rewrite EO => -[->]. }
    have M := group_is_space _ _ _ S E G (ri i) (in_map ri _ _ I).
    have GS : label m (li_space (ri i)) = li_space (ri i).
    { rewrite -(space_same _ _ _ S E (ri i) (in_map ri _ _ I)) //. exact: (proj1 G _ (in_map ri _ _ I)). }
    have B s : s = "_cnode" \/ s = "_group_bin_pd" -> says e (constant (li_space (ri i) ++ s)) (li_space (ri i)).
    { move=> Z. have J := A _ (in_or_app _ _ _ (or_introl (space_objs_has insts [] i s I HW (fun X => X) Z))). move: (O _ _ J). by rewrite GS. }
    move=> [X|[X|[X|[]]]]; injection X as <- <-; [by apply: B; left| |by apply: B; right].
    have J := A _ (in_or_app _ _ _ (or_intror (tcb_objs_has insts i I HW))). move: (O _ _ J). cbn [o_name]. rewrite M.
    by rewrite /control_name !sapp_assoc.
  - move=> i mn I C MN x X. rewrite (mangled_fun _ _ _ MN (sanitize_mangled _)) in X.
    apply/in_concat. exists (sane i). split; first exact: in_map. by rewrite /sane C.
Qed.

Lemma lookups_ok is' cs m names : integrity_group_labels is' cs = Ok m ->
  map fst (lookups m names) = names /\
  forall x g, In (x, g) (lookups m names) -> g = label m x /\ get_group_label (arch_group_labels m) x = g.
Proof.
  move=> E. split; first by rewrite /lookups map_map map_id.
  move=> x g I. split; last exact: (lookups_claim is' cs m names x g E I).
  by move/in_map_iff: I => [y [[<- <-] _]].
Qed.
Lemma extra_groups is' cs m extra : integrity_group_labels is' cs = Ok m ->
  (same_set (extra_left m extra) (extra_right extra) <->
   forall s a o, In (s, a, o) extra -> label m s = s /\ label m o = o).
Proof.
  move=> E. rewrite (extra_same is' cs m extra E).
  have L : forall x, ~ In x (dkeys m) <-> label m x = x.
  { move=> x. split; first exact: unmapped. move=> H I. move: H. rewrite /label. case D: (dget m x) => [v|].
    - move=> X. subst v. exact: (labels_canonical _ _ _ _ _ E (dget_In _ _ _ D)) I.
    - move/dget_None: D. by []. }
  split=> H s a o I; have [A B] := H s a o I; split; by apply/L.
Qed.
