(** Proofs about resolution with forward references: the theorems. *)
From Coq Require Import ssreflect ssrbool List String Bool PeanoNat Lia.
From Verif Require Import Prelude Scope_Model Scope_Spec Scope_Proofs Forward_Model Forward_Spec Forward_Proofs Forward_Proofs2 Forward_Proofs3.
Import ListNotations.
Open Scope string_scope. Open Scope list_scope.

Section Whole.
  Variable h0 : heap.
  Hypothesis T : tree h0.

  Lemma desc_ancestry p l : ancestry h0 (p :: l) -> desc h0 0 p.
  Proof.
    elim: l p => [|q l IH] p A; inversion A as [|q' l' k A1 I1]; subst; first by left.
    right. exact: below_snoc (IH _ A1) I1.
  Qed.

  Record ran (h1 hF : heap) : Prop := {
    ran_first : star (step1 h0) h0 h1;
    ran_second : star (step2 (assembly_declared h1)) h1 hF;
    ran_okay : forall x, desc h0 0 x -> okay h0 h1 x;
    ran_tidy : forall x l, ancestry h0 (x :: l) -> is_reff h0 x = false -> distinct_names h0 (declared h0 x);
    ran_asm : distinct_names h0 (assembly_declared h0);
    ran_acyclic : check_acyclic (S (List.length hF)) hF [] 0 = Ok tt;
    ran_resolved : check_resolved (S (List.length hF)) hF 0 = Ok tt }.

  Definition late_bad (h1 : heap) : Prop :=
    ~ distinct_names h1 (assembly_declared h1) \/
    exists a e, In a (kids h1 0) /\ class_of h1 a = "Assembly" /\ In e (ends_of h1 a) /\ stuck (assembly_declared h1) h1 e.
  Definition failed : Prop :=
    ~ distinct_names h0 (assembly_declared h0) \/ bad h0 \/
    exists h1, star (step1 h0) h0 h1 /\ (forall x, desc h0 0 x -> okay h0 h1 x) /\
      (late_bad h1 \/ exists hF, star (step2 (assembly_declared h1)) h1 hF /\
         (forall a e, In a (kids h1 0) -> class_of h1 a = "Assembly" -> In e (ends_of h1 a) -> settled h1 e hF) /\
         ((exists x, reachable hF x /\ below hF x x) \/ (exists x, below hF 0 x /\ is_reff hF x = true))).

  Lemma late_exn_evo h e : evo h0 h -> late_exn h e -> late_exn h0 e.
  Proof.
    move=> E [->|[-> [k [s [t [C N]]]]]]; [by left|right]. split=> //. exists k, s, t. split=> //.
    by apply/(evo_cell_reff E).
  Qed.

  Lemma forward_spec :
    match forward h0 with
    | Ok hF => exists h1, ran h1 hF
    | Err e => late_exn h0 e /\ failed
    end.
  Proof.
    rewrite /forward. have V0 := valid0 h0 T.
    have := assembly_scope_spec h0 V0. case: (assembly_scope h0) => [asm|e]; cbn [bind]; last first.
    { move=> [-> N]. split; by left. }
    move=> [DA FA].
    have F0 : Forall2 (frep h0) [[]] [[]] by constructor; [exact: frep_nil|constructor].
    have RO := root_obj h0 T. have RN := obj_nonref _ _ RO.
    have := enter_spec h0 [[]] [[]] 0 F0 (V0 0). case: (enter h0 [[]] 0) => [ss|e]; cbn [bind]; last first.
    { move=> [-> N]. split; first by left. right. left. left. exists 0, []. split; [constructor|done]. }
    move=> [D0 SS].
    have AS : Forall2 (frep h0) [asm] [assembly_declared h0] by constructor; [exact: FA|constructor].
    have := preorder_spec h0 T (List.length h0) [asm] ss 0 [] h0 0 (star_refl _ _) (anc_root _) (fun _ _ => eq_refl) SS AS.
    move=> /(_ ltac:(lia) eq_refl). case: (preorder _ _ _ _ _) => [[h1 la]|e]; cbn [bind]; last first.
    { move=> [B X]. split; first exact: X. right. by left. }
    move=> [S1 [_ OK]]. have E1 := star_evo _ _ _ (step1_evo h0) S1. have V1 := evo_valid E1 V0.
    have OKS : forall x, desc h0 0 x -> okay h0 h1 x by move=> x Dx; case: (OK x Dx).
    have := second_pass_spec h1 V1. case: (second_pass h1) => [hF|e]; cbn [bind]; last first.
    { move=> [X B]. split; first exact: late_exn_evo E1 X. right. right. exists h1. split=> //. split=> //. by left. }
    move=> [S2 [D2 SE]]. have E2 := star_evo _ _ _ (step2_evo _) S2. have VF := evo_valid E2 V1.
    have EF := evo_trans _ _ _ E1 E2.
    case CA: (check_acyclic _ _ _ _) => [[]|e]; cbn [bind]; last first.
    { have [-> [x [Hx Bx]]] : e = ParseError /\ exists x, (x = 0 \/ below hF 0 x) /\ below hF x x.
      { apply: (acyclic_err _ hF VF [] 0 e _ _ _ _ _ CA) => //; first by constructor.
        - rewrite (ev_len _ _ EF). exact: obj_lt.
        - rewrite /=. lia. }
      split; first by left. right. right. exists h1. split=> //. split=> //. right. exists hF. split=> //. split=> //. left. by exists x. }
    case CR: (check_resolved _ _ _) => [[]|e]; cbn [bind]; last first.
    { have [-> [x [Bx Rx]]] := resolved_err _ _ _ _ _ CA CR. split; first by left. right. right.
      exists h1. split=> //. split=> //. right. exists hF. split=> //. split=> //. right. by exists x. }
    exists h1. split=> //. move=> x l A. case: (Nat.eq_dec x 0) => [X|NX]; last by case: (OK x (desc_ancestry _ _ A)) => /(_ NX).
    by subst x.
  Qed.

  Section Ran.
    Context {h1 hF : heap} (R : ran h1 hF).
    Let E1 : evo h0 h1 := star_evo _ _ _ (step1_evo h0) (ran_first _ _ R).
    Let E2 : evo h1 hF := star_evo _ _ _ (step2_evo _) (ran_second _ _ R).
    Let EF : evo h0 hF := evo_trans _ _ _ E1 E2.

    Lemma ran_evo : evo h0 hF. Proof. exact: EF. Qed.
    Lemma ran_is_acyclic : acyclic hF.
    Proof. move=> x Rx. exact: (acyclic_ok _ _ _ _ (ran_acyclic _ _ R)). Qed.
    Lemma ran_noref x : reachable hF x -> is_reff hF x = false.
    Proof.
      case=> [->|B]; last exact: resolved_ok (ran_resolved _ _ R) _ B.
      rewrite (evo_reff EF). exact: obj_nonref (root_obj _ T).
    Qed.
    Lemma kids_nonref h p k : In k (kids h p) -> is_reff h p = false.
    Proof. rewrite /kids /is_reff. by case: (nth_error h p) => [[? ? ?|? ?]|]. Qed.
    Lemma ancestry_reachable p l : ancestry h0 (p :: l) -> is_reff h0 p = false -> reachable hF p.
    Proof.
      elim: l p => [|q l IH] p A NR; inversion A as [|q' l' k A1 I1]; subst; first by left.
      have Rq := IH _ A1 (kids_nonref _ _ _ I1). have [i N] := In_nth_error _ _ I1.
      have [k' [N' SR]] := evo_slot EF _ _ _ N. case: SR => [X|[X _]]; last by rewrite X in NR.
      subst k'. right. have IF := nth_error_In _ _ N'. case: Rq => [X|B]; first by subst q; exact: below_kid.
      exact: below_snoc' B IF.
    Qed.
    Lemma slot_final p l i k s t : ancestry h0 (p :: l) -> nth_error (kids h0 p) i = Some k ->
      nth_error h0 k = Some (Reff s t) -> exists r, nth_error (kids hF p) i = Some r /\ r <> k /\ is_obj h0 r.
    Proof.
      move=> A N C. have [r [Nr SR]] := evo_slot EF _ _ _ N. exists r. split=> //.
      have IR := nth_error_In _ _ Nr.
      have NRr : is_reff hF r = false.
      { apply: ran_noref. right. have := ancestry_reachable _ _ A (kids_nonref _ _ _ (nth_error_In _ _ N)).
        case=> [X|B]; [subst p; exact: below_kid|exact: below_snoc' B IR]. }
      rewrite (evo_reff EF) in NRr. case: SR => [X|[_ O]]; first by subst r; rewrite (cell_reff _ _ _ _ C) in NRr.
      split=> // X. subst r. by rewrite (cell_reff _ _ _ _ C) in NRr.
    Qed.

    Lemma composition_class a c l : In a (kids h1 0) -> class_of h1 a = "Assembly" -> kids h1 a = c :: l ->
      class_of h1 c <> "ConnectionEnd".
    Proof.
      move=> Ia CA K. have N1 : nth_error (kids h1 a) 0 = Some c by rewrite K.
      have [c0 [N0 _]] := evo_slot_back E1 _ _ _ N1.
      have K0 : exists l0, kids h0 a = c0 :: l0 by case: (kids h0 a) N0 => [//|x l0] [->]; exists l0.
      move: K0 => [l0 K0]. rewrite (evo_class E1) in CA. have TA := tree_assembly _ T _ _ _ CA K0.
      case: (step1_slot h0 h1 (ran_first _ _ R) a 0 c0 N0) => [X|[r [h' [X [_ [_ [S1 [S2 J]]]]]]]].
      - rewrite N1 in X. case: X => X. subst c0. rewrite (evo_class E1). case: TA => [->|[s C]] //.
        by rewrite /class_of C.
      - rewrite N1 in X. case: X => X. subst r. case: TA => [TA|[s C]].
        + move: J => [lj [s [t [_ [C _]]]]]. have Ep := star_evo _ _ _ (step1_evo h0) S1.
          move/(evo_cell_reff Ep): C => C. by rewrite /class_of C in TA.
        + move: J => [lj [s' [t [_ [C' M]]]]]. have Ep := star_evo _ _ _ (step1_evo h0) S1.
          move/(evo_cell_reff Ep): C' => C'. rewrite C in C'. case: C' => X Y. subst s' t.
          have [F _] := mean_In _ _ _ _ _ (hd_In _ _ _ M). move: F => /= /String.eqb_eq F.
          rewrite (evo_class E1) -(evo_class Ep) F. done.
    Qed.
    Lemma final_assembly : assembly_declared hF = assembly_declared h1.
    Proof.
      have K := fun x => star2_kids _ _ _ x (ran_second _ _ R).
      rewrite /assembly_declared. rewrite (K 0); first by rewrite (evo_class E1) (tree_root _ T).
      rewrite (filter_ext _ (fun a => String.eqb (class_of h1 a) "Assembly")); first by move=> a; rewrite (evo_class E2).
      rewrite !flat_map_concat_map. congr (List.concat _). apply: map_ext_in => a /filter_In [Ia /String.eqb_eq CA].
      rewrite (K a); first by rewrite CA. case Ka: (kids h1 a) => [//|c l].
      apply: (evo_declared_same E2). apply: K. exact: composition_class Ia CA Ka.
    Qed.

    Lemma ran_single p l i k n t : ancestry h0 (p :: l) -> nth_error (kids h0 p) i = Some k ->
      nth_error h0 k = Some (Reff [n] t) ->
      exists r, nth_error (kids hF p) i = Some r /\
        hd_error (mean h0 [n] t (visible h0 (p :: l) ++ assembly_declared hF)) = Some r.
    Proof.
      move=> A N C. have [r [NF [NE O]]] := slot_final _ _ _ _ _ _ A N C. exists r. split=> //.
      rewrite mean_app // hd_error_app.
      case: (step1_slot h0 h1 (ran_first _ _ R) p i k N) => [X|[r1 [h' [X [_ [O1 [S1 [S2 J]]]]]]]].
      - have HM : mean h0 [n] t (visible h0 (p :: l)) = [].
        { case: (ran_okay _ _ R p (desc_ancestry _ _ A) l A i k [n] t N C) => [[r1 [X1 O1]]|[H|H]] //.
          - rewrite X in X1. case: X1 => X1. subst r1. move: (obj_nonref _ _ O1). by rewrite (cell_reff _ _ _ _ C).
          - by case: (H n). }
        rewrite HM. rewrite [hd_error []]/=.
        case: (step2_slot _ h1 hF (ran_second _ _ R) p i k X) => [Y|[r2 [h2 [Y [_ [_ [S1 [S2 J]]]]]]]].
        + rewrite NF in Y. by case: Y.
        + rewrite NF in Y. case: Y => Y. subst r2. move: J => [s [t' [_ [C2 M]]]].
          have Eh : evo h0 h2 by exact: evo_trans _ _ _ E1 (star_evo _ _ _ (step2_evo _) S1).
          move/(evo_cell_reff Eh): C2 => C2. rewrite C in C2. case: C2 => Y1 Y2. subst s t'.
          by rewrite (evo_mean1 Eh) -final_assembly in M.
      - have [y [Ny SR]] := evo_slot E2 _ _ _ X. rewrite NF in Ny. case: Ny => Ny. subst y.
        have Er : r = r1. { case: SR => [//|[B _]]. rewrite (evo_reff E1) in B. by rewrite (obj_nonref _ _ O1) in B. }
        subst r1. move: J => [l' [s [t' [A' [C2 M]]]]]. have Eh := star_evo _ _ _ (step1_evo h0) S1.
        move/(evo_cell_reff Eh): C2 => C2. rewrite C in C2. case: C2 => Y1 Y2. subst s t'.
        rewrite (ancestry_unique _ T _ _ _ A' A) (evo_mean1 Eh) in M. by rewrite M.
    Qed.

    Lemma interior_evo h h' i x : evo h h' -> In x (interior h i) -> is_reff h x = false -> In x (interior h' i).
    Proof.
      move=> E. rewrite /interior (evo_class E).
      have KK : forall j, In x (kids h j) -> is_reff h x = false -> In x (kids h' j).
      { move=> j Ix NR. have [m N] := In_nth_error _ _ Ix. have [y [Ny SR]] := evo_slot E _ _ _ N.
        case: SR => [Y|[Y _]]; last by rewrite Y in NR. subst y. exact: nth_error_In Ny. }
      case: (String.eqb _ _); last exact: KK.
      case K: (kids h i) => [//|ty ks]. have N0 : nth_error (kids h i) 0 = Some ty by rewrite K.
      have [y [Ny SR]] := evo_slot E _ _ _ N0. case K': (kids h' i) Ny => [//|y' ks'] [Y]. subst y'.
      case: SR => [Y|[Y _]]; first by subst y; exact: KK.
      move=> Ix. by rewrite (kids_nonref _ _ _ Ix) in Y.
    Qed.
    Lemma mean_evo h h' t s : evo h h' -> forall l l' r, (forall x, In x l -> is_reff h x = false -> In x l') ->
      In r (mean h s t l) -> In r (mean h' s t l').
    Proof.
      move=> E. elim: s => [|n [|m s] IH] l l' r H //.
      - cbn [mean]. move=> /filter_In [/filter_In [Ir Nr] Fr]. apply/filter_In. rewrite (evo_class E). split=> //.
        apply/filter_In. rewrite (evo_has_name E). split=> //. apply: H Ir _. move: Nr.
        rewrite /has_name /name_at /is_reff. by case: (nth_error h r) => [[? ? ?|? ?]|].
      - move=> /in_flat_map [i [/filter_In [Ii Ni] Hr]]. apply/in_flat_map. exists i. split.
        + apply/filter_In. rewrite (evo_has_name E). split=> //. apply: H Ii _. move: Ni.
          rewrite /has_name /name_at /is_reff. by case: (nth_error h i) => [[? ? ?|? ?]|].
        + apply: IH Hr => x Ix. exact: interior_evo E Ix.
    Qed.
    Lemma ran_qualified p l i k s t : ancestry h0 (p :: l) -> nth_error (kids h0 p) i = Some k ->
      nth_error h0 k = Some (Reff s t) ->
      exists r, nth_error (kids hF p) i = Some r /\
        In r (mean hF s t (visible h0 (p :: l) ++ assembly_declared hF)).
    Proof.
      move=> A N C. have [r [NF [NE O]]] := slot_final _ _ _ _ _ _ A N C. exists r. split=> //.
      case: (step1_slot h0 h1 (ran_first _ _ R) p i k N) => [X|[r1 [h' [X [_ [O1 [S1 [S2 J]]]]]]]].
      - case: (step2_slot _ h1 hF (ran_second _ _ R) p i k X) => [Y|[r2 [h2 [Y [_ [_ [S1 [S2 J]]]]]]]].
        + rewrite NF in Y. by case: Y.
        + rewrite NF in Y. case: Y => Y. subst r2. move: J => [s' [t' [_ [C2 M]]]].
          have Eh : evo h0 h2 by exact: evo_trans _ _ _ E1 (star_evo _ _ _ (step2_evo _) S1).
          move/(evo_cell_reff Eh): C2 => C2. rewrite C in C2. case: C2 => Y1 Y2. subst s' t'.
          apply: mean_evo (star_evo _ _ _ (step2_evo _) S2) _ _ _ _ (hd_In _ _ _ M).
          move=> x Ix _. apply/in_app_iff. right. by rewrite final_assembly.
      - have [y [Ny SR]] := evo_slot E2 _ _ _ X. rewrite NF in Ny. case: Ny => Ny. subst y.
        have Er : r = r1. { case: SR => [//|[B _]]. rewrite (evo_reff E1) in B. by rewrite (obj_nonref _ _ O1) in B. }
        subst r1. move: J => [l' [s' [t' [A' [C2 M]]]]]. have Eh := star_evo _ _ _ (step1_evo h0) S1.
        move/(evo_cell_reff Eh): C2 => C2. rewrite C in C2. case: C2 => Y1 Y2. subst s' t'.
        rewrite (ancestry_unique _ T _ _ _ A' A) in M.
        have Es : evo h' hF by exact: evo_trans _ _ _ (star_evo _ _ _ (step1_evo h0) S2) E2.
        apply: mean_evo Es _ _ _ _ (hd_In _ _ _ M). move=> x Ix _. apply/in_app_iff. by left.
    Qed.
  End Ran.

  (** ** Acceptance *)
  Lemma visible_ancestry l x : ancestry h0 l -> In x (visible h0 l) -> exists l', ancestry h0 (x :: l').
  Proof.
    move=> A. rewrite /visible => /in_app_iff [H|H].
    - move: H => /in_flat_map [q [Iq /filter_In [Ix _]]].
      have : exists lq, ancestry h0 (q :: lq).
      { clear Ix. elim: A Iq => [|p l' k A IH Ik] /= [<-|Iq]; try done; [exists []; constructor|exists (p :: l'); by constructor|exact: IH]. }
      move=> [lq Aq]. exists (q :: lq). by constructor.
    - move: H => /in_flat_map [a [/filter_In [Ia _]]]. case K: (kids h0 a) => [//|c ks] /filter_In [Ix _].
      exists [c; a; 0]. constructor=> //. constructor; last by rewrite K; left. constructor=> //. constructor.
  Qed.
  Lemma named_obj h n x : has_name h n x = true -> is_obj h x.
  Proof. rewrite /has_name /name_at /is_obj. case: (nth_error h x) => [[c o ks|? ?]|] //. by eauto. Qed.
  Lemma becomes_ancestry p l k r : ancestry h0 (p :: l) -> In k (kids h0 p) -> becomes h0 (p :: l) k r ->
    is_obj h0 r /\ exists l', ancestry h0 (r :: l').
  Proof.
    move=> A Ik [NR|n t r' C M].
    - split; first by apply: nonref_obj => //; exact: valid0 T _ _ Ik. exists (p :: l). by constructor.
    - have := hd_In _ _ _ M. cbn [mean]. move=> /filter_In [/filter_In [Iv N] _]. split; first exact: named_obj N.
      exact: visible_ancestry Iv.
  Qed.
  Lemma looked_ancestry l x y : ancestry h0 (x :: l) -> is_obj h0 x -> looked_into h0 x y ->
    is_obj h0 y /\ exists l', ancestry h0 (y :: l').
  Proof.
    move=> A O. rewrite /looked_into. case: (String.eqb _ _).
    - move=> [l' [ty [ks [A' [K B]]]]]. apply: becomes_ancestry A' _ B. rewrite K. by left.
    - move=> ->. split=> //. by exists l.
  Qed.
  Lemma may_ancestry p l k r : ancestry h0 (p :: l) -> In k (kids h0 p) -> may_become h0 (p :: l) k r ->
    exists l', ancestry h0 (r :: l').
  Proof.
    move=> A Ik [r' B|m n t x y r' C Iv N LI Ir Nr]; first by have [_ H] := becomes_ancestry _ _ _ _ A Ik B.
    have [lx Ax] := visible_ancestry _ _ A Iv. have [_ [ly Ay]] := looked_ancestry _ _ _ Ax (named_obj _ _ _ N) LI.
    exists (y :: ly). by constructor.
  Qed.
  Lemma kids_same h p : evo h0 h -> no_references h0 p -> kids h p = kids h0 p.
  Proof.
    move=> E H. move: (evo_kids E p) => F. rewrite /no_references in H. move: H.
    elim: F => [|a b l l' SR F IH] H //.
    rewrite IH; first by move=> k Ik; apply: H; right.
    case: SR => [->//|[X _]]. by rewrite (H a (or_introl eq_refl)) in X.
  Qed.
  (** Types of instances in later heaps: what the type becomes, or still the reference to it *)
  Definition typed (h : heap) : Prop := forall x l ty ks y, ancestry h0 (x :: l) -> class_of h0 x = "Instance" ->
    kids h0 x = ty :: ks -> becomes h0 (x :: l) ty y ->
    exists z ks', kids h x = z :: ks' /\ (z = y \/ z = ty /\ is_reff h0 ty = true).
  Lemma typed1 h : star (step1 h0) h0 h -> typed h.
  Proof.
    move=> S x l ty ks y A CI K B. have N0 : nth_error (kids h0 x) 0 = Some ty by rewrite K.
    have CONS : forall z, nth_error (kids h x) 0 = Some z -> exists ks', kids h x = z :: ks'.
    { move=> z. case: (kids h x) => [//|z' ks'] [->]. by exists ks'. }
    case: (step1_slot h0 h S x 0 ty N0) => [X|[r [h' [X [R [O [Sa [Sb J]]]]]]]].
    - have [ks' K'] := CONS _ X. exists ty, ks'. split=> //. case: B => [NR|n t r C M]; [by left|right].
      split=> //. exact: cell_reff C.
    - have [ks' K'] := CONS _ X. exists r, ks'. split=> //. left.
      case: B => [NR|n t y' C M]; first by rewrite NR in R.
      move: J => [l' [s' [t' [A' [C2 M2]]]]]. have Eh := star_evo _ _ _ (step1_evo h0) Sa.
      move/(evo_cell_reff Eh): C2 => C2. rewrite C in C2. case: C2 => Y1 Y2. subst s' t'.
      rewrite (ancestry_unique _ T _ _ _ A' A) (evo_mean1 Eh) M in M2. by case: M2.
  Qed.
  Lemma interior_look h x y r : evo h0 h -> typed h -> looked_into h0 x y -> no_references h0 y ->
    In r (interior h x) -> In r (kids h0 y).
  Proof.
    move=> E TY. rewrite /looked_into /interior (evo_class E). case CI: (String.eqb _ _) => LI NY.
    - move/String.eqb_eq: CI => CI. move: LI => [l [ty [ks [A [K B]]]]].
      have [z [ks' [K' Z]]] := TY _ _ _ _ _ A CI K B. rewrite K'. case: Z => [->|[-> R]].
      + by rewrite (kids_same _ _ E NY).
      + move/(kids_nonref). by rewrite (evo_reff E) R.
    - subst y. by rewrite (kids_same _ _ E NY).
  Qed.

  Section Accept.
    Hypothesis SP : sound_spec h0.
    Lemma interior_cases h x y : evo h0 h -> typed h -> looked_into h0 x y -> no_references h0 y ->
      interior h x = kids h0 y \/ interior h x = [].
    Proof.
      move=> E TY. rewrite /looked_into /interior (evo_class E). case CI: (String.eqb _ _) => LI NY.
      - move/String.eqb_eq: CI => CI. move: LI => [l [ty [ks [A [K B]]]]].
        have [z [ks' [K' Z]]] := TY _ _ _ _ _ A CI K B. rewrite K'. case: Z => [->|[-> R]].
        + left. by rewrite (kids_same _ _ E NY).
        + right. case KT: (kids h ty) => [//|a b]. have : In a (kids h ty) by rewrite KT; left.
          move/(kids_nonref). by rewrite (evo_reff E) R.
      - subst y. left. by rewrite (kids_same _ _ E NY).
    Qed.
    Lemma clean_look h l m x y : evo h0 h -> typed h -> ancestry h0 l -> In x (visible h0 l) -> has_name h0 m x = true ->
      looked_into h0 x y -> no_references h0 y -> clean h x.
    Proof.
      move=> E TY A Ix N LI NY. rewrite /clean. case: (interior_cases h x y E TY LI NY) => ->; last by split; constructor.
      have [lx Ax] := visible_ancestry _ _ A Ix.
      have [O [ly Ay]] := looked_ancestry _ _ _ Ax (named_obj _ _ _ N) LI. split.
      - apply/Forall_forall => k Ik. apply/(evo_obj E). apply: nonref_obj; [exact: NY|exact: valid0 T _ _ Ik].
      - apply/(evo_distinct E). have := ss_distinct _ SP _ _ Ay (obj_nonref _ _ O). rewrite /declared filter_all //.
        move=> k Ik. by rewrite (NY k Ik).
    Qed.
    Lemma connectable_safe p l m n : ancestry h0 (p :: l) -> assembly_end h0 p -> connectable h0 (p :: l) m n ->
      safe h0 p l [m; n] TInterface.
    Proof.
      move=> A [a [c [ks [x [i [j [_ [_ [_ [_ [_ [_ [_ [K [Ri Rj]]]]]]]]]]]]]]] [CL _].
      split; first by exists i, j. split=> //. exists m, n. split=> // h S y Iy Ny.
      have [z [LI NZ]] := CL y Iy Ny.
      exact: clean_look (star_evo _ _ _ (step1_evo h0) S) (typed1 _ S) A Iy Ny LI NZ.
    Qed.
    Lemma not_bad : ~ bad h0.
    Proof.
      case=> [[x [l [A [NR D]]]]|[x [l [i [k [s [t [A [N [C [H NS]]]]]]]]]]].
      - apply: D. exact: ss_distinct A NR.
      - case: (ss_meaning _ SP _ _ _ _ _ A (nth_error_In _ _ N) C) => [[n [r [E M]]]|[m [n [E [Et [AE CO]]]]]].
        + subst s. case: H => [H|H]; [by case: (H n)|by rewrite H in M].
        + subst s t. apply: NS. exact: connectable_safe.
    Qed.
    Variable h1 : heap.
    Hypothesis S1 : star (step1 h0) h0 h1.
    Hypothesis OK : forall x, desc h0 0 x -> okay h0 h1 x.
    Let E1 : evo h0 h1 := star_evo _ _ _ (step1_evo h0) S1.

    (** What is in the heap between the passes *)
    Lemma becomes1 p l i k : ancestry h0 (p :: l) -> nth_error (kids h0 p) i = Some k ->
      (exists r, nth_error (kids h1 p) i = Some r /\ is_obj h0 r /\ may_become h0 (p :: l) k r) \/
      (exists m n, nth_error (kids h1 p) i = Some k /\ nth_error h0 k = Some (Reff [m; n] TInterface) /\
         assembly_end h0 p /\ connectable h0 (p :: l) m n).
    Proof.
      move=> A N. have IK := nth_error_In _ _ N.
      case C: (nth_error h0 k) => [[c n ks|s t]|].
      - left. have NR : is_reff h0 k = false by rewrite /is_reff C.
        have [r [Nr SR]] := evo_slot E1 _ _ _ N. case: SR => [X|[X _]]; last by rewrite X in NR.
        subst r. exists k. split=> //. split; [by exists c, n, ks|apply: may_plain; exact: becomes_same].
      - case: (ss_meaning _ SP _ _ _ _ _ A IK C) => [[n [r [E M]]]|[m [n [E [Et [AE CO]]]]]].
        + left. subst s.
          case: (OK p (desc_ancestry _ _ A) l A i k [n] t N C) => [[r1 [X O]]|[H|H]];
            [|by case: (H n)|by rewrite H in M].
          exists r1. split=> //. split=> //.
          case: (step1_slot h0 h1 S1 p i k N) => [Y|[r2 [h' [Y [_ [O1 [Sa [Sb J]]]]]]]].
          * rewrite X in Y. case: Y => Y. subst r1. move: (obj_nonref _ _ O). by rewrite (cell_reff _ _ _ _ C).
          * rewrite X in Y. case: Y => Y. subst r2.
            move: J => [l' [s' [t' [A' [C2 M2]]]]]. have Eh := star_evo _ _ _ (step1_evo h0) Sa.
            move/(evo_cell_reff Eh): C2 => C2. rewrite C in C2. case: C2 => Y1 Y2. subst s' t'.
            rewrite (ancestry_unique _ T _ _ _ A' A) (evo_mean1 Eh) in M2. apply: may_plain. exact: becomes_meaning C M2.
        + subst s t. case: (step1_slot h0 h1 S1 p i k N) => [Y|[r2 [h' [Y [_ [O1 [Sa [Sb J]]]]]]]].
          * right. by exists m, n.
          * left. exists r2. split=> //. split=> //.
            move: J => [l' [s' [t' [A' [C2 M2]]]]]. have Eh := star_evo _ _ _ (step1_evo h0) Sa.
            move/(evo_cell_reff Eh): C2 => C2. rewrite C in C2. case: C2 => Y1 Y2. subst s' t'.
            rewrite (ancestry_unique _ T _ _ _ A' A) in M2.
            have := hd_In _ _ _ M2. move=> /in_flat_map [x [/filter_In [Ix Nx] /filter_In [/filter_In [Ir Nr] _]]].
            rewrite (evo_has_name Eh) in Nx. rewrite (evo_has_name Eh) in Nr.
            have [y [LI NY]] := proj1 CO x Ix Nx.
            apply: (may_inside _ _ _ m n _ x y) => //; first exact: C. exact: interior_look Eh (typed1 _ Sa) LI NY Ir.
      - exfalso. move/nth_error_None: C. have := valid0 h0 T _ _ IK. lia.
    Qed.
    Lemma anc1 p l x : ancestry h0 (p :: l) -> In x (kids h1 p) -> exists l', ancestry h0 (x :: l').
    Proof.
      move=> A Ix. have [i N1] := In_nth_error _ _ Ix. have [k [N _]] := evo_slot_back E1 _ _ _ N1.
      have IK := nth_error_In _ _ N.
      case: (becomes1 _ _ _ _ A N) => [[r [Nr [O B]]]|[m [n [Nr _]]]]; rewrite N1 in Nr; case: Nr => Nr.
      - subst r. exact: may_ancestry A IK B.
      - subst x. exists (p :: l). by constructor.
    Qed.
    Lemma assembly_same : assembly_declared h1 = assembly_declared h0.
    Proof.
      rewrite /assembly_declared (kids_same _ 0 E1 (ss_items _ SP)).
      rewrite (filter_ext _ (fun a => String.eqb (class_of h0 a) "Assembly")); first by move=> a; rewrite (evo_class E1).
      rewrite !flat_map_concat_map. congr (List.concat _). apply: map_ext_in => a /filter_In [Ia /String.eqb_eq CA].
      case K: (kids h0 a) => [|c l].
      - rewrite (kids_same _ a E1); first by move=> k; rewrite K. by rewrite K.
      - have [NC NK] := ss_composition _ SP _ _ _ Ia CA K.
        have N0 : nth_error (kids h0 a) 0 = Some c by rewrite K.
        have [y [Ny SR]] := evo_slot E1 _ _ _ N0. case: SR => [Y|[Y _]]; last by rewrite Y in NC.
        subst y. case K1: (kids h1 a) Ny => [//|c' l'] [Y]. subst c'.
        apply: (evo_declared_same E1). exact: kids_same.
    Qed.
    Lemma assembly_visible l x : In x (assembly_declared h0) -> In x (visible h0 l).
    Proof. move=> H. apply/in_app_iff. by right. Qed.

    (** The second pass *)
    Lemma typed2 L h2 : star (step2 L) h1 h2 -> typed h2.
    Proof.
      move=> S x l ty ks y A CI K B. rewrite (star2_kids _ _ _ x S); first by rewrite (evo_class E1) CI.
      exact: typed1 S1 _ _ _ _ _ A CI K B.
    Qed.
    Lemma type_done x l ty ks y : ancestry h0 (x :: l) -> kids h0 x = ty :: ks -> becomes h0 (x :: l) ty y ->
      exists z ks', kids h1 x = z :: ks' /\ is_obj h0 z.
    Proof.
      move=> A K B. have N0 : nth_error (kids h0 x) 0 = Some ty by rewrite K.
      have CONS : forall z, nth_error (kids h1 x) 0 = Some z -> exists ks', kids h1 x = z :: ks'.
      { move=> z. case: (kids h1 x) => [//|z' ks'] [->]. by exists ks'. }
      have IK : In ty (kids h0 x) by rewrite K; left.
      case: B => [NR|n t r C M].
      - have [z [Nz SR]] := evo_slot E1 _ _ _ N0. case: SR => [X|[X _]]; last by rewrite X in NR. subst z.
        have [ks' K'] := CONS _ Nz. exists ty, ks'. split=> //. apply: nonref_obj => //. exact: valid0 T _ _ IK.
      - case: (OK x (desc_ancestry _ _ A) l A 0 ty [n] t N0 C) => [[r1 [X O]]|[H|H]];
          [|by case: (H n)|by rewrite H in M].
        have [ks' K'] := CONS _ X. by exists r1, ks'.
    Qed.
    Lemma interior_done L h2 x y : star (step2 L) h1 h2 -> looked_into h0 x y -> no_references h0 y ->
      interior h2 x = kids h0 y.
    Proof.
      move=> S. have E2 := evo_trans _ _ _ E1 (star_evo _ _ _ (step2_evo L) S).
      rewrite /looked_into /interior (evo_class E2). case CI: (String.eqb _ _) => LI NY; last by subst y; exact: kids_same.
      move/String.eqb_eq: CI => CI. move: LI => [l [ty [ks [A [K B]]]]].
      have [z [ks' [K' Z]]] := typed2 _ _ S _ _ _ _ _ A CI K B. rewrite K'.
      have [z1 [ks1 [K1 O1]]] := type_done _ _ _ _ _ A K B.
      rewrite (star2_kids _ _ _ x S) in K'; first by rewrite (evo_class E1) CI. rewrite K1 in K'. case: K' => X _. subst z1.
      case: Z => [->|[X R]]; first exact: kids_same. subst z. by rewrite (obj_nonref _ _ O1) in R.
    Qed.
    Lemma not_stuck e le : ancestry h0 (e :: le) -> ~ stuck (assembly_declared h1) h1 e.
    Proof.
      move=> A [k [s [t [h2 [S [Ik [C H]]]]]]]. have Rk := cell_reff _ _ _ _ C.
      move/(evo_cell_reff E1): C => C. rewrite (evo_reff E1) in Rk.
      have [i N1] := In_nth_error _ _ Ik. have [k0 [N SR]] := evo_slot_back E1 _ _ _ N1.
      case: (becomes1 _ _ _ _ A N) => [[r [Nr [O B]]]|[m [n [Nr [C0 [AE CO]]]]]]; rewrite N1 in Nr; case: Nr => Nr.
      - subst r. by rewrite (obj_nonref _ _ O) in Rk.
      - subst k0. rewrite C in C0. case: C0 => X Y. subst s t. rewrite assembly_same in S H.
        have E2 := evo_trans _ _ _ E1 (star_evo _ _ _ (step2_evo _) S).
        move: CO => [CL [x [y [r [Ix [Nx [LI [Ir [Nr Fr]]]]]]]]]. case: H => H.
        + have [y' [LI' NY']] := CL x (assembly_visible _ _ Ix) Nx.
          have : In r (mean h2 [m; n] TInterface (assembly_declared h0)); last by rewrite H.
          apply/in_flat_map. exists x. split; first by apply/filter_In; rewrite (evo_has_name E2).
          have EY : y = y'.
          { move: LI LI'. rewrite /looked_into. case: (String.eqb _ _) => [|-> ->] //.
            move=> [la [ta [ka [Aa [Ka Ba]]]]] [lb [tb [kb [Ab [Kb Bb]]]]]. rewrite Ka in Kb. case: Kb => Xt Xk. subst tb kb.
            have El := ancestry_unique _ T _ _ _ Aa Ab. subst lb.
            case: Ba Bb => [NR|na tya ra Ca Ma] [NR'|nb tyb rb Cb Mb] //.
            - by rewrite (cell_reff _ _ _ _ Cb) in NR.
            - by rewrite (cell_reff _ _ _ _ Ca) in NR'.
            - rewrite Ca in Cb. case: Cb => X1 X2. subst. rewrite Ma in Mb. by case: Mb. }
          subst y'. rewrite (interior_done _ _ _ _ S LI NY').
          apply/filter_In. rewrite (evo_class E2). split=> //. apply/filter_In. by rewrite (evo_has_name E2).
        + apply: H. exists m, n. split=> // z Iz Nz. rewrite (evo_has_name E2) in Nz.
          have IV := assembly_visible (e :: le) _ Iz. have [y' [LI' NY']] := CL z IV Nz.
          exact: clean_look E2 (typed2 _ _ S) A IV Nz LI' NY'.
    Qed.
    Lemma not_late_bad : ~ late_bad h1.
    Proof.
      case=> [D|[a [e [Ia [CA [He ST]]]]]].
      - apply: D. rewrite assembly_same. apply/(evo_distinct E1). exact: ss_assemblies.
      - have [la Aa] := anc1 _ _ _ (anc_root _) Ia.
        move: He. rewrite /ends_of /composition. case K: (kids h1 a) => [//|c l] /= /in_flat_map [x [/filter_In [Ix _] /filter_In [Ie _]]].
        have Ic : In c (kids h1 a) by rewrite K; left.
        have [lc Ac] := anc1 _ _ _ Aa Ic. have [lx Ax] := anc1 _ _ _ Ac Ix.
        have [le Ae] := anc1 _ _ _ Ax Ie. exact: not_stuck Ae ST.
    Qed.
    Lemma nonref_kept h p k : evo h0 h -> In k (kids h0 p) -> is_reff h0 k = false -> In k (kids h p).
    Proof.
      move=> E Ik NR. have [i N] := In_nth_error _ _ Ik. have [r [Nr SR]] := evo_slot E _ _ _ N.
      case: SR => [X|[X _]]; last by rewrite X in NR. subst r. exact: nth_error_In Nr.
    Qed.
    Lemma class_nonref h x c : class_of h x = c -> c <> "Reference" -> is_reff h x = false.
    Proof. rewrite /class_of /is_reff. by case: (nth_error h x) => [[? ? ?|? ?]|] // <-. Qed.
    Lemma end_end e : assembly_end h0 e -> exists a, In a (kids h1 0) /\ class_of h1 a = "Assembly" /\ In e (ends_of h1 a).
    Proof.
      move=> [a [c [ks [x [i [j [Ia [CA [K [Ix [Cx [Ie [Ce _]]]]]]]]]]]]]. exists a.
      split; first exact: nonref_kept E1 Ia (ss_items _ SP _ Ia). rewrite (evo_class E1). split=> //.
      have [NC NK] := ss_composition _ SP _ _ _ Ia CA K.
      have N0 : nth_error (kids h0 a) 0 = Some c by rewrite K.
      have [y [Ny SR]] := evo_slot E1 _ _ _ N0. case: SR => [Y|[Y _]]; last by rewrite Y in NC. subst y.
      rewrite /ends_of /composition. case K1: (kids h1 a) Ny => [//|c' l'] [Y]. subst c'. cbn [hd_error].
      apply/in_flat_map. exists x. split.
      - apply/filter_In. rewrite (evo_class E1) Cx. split=> //. exact: nonref_kept E1 Ix (NK _ Ix).
      - apply/filter_In. rewrite (evo_class E1) Ce. split=> //. apply: nonref_kept E1 Ie _. exact: class_nonref Ce _.
    Qed.

    (** The final heap *)
    Section Final.
      Variable hF : heap.
      Hypothesis S2 : star (step2 (assembly_declared h1)) h1 hF.
      Hypothesis SE : forall a e, In a (kids h1 0) -> class_of h1 a = "Assembly" -> In e (ends_of h1 a) -> settled h1 e hF.
      Let E2 : evo h1 hF := star_evo _ _ _ (step2_evo _) S2.
      Let EF : evo h0 hF := evo_trans _ _ _ E1 E2.
      Lemma leadsF p l x : ancestry h0 (p :: l) -> In x (kids hF p) ->
        leads h0 p x /\ is_obj h0 x /\ exists l', ancestry h0 (x :: l').
      Proof.
        move=> A Ix. have [i NF] := In_nth_error _ _ Ix. have [k [N _]] := evo_slot_back EF _ _ _ NF.
        have IK := nth_error_In _ _ N.
        suff [O B] : is_obj h0 x /\ may_become h0 (p :: l) k x.
        { split; first by exists l, k. split=> //. exact: may_ancestry A IK B. }
        case: (becomes1 _ _ _ _ A N) => [[r [Nr [O B]]]|[m [n [Nr [C0 [AE CO]]]]]].
        - have [r' [Nr' SR]] := evo_slot E2 _ _ _ Nr. rewrite NF in Nr'. case: Nr' => X. subst r'.
          case: SR => [X|[X _]]; first by subst x. by rewrite (evo_reff E1) (obj_nonref _ _ O) in X.
        - have [a [Ia [CA Ie]]] := end_end _ AE. have NR := SE _ _ Ia CA Ie x Ix. rewrite (evo_reff E1) in NR.
          case: (step2_slot _ h1 hF S2 p i k Nr) => [Y|[r2 [h2 [Y [_ [O [Sa [Sb J]]]]]]]].
          + rewrite NF in Y. case: Y => Y. subst k. by rewrite (cell_reff _ _ _ _ C0) in NR.
          + rewrite NF in Y. case: Y => Y. subst r2. split; first by apply/(evo_obj E1).
            move: J => [s [t [_ [C2 M]]]].
            have Eh : evo h0 h2 by exact: evo_trans _ _ _ E1 (star_evo _ _ _ (step2_evo _) Sa).
            move/(evo_cell_reff Eh): C2 => C2. rewrite C0 in C2. case: C2 => Y1 Y2. subst s t.
            have := hd_In _ _ _ M. move=> /in_flat_map [z [/filter_In [Iz Nz] /filter_In [/filter_In [Ir Nx] _]]].
            rewrite (evo_has_name Eh) in Nz. rewrite (evo_has_name Eh) in Nx. rewrite assembly_same in Iz.
            have IV := assembly_visible (p :: l) _ Iz. have [y [LI NY]] := proj1 CO z IV Nz.
            apply: (may_inside _ _ _ m n _ z y) => //; first exact: C0.
            exact: interior_look Eh (typed2 _ _ Sa) LI NY Ir.
      Qed.
      Lemma belowF p x : below hF p x -> forall l, ancestry h0 (p :: l) ->
        leads_on h0 p x /\ is_obj h0 x /\ exists l', ancestry h0 (x :: l').
      Proof.
        elim=> {p x} [p k I|p k x I _ IH] l A; have [L [O [l' A']]] := leadsF _ _ _ A I.
        - split; [exact: leads_one|split=> //; by exists l'].
        - have [L2 [O2 A2]] := IH _ A'. split=> //. exact: leads_more L L2.
      Qed.
      Lemma not_late :
        ~ ((exists x, reachable hF x /\ below hF x x) \/ (exists x, below hF 0 x /\ is_reff hF x = true)).
      Proof.
        case=> [[x [Rx Bx]]|[x [Bx Rx]]].
        - have [lx Ax] : exists lx, ancestry h0 (x :: lx).
          { case: Rx => [->|B]; first by exists []; constructor. by have [_ [_ H]] := belowF _ _ B _ (anc_root _). }
          have [L1 _] := belowF _ _ Bx _ Ax. exact: (ss_acyclic _ SP _ L1).
        - have [_ [O _]] := belowF _ _ Bx _ (anc_root _).
          move: Rx. by rewrite (evo_reff EF) (obj_nonref _ _ O).
      Qed.
    End Final.
  End Accept.
  Lemma accepts : sound_spec h0 -> exists hF, forward h0 = Ok hF.
  Proof.
    move=> SP. have := forward_spec. case: (forward h0) => [hF|e]; first by exists hF.
    move=> [_ [D|[B|[h1 [S1 [OK [LB|[hF [S2 [SE X]]]]]]]]]]; exfalso.
    - apply: D. exact: ss_assemblies.
    - exact: not_bad B.
    - exact: (not_late_bad SP h1 S1 OK LB).
    - exact: (not_late SP h1 S1 OK _ S2 SE X).
  Qed.
End Whole.

(** ** Statements *)
Lemma forward_ran h hF : tree h -> forward h = Ok hF -> exists h1, ran h h1 hF.
Proof. move=> T E. have := forward_spec h T. by rewrite E. Qed.
Lemma evo_only h h' : evo h h' -> only_references h h'.
Proof.
  move=> E. split; first exact: ev_len E. move=> i. have := ev_cell _ _ E i.
  case: (nth_error h i) => [[c n ks|s t]|] //. move=> [ks' [A F]]. exists ks'. split=> //.
  clear A. elim: F => [|a b l l' SR F IH]; constructor; last exact: IH.
  case: SR => [->|[X _]]; [by left|by right].
Qed.
Lemma result h hF : tree h -> forward h = Ok hF ->
  only_references h hF /\ acyclic hF /\ forall x, reachable hF x -> is_reff hF x = false.
Proof.
  move=> T /(forward_ran _ _ T) [h1 R]. split; first exact: evo_only (ran_evo _ R).
  split; [exact: ran_is_acyclic R|exact: ran_noref T _ _ R].
Qed.
Lemma single h hF p l i k n t : tree h -> forward h = Ok hF -> ancestry h (p :: l) ->
  nth_error (kids h p) i = Some k -> nth_error h k = Some (Reff [n] t) ->
  exists r, nth_error (kids hF p) i = Some r /\
    hd_error (mean h [n] t (visible h (p :: l) ++ assembly_declared hF)) = Some r.
Proof. move=> T /(forward_ran _ _ T) [h1 R] A N C. exact: (ran_single _ T R) A N C. Qed.
Lemma qualified h hF p l i k s t : tree h -> forward h = Ok hF -> ancestry h (p :: l) ->
  nth_error (kids h p) i = Some k -> nth_error h k = Some (Reff s t) ->
  exists r, nth_error (kids hF p) i = Some r /\
    In r (mean hF s t (visible h (p :: l) ++ assembly_declared hF)).
Proof. move=> T /(forward_ran _ _ T) [h1 R] A N C. exact: (ran_qualified _ T R) A N C. Qed.
Lemma duplicates h hF : tree h -> forward h = Ok hF ->
  distinct_names h (assembly_declared h) /\
  forall x l, ancestry h (x :: l) -> is_reff h x = false -> distinct_names h (declared h x).
Proof. move=> T /(forward_ran _ _ T) [h1 R]. split; [exact: ran_asm R|exact: ran_tidy R]. Qed.
Lemma outcomes h e : tree h -> forward h = Err e ->
  e = ParseError \/ e = AssertionError /\ exists k s t, nth_error h k = Some (Reff s t) /\ forall n, s <> [n].
Proof. move=> T E. have := forward_spec h T. rewrite E. by case. Qed.

(** ** Deciding that a heap is a tree, for examples *)
Definition treeb (h : heap) : bool :=
  String.eqb (class_of h 0) "LiftedAST" &&
  forallb (fun p => forallb (fun k => Nat.ltb p k && Nat.ltb k (List.length h)) (kids h p)) (seq 0 (List.length h)) &&
  (let all := flat_map (kids h) (seq 0 (List.length h)) in Nat.eqb (List.length (nodup Nat.eq_dec all)) (List.length all)) &&
  forallb (fun a => if String.eqb (class_of h a) "Assembly"
    then match kids h a with
         | c :: _ => String.eqb (class_of h c) "Composition" ||
                     match nth_error h c with Some (Reff _ (TClass t)) => String.eqb t "Composition" | _ => false end
         | [] => true end
    else true) (seq 0 (List.length h)).
Lemma nodup_length_NoDup (l : list nat) : List.length (nodup Nat.eq_dec l) = List.length l -> NoDup l.
Proof.
  elim: l => [|a l IH] /=; first by constructor.
  have LE : forall m, List.length (nodup Nat.eq_dec m) <= List.length m.
  { elim=> [|b m IHm] //=. case: (in_dec _ _ _) => _ /=; lia. }
  case: (in_dec _ _ _) => I /= E; first by have := LE l; lia.
  constructor=> //. apply: IH. lia.
Qed.
Lemma NoDup_split (a b : list nat) : NoDup (a ++ b) -> NoDup a /\ NoDup b /\ forall x, In x a -> In x b -> False.
Proof.
  elim: a => [|y a IH] /= D; first by split; [constructor|].
  inversion D as [|? ? N D']; subst. have [A [B C]] := IH D'. split; first by constructor=> // X; apply: N; apply/in_app_iff; left.
  split=> // x [<-|X] Y; [by apply: N; apply/in_app_iff; right|exact: C X Y].
Qed.
Lemma kids_dom h p k : In k (kids h p) -> p < List.length h.
Proof.
  rewrite /kids. case E: (nth_error h p) => [c|] // _. apply/nth_error_Some. by rewrite E.
Qed.
Lemma NoDup_flat (f : nat -> list nat) l : NoDup l -> NoDup (flat_map f l) -> forall p q i j k, In p l -> In q l ->
  nth_error (f p) i = Some k -> nth_error (f q) j = Some k -> p = q /\ i = j.
Proof.
  elim: l => [|a l IH] //= D F p q i j k Ip Iq A B. inversion D as [|? ? Na D']; subst.
  have [Fa [Fl X]] := NoDup_split _ _ F.
  have IN : forall r m, In r l -> nth_error (f r) m = Some k -> In k (flat_map f l).
  { move=> r m Ir N. apply/in_flat_map. exists r. split=> //. exact: nth_error_In N. }
  case: Ip => [Ep|Ip]; case: Iq => [Eq|Iq].
  - subst p q. split=> //. apply: (proj1 (NoDup_nth_error (f a)) Fa); last by rewrite A B.
    apply/nth_error_Some. by rewrite A.
  - subst p. case: (X k); [exact: nth_error_In A|exact: IN Iq B].
  - subst q. case: (X k); [exact: nth_error_In B|exact: IN Ip A].
  - exact: (IH D' Fl p q i j k).
Qed.
Lemma treeb_ok h : treeb h = true -> tree h.
Proof.
  rewrite /treeb. move=> /andP [/andP [/andP [R O] P] A]. split.
  - exact/String.eqb_eq.
  - move=> p k Ik. have Lp := kids_dom _ _ _ Ik. move/forallb_forall: O => /(_ p). rewrite in_seq => /(_ ltac:(lia)).
    move/forallb_forall => /(_ k Ik) /andP [/Nat.ltb_lt ? /Nat.ltb_lt ?]. lia.
  - move=> p q i j k Np Nq. move/Nat.eqb_eq: P => /nodup_length_NoDup P.
    apply: (NoDup_flat (kids h) _ (seq_NoDup _ _) P p q i j k) => //; apply/in_seq;
      [have := kids_dom _ _ _ (nth_error_In _ _ Np)|have := kids_dom _ _ _ (nth_error_In _ _ Nq)]; lia.
  - move=> a c l CA K. have La : a < List.length h by apply: (kids_dom _ _ c); rewrite K; left.
    move/forallb_forall: A => /(_ a). rewrite in_seq => /(_ ltac:(lia)). rewrite CA K String.eqb_refl.
    move=> /orP [/String.eqb_eq ?|]; first by left. move=> H. right. move: H.
    case: (nth_error h c) => [[? ? ?|s [||t]]|] // /String.eqb_eq ->. by exists s.
Qed.
