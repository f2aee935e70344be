(** The order of objects. *)
From Coq Require Import List String Bool Arith ZArith Lia.
From Coq Require Import ssreflect ssrbool.
From Verif Require Import Prelude AstObj_Model AstObj_Spec AstObj_Proofs AstObj_Proofs2.
Import ListNotations.
Open Scope string_scope. Open Scope list_scope.

Lemma cmp_str_anti s t : cmp_str t s = (- cmp_str s t)%Z.
Proof. rewrite /cmp_str (String.compare_antisym t s). by case: String.compare. Qed.
Lemma cmp_z_anti x y : cmp_z y x = (- cmp_z x y)%Z.
Proof. rewrite /cmp_z (Z.compare_antisym x y). by case: Z.compare. Qed.

Section Order.
Variable layout : string -> list string.
Lemma peq_swap n a b : wf layout a -> wf layout b -> tame a -> tame b -> size a + size b <= n ->
  peq n b a = peq n a b.
Proof.
  move=> Wa Wb Ta Tb L.
  case: (tame_total n a b Ta Tb L) => [[r E] _].
  case: (tame_total n b a Tb Ta ltac:(lia)) => [[q F] _].
  rewrite E F. case: r E => E; case: q F => F //.
  - have S := peq_same _ _ _ E. have S' := same_sym _ _ _ _ (Nat.le_refl _) Wa Wb S.
    have := same_peq n _ _ S' ltac:(lia). by rewrite F.
  - have S := peq_same _ _ _ F. have S' := same_sym _ _ _ _ (Nat.le_refl _) Wb Wa S.
    have := same_peq n _ _ S' ltac:(lia). by rewrite E.
Qed.

Lemma anti n a b z : wf layout a -> wf layout b -> tame a -> tame b -> size a + size b <= n ->
  pcmp n a b = Ok z -> pcmp n b a = Ok (- z)%Z.
Proof.
  elim: n a b z => [|n IH] a b z Wa Wb Ta Tb L; first by have := size_pos a; lia.
  have Hobj : forall c d e z, a = PObj c d -> b = PObj c e ->
    obj_cmp (peq n) (pcmp n) c d e = Ok z -> obj_cmp (peq n) (pcmp n) c e d = Ok (- z)%Z.
  { move=> c d e {}z Ea Eb. subst. inversion Ta as [| | | | |? ? Fa]; subst.
    inversion Tb as [| | | | |? ? Fb]; subst.
    inversion Wa as [| | | | | |? ? Na La Ga]; subst. inversion Wb as [| | | | | |? ? Nb Lb Gb]; subst.
    have K : map fst d = map fst e by rewrite La Lb.
    clear Wa Wb Ta Tb La Lb. cbn [size] in L.
    have Hd : forall k x, In (k, x) d -> In (k, x) d by [].
    have He : forall k x, In (k, x) e -> In (k, x) e by [].
    move: K Hd He. move: {1 2 4}d {1 2 5}e => d0 e0.
    elim: d0 e0 => [|[k x] d0 IHd] [|[k' y] e0] //= K Hd He; first by move=> [<-].
    case: K => E K. subst k'.
    have Ix := Hd _ _ (or_introl eq_refl). have Iy := He _ _ (or_introl eq_refl).
    rewrite (NoDup_dget _ _ _ Na Ix) (NoDup_dget _ _ _ Nb Iy).
    have V : visible c (k, y) = visible c (k, x) by [].
    rewrite V. case: (visible c (k, x)) => /=; last first.
    { apply: IHd => // q w I; [apply: Hd|apply: He]; by right. }
    have Sx := size_dict _ _ _ Ix. have Sy := size_dict _ _ _ Iy.
    have Wx : wf layout x := proj1 (Forall_forall _ _) Ga _ Ix.
    have Wy : wf layout y := proj1 (Forall_forall _ _) Gb _ Iy.
    have Tx : tame x := proj1 (Forall_forall _ _) Fa _ Ix.
    have Ty : tame y := proj1 (Forall_forall _ _) Fb _ Iy.
    rewrite (peq_swap n x y) //; first lia.
    case: (peq n x y) => [r|] //=. case: r; first by apply: IHd => // q w I; [apply: Hd|apply: He]; right.
    rewrite (String.eqb_sym (type_name y)).
    case: (String.eqb (type_name x) (type_name y)) => /=.
    - apply: IH => //. lia.
    - move=> [<-]. by rewrite cmp_str_anti. }
  have Hseq : forall t l m z, a = PSeq t l -> b = PSeq t m ->
    seq_cmp (peq n) (pcmp n) l m = Ok z -> seq_cmp (peq n) (pcmp n) m l = Ok (- z)%Z.
  { move=> t l m {}z Ea Eb. subst. inversion Ta as [| | | |? ? Fa Oa|]; subst.
    inversion Tb as [| | | |? ? Fb Ob|]; subst. inversion Wa as [| | | |? ? Ga| |]; subst.
    inversion Wb as [| | | |? ? Gb| |]; subst. cbn [size] in L. clear Hobj Wa Wb Ta Tb Oa Ob.
    elim: l m Fa Fb Ga Gb L => [|x l IHl] [|y m] Fa Fb Ga Gb L; cbn [seq_cmp]; try by move=> [<-].
    inversion Fa; subst. inversion Fb; subst. inversion Ga; subst. inversion Gb; subst. cbn in L.
    rewrite (peq_swap n x y) //; first lia. case: (peq n x y) => [r|] //=. case: r.
    - apply: IHl => //. lia.
    - apply: IH => //. lia. }
  case: a Wa Ta L Hobj Hseq => [|u|x|s|t l|f d|c d] Wa Ta L Hobj Hseq;
  case: b Wb Tb L Hobj Hseq => [|u'|x'|s'|t' l'|f' d'|c' d'] Wb Tb L Hobj Hseq;
    cbn [pcmp number]; try by []; try (by case=> <-; first [rewrite cmp_str_anti | rewrite cmp_z_anti]).
  - have -> : Bool.eqb t' t = Bool.eqb t t' by case: t {L Wa Ta Hobj Hseq}; case: t' {Wb Tb}.
    case E: (Bool.eqb t t') => //. move/eqb_prop: E => E. subst t'. exact: Hseq.
  - have -> : eqb c' c = eqb c c' by exact: String.eqb_sym.
    case: eqb_spec => [E|N]; first by subst c'; exact: Hobj.
    move=> [<-]. by rewrite cmp_str_anti.
Qed.

Lemma trichotomy a b : wf layout a -> wf layout b -> tame a -> tame b ->
  (exists c d, a = PObj c d) -> (exists c d, b = PObj c d) ->
  (less a b = Ok true /\ equal a b = Ok false /\ less b a = Ok false) \/
  (less a b = Ok false /\ equal a b = Ok true /\ less b a = Ok false) \/
  (less a b = Ok false /\ equal a b = Ok false /\ less b a = Ok true).
Proof.
  move=> Wa Wb Ta Tb Oa Ob. rewrite /less /equal (Nat.add_comm (size b)).
  have [[r Er] [_ /(_ Oa) [z Ez]]] := tame_total _ a b Ta Tb (Nat.le_refl _).
  have Ez' := anti _ _ _ _ Wa Wb Ta Tb (Nat.le_refl _) Ez. rewrite Ez Ez' Er /=.
  have Z0 : r = true <-> z = 0%Z.
  { case: r Er => Er; split=> //.
    - move=> _. case: Oa => c [d Ea]. case: Ob => c' [e Eb]. subst. move: Er Ez.
      case: (size _ + size _) => // n. cbn [peq pcmp]. case: eqb_spec => [E|N].
      + subst. case: (obj_cmp _ _ _ _ _) => [y|] //= [Y] [<-]. by apply Z.eqb_eq in Y.
      + move=> [Y] [<-]. by apply Z.eqb_eq in Y.
    - move=> E. subst z. by case: (peq_cmp _ _ _ Er). }
  case: (Z.ltb_spec z 0) => A; case: (Z.ltb_spec (- z) 0) => B; try lia; case: r {Er} Z0 => Z0.
  all: try (by left; repeat split); try (by right; left; repeat split); try (by right; right; repeat split).
  all: try (have := proj1 Z0 eq_refl; lia). have /Z0 // : z = 0%Z by lia.
Qed.
End Order.

(** Not transitive. *)
Definition with_value (v : pv) : pv := PObj "Setting" [("value", v)].
Lemma order_cycle : exists layout a b c,
  wf layout a /\ wf layout b /\ wf layout c /\ tame a /\ tame b /\ tame c /\
  less a b = Ok true /\ less b c = Ok true /\ less a c = Ok false /\ equal a c = Ok true.
Proof.
  exists (fun _ => ["value"]), (with_value (PBool true)), (with_value (PInt 0)), (with_value (PInt 1)).
  repeat split; try by vm_compute.
  1-3: (apply: wf_obj; [by repeat constructor; case|done|by repeat constructor]).
  all: by repeat constructor.
Qed.

(** A new object. *)
Lemma new_object accepts pre post h c fs :
  let h' := run accepts pre post h [NewObject c fs] in
  (exists o, is_object h' (List.length h) o /\ o_frozen o = false /\ o_class o = c /\ o_fields o = fs) /\
  forall a o, is_object h a o -> is_object h' a o.
Proof.
  have E : run accepts pre post h [NewObject c fs] = h ++ [CObj (Obj c false fs)] by [].
  move=> h'. rewrite /h' E. split.
  - exists (Obj c false fs). split=> //. rewrite /is_object nth_error_app2 // Nat.sub_diag //.
  - move=> a o. rewrite /is_object => I. rewrite nth_error_app1 //. apply/nth_error_Some. by rewrite I.
Qed.
