(** Proofs about freezing: what types_compatible does to a value; keywords. *)
From Coq Require Import List Bool String ZArith Arith Lia ssreflect ssrbool.
From Verif Require Import Prelude Freeze_Model Freeze_Spec Freeze_Proofs Freeze_Proofs2.
Import ListNotations.
Open Scope string_scope.
Open Scope list_scope.

Lemma fill_other l d k : ~ In k (map attr_name l) -> dget (fold_left fill_default l d) k = dget d k.
Proof.
  elim: l d => [|x l IH] d H //=. rewrite IH.
  - move=> X. apply: H. by right.
  - rewrite /fill_default. case: (dget d (attr_name x)) => //. case: (attr_default x) => // v.
    rewrite dget_dset_ne //. move=> E. apply: H. by left.
Qed.
Lemma fill_field l d x : NoDup (map attr_name l) -> In x l ->
  dget (fold_left fill_default l d) (attr_name x) =
  match dget d (attr_name x) with Some w => Some w | None => attr_default x end.
Proof.
  elim: l d => [|y l IH] d //= N. inversion N as [|? ? N1 N2]; subst. move=> [E0|H].
  - subst y. rewrite fill_other; first exact: N1. rewrite /fill_default.
    destruct (dget d (attr_name x)) as [w|] eqn:E; first exact: E.
    destruct (attr_default x) as [v|]; [exact: dget_dset_eq|exact: E].
  - rewrite IH //. have NE : attr_name x <> attr_name y.
    { move=> E. apply: N1. rewrite -E. exact: in_map. }
    rewrite {1}/fill_default. case: (dget d (attr_name y)) => //. case: (attr_default y) => // v.
    by rewrite dget_dset_ne.
Qed.

Definition completes (x : attr) : Prop :=
  forall v v', plain_attr x -> plain v -> types_compatible x v = Ok (Some v') -> completed x v v'.

Lemma fields_completes l : forall d d',
  Forall completes l -> (forall x, In x l -> plain_attr x) ->
  NoDup (map attr_name l) -> plaind d ->
  fields_ types_compatible l d = Ok (Some d') ->
  (forall x, In x l -> exists w w', dget d (attr_name x) = Some w /\ dget d' (attr_name x) = Some w' /\ completed x w w') /\
  (forall k, ~ In k (map attr_name l) -> dget d' k = dget d k).
Proof.
  elim: l => [|x l IH] d d' Hs Hp Hn Hd; cbn [fields_].
  - by move=> [<-].
  - inversion Hs as [|? ? Hsx Hsl]; subst. inversion Hn as [|? ? Hnx Hnl]; subst.
    case E: (dget d (attr_name x)) => [w|] //.
    case Et: (types_compatible x w) => [[w'|]|] //=.
    have Pw := plaind_dget _ _ _ Hd E.
    have [_ Hpw] := sound x w w' (Hp x (or_introl eq_refl)) Pw Et.
    have Hc := Hsx w w' (Hp x (or_introl eq_refl)) Pw Et.
    move=> Hf.
    have [H2 H3] := IH _ _ Hsl (fun y Hy => Hp y (or_intror Hy)) Hnl
                           (plaind_dset _ _ _ Hd Hpw) Hf.
    split.
    + move=> y [<-|Hy].
      * exists w, w'. split=> //. split=> //. by rewrite H3 // dget_dset_eq.
      * have [u [u' [U1 [U2 U3]]]] := H2 y Hy. exists u, u'. split=> //.
        rewrite dget_dset_ne // in U1. move=> Ek. apply: Hnx. rewrite -Ek. exact: in_map.
    + move=> k Hk. rewrite H3.
      * move=> Hi. apply: Hk. by right.
      * rewrite dget_dset_ne //. move=> Ek. apply: Hk. by left.
Qed.

Lemma one_completes ty v v' :
  match ty with ATStruct l => Forall completes l | ATName _ => True end ->
  plain_type ty -> plain v ->
  one_ types_compatible ty v = Ok (Some v') -> completed1 ty v v'.
Proof.
  case: ty => [s|l] Hs Ht Hv; cbn [one_].
  - case E: (scalar_ok v s) => //. move=> [<-]. constructor.
  - inversion Hv; subst=> //.
    case E: (fields_ _ _ _) => [[d'|]|] //= [<-].
    inversion Ht as [|? Hp Hn]; subst.
    have Hpd : plaind (fold_left fill_default l d).
    { apply: plaind_fill => // x Hx w Hw.
      have := Hp x Hx. case=> n ty arr dflt H1 _. move: Hw Hx.
      case: x => n' ty' arr' dflt' /= -> Hx.
      have Hpx := Hp _ Hx. inversion Hpx; subst. auto. }
    have [H1 H2] := fields_completes _ _ _ Hs Hp Hn Hpd E.
    constructor.
    + move=> x Hx. have [w [w' [A1 [A2 A3]]]] := H1 x Hx. exists w, w'. split=> //.
      rewrite fill_field // in A1. case D: (dget d (attr_name x)) A1 => [u|] A1; [by left; case: A1 => ->|by right].
    + move=> k Hk. rewrite H2 //. exact: fill_other.
Qed.

Lemma each_completes ty vs vs' :
  match ty with ATStruct l => Forall completes l | ATName _ => True end ->
  plain_type ty -> Forall plain vs ->
  each_ types_compatible ty vs = Ok (Some vs') -> Forall2 (completed1 ty) vs vs'.
Proof.
  move=> Hs Ht. elim: vs vs' => [|v vs IH] vs' Hv; cbn [each_].
  - by move=> [<-].
  - inversion Hv as [|? ? Hv1 Hvs]; subst.
    case E: (one_ _ ty v) => [[w|]|] //=.
    case E': (each_ _ ty vs) => [[ws|]|] //= [<-].
    constructor; [exact: (one_completes _ _ _ Hs Ht Hv1 E)|exact: (IH _ Hvs E')].
Qed.

Lemma completes_all x : completes x.
Proof.
  induction x as [n ty arr d Hty] using attr_ind'.
  move=> v v' Hp Hv. rewrite tc_eq. inversion Hp; subst. case: arr Hp => Hp.
  - inversion Hv; subst=> //.
    case E: (each_ _ ty l) => [[l'|]|] //= [<-]. constructor.
    apply: each_completes E => //.
  - move=> E. constructor. exact: (one_completes _ _ _ Hty _ Hv E).
Qed.

(** Keywords. *)
Lemma keywords_listed k : In k c11_keywords -> ~ usable k.
Proof.
  move=> H X. apply: X. move: k H.
  have A : forallb (fun k => memb k c_keywords) c11_keywords = true by vm_compute.
  move=> k H. apply/memb_In. move: A. rewrite forallb_forall. exact.
Qed.

Lemma struct_freeze attrs :
  ((forall a, In a attrs -> usable a) <-> freeze_struct false attrs = (true, Ok tt)) /\
  (forall f e, freeze_struct false attrs = (f, Err e) -> freeze_struct f attrs = (f, Err e)) /\
  freeze_struct true attrs = (true, Ok tt).
Proof.
  pose proof (keywords_ok attrs) as K. unfold freeze_struct. split; [|split; [|reflexivity]].
  - rewrite <- K. destruct (forM check_keyword attrs) as [[]|e]; split; congruence.
  - intros f e. destruct (forM check_keyword attrs) as [[]|e'] eqn:E; [discriminate|].
    intros H. injection H as <- <-. reflexivity.
Qed.
