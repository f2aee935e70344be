(** Proofs: what freezing does to lists and dicts held by the object. *)
From Coq Require Import List Bool String ZArith Arith Lia ssreflect ssrbool.
From Verif Require Import Prelude AstObj_Model AstObj_Spec AstObj_Proofs.
Import ListNotations.
Open Scope string_scope.
Open Scope list_scope.

Section Proofs.
Variable accepts : heap -> string -> string -> val -> bool.
Variable pre post : heap -> nat -> res unit.
Notation assign := (assign accepts).
Notation to_tuple := (to_tuple accepts).
Notation to_value := (to_value accepts).
Notation freeze := (freeze accepts pre post).

Lemma keeps_value h h' a f v :
  only_frozen h h' -> field h a f = Some v -> 
  exists w, field h' a f = Some w /\ same_value h v w.
Proof.
  rewrite /field => H. have := H a.
  case: (nth_error h a) => [[o|l|d]|] //.
  case: (nth_error h' a) => [[o'|l'|d']|] //= [_ [_ G]] E.
  have := G f. rewrite E. case: (dget (o_fields o') f) => // w Hw.
  by exists w.
Qed.
Lemma keeps_tuple h h' a f l :
  only_frozen h h' -> field h a f = Some (VTuple l) ->
  field h' a f = Some (VTuple l).
Proof.
  move=> H /(keeps_value _ _ _ _ _ H) [w [-> ]].
  by move=> [->|[[? [? [? _]]]|[? [? [? _]]]]].
Qed.

Lemma assign_field h h' a f v :
  assign h a f v = (h', Ok tt) -> field h' a f = Some v.
Proof.
  rewrite /AstObj_Model.assign /field.
  case E: (nth_error h a) => [[o|l|d]|] //.
  case: (negb _) => //. case: (o_frozen o) => // [[<-]].
  rewrite (hget_hset_eq _ _ _ _ E) /= dget_dset. by rewrite eqb_refl.
Qed.

Lemma tuples_done a fs h h' :
  sfor (to_tuple a) fs h = (h', Ok tt) ->
  forall f, In f fs -> exists l, field h' a f = Some (VTuple l).
Proof.
  elim: fs h => [|g fs IH] h //=.
  case E: (to_tuple a h g) => [h1 [[]|e]] //= Hs f [?|Hf];
    [|exact: (IH _ Hs _ Hf)].
  subst g. move: E. rewrite /AstObj_Model.to_tuple.
  case: (field h a f) => [v|] //. case: (elements h v) => [l|] // E.
  exists l. have O : only_frozen h1 (fst (sfor (to_tuple a) fs h1)).
  { apply: sfor_only => h2 y _. exact: to_tuple_only. }
  rewrite Hs in O. apply: (keeps_tuple _ _ _ _ _ O). exact: (assign_field _ _ _ _ _ E).
Qed.

Lemma value_done a f h h' :
  to_value a h f = (h', Ok tt) ->
  exists v, field h' a f = Some v /\ settled h' v.
Proof.
  rewrite /AstObj_Model.to_value.
  case E: (field h a f) => [[|n|r|l|r]|] //.
  1,2,4,5: by move=> [<-]; eexists; split; [exact: E|].
  case Er: (nth_error h r) => [[o|l|d]|].
  - move=> [<-]. exists (VRef r). split=> // r' [<-]. by rewrite Er.
  - move/assign_field=> ->. by eexists; split.
  - move/assign_field=> ->. by eexists; split.
  - move=> [<-]. exists (VRef r). split=> // r' [<-]. by rewrite Er.
Qed.
Lemma keeps_settled h h' a f v :
  only_frozen h h' -> field h a f = Some v -> settled h v ->
  exists w, field h' a f = Some w /\ settled h' w.
Proof.
  move=> H E S. have [w [Ew Hw]] := keeps_value _ _ _ _ _ H E.
  exists w. split=> //.
  case: Hw => [?|[[r [l [_ [_ ->]]]]|[r [d [_ [_ ->]]]]]] //. subst w.
  move=> r Er. have [S1 S2] := S _ Er. split=> x Hx.
  - exact: (S1 x (only_list_inv _ _ _ _ H Hx)).
  - exact: (S2 x (only_dict_inv _ _ _ _ H Hx)).
Qed.

Lemma freeze_settles n h a o :
  is_object h a o -> o_frozen o = false -> snd (freeze n h a) = Ok tt ->
  exists o', is_object (fst (freeze n h a)) a o' /\
    (forall fs f, In (o_class o, fs) list_fields -> In f fs ->
       exists l, dget (o_fields o') f = Some (VTuple l)) /\
    (o_class o = "Setting" ->
     exists v, dget (o_fields o') "value" = Some v /\
       settled (fst (freeze n h a)) v).
Proof.
  case: n => [|n] // Ho Hf. cbn [AstObj_Model.freeze].
  have Ea : class_at h a = Some (o_class o, false).
  { by rewrite /class_at Ho Hf. }
  rewrite Ea. set c := o_class o.
  set tl := fun h0 => sbind
    match class_at h0 a with
    | Some (_, true) => (h0, Ok tt)
    | _ => sbind (sfor (freeze_child (freeze n) a) (k_children (class_of c)) h0)
             (fun h1 => set_frozen h1 a true)
    end (fun h1 => (h1, post h1 a)).
  have Otl : forall h0, only_frozen h0 (fst (tl h0)).
  { move=> h0. rewrite /tl. apply: sbind_only; [|move=> h4 _; exact: only_refl].
    have Hin : only_frozen h0 (fst (sbind (sfor (freeze_child (freeze n) a)
                (k_children (class_of c)) h0) (fun h => set_frozen h a true))).
    { apply: sbind_only.
      - apply: sfor_only => h5 x _. apply: freeze_child_only.
        exact: freeze_only.
      - move=> h5 _. exact: set_frozen_only. }
    case: (class_at h0 a) => [[c' []]|] //. exact: only_refl. }
  set b := sbind (h, pre h a) _.
  enough (Hb : snd b = Ok tt ->
    exists o', is_object (fst b) a o' /\
    (forall fs f, In (c, fs) list_fields -> In f fs ->
       exists l, dget (o_fields o') f = Some (VTuple l)) /\
    (c = "Setting" ->
     exists v, dget (o_fields o') "value" = Some v /\ settled (fst b) v)).
  { case: (k_start (class_of c)); [exact: Hb|exact: Hb|discriminate]. }
  rewrite /b. clear b.
  case: (pre h a) => [[]|e]; cbn [sbind snd]; [|done].
  have O1 : only_frozen h (fst (sfor (to_tuple a) (k_tuples (class_of c)) h)).
  { apply: sfor_only => h2 y _. exact: to_tuple_only. }
  case E1: (sfor (to_tuple a) (k_tuples (class_of c)) h) O1 => [h1 [[]|e]];
    cbn [sbind fst snd]; [move=> O1|done].
  have T1 := tuples_done _ _ _ _ E1.
  set m := match k_value (class_of c) with Some _ => _ | None => _ end.
  have O2 : only_frozen h1 (fst m).
  { rewrite /m.
    case: (k_value _) => [f|]; [exact: to_value_only|exact: only_refl]. }
  case E2: m O2 => [h2 [[]|e]]; cbn [sbind fst snd]; [move=> O2|done].
  assert (E0 : forall x, x = tl h2 -> snd x = Ok tt ->
    exists o', is_object (fst x) a o' /\
    (forall fs f, In (c, fs) list_fields -> In f fs ->
       exists l, dget (o_fields o') f = Some (VTuple l)) /\
    (c = "Setting" ->
     exists v, dget (o_fields o') "value" = Some v /\ settled (fst x) v));
    last exact: (E0 _ eq_refl).
  move=> x -> _. have O3 := Otl h2.
  have O := only_trans _ _ _ O1 (only_trans _ _ _ O2 O3).
  have [o' Ho'] := only_object _ _ _ _ O Ho. exists o'. split=> //. split.
  - move=> fs f Hfs Hin.
    have Hk : In f (k_tuples (class_of c)).
    { apply class_tuples. by exists fs. }
    have [l El] := T1 _ Hk. exists l.
    have := keeps_tuple _ _ _ _ _ (only_trans _ _ _ O2 O3) El.
    by rewrite /field Ho'.
  - move=> Ec. move: E2. rewrite /m Ec /= => /value_done [v [Ev Sv]].
    have [w [Ew Sw]] := keeps_settled _ _ _ _ _ O3 Ev Sv.
    exists w. split=> //. move: Ew. by rewrite /field Ho'.
Qed.

Lemma class_start c : ~ In c ["Composition"; "LiftedAST"; "Reference"] ->
  k_start (class_of c) = Checked.
Proof.
  rewrite /class_of. case E: (dget classes c) => [k|] //.
  apply dget_In in E. move: E. rewrite /classes. cbn [In] => E H.
  intuition;
    match goal with E : (_, _) = (_, _) |- _ => inversion E; subst end;
    cbn [k_start]; intuition.
Qed.
Lemma refreeze_others n h a o :
  is_object h a o -> o_frozen o = true ->
  ~ In (o_class o) ["Composition"; "LiftedAST"; "Reference"] ->
  freeze (Datatypes.S n) h a = (h, Ok tt).
Proof. move=> Ho Hf /class_start. exact: refreeze_ok. Qed.

Lemma assign_refused h a o f v :
  is_object h a o -> accepts h (o_class o) f v = false ->
  assign h a f v = (h, Err AssertionError).
Proof. by rewrite /AstObj_Model.assign => -> ->. Qed.
End Proofs.
