(** Proofs about freezing of AST objects. *)
From Coq Require Import List Bool String ZArith Arith Lia ssreflect ssrbool.
From Verif Require Import Prelude AstObj_Model AstObj_Spec.
Import ListNotations.
Open Scope string_scope.
Open Scope list_scope.

Lemma hget_hset h a c b :
  hget (hset h a c) b =
  if Nat.eqb b a then (match hget h a with Some _ => Some c | None => None end)
  else hget h b.
Proof.
  elim: h a b => [|x h IH] [|a] [|b] //=.
  by case: (b =? a)%nat.
Qed.
Lemma hget_hset_eq h a c x : hget h a = Some x -> hget (hset h a c) a = Some c.
Proof. move=> E. by rewrite hget_hset Nat.eqb_refl E. Qed.
Lemma hget_hset_ne h a c b : b <> a -> hget (hset h a c) b = hget h b.
Proof. move=> /Nat.eqb_neq E. by rewrite hget_hset E. Qed.
Lemma hget_app h c a x : hget h a = Some x -> hget (h ++ [c]) a = Some x.
Proof.
  move=> E. rewrite nth_error_app1 //. apply nth_error_Some. by rewrite E.
Qed.

(** *** The tables *)
Lemma class_children c f :
  In f (k_children (class_of c)) <->
  exists fs, In (c, fs) child_fields /\ In f fs.
Proof.
  split.
  - rewrite /class_of.
    case E: (dget classes c) => [k|] //. apply dget_In in E => Hf.
    exists (k_children k). split=> //. move: E Hf. rewrite /classes.
    cbn [In]. intuition (try discriminate);
      match goal with E : (_, _) = (_, _) |- _ => inversion E; subst end;
      cbn [k_children In] in *; try contradiction; rewrite /child_fields;
      cbn [In]; tauto.
  - move=> [fs [H Hf]]. move: H. rewrite /child_fields. cbn [In].
    intuition;
      match goal with E : (_, _) = (_, _) |- _ => inversion E; subst end;
      exact Hf.
Qed.
Lemma class_tuples c f :
  In f (k_tuples (class_of c)) <->
  exists fs, In (c, fs) list_fields /\ In f fs.
Proof.
  split.
  - rewrite /class_of.
    case E: (dget classes c) => [k|] //. apply dget_In in E => Hf.
    exists (k_tuples k). split=> //. move: E Hf. rewrite /classes.
    cbn [In]. intuition (try discriminate);
      match goal with E : (_, _) = (_, _) |- _ => inversion E; subst end;
      cbn [k_tuples In] in *; try contradiction; rewrite /list_fields;
      cbn [In]; tauto.
  - move=> [fs [H Hf]]. move: H. rewrite /list_fields. cbn [In].
    intuition;
      match goal with E : (_, _) = (_, _) |- _ => inversion E; subst end;
      exact Hf.
Qed.
Definition kid (h : heap) (a r : nat) : Prop :=
  exists o f v, is_object h a o /\ In f (k_children (class_of (o_class o))) /\
    dget (o_fields o) f = Some v /\
    ((v = VRef r /\ exists o', is_object h r o') \/
     exists l, elements h v = Some l /\ In (VRef r) l).
Lemma holdsE h v r : holds h v r <->
  ((v = VRef r /\ exists o', is_object h r o') \/
     exists l, elements h v = Some l /\ In (VRef r) l).
Proof.
  split.
  - move=> [H|[[l [-> H]]|[p [l [-> [E H]]]]]]; [by left|right|right].
    + by exists l.
    + exists l. cbn [elements]. by rewrite E.
  - move=> [H|[l [E H]]]; [by left|right].
    case: v E => [|n|p|m|p] //; cbn [elements].
    + case E: (nth_error h p) => [[o|m|d]|] // [?]; subst m. right.
      by exists p, l.
    + move=> [?]; subst m. left. by exists l.
Qed.
Lemma childE h a r : child h a r <-> kid h a r.
Proof.
  split.
  - move=> [o [fs [f [v [Ho [Hfs [Hf [Hv Hh]]]]]]]]. exists o, f, v.
    split=> //. split; [apply class_children; by exists fs|]. split=> //.
    by apply holdsE.
  - move=> [o [f [v [Ho [Hf [Hv Hh]]]]]].
    apply class_children in Hf. move: Hf => [fs [Hfs Hf]].
    exists o, fs, f, v. split=> //. split=> //. split=> //. split=> //.
    by apply holdsE.
Qed.

Section Proofs.
Variable accepts : heap -> string -> string -> val -> bool.
Variable pre post : heap -> nat -> res unit.
Notation assign := (assign accepts).
Notation to_tuple := (to_tuple accepts).
Notation to_value := (to_value accepts).
Notation freeze := (freeze accepts pre post).
Notation exec := (exec accepts pre post).
Notation run := (run accepts pre post).

(** *** [only_frozen] is a preorder *)
Lemma same_cell_refl h c : same_cell h c c.
Proof.
  case: c => [o|l|d] //=. split=> //. split=> // f.
  case: (dget _ _) => // v. by left.
Qed.
Lemma only_refl h : only_frozen h h.
Proof. move=> a. case: (hget h a) => // c. exact: same_cell_refl. Qed.

Lemma only_list h h' r l :
  only_frozen h h' -> hget h r = Some (CList l) -> hget h' r = Some (CList l).
Proof.
  move=> H E. have := H r. rewrite E. case: (hget h' r) => // [[o|l'|d]] //=.
  by move=> ->.
Qed.
Lemma only_dict h h' r d :
  only_frozen h h' -> hget h r = Some (CDict d) -> hget h' r = Some (CDict d).
Proof.
  move=> H E. have := H r. rewrite E. case: (hget h' r) => // [[o|l'|d']] //=.
  by move=> ->.
Qed.
Lemma only_list_inv h h' r l :
  only_frozen h h' -> hget h' r = Some (CList l) -> hget h r = Some (CList l).
Proof.
  move=> H E. have := H r. rewrite E. case: (hget h r) => // [[o|l'|d]] //=.
  by move=> ->.
Qed.
Lemma only_dict_inv h h' r d :
  only_frozen h h' -> hget h' r = Some (CDict d) -> hget h r = Some (CDict d).
Proof.
  move=> H E. have := H r. rewrite E. case: (hget h r) => // [[o|l'|d']] //=.
  by move=> ->.
Qed.
Lemma only_object h h' a o :
  only_frozen h h' -> is_object h a o -> exists o', is_object h' a o'.
Proof.
  rewrite /is_object => H E. have := H a. rewrite E.
  case: (hget h' a) => // [[o'|l'|d']] //= _. by exists o'.
Qed.
Lemma only_object_inv h h' a o' :
  only_frozen h h' -> is_object h' a o' -> exists o, is_object h a o.
Proof.
  rewrite /is_object => H E. have := H a. rewrite E.
  case: (hget h a) => // [[o|l'|d']] //= _. by exists o.
Qed.

Lemma same_value_trans h h' v w x :
  only_frozen h h' -> same_value h v w -> same_value h' w x ->
  same_value h v x.
Proof.
  move=> H [->|[[r [l [-> [E ->]]]]|[r [d [-> [E ->]]]]]].
  - move=> [->|[[r [l [-> [E ->]]]]|[r [d [-> [E ->]]]]]]; [by left| |].
    + right; left. exists r, l. split=> //. split=> //.
      exact: (only_list_inv _ _ _ _ H E).
    + right; right. exists r, d. split=> //. split=> //.
      exact: (only_dict_inv _ _ _ _ H E).
  - move=> [->|[[? [? [? _]]]|[? [? [? _]]]]] //.
    right; left. by exists r, l.
  - move=> [->|[[? [? [? _]]]|[? [? [? _]]]]] //.
    right; right. by exists r, d.
Qed.

Lemma only_trans h1 h2 h3 :
  only_frozen h1 h2 -> only_frozen h2 h3 -> only_frozen h1 h3.
Proof.
  move=> H12 H23 a. have A := H12 a. have B := H23 a.
  case E1: (hget h1 a) A => [c1|]; case E2: (hget h2 a) B => [c2|];
    case E3: (hget h3 a) => [c3|] //.
  move=> B A.
  case: c1 c2 c3 A B {E1 E2 E3} => [o1|l1|d1] [o2|l2|d2] [o3|l3|d3] //=.
  - move=> [C1 [F1 G1]] [C2 [F2 G2]]. split; [by rewrite C2|]. split.
    + move=> Hf. have E := F1 Hf. subst o2. exact: F2.
    + move=> f. have := G1 f. have := G2 f.
      case: (dget (o_fields o1) f) => [v1|]; case: (dget (o_fields o2) f)
        => [v2|]; case: (dget (o_fields o3) f) => [v3|] //.
      move=> Q1 Q2. exact: (same_value_trans _ _ _ _ _ H12 Q2 Q1).
  - by move=> -> ->.
  - by move=> -> ->.
Qed.

Lemma only_frozen_keeps h h' a :
  only_frozen h h' -> is_frozen h a -> is_frozen h' a.
Proof.
  move=> H [o [E F]]. have := H a. rewrite E.
  case E': (hget h' a) => [[o'|l'|d']|] //= [_ [G _]].
  exists o'. split=> //. by rewrite (G F).
Qed.
Lemma only_frozen_object h h' a o :
  only_frozen h h' -> is_object h a o -> o_frozen o = true ->
  is_object h' a o.
Proof.
  rewrite /is_object => H E F. have := H a. rewrite E.
  case E': (hget h' a) => [[o'|l'|d']|] //= [_ [G _]]. by rewrite (G F).
Qed.

(** *** Children are not affected *)
Lemma same_elements h h' v v' :
  only_frozen h h' -> same_value h v v' -> elements h' v' = elements h v.
Proof.
  move=> H [->|[[r [l [-> [E ->]]]]|[r [d [-> [E ->]]]]]].
  - case: v => //= r.
    case E: (hget h r) => [[o|l|d]|].
    + have [o' E'] := only_object _ _ _ _ H E.
      by rewrite E'.
    + by rewrite (only_list _ _ _ _ H E).
    + by rewrite (only_dict _ _ _ _ H E).
    + have := H r. rewrite E. by case: (hget h' r).
  - cbn. by rewrite E.
  - cbn. by rewrite E.
Qed.

Lemma child_inv h h' a r :
  only_frozen h h' -> child h' a r -> child h a r.
Proof.
  rewrite !childE. move=> H [o' [f [v' [Ho' [Hf [Hv Hc]]]]]].
  have [o Ho] := only_object_inv _ _ _ _ H Ho'.
  have := H a. rewrite Ho Ho' /= => [[Ec [_ G]]].
  have := G f. rewrite Hv. case Ev: (dget (o_fields o) f) => [v|] // Hs.
  exists o, f, v. split=> //. rewrite -Ec. split=> //. split=> //.
  have He := same_elements _ _ _ _ H Hs.
  case: Hc => [[? [o2 Ho2]]|[l [El Hl]]].
  - subst v'. left.
    have [o3 Ho3] := only_object_inv _ _ _ _ H Ho2.
    case: Hs => [<-|[[r' [l [-> [E //]]]]|[r' [d [-> [E //]]]]]].
    split=> //. by exists o3.
  - right. exists l. by rewrite -He.
Qed.

(** *** The operations *)
Lemma assign_only h a f v w :
  field h a f = Some v -> same_value h v w ->
  only_frozen h (fst (assign h a f w)).
Proof.
  rewrite /field /AstObj_Model.assign.
  case E: (hget h a) => [[o|l|d]|] // Ef Hs.
  case: (negb _); [exact: only_refl|].
  case Ef2: (o_frozen o); [exact: only_refl|]. cbn [fst].
  move=> b. rewrite hget_hset. case: (Nat.eqb_spec b a) => [->|n].
  - rewrite E /=. split=> //. split.
    + by rewrite Ef2.
    + move=> g. rewrite dget_dset. case: (eqb_spec g f) => [->|n].
      * by rewrite Ef.
      * case: (dget _ _) => // x. by left.
  - case: (hget h b) => // c. exact: same_cell_refl.
Qed.

Lemma elements_same h v l :
  elements h v = Some l -> same_value h v (VTuple l).
Proof.
  case: v => //= [r|m].
  - case E: (hget h r) => [[o|m|d]|] // [<-]. right; left. by exists r, m.
  - move=> [<-]. by left.
Qed.

Lemma to_tuple_only a h f : only_frozen h (fst (to_tuple a h f)).
Proof.
  rewrite /AstObj_Model.to_tuple.
  case E: (field h a f) => [v|]; [|exact: only_refl].
  case El: (elements h v) => [l|]; [|exact: only_refl].
  apply: (assign_only _ _ _ _ _ E). exact: elements_same.
Qed.
Lemma to_value_only a h f : only_frozen h (fst (to_value a h f)).
Proof.
  rewrite /AstObj_Model.to_value.
  case E: (field h a f) => [[|n|r|l|r]|]; try exact: only_refl.
  case Er: (hget h r) => [[o|l|d]|]; try exact: only_refl.
  - apply: (assign_only _ _ _ _ _ E). right; left. by exists r, l.
  - apply: (assign_only _ _ _ _ _ E). right; right. by exists r, d.
Qed.
Lemma set_frozen_only h a : only_frozen h (fst (set_frozen h a true)).
Proof.
  rewrite /set_frozen. case E: (hget h a) => [[o|l|d]|];
    try exact: only_refl.
  rewrite andb_false_r. cbn [fst].
  move=> b. rewrite hget_hset. case: (Nat.eqb_spec b a) => [->|n].
  - rewrite E /=. split=> //. split.
    + move=> F. case: o F {E} => c fr fs /= F. by rewrite -F.
    + move=> g. case: (dget _ _) => // x. by left.
  - case: (hget h b) => // c. exact: same_cell_refl.
Qed.

Lemma sbind_only h m k :
  only_frozen h (fst m) ->
  (forall h', m = (h', Ok tt) -> only_frozen h' (fst (k h'))) ->
  only_frozen h (fst (sbind m k)).
Proof.
  case: m => h' [[]|e] /= H Hk //.
  exact: (only_trans _ _ _ H (Hk h' eq_refl)).
Qed.
Lemma sfor_only {A} (f : heap -> A -> heap * res unit) l h :
  (forall h x, In x l -> only_frozen h (fst (f h x))) ->
  only_frozen h (fst (sfor f l h)).
Proof.
  elim: l h => [|x l IH] h H; cbn [sfor]; [exact: only_refl|].
  apply: sbind_only.
  - apply: H. by left.
  - move=> h' _. apply: IH => h2 y Hy. apply: H. by right.
Qed.

Lemma freeze_item_only fz h v :
  (forall h r, only_frozen h (fst (fz h r))) ->
  only_frozen h (fst (freeze_item fz h v)).
Proof.
  move=> H. case: v => [|n|r|l|r] /=; try exact: only_refl.
  case: (hget h r) => [[o|l|d]|]; try exact: only_refl. exact: H.
Qed.
Lemma freeze_child_only fz a h f :
  (forall h r, only_frozen h (fst (fz h r))) ->
  only_frozen h (fst (freeze_child fz a h f)).
Proof.
  move=> H. rewrite /freeze_child.
  case: (field h a f) => [v|]; [|exact: only_refl].
  case: (elements h v) => [l|].
  - apply: sfor_only => h2 x _. exact: freeze_item_only.
  - case: v => [|n|r|l|r]; try exact: only_refl; exact: freeze_item_only.
Qed.

Lemma freeze_only n h a : only_frozen h (fst (freeze n h a)).
Proof.
  elim: n h a => [|n IH] h a; [exact: only_refl|].
  cbn [AstObj_Model.freeze].
  case: (class_at h a) => [[c fr]|]; [|exact: only_refl].
  have Body : only_frozen h (fst (
     sbind (h, pre h a) (fun h =>
              sbind (sfor (to_tuple a) (k_tuples (class_of c)) h) (fun h =>
              sbind (match k_value (class_of c) with
                     | None => (h, Ok tt)
                     | Some f => to_value a h f
                     end) (fun h =>
              sbind (match class_at h a with
                     | Some (_, true) => (h, Ok tt)
                     | _ =>
                         sbind (sfor (freeze_child (freeze n) a)
                                  (k_children (class_of c)) h) (fun h =>
                         set_frozen h a true)
                     end) (fun h =>
              (h, post h a))))))).
  { apply: sbind_only; [exact: only_refl|] => h1 _.
    apply: sbind_only.
    { apply: sfor_only => h2 x _. exact: to_tuple_only. }
    move=> h2 _. apply: sbind_only.
    { case: (k_value _) => [f|]; [exact: to_value_only|exact: only_refl]. }
    move=> h3 _. apply: sbind_only; [|move=> h4 _; exact: only_refl].
    have Hin : only_frozen h3 (fst (sbind (sfor (freeze_child (freeze n) a)
                (k_children (class_of c)) h3) (fun h => set_frozen h a true))).
    { apply: sbind_only.
      - apply: sfor_only => h5 x _. apply: freeze_child_only. exact: IH.
      - move=> h5 _. exact: set_frozen_only. }
    case: (class_at h3 a) => [[c' []]|] //. exact: only_refl. }
  case: (k_start _); case: fr => //; exact: only_refl.
Qed.

(** *** A frozen object never changes *)
Lemma exec_frozen h o a ob :
  is_object h a ob -> o_frozen ob = true ->
  is_object (fst (exec h o)) a ob.
Proof.
  rewrite /is_object => E F.
  case: o => [c fs|l|d|b f v|b fl|n b|b l|b d] /=.
  - exact: hget_app.
  - exact: hget_app.
  - exact: hget_app.
  - rewrite /AstObj_Model.assign. case Eb: (hget h b) => [[o|l|d]|] //.
    case: (negb _) => //. case Fb: (o_frozen o) => //=.
    rewrite hget_hset_ne //. move=> ?; subst b. rewrite E in Eb.
    move: Eb => [?]; subst. by rewrite F in Fb.
  - rewrite /set_frozen. case Eb: (hget h b) => [[o|l|d]|] //.
    case Fb: (_ && _) => //=. rewrite hget_hset.
    case: (Nat.eqb_spec a b) => [Ea|n] //. subst b. rewrite E in Eb |- *.
    move: Eb => [?]; subst o. move: Fb. rewrite F. case: fl => // _.
    case: ob E F => c fr fs /= _ ->. done.
  - exact: (only_frozen_object _ _ _ _ (freeze_only n h b) E F).
  - case Eb: (hget h b) => [[o|l'|d]|] //=. rewrite hget_hset_ne //.
    move=> ?; subst b. by rewrite E in Eb.
  - case Eb: (hget h b) => [[o|l'|d']|] //=. rewrite hget_hset_ne //.
    move=> ?; subst b. by rewrite E in Eb.
Qed.

Lemma run_frozen h ops a ob :
  is_object h a ob -> o_frozen ob = true -> is_object (run h ops) a ob.
Proof.
  elim: ops h => [|o ops IH] h E F //=. apply: IH => //. exact: exec_frozen.
Qed.

Lemma assign_frozen h a f v :
  is_frozen h a -> exists e, assign h a f v = (h, Err e).
Proof.
  move=> [o [E F]]. rewrite /AstObj_Model.assign E F.
  case: (negb _); by eexists.
Qed.
Lemma unfreeze_frozen h a :
  is_frozen h a -> set_frozen h a false = (h, Err TypeError).
Proof. move=> [o [E F]]. by rewrite /set_frozen E F. Qed.

Lemma assign_unfrozen h a o f v :
  is_object h a o -> o_frozen o = false ->
  accepts h (o_class o) f v = true ->
  exists h', assign h a f v = (h', Ok tt) /\
    (exists o', is_object h' a o' /\ o_class o' = o_class o /\
       o_frozen o' = false /\ dget (o_fields o') f = Some v /\
       forall g, g <> f -> dget (o_fields o') g = dget (o_fields o) g) /\
    forall b, b <> a -> hget h' b = hget h b.
Proof.
  move=> E F Ha. rewrite /AstObj_Model.assign E F Ha. cbn [negb].
  eexists. split; [reflexivity|]. split.
  - eexists. rewrite /is_object (hget_hset_eq _ _ _ _ E).
    split; [reflexivity|]. cbn. split=> //. split=> //. split.
    + exact: dget_dset_eq.
    + move=> g Hg. exact: dget_dset_ne.
  - move=> b Hb. exact: hget_hset_ne.
Qed.

(** *** Freezing again *)
Lemma sfor_frozen a l h e :
  is_frozen h a -> sfor (to_tuple a) l h = (h, Ok tt) -> l = [] \/ e.
Proof.
  case: l => [|f l]; [by left|]. move=> Hf /=.
  rewrite /AstObj_Model.to_tuple. case: (field h a f) => // v.
  case: (elements h v) => // m.
  by have [x ->] := assign_frozen h a f (VTuple m) Hf.
Qed.
Lemma sfor_frozen_heap a l h :
  is_frozen h a -> fst (sfor (to_tuple a) l h) = h.
Proof.
  case: l => [|f l] // Hf /=.
  rewrite /AstObj_Model.to_tuple. case: (field h a f) => // v.
  case: (elements h v) => // m.
  by have [x ->] := assign_frozen h a f (VTuple m) Hf.
Qed.

Lemma refreeze_heap n h a : is_frozen h a -> fst (freeze n h a) = h.
Proof.
  case: n => [|n] Hf //. cbn [AstObj_Model.freeze].
  have [o [E F]] := Hf. rewrite /class_at E F.
  case: (k_start _) => //.
  case: (pre h a) => [[]|e] //. cbn [sbind].
  case Es: (sfor (to_tuple a) _ h) => [h2 [[]|e]] /=.
  - have Eh : h2 = h.
    { have := sfor_frozen_heap a (k_tuples (class_of (o_class o))) h Hf.
      by rewrite Es. }
    subst h2.
    case: (k_value _) => [f|].
    + have Hv : exists r, to_value a h f = (h, r).
      { rewrite /AstObj_Model.to_value.
        case: (field h a f) => [[|m|r|l|r]|]; try by eexists.
        case: (hget h r) => [[o'|l|d]|]; try by eexists.
        - have [x ->] := assign_frozen h a f (VTuple l) Hf. by eexists.
        - have [x ->] := assign_frozen h a f (VFrozenDict r) Hf. by eexists. }
      have [r ->] := Hv. case: r => [[]|e] //=. by rewrite E F.
    + cbn [sbind]. by rewrite E F.
  - have := sfor_frozen_heap a (k_tuples (class_of (o_class o))) h Hf.
    by rewrite Es.
Qed.

Lemma refreeze_ok n h a o :
  is_object h a o -> o_frozen o = true ->
  k_start (class_of (o_class o)) = Checked ->
  freeze (Datatypes.S n) h a = (h, Ok tt).
Proof.
  move=> E F K. cbn [AstObj_Model.freeze]. by rewrite /class_at E F K.
Qed.

(** *** Freezing is deep *)
Definition closing (h h' : heap) : Prop :=
  only_frozen h h' /\ (deeply_frozen h -> deeply_frozen h').
Lemma closing_refl h : closing h h.
Proof. split=> //. exact: only_refl. Qed.
Lemma closing_trans h1 h2 h3 : closing h1 h2 -> closing h2 h3 -> closing h1 h3.
Proof.
  move=> [A1 A2] [B1 B2]. split; [exact: (only_trans _ _ _ A1 B1)|].
  by move=> /A2 /B2.
Qed.

(** Steps that freeze nothing. *)
Lemma closing_flags h h' :
  only_frozen h h' ->
  (forall a, is_frozen h' a -> is_frozen h a) -> closing h h'.
Proof.
  move=> H Hf. split=> // Hd a b Ha Hc.
  apply: (only_frozen_keeps _ _ _ H).
  exact: (Hd _ _ (Hf _ Ha) (child_inv _ _ _ _ H Hc)).
Qed.

Lemma assign_flags h a f v b :
  is_frozen (fst (assign h a f v)) b -> is_frozen h b.
Proof.
  rewrite /AstObj_Model.assign /is_frozen /is_object.
  case E: (hget h a) => [[o|l|d]|] //. case: (negb _) => //.
  case F: (o_frozen o) => //=.
  move=> [o' []]. rewrite hget_hset. case: (Nat.eqb_spec b a) => [->|n].
  - rewrite E => [[<-]] //=.
  - move=> E' F'. by exists o'.
Qed.
Lemma to_tuple_flags h a f b :
  is_frozen (fst (to_tuple a h f)) b -> is_frozen h b.
Proof.
  rewrite /AstObj_Model.to_tuple. case: (field h a f) => // v.
  case: (elements h v) => // l. exact: assign_flags.
Qed.
Lemma to_value_flags h a f b :
  is_frozen (fst (to_value a h f)) b -> is_frozen h b.
Proof.
  rewrite /AstObj_Model.to_value. case: (field h a f) => [[|n|r|l|r]|] //.
  case: (hget h r) => [[o|l|d]|] //; exact: assign_flags.
Qed.

Lemma sbind_closing h m k :
  closing h (fst m) ->
  (forall h', m = (h', Ok tt) -> closing h' (fst (k h'))) ->
  closing h (fst (sbind m k)).
Proof.
  case: m => h' [[]|e] /= H Hk //.
  exact: (closing_trans _ _ _ H (Hk h' eq_refl)).
Qed.
Lemma sfor_closing {A} (f : heap -> A -> heap * res unit) l h :
  (forall h x, In x l -> closing h (fst (f h x))) ->
  closing h (fst (sfor f l h)).
Proof.
  elim: l h => [|x l IH] h H; cbn [sfor]; [exact: closing_refl|].
  apply: sbind_closing.
  - apply: H. by left.
  - move=> h' _. apply: IH => h2 y Hy. apply: H. by right.
Qed.

(** The freeze method of children does its job. *)
Definition good_freeze (fz : heap -> nat -> heap * res unit) : Prop :=
  forall h r, closing h (fst (fz h r)) /\
    (snd (fz h r) = Ok tt -> is_frozen (fst (fz h r)) r).

Lemma freeze_item_closing fz h v :
  good_freeze fz -> closing h (fst (freeze_item fz h v)).
Proof.
  move=> H. case: v => [|n|r|l|r] /=; try exact: closing_refl.
  case: (hget h r) => [[o|l|d]|]; try exact: closing_refl.
  exact: (proj1 (H h r)).
Qed.
Lemma freeze_child_closing fz a h f :
  good_freeze fz -> closing h (fst (freeze_child fz a h f)).
Proof.
  move=> H. rewrite /freeze_child.
  case: (field h a f) => [v|]; [|exact: closing_refl].
  case: (elements h v) => [l|].
  - apply: sfor_closing => h2 x _. exact: freeze_item_closing.
  - case: v => [|n|r|l|r]; try exact: closing_refl;
      exact: freeze_item_closing.
Qed.

Lemma freeze_items_all fz l h h' r :
  good_freeze fz -> sfor (freeze_item fz) l h = (h', Ok tt) ->
  In (VRef r) l -> is_frozen h' r.
Proof.
  move=> H. elim: l h => [|x l IH] h //=.
  case E: (freeze_item fz h x) => [h1 [[]|e]] //= Hs [Ex|Hl];
    [|exact: (IH _ Hs Hl)].
  subst x. move: E. cbn [freeze_item].
  case: (hget h r) => [[o|m|d]|] // E.
  have [_ Hg] := H h r. rewrite E in Hg.
  have Hr : is_frozen h1 r by apply: Hg.
  have Ho : only_frozen h1 (fst (sfor (freeze_item fz) l h1)).
  { apply: sfor_only => h2 y _. apply: freeze_item_only => h3 z.
    exact: (proj1 (proj1 (H h3 z))). }
  rewrite Hs in Ho. exact: (only_frozen_keeps _ _ _ Ho Hr).
Qed.

Lemma freeze_child_all fz a h h' f o v r :
  good_freeze fz -> freeze_child fz a h f = (h', Ok tt) ->
  is_object h a o -> dget (o_fields o) f = Some v ->
  ((v = VRef r /\ exists o', is_object h r o') \/
   exists l, elements h v = Some l /\ In (VRef r) l) ->
  is_frozen h' r.
Proof.
  move=> H. rewrite /freeze_child /field => E Ho Ev Hc.
  rewrite Ho Ev in E.
  case: Hc => [[? [o' Ho']]|[l [El Hl]]].
  - subst v. move: E. cbn [elements]. rewrite Ho'. cbn [freeze_item].
    rewrite Ho' => E. have [_ Hg] := H h r. rewrite E in Hg. exact: Hg.
  - rewrite El in E. exact: (freeze_items_all _ _ _ _ _ H E Hl).
Qed.

(** After all child fields were handled, all children are frozen. *)
Lemma freeze_children_all fz a fs h h' :
  good_freeze fz -> sfor (freeze_child fz a) fs h = (h', Ok tt) ->
  forall o' f v r, is_object h' a o' -> In f fs ->
  dget (o_fields o') f = Some v ->
  ((v = VRef r /\ exists o2, is_object h' r o2) \/
   exists l, elements h' v = Some l /\ In (VRef r) l) ->
  is_frozen h' r.
Proof.
  move=> H. elim: fs h => [|g fs IH] h //=.
  case E: (freeze_child fz a h g) => [h1 [[]|e]] //= Hs o' f v r Ho' Hf Hv Hc.
  case: Hf => [?|Hf]; [|exact: (IH _ Hs _ _ _ _ Ho' Hf Hv Hc)]. subst g.
  have O1 : only_frozen h h1.
  { have := freeze_child_only fz a h f.
    rewrite E. apply=> h2 z. exact: (proj1 (proj1 (H h2 z))). }
  have O2 : only_frozen h1 h'.
  { have : only_frozen h1 (fst (sfor (freeze_child fz a) fs h1)).
    { apply: sfor_only => h2 y _. apply: freeze_child_only => h3 z.
      exact: (proj1 (proj1 (H h3 z))). }
    by rewrite Hs. }
  apply: (only_frozen_keeps _ _ _ O2).
  have O3 := only_trans _ _ _ O1 O2.
  have [o Ho] := only_object_inv _ _ _ _ O3 Ho'.
  have := O3 a. rewrite Ho Ho' /= => [[Ec [_ G]]].
  have := G f. rewrite Hv. case Ev: (dget (o_fields o) f) => [w|] // Hsv.
  apply: (freeze_child_all _ _ _ _ _ _ _ _ H E Ho Ev).
  have He := same_elements _ _ _ _ O3 Hsv.
  case: Hc => [[? [o2 Ho2]]|[l [El Hl]]].
  - subst v. left. have [o3 Ho3] := only_object_inv _ _ _ _ O3 Ho2.
    case: Hsv => [<-|[[r' [l [-> [Ex //]]]]|[r' [d [-> [Ex //]]]]]].
    split=> //. by exists o3.
  - right. exists l. by rewrite -He.
Qed.

Lemma freeze_good n : good_freeze (freeze n).
Proof.
  elim: n => [|n IH] h a; [by split; [exact: closing_refl|]|].
  cbn [AstObj_Model.freeze].
  case Ea: (class_at h a) => [[c fr]|]; [|by split; [exact: closing_refl|]].
  have Hobj : exists fs, is_object h a (Obj c fr fs).
  { move: Ea. rewrite /class_at /is_object.
    case: (hget h a) => [[[c' fr' fs]|l|d]|] //= [<- <-]. by exists fs. }
  have Body : forall m, m = 
     sbind (h, pre h a) (fun h =>
              sbind (sfor (to_tuple a) (k_tuples (class_of c)) h) (fun h =>
              sbind (match k_value (class_of c) with
                     | None => (h, Ok tt)
                     | Some f => to_value a h f
                     end) (fun h =>
              sbind (match class_at h a with
                     | Some (_, true) => (h, Ok tt)
                     | _ =>
                         sbind (sfor (freeze_child (freeze n) a)
                                  (k_children (class_of c)) h) (fun h =>
                         set_frozen h a true)
                     end) (fun h =>
              (h, post h a))))) ->
     closing h (fst m) /\ (snd m = Ok tt -> is_frozen (fst m) a).
  { move=> m ->. case: (pre h a) => [[]|e]; cbn [sbind];
      [|by split; [exact: closing_refl|]].
    have C1 : closing h (fst (sfor (to_tuple a) (k_tuples (class_of c)) h)).
    { apply: sfor_closing => h2 f _. apply: closing_flags.
      - exact: to_tuple_only.
      - move=> b. exact: to_tuple_flags. }
    case E1: (sfor (to_tuple a) _ h) C1 => [h1 [[]|e]]; cbn [fst sbind] => C1;
      [|by split].
    have C2 : closing h1 (fst (match k_value (class_of c) with
                     | None => (h1, Ok tt)
                     | Some f => to_value a h1 f
                     end)).
    { case: (k_value _) => [f|]; [|exact: closing_refl].
      apply: closing_flags; [exact: to_value_only|].
      move=> b. exact: to_value_flags. }
    case E2: (match k_value _ with Some _ => _ | None => _ end) C2 => [h2 [[]|e]];
      cbn [fst sbind] => C2; have C := closing_trans _ _ _ C1 C2;
      [|by split].
    have Ec2 : forall o, is_object h2 a o -> o_class o = c.
    { move: Hobj => [fs Hobj] o Ho. have := proj1 C a.
      by rewrite Hobj Ho /= => [[-> _]]. }
    have Hin : closing h2 (fst (sbind (sfor (freeze_child (freeze n) a)
                (k_children (class_of c)) h2) (fun h => set_frozen h a true)))
      /\ (snd (sbind (sfor (freeze_child (freeze n) a)
                (k_children (class_of c)) h2) (fun h => set_frozen h a true))
          = Ok tt -> is_frozen (fst (sbind (sfor (freeze_child (freeze n) a)
                (k_children (class_of c)) h2) (fun h => set_frozen h a true)))
              a).
    { have C3 : closing h2 (fst (sfor (freeze_child (freeze n) a)
                (k_children (class_of c)) h2)).
      { apply: sfor_closing => h5 f _. exact: freeze_child_closing. }
      case E3: (sfor (freeze_child _ a) _ h2) C3 => [h3 [[]|e]];
        cbn [fst snd sbind] => C3; [|by split].
      have All := freeze_children_all _ _ _ _ _ IH E3.
      have O4 := set_frozen_only h3 a.
      split; [apply: (closing_trans _ _ _ C3); split=> //|].
      - move=> Hd b r Hb Hc. apply: (only_frozen_keeps _ _ _ O4).
        have Hc3 := child_inv _ _ _ _ O4 Hc.
        case: (Nat.eq_dec b a) => [Eb|Nb].
        + subst b. apply childE in Hc3. move: Hc3 => [o [f [v [Ho [Hf [Hv Hx]]]]]].
          have Eo : o_class o = c.
          { have [o2 Ho2] := only_object_inv _ _ _ _ (proj1 C3) Ho.
            have := proj1 C3 a. rewrite Ho2 Ho /= => [[-> _]]. exact: Ec2. }
          rewrite Eo in Hf. exact: (All _ _ _ _ Ho Hf Hv Hx).
        + apply: (Hd _ _ _ Hc3). move: Hb => [o [Ho F]].
          move: Ho. rewrite /is_object /set_frozen.
          case E4: (hget h3 a) => [[o4|l4|d4]|] /=; try by exists o.
          rewrite andb_false_r /= hget_hset_ne // => Ho. by exists o.
      - rewrite /set_frozen. case E4: (hget h3 a) => [[o4|l4|d4]|] //=.
        rewrite andb_false_r /= => _.
        exists (Obj (o_class o4) true (o_fields o4)). split=> //.
        exact: (hget_hset_eq _ _ _ _ E4). }
    have Last : forall m', closing h2 (fst m') /\
        (snd m' = Ok tt -> is_frozen (fst m') a) ->
        closing h (fst (sbind m' (fun h => (h, post h a)))) /\
        (snd (sbind m' (fun h => (h, post h a))) = Ok tt ->
         is_frozen (fst (sbind m' (fun h => (h, post h a)))) a).
    { move=> [h4 [[]|e]] /= [D1 D2].
      - split; [exact: (closing_trans _ _ _ C D1)|]. move=> _. exact: D2.
      - split=> //. exact: (closing_trans _ _ _ C D1). }
    apply: Last.
    case E4: (class_at h2 a) => [[c' []]|] //.
    split; [exact: closing_refl|]. move=> _. move: E4.
    rewrite /class_at /is_frozen /is_object.
    case: (hget h2 a) => [[o|l|d]|] // [_ F]. by exists o. }
  case: (k_start _).
  - case: fr Ea Hobj Body => Ea Hobj Body; [|exact: Body].
    split; [exact: closing_refl|]. move=> _. move: Hobj => [fs Hobj].
    by exists (Obj c true fs).
  - by case: fr Ea Hobj Body => Ea Hobj Body; apply: Body.
  - by split; [exact: closing_refl|].
Qed.

Lemma freeze_deep n h a :
  deeply_frozen h -> snd (freeze n h a) = Ok tt ->
  deeply_frozen (fst (freeze n h a)) /\
  forall b, descendant (fst (freeze n h a)) a b ->
    is_frozen (fst (freeze n h a)) b.
Proof.
  move=> Hd Hok. have [[_ C] F] := freeze_good n h a.
  have Hd' := C Hd. split=> // b. elim.
  - exact: F.
  - move=> b' c _ Hb Hc. exact: (Hd' _ _ Hb Hc).
Qed.
Lemma freeze_deep_fail n h a :
  deeply_frozen h -> deeply_frozen (fst (freeze n h a)).
Proof. move=> Hd. have [[_ C] _] := freeze_good n h a. exact: C. Qed.

(** *** Termination *)
Hypothesis pre_total : forall h a, pre h a <> Err OutOfFuel.
Hypothesis post_total : forall h a, post h a <> Err OutOfFuel.

Lemma assign_total h a f v : snd (assign h a f v) <> Err OutOfFuel.
Proof.
  rewrite /AstObj_Model.assign. case: (hget h a) => [[o|l|d]|] //.
  case: (negb _) => //. by case: (o_frozen o).
Qed.
Lemma sfor_total {A} (f : heap -> A -> heap * res unit) l h (P : heap -> Prop) :
  P h -> (forall h x, P h -> In x l -> P (fst (f h x)) /\
            snd (f h x) <> Err OutOfFuel) ->
  P (fst (sfor f l h)) /\ snd (sfor f l h) <> Err OutOfFuel.
Proof.
  move=> H0 Hf. elim: l h H0 Hf => [|x l IH] h H0 Hf //=.
  have := Hf h x H0 (or_introl eq_refl).
  case: (f h x) => h1 [[]|e] //= [H1 _]. apply: IH => // h2 y H2 Hy.
  apply: Hf => //. by right.
Qed.

Lemma to_tuple_total a h f : snd (to_tuple a h f) <> Err OutOfFuel.
Proof.
  rewrite /AstObj_Model.to_tuple. case: (field h a f) => // v.
  case: (elements h v) => // l. exact: assign_total.
Qed.
Lemma to_value_total a h f : snd (to_value a h f) <> Err OutOfFuel.
Proof.
  rewrite /AstObj_Model.to_value.
  case: (field h a f) => [[|m|r|l|r]|] //.
  case: (hget h r) => [[o'|l|d]|] //; exact: assign_total.
Qed.
Lemma set_frozen_total h a b : snd (set_frozen h a b) <> Err OutOfFuel.
Proof.
  rewrite /set_frozen. case: (hget h a) => [[o|l|d]|] //. by case: (_ && _).
Qed.
Lemma freeze_item_total fz h v :
  (forall r, v = VRef r -> snd (fz h r) <> Err OutOfFuel) ->
  snd (freeze_item fz h v) <> Err OutOfFuel.
Proof.
  case: v => [|n|r|l|r] //= H. case: (hget h r) => [[o|l|d]|] //. exact: H.
Qed.
Definition tail c n a (h : heap) : heap * res unit :=
  sbind (match k_value (class_of c) with
         | None => (h, Ok tt)
         | Some f => to_value a h f
         end) (fun h =>
  sbind (match class_at h a with
         | Some (_, true) => (h, Ok tt)
         | _ =>
             sbind (sfor (freeze_child (freeze n) a)
                      (k_children (class_of c)) h) (fun h =>
             set_frozen h a true)
         end) (fun h => (h, post h a))).
Lemma freeze_total rank n h a :
  decreasing rank h -> rank a < n -> snd (freeze n h a) <> Err OutOfFuel.
Proof.
  elim: n h a => [|n IH] h a Hd Hr; [lia|]. cbn [AstObj_Model.freeze].
  case Ea: (class_at h a) => [[c fr]|] //.
  have Hdec : forall h', only_frozen h h' -> decreasing rank h'.
  { move=> h' Ho x y Hc. apply: Hd. exact: (child_inv _ _ _ _ Ho Hc). }
  have Hobj : exists fs, is_object h a (Obj c fr fs).
  { move: Ea. rewrite /class_at /is_object.
    case: (hget h a) => [[[c' fr' fs]|l|d]|] //= [<- <-]. by exists fs. }
  have Hchild : forall h3 f, only_frozen h h3 ->
      In f (k_children (class_of c)) ->
      snd (freeze_child (freeze n) a h3 f) <> Err OutOfFuel.
  { move=> h3 f H3 Hf. rewrite /freeze_child.
    case Ef: (field h3 a f) => [v|] //.
    have Hrank : forall r, ((v = VRef r /\ exists o', is_object h3 r o') \/
        exists l, elements h3 v = Some l /\ In (VRef r) l) -> rank r < n.
    { move=> r Hc. have : rank r < rank a; [|lia]. apply: (Hdec _ H3). apply childE.
      move: Ef Hobj. rewrite /field.
      case Eo: (hget h3 a) => [[o|l|d]|] // Ev [fs Ho].
      exists o, f, v. split=> //. split=> //.
      have := H3 a. by rewrite Eo Ho /= => [[-> _]]. }
    case El: (elements h3 v) => [l|].
    - apply: (proj2 (sfor_total _ l h3 (only_frozen h) H3 _)) => h4 x H4 Hx.
      split.
      + apply: (only_trans _ _ _ H4). apply: freeze_item_only.
        exact: freeze_only.
      + apply: freeze_item_total => r Er. subst x.
        apply: IH; [exact: Hdec|]. apply: Hrank. right. by exists l.
    - case: v Ef Hrank El => [|m|r|l|r] // Ef Hrank El.
      cbn [freeze_item]. case Er: (hget h3 r) => [[o|l|d]|] //.
      apply: IH; [exact: Hdec|]. apply: Hrank. left. split=> //. by exists o. }
  have Tail : forall h1, only_frozen h h1 ->
      snd (tail c n a h1) <> Err OutOfFuel.
  { move=> h1 H1. rewrite /tail.
    have O2 : only_frozen h1 (fst (match k_value (class_of c) with
                     | None => (h1, Ok tt)
                     | Some f => to_value a h1 f
                     end)).
    { case: (k_value _) => [f|]; [exact: to_value_only|exact: only_refl]. }
    have T2 : snd (match k_value (class_of c) with
                     | None => (h1, Ok tt)
                     | Some f => to_value a h1 f
                     end) <> Err OutOfFuel.
    { case: (k_value _) => [f|] //. exact: to_value_total. }
    case: (match k_value _ with Some _ => _ | None => _ end) O2 T2
      => [h2 [[]|e]] //= O2 _.
    have O := only_trans _ _ _ H1 O2.
    have Inner : snd (sbind (sfor (freeze_child (freeze n) a)
                (k_children (class_of c)) h2) (fun h => set_frozen h a true))
          <> Err OutOfFuel.
    { have [|O3 T3] := sfor_total (freeze_child (freeze n) a)
        (k_children (class_of c)) h2 (only_frozen h) O.
      - move=> h3 f H3 Hf. split; [|exact: Hchild].
        apply: (only_trans _ _ _ H3). apply: freeze_child_only.
        exact: freeze_only.
      - case: (sfor _ _ h2) O3 T3 => [h3 [[]|e]] //= _ _.
        exact: set_frozen_total. }
    have Last : forall m, snd m <> Err OutOfFuel ->
        snd (sbind m (fun h0 => (h0, post h0 a))) <> Err OutOfFuel.
    { move=> [h3 [[]|e]] Hm; cbn [sbind snd]; [exact: post_total|exact: Hm]. }
    apply: Last. by case: (class_at h2 a) => [[c' []]|]. }
  have Body : snd (sbind (h, pre h a) (fun h =>
     sbind (sfor (to_tuple a) (k_tuples (class_of c)) h) (tail c n a)))
     <> Err OutOfFuel.
  { have := pre_total h a. case: (pre h a) => [[]|e] //= _.
    have [|O1 T1] := sfor_total (to_tuple a) (k_tuples (class_of c)) h
      (only_frozen h) (only_refl h).
    - move=> h2 f H2 _. split; [|exact: to_tuple_total].
      exact: (only_trans _ _ _ H2 (to_tuple_only a h2 f)).
    - case: (sfor (to_tuple a) _ h) O1 T1 => [h1 [[]|e]] //= O1 _.
      exact: Tail. }
  by case: (k_start _); case: fr {Ea Hobj} => //.
Qed.
End Proofs.

(** ** Counterexamples *)
Definition yes (_ : heap) (_ _ : string) (_ : val) : bool := true.
Definition fine (_ : heap) (_ : nat) : res unit := Ok tt.

(** A group of one instance; its list can be emptied after freezing. *)
Definition ex_group : heap :=
  [CObj (Obj "Instance" false [("name", VAtom 1); ("type", VNone)]);
   CList [VRef 0];
   CObj (Obj "Group" false [("name", VAtom 2); ("instances", VRef 1)])].
Lemma frozen_list_changes : exists h a f ops,
  snd (freeze yes fine fine 3 h a) = Ok tt /\
  let h1 := fst (freeze yes fine fine 3 h a) in
  let h2 := run yes fine fine h1 ops in
  is_frozen h1 a /\
  exists o1 o2 r, is_object h1 a o1 /\ is_object h2 a o2 /\
    dget (o_fields o1) f = Some (VRef r) /\
    dget (o_fields o2) f = Some (VRef r) /\
    nth_error h1 r = Some (CList [VRef 0]) /\
    nth_error h2 r = Some (CList []).
Proof.
  exists ex_group, 2, "instances", [SetList 1 []]. vm_compute.
  split; [done|]. split; [by eexists|]. do 2 eexists. exists 1.
  repeat split.
Qed.

Lemma refreeze_fails : exists h a,
  snd (freeze yes fine fine 3 h a) = Ok tt /\
  snd (freeze yes fine fine 3 (fst (freeze yes fine fine 3 h a)) a)
    = Err TypeError.
Proof.
  exists [CList []; CObj (Obj "LiftedAST" false [("items", VRef 0)])], 1.
  by vm_compute.
Qed.
