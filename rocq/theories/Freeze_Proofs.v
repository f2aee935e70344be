(** Proofs about freezing: compositions, connections, configurations. *)
From Coq Require Import List Bool String ZArith Arith Lia ssreflect ssrbool.
From Verif Require Import Prelude Freeze_Model Freeze_Spec.
Import ListNotations.
Open Scope string_scope.
Open Scope list_scope.

(** ** Compositions *)
Lemma pin_In p l : pin p l = true <-> In p l.
Proof. rewrite /pin. case: in_dec => H; by split. Qed.
Lemma pin_nIn p l : pin p l = false <-> ~ In p l.
Proof. rewrite /pin. case: in_dec => H; by split. Qed.

Lemma used_ends_all conns : used_ends conns = map end_pair (all_ends conns).
Proof.
  rewrite /used_ends /all_ends. elim: conns => [|c conns IH] //=.
  by rewrite IH !map_app.
Qed.

Lemma in_all_interfaces insts o inf :
  In (o, inf) (all_interfaces insts) <->
  exists i, o = Some i /\ In i insts /\ In inf (ci_ifs i).
Proof.
  rewrite /all_interfaces in_flat_map. split.
  - move=> [i [Hi /in_map_iff [inf' [[<- <-] H]]]]. by exists i.
  - move=> [i [-> [Hi H]]]. exists i. split=> //. apply in_map_iff.
    by exists inf.
Qed.

Lemma in_remove_iff x y l :
  In x (remove pair_eq_dec y l) <-> In x l /\ x <> y.
Proof.
  split; [exact (in_remove pair_eq_dec l x y)|]. move=> [H1 H2]. by apply in_in_remove.
Qed.

(** The loop over the ends, from any state. *)
Lemma connect_ends es unc con :
  (forall p, In p con -> ~ In p unc) ->
  match foldM connect_end es (unc, con) with
  | Ok (unc', con') =>
      NoDup (map end_pair es) /\
      (forall e, In e es -> In (end_pair e) unc) /\
      (forall p, In p unc' <-> In p unc /\ ~ In p (map end_pair es))
  | Err e =>
      (e = ASTError /\
       (~ NoDup (map end_pair es) \/
        exists x, In x es /\ In (end_pair x) con)) \/
      (e = AssertionError /\ exists x, In x es /\
         ~ In (end_pair x) unc /\ ~ In (end_pair x) con)
  end.
Proof.
  elim: es unc con => [|e es IH] unc con Hd; cbn [foldM].
  - split; [constructor|]. split=> //. move=> p. cbn. tauto.
  - rewrite {1}/connect_end. case Hc: (pin (end_pair e) con).
    + cbn [bind]. left. split=> //. right. exists e. split; [by left|].
      by apply pin_In.
    + apply pin_nIn in Hc. case Hu: (pin (end_pair e) unc); last first.
      * cbn [bind]. right. split=> //. exists e. split; [by left|].
        by apply pin_nIn in Hu.
      * apply pin_In in Hu. cbn [bind].
        have Hd' : forall p, In p (end_pair e :: con) ->
          ~ In p (remove pair_eq_dec (end_pair e) unc).
        { move=> p [<-|Hp]; rewrite in_remove_iff; [tauto|].
          move=> [H _]. exact: (Hd _ Hp H). }
        have := IH _ _ Hd'.
        case: (foldM _ _ _) => [[unc' con']|x].
        -- move=> [Hnd [Hin Hp]]. split; [|split].
           ++ cbn. constructor=> //. move=> /in_map_iff [e' [E' He']].
              have := Hin _ He'. rewrite E' in_remove_iff. tauto.
           ++ move=> e' [<-//|He']. have := Hin _ He'.
              rewrite in_remove_iff. tauto.
           ++ move=> p. rewrite Hp in_remove_iff. cbn [map In]. split.
              ** move=> [[H1 H2] H3]. split=> //. move=> [H|H]; [by apply: H2|].
                 by apply: H3.
              ** move=> [H1 H2]. split; [split|]=> //.
                 --- move=> E. apply: H2. by left.
                 --- move=> H. apply: H2. by right.
        -- move=> [[-> H]|[-> [x' [H1 [H2 H3]]]]].
           ++ left. split=> //. cbn.
              case: H => [H|[x' [H1 [H2|H2]]]].
              ** left=> H'. inversion H'; subst. by apply: H.
              ** left=> H'. inversion H' as [|? ? Hn _]; subst. apply: Hn.
                 rewrite H2. by apply in_map.
              ** right. exists x'. split=> //. by right.
           ++ right. split=> //. exists x'. split; [by right|].
              rewrite in_remove_iff in H2. cbn in H3.
              case: (pair_eq_dec (end_pair x') (end_pair e)) => E.
              ** case: H3. by left.
              ** split; [|tauto]. move=> H. apply: H2. by split.
Qed.

Lemma mandatory_required inf : mandatory inf = true <-> required inf.
Proof.
  rewrite /mandatory /required.
  case: (if_kind inf); case: (if_optional inf); cbn; split; try done;
    try (by move=> [[?|[?|?]] ?]); by split; auto.
Qed.
Lemma exports_passed i inf : exports_it i inf = true <-> passed_on i inf.
Proof.
  rewrite /exports_it /passed_on. case: (ci_exports i) => [ds|].
  - case: in_dec => H; split=> //.
    + move=> _. by exists ds.
    + by move=> [ds' [[<-] ?]].
  - split=> //. by move=> [ds' [? ?]].
Qed.

Lemma composition_ok insts conns :
  check_composition insts conns = Ok tt <-> well_connected insts conns.
Proof.
  rewrite /check_composition.
  have Hd : forall p : option instance * interface,
    In p [] -> ~ In p (all_interfaces insts) by [].
  have := connect_ends (all_ends conns) (all_interfaces insts) [] Hd.
  rewrite /well_connected /ends_exist used_ends_all.
  case: (foldM _ _ _) => [[unc con]|e]; cbn [bind fst].
  - move=> [Hnd [Hin Hp]]. split.
    + case Hx: (existsb _ _) => // _. split; [|split=> //].
      * move=> o inf /in_map_iff [e [E He]].
        apply in_all_interfaces. rewrite -E. exact: Hin.
      * move=> i inf Hi Hf Hr.
        case: (in_dec pair_eq_dec (Some i, inf)
                 (map end_pair (all_ends conns))) => [|Hn]; [by left|right].
        have Hu : In (Some i, inf) unc.
        { apply Hp. split=> //. apply in_all_interfaces. by exists i. }
        have Hf' : unacceptable (Some i, inf) = false.
        { case Hy: (unacceptable _) => //.
          have : existsb unacceptable unc = true.
          { apply existsb_exists. by exists (Some i, inf). }
          by rewrite Hx. }
        move: Hf'. cbn. move: Hr => /mandatory_required ->. cbn.
        move=> /negbFE. by move=> /exports_passed.
    + move=> [_ [_ Hreq]].
      have -> : existsb unacceptable unc = false; [|done].
      apply/negbTE/negP => /existsb_exists [[o inf] [Hu Hb]].
      have [Ha Hn] := proj1 (Hp _) Hu.
      have [i [E [Hi Hf]]] := proj1 (in_all_interfaces _ _ _) Ha. subst o.
      move: Hb. cbn. move=> /andP [Hm Hx].
      apply mandatory_required in Hm.
      case: (Hreq i inf Hi Hf Hm) => // Hpass.
      by move: Hpass Hx => /exports_passed ->.
  - move=> He. split=> //. move=> [Hex [Hnd _]]. exfalso.
    case: He => [[_ [H|[x [? []]]]]|[_ [x [H1 [H2 _]]]]].
    + by apply: H.
    + apply: H2. have Hi := in_map end_pair _ _ H1.
      have [i [E [H3 H4]]] := Hex (ce_inst x) (ce_if x) Hi.
      rewrite /end_pair. apply in_all_interfaces. by exists i.
Qed.

Lemma composition_rejects insts conns :
  ends_exist insts conns -> ~ well_connected insts conns ->
  check_composition insts conns = Err ASTError.
Proof.
  move=> Hex Hw. have := composition_ok insts conns.
  rewrite /check_composition.
  have Hd : forall p : option instance * interface,
    In p [] -> ~ In p (all_interfaces insts) by [].
  have := connect_ends (all_ends conns) (all_interfaces insts) [] Hd.
  case: (foldM _ _ _) => [[unc con]|e]; cbn [bind fst].
  - case: (existsb _ _) => // _ H. case: Hw. by apply H.
  - move=> [[-> _]|[_ [x [H1 [H2 _]]]]] //. case: H2.
    have Hi := in_map end_pair _ _ H1.
    rewrite /ends_exist used_ends_all in Hex.
    have [i [E [H3 H4]]] := Hex (ce_inst x) (ce_if x) Hi.
    rewrite /end_pair. apply in_all_interfaces. by exists i.
Qed.

(** ** Connections *)
Lemma forM_Ok {A} (f : A -> res unit) l :
  forM f l = Ok tt <-> forall x, In x l -> f x = Ok tt.
Proof.
  elim: l => [|y l IH]; cbn [forM]; [by split|].
  split.
  - case E: (f y) => [[]|e] //=. move=> /IH H x [<-//|Hx]. exact: H.
  - move=> H. rewrite (H y) /=; [by left|]. apply IH => x Hx. apply: H. by right.
Qed.
Lemma forM_Err {A} (f : A -> res unit) l e :
  forM f l = Err e -> exists x, In x l /\ f x = Err e.
Proof.
  elim: l => [|y l IH]; cbn [forM] => //.
  case E: (f y) => [[]|e'] /=.
  - move=> /IH [x [? ?]]. exists x. split=> //. by right.
  - move=> [<-]. exists y. split=> //. by left.
Qed.

Lemma from_sideP ct k :
  from_kind k && from_type_ok ct k = true <-> from_side ct k.
Proof.
  rewrite /from_side. split.
  - case: k; case: ct => [[]|] //= _; intuition congruence.
  - move=> [Hk [H1 [H2 H3]]].
    case: ct H1 H2 H3 => [[]|] H1 H2 H3; cbn.
    + by rewrite H1.
    + by rewrite H2.
    + by rewrite H3.
    + by case: Hk => [->|[->|->]].
Qed.
Lemma to_sideP ct k :
  to_kind k && to_type_ok ct k = true <-> to_side ct k.
Proof.
  rewrite /to_side. split.
  - case: k; case: ct => [[]|] //= _; intuition congruence.
  - move=> [Hk [H1 [H2 H3]]].
    case: ct H1 H2 H3 => [[]|] H1 H2 H3; cbn.
    + by rewrite H1.
    + by rewrite H2.
    + by rewrite H3.
    + by case: Hk => [->|[->|->]].
Qed.

Lemma end_hardwareP c e h : end_hardware c e = Ok h <-> end_is_hw c e h.
Proof.
  rewrite /end_hardware /end_is_hw. case: (ce_inst e) => [i|].
  - split; [by case|by move=> ->].
  - case: (cn_enclosing c) => [b|]; split=> //; [by case=> ->|by case=> ->].
Qed.

Lemma check_fromP c e :
  check_from c e = Ok tt <->
  from_side (ct_from (cn_type c)) (if_kind (ce_if e)) /\
  end_is_hw c e (ct_from_hw (cn_type c)).
Proof.
  rewrite -from_sideP -end_hardwareP /check_from.
  case: (from_kind _) => //=; last by split=> // [[]].
  case: (end_hardware c e) => [h|x] //=; last by split=> // [[]].
  case: (from_type_ok _ _); case: (ct_from_hw _); case: h => //=;
    split=> //; by case.
Qed.
Lemma check_toP c e :
  check_to c e = Ok tt <->
  to_side (ct_to (cn_type c)) (if_kind (ce_if e)) /\
  end_is_hw c e (ct_to_hw (cn_type c)).
Proof.
  rewrite -to_sideP -end_hardwareP /check_to.
  case: (to_kind _) => //=; last by split=> // [[]].
  case: (end_hardware c e) => [h|x] //=; last by split=> // [[]].
  case: (to_type_ok _ _); case: (ct_to_hw _); case: h => //=;
    split=> //; by case.
Qed.

Lemma one_type (l : list iftype) :
  Nat.ltb 1 (List.length (nodup iftype_eq_dec l)) = false <->
  forall x y, In x l -> In y l -> x = y.
Proof.
  rewrite Nat.ltb_ge. split.
  - move=> H x y Hx Hy.
    have := proj2 (nodup_In iftype_eq_dec l x) Hx.
    have := proj2 (nodup_In iftype_eq_dec l y) Hy.
    case: (nodup _ _) H => [|a [|b r]] //=; [|lia].
    by move=> _ [->|//] [->|//].
  - move=> H. have := NoDup_nodup iftype_eq_dec l.
    have : forall x, In x (nodup iftype_eq_dec l) -> In x l
      by move=> x /nodup_In.
    case: (nodup _ _) => [|a [|b r]] Hin Hnd; cbn; try lia.
    have E : a = b.
    { apply: H; apply: Hin; [by left|by right; left]. }
    inversion Hnd as [|? ? Hn]; subst. case: Hn. by left.
Qed.

Lemma check_offP ct off :
  type_check_disabled ct = Ok off -> (off = true <-> check_is_off ct).
Proof.
  rewrite /type_check_disabled /check_is_off.
  case: (ct_attrs ct) => [attrs|] // [<-]. split.
  - move=> H. exists attrs. split=> //.
    by case: (dget _ _) H => [b|] // ->.
  - by move=> [a [[<-] ->]].
Qed.

Lemma multi_ok {A} (l : list A) m :
  l <> [] ->
  Nat.ltb 1 (List.length l) && negb m = false <->
  (m = false -> exists e, l = [e]).
Proof.
  case: l => [|a [|b l]] // _; case: m => //=; split=> //.
  - move=> _ _. by exists a.
  - by move=> /(_ eq_refl) [e].
Qed.

Lemma same_types (c : connection) :
  (forall x y, In x (map end_type (cn_from c ++ cn_to c)) ->
     In y (map end_type (cn_from c ++ cn_to c)) -> x = y) <->
  (forall e e', In e (cn_from c ++ cn_to c) ->
     In e' (cn_from c ++ cn_to c) -> if_type (ce_if e) = if_type (ce_if e')).
Proof.
  split.
  - move=> H e e' He He'. apply: H; by apply: (in_map end_type).
  - move=> H x y /in_map_iff [e [<- He]] /in_map_iff [e' [<- He']].
    exact: H.
Qed.

Lemma connection_ok c :
  ct_attrs (cn_type c) <> None ->
  check_connection c = Ok tt <-> well_typed_connection c.
Proof.
  move=> Ha. rewrite /check_connection /well_typed_connection.
  have [off Eoff] : exists off, type_check_disabled (cn_type c) = Ok off.
  { rewrite /type_check_disabled. case: (ct_attrs _) Ha => // l _. eauto. }
  rewrite Eoff. have Hoff := check_offP _ _ Eoff. cbn [bind].
  have Hmf := @multi_ok _ (cn_from c) (ct_from_multiple (cn_type c)).
  have Hmt := @multi_ok _ (cn_to c) (ct_to_multiple (cn_type c)).
  case: (Nat.eqb_spec (List.length (cn_from c)) 0) => [/length_zero_iff_nil E|E].
  { split=> //. by move=> [H _]. }
  have Hf : cn_from c <> [] by move=> E'; rewrite E' in E.
  case: (Nat.eqb_spec (List.length (cn_to c)) 0) => [/length_zero_iff_nil E2|E2].
  { split=> //. by move=> [_ [H _]]. }
  have Ht : cn_to c <> [] by move=> E'; rewrite E' in E2.
  move: (Hmf Hf) (Hmt Ht) => {}Hmf {}Hmt.
  case: (_ && negb (ct_from_multiple _)) Hmf => Hmf.
  { split=> // H. have := proj2 Hmf. by case: H => [_ [_ [H _]]] /(_ H). }
  case: (_ && negb (ct_to_multiple _)) Hmt => Hmt.
  { split=> // H. have := proj2 Hmt.
    by case: H => [_ [_ [_ [H _]]]] /(_ H). }
  have Htypes : (Nat.ltb 1 (List.length (nodup iftype_eq_dec
     (map end_type (cn_from c ++ cn_to c)))) && negb off = false) <->
     (check_is_off (cn_type c) \/
      forall e e', In e (cn_from c ++ cn_to c) ->
        In e' (cn_from c ++ cn_to c) ->
        if_type (ce_if e) = if_type (ce_if e')).
  { rewrite -same_types -one_type -Hoff. case: off {Eoff Hoff}; cbn.
    - rewrite andb_false_r. split; [by left|done].
    - rewrite andb_true_r. split; [by right|by case]. }
  case: (_ && negb off) Htypes => Htypes.
  { split=> // H. have := proj2 Htypes.
    by case: H => [_ [_ [_ [_ [H _]]]]] /(_ H). }
  have Hfs : forM (check_from c) (cn_from c) = Ok tt <->
    forall e, In e (cn_from c) ->
     from_side (ct_from (cn_type c)) (if_kind (ce_if e)) /\
     end_is_hw c e (ct_from_hw (cn_type c)).
  { rewrite forM_Ok. split=> H e /H; by apply check_fromP. }
  have Hts : forM (check_to c) (cn_to c) = Ok tt <->
    forall e, In e (cn_to c) ->
     to_side (ct_to (cn_type c)) (if_kind (ce_if e)) /\
     end_is_hw c e (ct_to_hw (cn_type c)).
  { rewrite forM_Ok. split=> H e /H; by apply check_toP. }
  rewrite -Hfs -Hts. clear Hfs Hts.
  case: (forM (check_from c) _) => [[]|e]; cbn [bind].
  - split.
    + move=> H. split=> //. split=> //. split; [by apply Hmf|].
      split; [by apply Hmt|]. split; [by apply Htypes|]. by split.
    + by move=> [_ [_ [_ [_ [_ [_ H]]]]]].
  - split=> //. by move=> [_ [_ [_ [_ [_ [H _]]]]]].
Qed.

(** Every rejection is a diagnosed one if all ends name an instance. *)
Lemma connection_rejects c :
  ct_attrs (cn_type c) <> None ->
  (forall e, In e (cn_from c ++ cn_to c) -> ce_inst e <> None) ->
  ~ well_typed_connection c -> check_connection c = Err ASTError.
Proof.
  move=> Ha Hi Hw. have Hok := connection_ok c Ha.
  case E: (check_connection c) => [[]|e]; [by case: Hw; apply Hok|].
  f_equal. clear Hok Hw. move: E. rewrite /check_connection.
  have [off Eoff] : exists off, type_check_disabled (cn_type c) = Ok off.
  { rewrite /type_check_disabled. case: (ct_attrs _) Ha => // l _. eauto. }
  rewrite Eoff. cbn [bind].
  case: (Nat.eqb _ 0); [by case|]. case: (Nat.eqb _ 0); [by case|].
  case: (_ && _); [by case|]. case: (_ && _); [by case|].
  case: (_ && _); [by case|].
  have Hf : forall x, In x (cn_from c) -> forall e', check_from c x = Err e' ->
    e' = ASTError.
  { move=> x Hx e'. rewrite /check_from /end_hardware /blame.
    have := Hi x (in_or_app _ _ _ (or_introl Hx)).
    case: (ce_inst x) => // i _. cbn [bind].
    case: (negb _); [by case|]. case: (xorb _ _); [by case|].
    case: (negb _) => //. by case. }
  have Ht : forall x, In x (cn_to c) -> forall e', check_to c x = Err e' ->
    e' = ASTError.
  { move=> x Hx e'. rewrite /check_to /end_hardware /blame.
    have := Hi x (in_or_app _ _ _ (or_intror Hx)).
    case: (ce_inst x) => // i _. cbn [bind].
    case: (negb _); [by case|]. case: (xorb _ _); [by case|].
    case: (negb _) => //. by case. }
  case E1: (forM (check_from c) _) => [[]|e1]; cbn [bind].
  - move=> E2. have [x [Hx Ex]] := forM_Err _ _ _ E2. exact: (Ht _ Hx _ Ex).
  - move=> [<-]. have [x [Hx Ex]] := forM_Err _ _ _ E1. exact: (Hf _ Hx _ Ex).
Qed.

(** ** Configurations *)
Section ConfigProofs.
Context {V : Type}.
Implicit Types (m : @mapping V).

Lemma mget_mset m i a v i' a' :
  mget (mset m i a v) i' a' =
  if eqb i' i && eqb a' a then Some v else mget m i' a'.
Proof.
  rewrite /mget /mset.
  case E: (dget m i) => [d|]; rewrite dget_dset.
  - case: (eqb_spec i' i) => [->|n]; cbn [andb]; [|done].
    by rewrite E dget_dset.
  - case: (eqb_spec i' i) => [->|n]; cbn [andb]; [|done].
    rewrite E. cbn [dget]. by case: (eqb_spec a' a).
Qed.

Lemma add_settings (ss : list (string * string * V)) m :
  match foldM add_setting ss m with
  | Ok m' =>
      NoDup (map fst ss) /\
      (forall i a, In (i, a) (map fst ss) -> mget m i a = None) /\
      (forall i a v, mget m' i a = Some v <->
         In (i, a, v) ss \/ mget m i a = Some v)
  | Err e => e = ASTError /\
      (~ NoDup (map fst ss) \/
       exists i a, In (i, a) (map fst ss) /\ mget m i a <> None)
  end.
Proof.
  elim: ss m => [|[[i a] v] ss IH] m; cbn [foldM].
  - split; [constructor|]. split=> //. move=> i a v. cbn. tauto.
  - cbn [add_setting]. case E: (mget m i a) => [w|]; cbn [bind].
    + split=> //. right. exists i, a. rewrite E. split=> //. by left.
    + have := IH (mset m i a v). case: (foldM _ _ _) => [m'|e].
      * move=> [Hnd [Hn Hm]]. split; [|split].
        -- cbn. constructor=> //. move=> H. have := Hn _ _ H.
           by rewrite mget_mset !eqb_refl.
        -- move=> i' a' [[<- <-]//|H]. have := Hn _ _ H.
           rewrite mget_mset. by case: (_ && _).
        -- move=> i' a' v'. rewrite Hm mget_mset. cbn [In].
           case: (eqb_spec i' i) => [->|ni]; cbn [andb].
           ++ case: (eqb_spec a' a) => [->|na].
              ** rewrite E. split.
                 --- move=> [H|[<-]]; [by left; right|by left; left].
                 --- move=> [[[->]|H]|H] //; [by right|by left].
              ** split; [tauto|]. move=> [[[? ?]|H]|H]; [|tauto|tauto].
                 by case: na.
           ++ split; [tauto|]. move=> [[[? ?]|H]|H]; [|tauto|tauto].
              by case: ni.
      * move=> [-> H]. split=> //. case: H => [H|[i' [a' [H1 H2]]]].
        -- left=> H'. cbn in H'. inversion H'; subst. by apply: H.
        -- move: H2. rewrite mget_mset.
           case: (eqb_spec i' i) => [Ei|ni]; cbn [andb].
           ++ case: (eqb_spec a' a) => [Ea|na].
              ** subst i' a'. move=> _. left=> H'. cbn in H'.
                 inversion H' as [|? ? Hn _]; subst. by apply: Hn.
              ** move=> H2. right. exists i', a'. split=> //. by right.
           ++ move=> H2. right. exists i', a'. split=> //. by right.
Qed.

Lemma add_defaults (ds : list (string * (string * option V))) m i a v :
  (forall j b x y, In (j, (b, x)) ds -> In (j, (b, y)) ds -> x = y) ->
  mget (fold_left add_default ds m) i a = Some v <->
  mget m i a = Some v \/
  (mget m i a = None /\ In (i, (a, Some v)) ds).
Proof.
  elim: ds m => [|[j [b d]] ds IH] m Hu; cbn [fold_left].
  - cbn. tauto.
  - rewrite IH.
    { move=> j' b' x y Hx Hy. apply: (Hu j' b'); by right. }
    cbn [add_default In].
    case E: (mget m j b) => [w|]; last case: d Hu => [dv|] Hu.
    + split.
      * move=> [H|[H1 H2]]; [by left|right]. split=> //. by right.
      * move=> [H|[H1 [[? ? ?]|H2]]]; [by left| |by right].
        subst j b. by rewrite H1 in E.
    + rewrite mget_mset.
      case: (eqb_spec i j) => [->|ni]; cbn [andb].
      * case: (eqb_spec a b) => [->|na].
        -- rewrite E. split.
           ++ move=> [[<-]|[? ?]] //. right. split=> //. by left.
           ++ move=> [//|[_ [[->]|H]]]; [by left|left].
              have := Hu j b (Some dv) (Some v) (or_introl eq_refl)
                        (or_intror H). by case=> ->.
        -- split; [tauto|].
           move=> [H|[H1 [[? ?]|H2]]]; [tauto|by case: na|tauto].
      * split; [tauto|].
        move=> [H|[H1 [[? ?]|H2]]]; [tauto|by case: ni|tauto].
    + split; [tauto|].
      move=> [H|[H1 [[? ? ?]|H2]]]; [tauto|done|tauto].
Qed.

Lemma NoDup_fst_inj {A B} (l : list (A * B)) x y z :
  NoDup (map fst l) -> In (x, y) l -> In (x, z) l -> y = z.
Proof.
  elim: l => [|[a b] l IH] //= Hn. inversion Hn as [|? ? Hni Hnd]; subst.
  move=> [[? ?]|H1] [[? ?]|H2]; subst => //.
  - have := in_map fst _ _ H2. cbn. tauto.
  - have := in_map fst _ _ H1. cbn. tauto.
  - exact: IH.
Qed.

Lemma declared_unique (insts : list (string * list (string * option V))) :
  NoDup (map fst insts) ->
  (forall i l, In (i, l) insts -> NoDup (map fst l)) ->
  forall j b x y, In (j, (b, x)) (declared insts) ->
    In (j, (b, y)) (declared insts) -> x = y.
Proof.
  move=> Hn Ha j b x y. rewrite /declared !in_flat_map.
  move=> [[i l] [H1 /in_map_iff [[b1 x1] [[? ? ?] H2]]]]. cbn in *. subst.
  move=> [[i2 l2] [H3 /in_map_iff [[b2 x2] [[? ? ?] H4]]]]. cbn in *. subst.
  have E := NoDup_fst_inj _ _ _ _ Hn H1 H3. subst l2.
  exact: (NoDup_fst_inj _ _ _ _ (Ha _ _ H1) H2 H4).
Qed.

Lemma declared_default (insts : list (string * list (string * option V)))
    i a v :
  In (i, (a, Some v)) (declared insts) <-> has_default insts i a v.
Proof.
  rewrite /declared /has_default in_flat_map. split.
  - move=> [[i' l] [H1 /in_map_iff [[b x] [[? ? ?] H2]]]]. cbn in *. subst.
    by exists l.
  - move=> [l [H1 H2]]. exists (i, l). split=> //.
    apply in_map_iff. by exists (a, Some v).
Qed.

Lemma configuration_lookup insts (ss : list (string * string * V)) m i a v :
  NoDup (map fst insts) ->
  (forall i l, In (i, l) insts -> NoDup (map fst l)) ->
  freeze_configuration (Some insts) ss = Ok m ->
  mget m i a = Some v <->
  is_set ss i a v \/
  ((forall w, ~ is_set ss i a w) /\ has_default insts i a v).
Proof.
  move=> Hn Ha. rewrite /freeze_configuration.
  have := add_settings ss []. case: (foldM _ _ _) => [m'|e] //=.
  move=> [_ [_ Hm]] [<-].
  rewrite add_defaults; [exact: declared_unique|].
  rewrite declared_default /is_set.
  have Hs : forall w, mget m' i a = Some w <-> In (i, a, w) ss.
  { move=> w. rewrite Hm. split; [by case|by left]. }
  rewrite Hs. split.
  - move=> [H|[H1 H2]]; [by left|right]. split=> // w /Hs. by rewrite H1.
  - move=> [H|[H1 H2]]; [by left|right]. split=> //.
    case E: (mget m' i a) => [w|] //. apply Hs in E. by case: (H1 w).
Qed.

Lemma configuration_plain (ss : list (string * string * V)) m i a v :
  freeze_configuration None ss = Ok m ->
  mget m i a = Some v <-> is_set ss i a v.
Proof.
  rewrite /freeze_configuration.
  have := add_settings ss []. case: (foldM _ _ _) => [m'|e] //=.
  move=> [_ [_ Hm]] [<-]. rewrite Hm. split; [by case|by left].
Qed.

Lemma configuration_duplicates insts (ss : list (string * string * V)) :
  (NoDup (map fst ss) -> exists m, freeze_configuration insts ss = Ok m) /\
  (~ NoDup (map fst ss) -> freeze_configuration insts ss = Err ASTError).
Proof.
  rewrite /freeze_configuration.
  have := add_settings ss []. case: (foldM _ _ _) => [m'|e] /=.
  - move=> [H _]. split=> //. move=> _. by eexists.
  - move=> [-> H]. split=> // Hn. case: H => [//|[i [a [_ H]]]]. by case: H.
Qed.
End ConfigProofs.

(** ** Names *)
Lemma keyword_ok n : check_keyword n = Ok tt <-> usable n.
Proof.
  rewrite /check_keyword /usable. case E: (memb n c_keywords).
  - apply memb_In in E. by split.
  - apply memb_nIn in E. by split.
Qed.
Lemma distinct_ok seen l :
  distinct_names seen l = Ok tt <->
  NoDup l /\ forall x, In x l -> ~ In x seen.
Proof.
  elim: l seen => [|x l IH] seen; cbn [distinct_names].
  - split=> // _. split=> //. constructor.
  - case E: (memb x seen).
    + apply memb_In in E. split=> // [[_ H]].
      by case: (H x (or_introl eq_refl)).
    + rewrite IH. apply memb_nIn in E. split.
      * move=> [H1 H2]. split.
        -- constructor=> //. move=> Hx. case: (H2 _ Hx). by left.
        -- move=> y [<-//|Hy] Hs. case: (H2 _ Hy). by right.
      * move=> [H1 H2]. inversion H1; subst. split=> // y Hy [Ey|Hs].
        -- by subst y.
        -- exact: (H2 y (or_intror Hy) Hs).
Qed.
Lemma distinct_err seen l e : distinct_names seen l = Err e -> e = ASTError.
Proof.
  elim: l seen => [|x l IH] seen //=. case: memb; [by case|exact: IH].
Qed.
Lemma keywords_ok l :
  forM check_keyword l = Ok tt <-> forall x, In x l -> usable x.
Proof.
  rewrite forM_Ok. split=> H x /H; by rewrite keyword_ok.
Qed.
Lemma method_ok m : check_method m = Ok tt <-> good_method m.
Proof.
  rewrite /check_method /good_method -keyword_ok -keywords_ok.
  have -> : NoDup (snd m) <-> distinct_names [] (snd m) = Ok tt.
  { rewrite distinct_ok. split; [|by case]. move=> H. by split=> // x _ []. }
  case: (check_keyword _) => [[]|e] /=; [|by split=> // [[]]].
  case: (distinct_names _ _) => [[]|e] /=; [|by split=> // [[_ []]]].
  split; [by move=> H; repeat split|by move=> [_ [_ H]]].
Qed.
Lemma method_err m e : check_method m = Err e -> e = ASTError.
Proof.
  have Hk : forall n e', check_keyword n = Err e' -> e' = ASTError.
  { move=> n e'. rewrite /check_keyword. case: memb => //. by case. }
  rewrite /check_method. case E1: (check_keyword _) => [[]|e1] /=.
  - case E2: (distinct_names _ _) => [[]|e2] /=.
    + move=> /forM_Err [x [_ H]]. exact: (Hk _ _ H).
    + move=> [<-]. exact: (distinct_err _ _ _ E2).
  - move=> [<-]. exact: (Hk _ _ E1).
Qed.

Lemma procedure_ok p :
  snd (freeze_procedure false p) = Ok tt <-> good_procedure p.
Proof.
  rewrite /freeze_procedure /good_procedure.
  have -> : (forall m, In m (pr_methods p) -> good_method m) <->
    forM check_method (pr_methods p) = Ok tt.
  { rewrite forM_Ok. split=> H m /H; by rewrite method_ok. }
  rewrite -keywords_ok.
  case: (forM check_method _) => [[]|e] /=; [|by split=> // [[]]].
  case: (forM check_keyword _) => [[]|e] /=; [|by split=> // [[_ []]]].
  rewrite distinct_ok. split; [by case|]. move=> [_ [_ H]].
  by split=> // x _ [].
Qed.

Lemma component_ok c :
  snd (freeze_component false c) = Ok tt <-> good_component c.
Proof.
  rewrite /freeze_component /good_component -keywords_ok.
  case Ehw: (co_hardware c); case: (co_control c) => //=.
  - split=> // [[H]]. by case: H.
  - case: (co_mutexes c) => [|x l] /=; last first.
    { by split=> // [[_ [H _]]]; case: (H eq_refl). }
    case: (co_semaphores c) => [|x l] /=; last first.
    { by split=> // [[_ [H _]]]; case: (H eq_refl). }
    case: (forM check_keyword _) => [[]|e] /=; [|by split=> // [[_ [_ []]]]].
    rewrite distinct_ok. split.
    + move=> [H _]. split; [by case|]. by [].
    + move=> [_ [_ [_ H]]]. by split=> // x _ [].
  - case: (forM check_keyword _) => [[]|e] /=; [|by split=> // [[_ [_ []]]]].
    rewrite distinct_ok. split.
    + move=> [H _]. split; [by case|]. by [].
    + move=> [_ [_ [_ H]]]. by split=> // x _ [].
  - case: (forM check_keyword _) => [[]|e] /=; [|by split=> // [[_ [_ []]]]].
    rewrite distinct_ok. split.
    + move=> [H _]. split; [by case|]. by [].
    + move=> [_ [_ [_ H]]]. by split=> // x _ [].
Qed.

Lemma method_refreeze m f e :
  freeze_method false m = (f, Err e) -> freeze_method f m = (f, Err e).
Proof.
  rewrite /freeze_method. case E: (check_method m) => [[]|e'] //.
  by move=> [? ?]; subst.
Qed.
Lemma method_freeze_ok m :
  snd (freeze_method false m) = Ok tt <-> good_method m.
Proof.
  rewrite -method_ok /freeze_method. by case: (check_method m) => [[]|e].
Qed.
