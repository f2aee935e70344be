(** Proofs about freezing: the types of configuration values. *)
From Coq Require Import List Bool String ZArith Arith Lia ssreflect ssrbool.
From Verif Require Import Prelude Freeze_Model Freeze_Spec Freeze_Proofs.
Import ListNotations.
Open Scope string_scope.
Open Scope list_scope.

(** The local functions of [types_compatible], named. *)
Section Local.
Variable tc : attr -> value -> res (option value).
Fixpoint fields_ (l : list attr) (d : list (string * value))
  : res (option (list (string * value))) :=
  match l with
  | [] => Ok (Some d)
  | x :: l' =>
      match dget d (attr_name x) with
      | None => Err KeyError
      | Some w =>
          r <- tc x w ;;
          match r with
          | None => Ok None
          | Some w' => fields_ l' (dset d (attr_name x) w')
          end
      end
  end.
Definition one_ (ty : atype) (v : value) : res (option value) :=
  match ty with
  | ATName s => Ok (if scalar_ok v s then Some v else None)
  | ATStruct l =>
      match v with
      | VDict d =>
          r <- fields_ l (fold_left fill_default l d) ;;
          Ok (match r with None => None | Some d' => Some (VDict d') end)
      | _ => Err OtherException
      end
  end.
Definition each_ (ty : atype) : list value -> res (option (list value)) :=
  fix each vs :=
  match vs with
  | [] => Ok (Some [])
  | v :: vs' =>
      r <- one_ ty v ;;
      match r with
      | None => Ok None
      | Some v' =>
          r' <- each vs' ;;
          Ok (match r' with
              | None => None | Some vs'' => Some (v' :: vs'') end)
      end
  end.
End Local.

Lemma tc_eq n ty array dflt v :
  types_compatible (Attr n ty array dflt) v =
  if array then
    match v with
    | VList l =>
        r <- each_ types_compatible ty l ;;
        Ok (match r with None => None | Some l' => Some (VList l') end)
    | VTuple l =>
        r <- each_ types_compatible ty l ;;
        Ok (match r with None => None | Some l' => Some (VTuple l') end)
    | _ => Err AssertionError
    end
  else one_ types_compatible ty v.
Proof. reflexivity. Qed.

Section AttrInd.
Variable P : attr -> Prop.
Hypothesis H : forall n ty arr d,
  match ty with ATStruct l => Forall P l | ATName _ => True end ->
  P (Attr n ty arr d).
Fixpoint attr_ind' (x : attr) : P x :=
  match x with
  | Attr n ty arr d =>
      H n ty arr d
        match ty with
        | ATName _ => I
        | ATStruct l =>
            (fix go (l : list attr) : Forall P l :=
               match l with
               | [] => Forall_nil P
               | y :: l' => Forall_cons y (attr_ind' y) (go l')
               end) l
        end
  end.
End AttrInd.

Lemma scalar_okP v s : plain v -> scalar_ok v s = true -> name_holds s v.
Proof.
  move=> [z|q|t|l _|d _] /memb_In; cbn; intuition.
Qed.
Lemma scalar_okC v s : name_holds s v -> scalar_ok v s = true.
Proof.
  case: v => [z|q|t|l|l|d|] H; cbn [scalar_ok]; try done;
    cbn [name_holds] in H; apply memb_In; cbn; intuition.
Qed.

Definition plaind (d : list (string * value)) : Prop :=
  Forall (fun kv => plain (snd kv)) d.

Lemma plaind_dset d k v : plaind d -> plain v -> plaind (dset d k v).
Proof.
  rewrite /plaind. elim: d => [|[k' v'] d IH] Hd Hv; cbn [dset].
  - by constructor.
  - inversion Hd; subst. case: eqb; constructor=> //. exact: IH.
Qed.
Lemma plaind_dget d k v : plaind d -> dget d k = Some v -> plain v.
Proof.
  rewrite /plaind Forall_forall => Hd H. apply dget_In in H. exact: (Hd _ H).
Qed.
Lemma plaind_fill l d :
  (forall x, In x l -> forall v, attr_default x = Some v -> plain v) ->
  plaind d -> plaind (fold_left fill_default l d).
Proof.
  elim: l d => [|x l IH] d Hl Hd //=. apply: IH.
  - move=> y Hy. apply: Hl. by right.
  - rewrite /fill_default. case: (dget d _) => // .
    case E: (attr_default x) => [v|] //. apply: plaind_dset => //.
    apply: (Hl x) => //. by left.
Qed.

(** What a call does to the value, whatever the types. *)
Definition sound_for (x : attr) : Prop :=
  forall v v', plain_attr x -> plain v ->
  types_compatible x v = Ok (Some v') -> typed x v' /\ plain v'.

Lemma fields_sound l d d' :
  Forall sound_for l -> (forall x, In x l -> plain_attr x) ->
  NoDup (map attr_name l) -> plaind d ->
  fields_ types_compatible l d = Ok (Some d') ->
  plaind d' /\
  (forall x, In x l -> exists w, dget d' (attr_name x) = Some w /\ typed x w) /\
  (forall k, ~ In k (map attr_name l) -> dget d' k = dget d k).
Proof.
  elim: l d => [|x l IH] d Hs Hp Hn Hd; cbn [fields_].
  - by move=> [<-].
  - inversion Hs as [|? ? Hsx Hsl]; subst. inversion Hn as [|? ? Hnx Hnl]; subst.
    case E: (dget d (attr_name x)) => [w|] //.
    case Et: (types_compatible x w) => [[w'|]|] //=.
    have [Htw Hpw] := Hsx w w' (Hp x (or_introl eq_refl))
                        (plaind_dget _ _ _ Hd E) Et.
    move=> Hf.
    have [H1 [H2 H3]] := IH _ Hsl (fun y Hy => Hp y (or_intror Hy)) Hnl
                           (plaind_dset _ _ _ Hd Hpw) Hf.
    split=> //. split.
    + move=> y [<-|Hy]; [|exact: H2]. exists w'. split=> //.
      by rewrite H3 // dget_dset_eq.
    + move=> k Hk. rewrite H3.
      * move=> Hi. apply: Hk. by right.
      * rewrite dget_dset_ne //. move=> Ek. apply: Hk. by left.
Qed.

Lemma one_sound ty v v' :
  match ty with ATStruct l => Forall sound_for l | ATName _ => True end ->
  plain_type ty -> plain v ->
  one_ types_compatible ty v = Ok (Some v') -> typed1 ty v' /\ plain v'.
Proof.
  case: ty => [s|l] Hs Ht Hv; cbn [one_].
  - case E: (scalar_ok v s) => //. move=> [<-]. split=> //. constructor.
    exact: scalar_okP.
  - inversion Hv; subst=> //.
    case E: (fields_ _ _ _) => [[d'|]|] //= [<-].
    inversion Ht as [|? Hp Hn]; subst.
    have Hpd : plaind (fold_left fill_default l d).
    { apply: plaind_fill => // x Hx w Hw.
      have := Hp x Hx. case=> n ty arr dflt H1 _. move: Hw Hx.
      case: x => n' ty' arr' dflt' /= -> Hx.
      have Hpx := Hp _ Hx. inversion Hpx; subst. auto. }
    have [H1 [H2 _]] := fields_sound _ _ _ Hs Hp Hn Hpd E.
    split; constructor=> //.
Qed.

Lemma each_sound ty vs vs' :
  match ty with ATStruct l => Forall sound_for l | ATName _ => True end ->
  plain_type ty -> Forall plain vs ->
  each_ types_compatible ty vs = Ok (Some vs') ->
  Forall (typed1 ty) vs' /\ Forall plain vs'.
Proof.
  move=> Hs Ht. elim: vs vs' => [|v vs IH] vs' Hv; cbn [each_].
  - by move=> [<-].
  - inversion Hv as [|? ? Hv1 Hvs]; subst.
    case E: (one_ _ ty v) => [[w|]|] //=.
    case E': (each_ _ ty vs) => [[ws|]|] //= [<-].
    have [H1 H2] := one_sound _ _ _ Hs Ht Hv1 E.
    have [H3 H4] := IH _ Hvs E'.
    by split; constructor.
Qed.

Lemma sound x : sound_for x.
Proof.
  induction x as [n ty arr d Hty] using attr_ind'.
  move=> v v' Hp Hv. rewrite tc_eq. inversion Hp; subst. case: arr Hp => Hp.
  - inversion Hv; subst=> //.
    case E: (each_ _ ty l) => [[l'|]|] //= [<-].
    have Hvl : Forall plain l by [].
    have Hpt : plain_type ty by [].
    have [R1 R2] := each_sound _ _ _ Hty Hpt Hvl E.
    split; by constructor.
  - move=> E. have Hpt : plain_type ty by [].
    have [R1 R2] := one_sound _ _ _ Hty Hpt Hv E.
    split=> //. by constructor.
Qed.

(** Well-typed values are accepted as they are. *)
Lemma dset_same (d : list (string * value)) k v :
  dget d k = Some v -> dset d k v = d.
Proof.
  elim: d => [|[k' v'] d IH]; [done|]. cbn [dget dset].
  case: (eqb_spec k k') => [E|n].
  - by move=> [->].
  - move=> H. by rewrite (IH H).
Qed.
Lemma fill_same l d :
  (forall x, In x l -> dget d (attr_name x) <> None) ->
  fold_left fill_default l d = d.
Proof.
  elim: l => [|x l IH] H //=. rewrite {2}/fill_default.
  have := H x (or_introl eq_refl). case: (dget d (attr_name x)) => // w _.
  apply: IH => y Hy. apply: H. by right.
Qed.

Definition complete_for (x : attr) : Prop :=
  forall v, typed x v -> types_compatible x v = Ok (Some v).

Lemma one_complete ty v :
  match ty with ATStruct l => Forall complete_for l | ATName _ => True end ->
  typed1 ty v -> one_ types_compatible ty v = Ok (Some v).
Proof.
  move=> Hc Ht. inversion Ht as [s w Hs|l d Hf]; subst; cbn [one_].
  - by rewrite scalar_okC.
  - rewrite fill_same.
    { move=> x /Hf [w [-> _]] //. }
    suff -> : fields_ types_compatible l d = Ok (Some d) by [].
    clear Ht. elim: l Hc Hf => [|x l IH] Hc Hf //. cbn [fields_].
    inversion Hc as [|? ? Hx Hl]; subst.
    have [w [E Hw]] := Hf x (or_introl eq_refl).
    rewrite E (Hx _ Hw). cbn [bind]. rewrite dset_same //.
    apply: IH => // y Hy. apply: Hf. by right.
Qed.

Lemma complete x : complete_for x.
Proof.
  induction x as [n ty arr d Hty] using attr_ind'.
  move=> v Ht. rewrite tc_eq. inversion Ht as [? ? ? ? H1|? ? ? l H1]; subst.
  - by apply: one_complete.
  - suff -> : each_ types_compatible ty l = Ok (Some l) by [].
    clear Ht. elim: l H1 => [|v l IH] Hl //. cbn [each_].
    inversion Hl as [|? ? Hv Hl']; subst.
    rewrite (one_complete _ _ Hty Hv) /=. by rewrite IH.
Qed.

(** Settings. *)
Lemma find_attr_In insts i a x :
  find_attr insts i a = Some x ->
  attr_name x = a /\ exists l, In (i, l) insts /\ In x l.
Proof.
  rewrite /find_attr. case E: (dget insts i) => [l|] //.
  move=> H. have [H1 H2] := find_some _ _ H. apply eqb_eq in H2.
  split=> //. exists l. split=> //. by apply dget_In in E.
Qed.

Lemma find_attr_unique insts i l x :
  NoDup (map fst insts) -> NoDup (map attr_name l) ->
  In (i, l) insts -> In x l -> find_attr insts i (attr_name x) = Some x.
Proof.
  move=> Hn Hl Hi Hx. rewrite /find_attr.
  have -> : dget insts i = Some l.
  { case E: (dget insts i) => [l'|].
    - f_equal. apply dget_In in E. exact: (NoDup_fst_inj _ _ _ _ Hn E Hi).
    - apply dget_None in E. case: E. rewrite /dkeys.
      exact: (in_map fst _ _ Hi). }
  clear Hi. elim: l Hl Hx => [|y l IH] //= Hl.
  inversion Hl as [|? ? Hny Hnl]; subst.
  move=> [->|Hx].
  - by rewrite String.eqb_refl.
  - case: (String.eqb_spec (attr_name y) (attr_name x)) => E; [|exact: IH].
    case: Hny. rewrite E. by apply in_map.
Qed.

Lemma settings_typed insts ss ss' :
  NoDup (map fst insts) ->
  (forall i l, In (i, l) insts ->
     NoDup (map attr_name l) /\ forall x, In x l -> plain_attr x) ->
  (forall i a v, In (i, a, v) ss -> plain v) ->
  check_settings insts ss = Ok ss' ->
  map fst ss' = map fst ss /\
  forall i l x v, In (i, l) insts -> In x l ->
    In (i, attr_name x, v) ss' -> typed x v.
Proof.
  move=> Hn Hp Hpl. rewrite /check_settings => /mapM_Ok H.
  elim: H Hpl => [|[[i a] v] [[i' a'] v'] ss1 ss1' Hs _ IH] Hpl.
  - by split.
  - have [IH1 IH2] : _ := IH (fun i a v H => Hpl i a v (or_intror H)).
    have Hv : plain v := Hpl i a v (or_introl eq_refl).
    move: Hs. rewrite /check_setting.
    case E: (find_attr insts i a) => [x|].
    + case Et: (types_compatible x v) => [[w|]|] //=.
      move=> [? ? ?]; subst i' a' w. split; [by rewrite /= IH1|].
      have [Ea [l [Hl Hx]]] := find_attr_In _ _ _ _ E.
      move=> j l' y u Hl' Hy [[? Ey ?]|Hu]; [|exact: (IH2 _ _ _ _ Hl' Hy Hu)].
      subst j u.
      have [Hnl' _] := Hp _ _ Hl'.
      have E' := find_attr_unique _ _ _ _ Hn Hnl' Hl' Hy.
      rewrite -Ey E in E'. move: E' => [<-].
      have [_ Hpx] := Hp _ _ Hl.
      exact: (proj1 (sound _ _ _ (Hpx _ Hx) Hv Et)).
    + move=> [? ? ?]; subst i' a' v'. split; [by rewrite /= IH1|].
      move=> j l' y u Hl' Hy [[? Ey ?]|Hu]; [|exact: (IH2 _ _ _ _ Hl' Hy Hu)].
      subst j u. have [Hnl' _] := Hp _ _ Hl'.
      have E' := find_attr_unique _ _ _ _ Hn Hnl' Hl' Hy.
      by rewrite -Ey E in E'.
Qed.

(** The effective configuration is well typed if the defaults are. *)
Lemma freeze_settings_typed insts ss m :
  NoDup (map fst insts) ->
  (forall i l, In (i, l) insts ->
     NoDup (map attr_name l) /\ forall x, In x l -> plain_attr x) ->
  (forall i a v, In (i, a, v) ss -> plain v) ->
  freeze_settings insts ss = Ok m ->
  forall i l x v, In (i, l) insts -> In x l ->
    mget m i (attr_name x) = Some v ->
    typed x v \/
    (attr_default x = Some v /\ forall w, ~ In (i, attr_name x, w) ss).
Proof.
  move=> Hn Hp Hpl. rewrite /freeze_settings.
  case E: (check_settings insts ss) => [ss'|] //=. move=> Hf.
  have [Hk Ht] := settings_typed _ _ _ Hn Hp Hpl E.
  move=> i l x v Hl Hx.
  have Hn2 : NoDup (map fst (map (fun x => (fst x, map (fun a =>
     (attr_name a, attr_default a)) (snd x))) insts)) by rewrite map_map.
  have Ha2 : forall i l, In (i, l) (map (fun x => (fst x, map (fun a =>
     (attr_name a, attr_default a)) (snd x))) insts) -> NoDup (map fst l).
  { move=> j k /in_map_iff [[j' k'] [[? ?] Hj]]; subst. cbn.
    rewrite map_map. exact: (proj1 (Hp _ _ Hj)). }
  have Hlook := configuration_lookup _ ss' m i (attr_name x) v Hn2 Ha2 Hf.
  move=> /Hlook [H|[H1 H2]]; [left; exact: (Ht _ _ _ _ Hl Hx H)|right].
  move: H2 => [k [/in_map_iff [[j' k'] [[? ?] Hj]] Hin]]. cbn in *. subst.
  move: Hin => /in_map_iff [y [[Ey Ed] Hy]].
  have E1 := NoDup_fst_inj _ _ _ _ Hn Hl Hj. subst k'.
  have [Hnl _] := Hp _ _ Hl.
  have E2 := find_attr_unique _ _ _ _ Hn Hnl Hl Hx.
  have E3 := find_attr_unique _ _ _ _ Hn Hnl Hl Hy.
  rewrite Ey E2 in E3. move: E3 => [?]; subst y. split=> //.
  move=> w Hw. have Hk2 := in_map fst _ _ Hw. rewrite -Hk in Hk2.
  move: Hk2 => /in_map_iff [[[a b] u] [[? ?] Hu]]. cbn in *. subst.
  exact: (H1 u Hu).
Qed.

(** ** Counterexamples *)
Lemma c49_range_counterexample : exists insts ss m i x v,
  freeze_settings insts ss = Ok m /\
  (exists l, In (i, l) insts /\ In x l) /\
  x = Attr "size" (ATName "uint64_t") false None /\
  mget m i (attr_name x) = Some v /\ ~ in_range "uint64_t" v.
Proof.
  exists [("c", [Attr "size" (ATName "uint64_t") false None])].
  exists [("c", "size", VInt (-5))]. eexists. exists "c".
  exists (Attr "size" (ATName "uint64_t") false None). exists (VInt (-5)). split; [reflexivity|].
  split; [eexists; split; [left; reflexivity|left; reflexivity]|]. split; [reflexivity|]. split; [reflexivity|].
  intros H. destruct (H eq_refl) as [Hl _]. exact (Hl eq_refl).
Qed.
Lemma c49_default_counterexample : exists insts ss m i x v,
  freeze_settings insts ss = Ok m /\
  (exists l, In (i, l) insts /\ In x l) /\
  mget m i (attr_name x) = Some v /\ plain v /\ ~ typed x v.
Proof.
  exists [("c", [Attr "n" (ATName "int") false (Some (VStr "three"))])].
  exists []. eexists. exists "c".
  exists (Attr "n" (ATName "int") false (Some (VStr "three"))).
  exists (VStr "three"). split; [reflexivity|].
  split; [eexists; split; [left; reflexivity|left; reflexivity]|]. split; [reflexivity|]. split.
  - constructor.
  - intros H; inversion H as [? ? ? ? H1|]; subst.
    inversion H1 as [? ? H2|]; subst. discriminate H2.
Qed.
Lemma c49_missing_counterexample : exists x v,
  plain_attr x /\ plain v /\ ~ typed x v /\
  types_compatible x v = Err KeyError.
Proof.
  exists (Attr "s" (ATStruct [Attr "f" (ATName "int") false None]) false None).
  exists (VDict []). repeat split.
  - intros v H. discriminate H.
  - constructor.
    + intros y [<-|[]]. constructor; [discriminate|constructor].
    + repeat constructor. intros [].
  - repeat constructor.
  - intros H. inversion H as [? ? ? ? H1|]; subst.
    inversion H1 as [|? ? H2]; subst.
    destruct (H2 _ (or_introl eq_refl)) as [w [E _]]. discriminate E.
Qed.
Lemma c55_connection_counterexample : exists c f e,
  freeze_connection false c = (f, Err e) /\
  snd (freeze_connection f c) = Ok tt.
Proof.
  exists (Connection ex_rpc [] [CEnd (Some ex_server) ex_in] None).
  do 2 eexists. split; reflexivity.
Qed.
Lemma c55_procedure_counterexample : exists p f e,
  freeze_procedure false p = (f, Err e) /\
  snd (freeze_procedure f p) = Ok tt.
Proof.
  exists (ProcedureNames [("f", []); ("f", ["x"])] []).
  do 2 eexists. split; reflexivity.
Qed.
Lemma c56_struct_counterexample : exists attrs,
  snd (freeze_struct false attrs) = Ok tt /\ ~ NoDup attrs.
Proof.
  exists ["x"; "x"]. split; [reflexivity|].
  intros H. inversion H as [|? ? Hn _]; subst. apply Hn. left. reflexivity.
Qed.
Lemma c56_hardware_counterexample : exists c,
  snd (freeze_component false c) = Ok tt /\ co_hardware c = true /\
  co_binary_semaphores c <> [].
Proof.
  exists (ComponentNames false true [] [] [] [] ["b"] []).
  repeat split. discriminate.
Qed.
