(** Proofs about the runner: C46, C47. *)
From Coq Require Import ssreflect ssrbool List Bool Arith NArith ZArith String Ascii Lia.
From Verif Require Import Prelude DecStr Chars Context_Model Context_Proofs2 Runner_Model Runner_Spec.
Import ListNotations.
Open Scope string_scope.
Open Scope list_scope.

(** ** C46: the set-up *)
Definition setup_l (pd : string) (l : list inst) : rstate := fold_left (setup_step pd) l (mk_rstate [] [] [] []).
Lemma setup_snoc pd l i : setup_l pd (l ++ [i]) = setup_step pd (setup_l pd l) i.
Proof. by rewrite /setup_l fold_left_app. Qed.

Definition cnode_name (k : string) := (k ++ "_cnode")%string.
Definition pd_name (k : string) := (k ++ "_group_bin_pd")%string.


Lemma cnode_pd k k' : cnode_name k <> pd_name k'.
Proof.
  move=> E. have := f_equal Context_Spec.last_char E.
  rewrite /cnode_name /pd_name.
  have -> : (k ++ "_cnode" = (k ++ "_cnod") ++ "e")%string by rewrite string_app_assoc.
  have -> : (k' ++ "_group_bin_pd" = (k' ++ "_group_bin_p") ++ "d")%string by rewrite string_app_assoc.
  by rewrite !Context_Proofs.last_char_app.
Qed.
Lemma cnode_inj k k' : cnode_name k = cnode_name k' -> k = k'. Proof. exact: string_app_inj_r. Qed.
Lemma pd_inj k k' : pd_name k = pd_name k' -> k = k'. Proof. exact: string_app_inj_r. Qed.

Lemma new_obj_spec os t n l os' i : new_obj os t n l = (os', i) ->
  find_obj os' n 0 = Some i /\ (forall m j, find_obj os m 0 = Some j -> find_obj os' m 0 = Some j) /\
  (find_obj os n 0 = None -> nth_error os' i = Some (mk_kobj n t l)) /\
  (forall j o, nth_error os j = Some o -> nth_error os' j = Some o) /\
  (forall m, m <> n -> find_obj os m 0 = None -> find_obj os' m 0 = None).
Proof.
  rewrite /new_obj. case E: (find_obj os n 0) => [x|] [<- <-].
  - by [].
  - split; [|split; [|split; [|split]]].
    + by rewrite find_obj_app_None //= String.eqb_refl.
    + move=> m j. exact: find_obj_app.
    + move=> _. by rewrite nth_error_app2 // Nat.sub_diag.
    + move=> j o H. rewrite nth_error_app1 //. apply/nth_error_Some. by rewrite H.
    + move=> m ne H. rewrite find_obj_app_None //=. case: (String.eqb_spec n m) => // e. by case: ne.
Qed.

(** What holds after any number of instances. *)
Record setup_ok (pd : string) (l : list inst) (s : rstate) : Prop := mk_setup_ok {
  so_keys : dkeys (rs_pds s) = dkeys (rs_cspaces s) /\ dkeys (rs_addr s) = dkeys (rs_cspaces s);
  so_nodup : NoDup (dkeys (rs_cspaces s));
  so_in : forall k, In k (dkeys (rs_cspaces s)) <-> exists i, In i l /\ in_hardware i = false /\ in_space i = k;
  so_fresh : forall k, ~ In k (dkeys (rs_cspaces s)) ->
     find_obj (rs_objs s) (cnode_name k) 0 = None /\ find_obj (rs_objs s) (pd_name k) 0 = None;
  so_cnode : forall k c, dget (rs_cspaces s) k = Some c -> find_obj (rs_objs s) (cnode_name k) 0 = Some c /\
     nth_error (rs_objs s) c = Some (mk_kobj (cnode_name k) "seL4_CapTableObject" k);
  so_pd : forall k c, dget (rs_pds s) k = Some c -> find_obj (rs_objs s) (pd_name k) 0 = Some c /\
     nth_error (rs_objs s) c = Some (mk_kobj (pd_name k) pd k);
  so_addr : forall k, dget (rs_addr s) k =
     option_map (fun p => (sanitise (k ++ "_group_bin")%string, p)) (dget (rs_pds s) k)
}.

Lemma dkeys_dset_new V (d : dict string V) k v : ~ In k (dkeys d) -> dkeys (dset d k v) = dkeys d ++ [k].
Proof.
  elim: d => [|[k0 v0] d IH] //= H. case: (String.eqb_spec k k0) => [e|ne].
  - exfalso. apply: H. by left.
  - rewrite /= IH //. by move=> H1; apply: H; right.
Qed.

Lemma setup_ok_lemma pd l : setup_ok pd l (setup_l pd l).
Proof.
  elim/rev_ind: l => [|i l IH].
  { constructor=> //=. by constructor. by move=> k; split=> // [[i []]]. }
  rewrite setup_snoc /setup_step. case: IH => [[E1 E2] Hnd Hin Hfr Hcn Hpd Had].
  set s := setup_l pd l in E1 E2 Hnd Hin Hfr Hcn Hpd Had *.
  have Hsame : (in_hardware i = true \/ In (in_space i) (dkeys (rs_cspaces s))) ->
    forall k, In k (dkeys (rs_cspaces s)) <-> exists i0, In i0 (l ++ [i]) /\ in_hardware i0 = false /\ in_space i0 = k.
  { move=> Hor k. rewrite Hin. split.
    - move=> [i0 [H1 H2]]. exists i0. split=> //. apply: in_or_app. by left.
    - move=> [i0 [H1 [H2 H3]]]. destruct (in_app_or _ _ _ H1) as [H|[H|[]]]; first by exists i0.
      subst i0. case: Hor => H; first by rewrite H in H2. apply/Hin. by rewrite -H3. }
  case Eh: (in_hardware i).
  { constructor=> //. apply: Hsame. by left. }
  case Em: (memb _ _).
  { constructor=> //. apply: Hsame. right. by apply/memb_In. }
  move/memb_nIn in Em. set key := in_space i in Em Hsame *.
  case En1: (new_obj (rs_objs s) _ _ _) => [os1 cnode]. case En2: (new_obj os1 _ _ _) => [os2 pdo].
  have [F1 [M1 [N1 [K1 Z1]]]] := new_obj_spec _ _ _ _ _ _ En1.
  have [F2 [M2 [N2 [K2 Z2]]]] := new_obj_spec _ _ _ _ _ _ En2.
  have [Fc Fp] := Hfr _ Em.
  have Fp1 : find_obj os1 (pd_name key) 0 = None by apply: Z1 => //; move=> e; apply: (cnode_pd key key).
  have Hkc : forall V (d : dict string V) v, dkeys d = dkeys (rs_cspaces s) -> dkeys (dset d key v) = dkeys (rs_cspaces s) ++ [key].
  { move=> V d v Hd. rewrite dkeys_dset_new ?Hd //. }
  constructor; cbn [rs_objs rs_cspaces rs_pds rs_addr].
  - by rewrite !Hkc.
  - exact: NoDup_dset.
  - move=> k. rewrite dkeys_dset Hin. split.
    + case=> [->|[i0 [H1 H2]]]; [exists i|exists i0]; (split; [apply: in_or_app|done]); [right; by left|by left].
    + move=> [i0 [H1 [H2 H3]]]. destruct (in_app_or _ _ _ H1) as [H|[H|[]]]; first by right; exists i0.
      subst i0. by left.
  - move=> k. rewrite dkeys_dset => Hk. have [G1 G2] := Hfr k ltac:(by move=> H; apply: Hk; right).
    have Hne : k <> key by move=> e; apply: Hk; left.
    split.
    + apply: Z2; first by apply: cnode_pd. apply: Z1 => //. by move=> /cnode_inj.
    + apply: Z2; first by move=> /pd_inj. apply: Z1 => //. move=> e. apply: (cnode_pd key k). by rewrite /cnode_name e.
  - move=> k c. rewrite dget_dset. case: (eqb_spec k key) => [->|ne].
    + move=> [<-]. split; first by apply: M2. apply: K2. exact: N1.
    + move=> /Hcn [G1 G2]. split; [by apply: M2; apply: M1|by apply: K2; apply: K1].
  - move=> k c. rewrite dget_dset. case: (eqb_spec k key) => [->|ne].
    + move=> [<-]. split; first by []. exact: N2.
    + move=> /Hpd [G1 G2]. split; [by apply: M2; apply: M1|by apply: K2; apply: K1].
  - move=> k. rewrite !dget_dset. case: (eqb_spec k key) => [->|ne] //.
Qed.

Lemma setup_keys_lemma pd a : let s := setup pd a in
  NoDup (dkeys (rs_cspaces s)) /\ dkeys (rs_pds s) = dkeys (rs_cspaces s) /\ dkeys (rs_addr s) = dkeys (rs_cspaces s) /\
  forall k, In k (dkeys (rs_cspaces s)) <-> is_space a k.
Proof. case: (setup_ok_lemma pd (as_insts a)) => [[E1 E2] Hnd Hin Hfr Hcn Hpd Had]. by split. Qed.

Lemma setup_distinct_lemma pd a : let s := setup pd a in forall k k', k <> k' -> is_space a k -> is_space a k' ->
  exists c c' p p' n n', dget (rs_cspaces s) k = Some c /\ dget (rs_cspaces s) k' = Some c' /\
    dget (rs_pds s) k = Some p /\ dget (rs_pds s) k' = Some p' /\
    dget (rs_addr s) k = Some (n, p) /\ dget (rs_addr s) k' = Some (n', p') /\
    NoDup [c; c'; p; p'].
Proof.
  move=> s k k' ne Hk Hk'. case: (setup_ok_lemma pd (as_insts a)) => [[E1 E2] Hnd Hin Hfr Hcn Hpd Had].
  rewrite -/(setup pd a) -/s in E1 E2 Hnd Hin Hfr Hcn Hpd Had.
  have Get : forall k, is_space a k -> exists c p, dget (rs_cspaces s) k = Some c /\ dget (rs_pds s) k = Some p.
  { move=> x /Hin Hx. have Hx2 : In x (dkeys (rs_pds s)) by rewrite E1.
    move: Hx Hx2 => /dget_keys Hx /dget_keys Hx2.
    case G1: (dget (rs_cspaces s) x) Hx => [c|] // _. case G2: (dget (rs_pds s) x) Hx2 => [p|] // _. by exists c, p. }
  have [c [p [C P]]] := Get _ Hk. have [c' [p' [C' P']]] := Get _ Hk'.
  exists c, c', p, p'. do 2 eexists. do 4 (split; [eassumption|]). rewrite !Had P P' /=. do 2 (split; [reflexivity|]).
  have [_ Oc] := Hcn _ _ C. have [_ Oc'] := Hcn _ _ C'. have [_ Op] := Hpd _ _ P. have [_ Op'] := Hpd _ _ P'.
  have D : forall x y ox oy, nth_error (rs_objs s) x = Some ox -> nth_error (rs_objs s) y = Some oy ->
    ko_name ox <> ko_name oy -> x <> y.
  { move=> x y ox oy Hx Hy Hne e. subst y. apply: Hne. congruence. }
  have H1 : c <> c' by apply: (D _ _ _ _ Oc Oc') => /= /cnode_inj.
  have H2 : p <> p' by apply: (D _ _ _ _ Op Op') => /= /pd_inj.
  have H3 : c <> p by apply: (D _ _ _ _ Oc Op) => /= /cnode_pd.
  have H4 : c <> p' by apply: (D _ _ _ _ Oc Op') => /= /cnode_pd.
  have H5 : c' <> p by apply: (D _ _ _ _ Oc' Op) => /= /cnode_pd.
  have H6 : c' <> p' by apply: (D _ _ _ _ Oc' Op') => /= /cnode_pd.
  repeat constructor; rewrite /=; intuition congruence.
Qed.

(** The objects behind them are what they should be. *)
Lemma setup_objects_lemma pd a : let s := setup pd a in forall k c, 
  (dget (rs_cspaces s) k = Some c -> nth_error (rs_objs s) c = Some (mk_kobj (k ++ "_cnode")%string "seL4_CapTableObject" k)) /\
  (dget (rs_pds s) k = Some c -> nth_error (rs_objs s) c = Some (mk_kobj (k ++ "_group_bin_pd")%string pd k)).
Proof.
  move=> s k c. case: (setup_ok_lemma pd (as_insts a)) => [_ _ _ _ Hcn Hpd _].
  split=> H; [by have [] := Hcn _ _ H|by have [] := Hpd _ _ H].
Qed.

(** Resolution of items. *)
Lemma py_index_In A (l : list A) z a : py_index l z = Ok a -> In a l.
Proof.
  rewrite /py_index. case: (Z.ltb (if _ then _ else _) 0) => //. case E: (nth_error _ _) => [x|] // [<-].
  exact: nth_error_In E.
Qed.
Lemma resolve_in pyint a item e key : resolve pyint a item = Ok (e, key) ->
  entity_in a e /\ key = option_map in_space (entity_inst e).
Proof.
  rewrite /resolve. case: (split_slash item) => [|k0 rest] //. case: eqb.
  { case: rest => [|k1 _] //. case E: (find _ _) => [i|] // [<- <-].
    have [Hin _] := find_some _ _ E. by []. }
  case: eqb.
  { case: rest => [|k1 rest] //. case E: (find _ _) => [c|] //. have [Hc _] := find_some _ _ E.
    case: rest => [|k2 rest] //. case: eqb.
    - case: rest => [|k3 _] //. case: (pyint k3) => [z|] //=. case Ei: (py_index _ _) => [i|] //= [<- <-].
      by have Hi := py_index_In _ _ _ _ Ei.
    - case: eqb => //. case: rest => [|k3 _] //. case: (pyint k3) => [z|] //=. case Ei: (py_index _ _) => [i|] //= [<- <-].
      by have Hi := py_index_In _ _ _ _ Ei. }
  case: eqb => // [[<- <-]]. by [].
Qed.

(** An item is its parts, joined by slashes. *)
Fixpoint tail_text (l : list string) : string :=
  match l with [] => "" | w :: l => String "/" (w ++ tail_text l) end.
Lemma split_join s : exists w ws, split_slash s = w :: ws /\ s = (w ++ tail_text ws)%string.
Proof.
  elim: s => [|c s [w [ws [E Es]]]]; first by exists "", [].
  cbn [split_slash]. rewrite E. case: (Ascii.eqb_spec c "/") => [->|N].
  - exists "", (w :: ws). by rewrite {1}Es.
  - exists (String c w), ws. by rewrite {1}Es.
Qed.
Lemma tail_ignored l : ignored (tail_text l).
Proof. case: l => [|w l]; [by left|right]. by exists (w ++ tail_text l)%string. Qed.
Lemma py_index_indexed A (l : list A) z a : py_index l z = Ok a -> indexed l z a.
Proof.
  rewrite /py_index. cbv zeta.
  destruct (z <? 0)%Z eqn:Hz; [destruct (z + _ <? 0)%Z eqn:H|rewrite Hz; rename Hz into H] => //.
  - apply Z.ltb_ge in H. destruct (nth_error _ _) as [x|] eqn:E => // [[<-]].
    exists (Z.to_nat (z + Z.of_nat (List.length l))). split=> //. right. rewrite Z2Nat.id //. lia.
  - apply Z.ltb_ge in H. destruct (nth_error _ _) as [x|] eqn:E => // [[<-]].
    exists (Z.to_nat z). split=> //. left. by rewrite Z2Nat.id.
Qed.
Lemma resolve_names pyint a item e key : resolve pyint a item = Ok (e, key) -> names pyint a item e.
Proof.
  rewrite /resolve. have [k0 [rest [-> ->]]] := split_join item.
  case: eqb_spec => [->|_].
  { case: rest => [|k1 rest] //. case E: (find _ _) => [i|] // [<- _].
    have [Hin /eqb_eq <-] := find_some _ _ E.
    exact: (names_instance pyint a i (tail_text rest) Hin (tail_ignored _)). }
  case: eqb_spec => [->|_].
  { case: rest => [|k1 rest] //. case E: (find _ _) => [c|] //.
    have [Hc /eqb_eq <-] := find_some _ _ E.
    case: rest => [|k2 rest] //. case: eqb_spec => [->|_].
    - case: rest => [|k3 rest] //. case Ez: (pyint k3) => [z|] //=.
      case Ei: (py_index _ _) => [i|] //= [<- _].
      exact: (names_to pyint a c k3 z i (tail_text rest) Hc Ez (py_index_indexed _ _ _ _ Ei) (tail_ignored _)).
    - case: eqb_spec => [->|_] //. case: rest => [|k3 rest] //. case Ez: (pyint k3) => [z|] //=.
      case Ei: (py_index _ _) => [i|] //= [<- _].
      exact: (names_from pyint a c k3 z i (tail_text rest) Hc Ez (py_index_indexed _ _ _ _ Ei) (tail_ignored _)). }
  case: eqb_spec => [->|_] // [<- _]. exact: (names_assembly pyint a (tail_text rest) (tail_ignored _)).
Qed.

Lemma split_app w s : no_slash w -> split_slash (w ++ String "/"%char s)%string = w :: split_slash s.
Proof.
  rewrite /no_slash. elim: w => [|c w IH] /=.
  - move=> _. case E: (split_slash s) => [|x xs] //.
  - move=> /andP [Hc Hw]. rewrite (IH Hw). move: Hc. by case: Ascii.eqb.
Qed.
Lemma split_one w : no_slash w -> split_slash w = [w].
Proof. rewrite /no_slash. elim: w => [|c w IH] //= /andP [Hc Hw]. rewrite (IH Hw). move: Hc. by case: Ascii.eqb. Qed.

Lemma resolve_component_lemma pyint a i : NoDup (map in_name (as_insts a)) -> In i (as_insts a) -> no_slash (in_name i) ->
  resolve pyint a ("component/" ++ in_name i)%string = Ok (EInst i, Some (in_space i)).
Proof.
  move=> Hnd Hin Hs. rewrite /resolve.
  have -> : ("component/" ++ in_name i = "component" ++ String "/"%char (in_name i))%string by [].
  rewrite split_app // (split_one _ Hs) eqb_refl.
  have -> : find (fun x => eqb (in_name x) (in_name i)) (as_insts a) = Some i; last by [].
  elim: (as_insts a) Hnd Hin => [|x l IH] //= Hnd. inversion Hnd as [|? ? Hni Hnd']; subst.
  case=> [->|H]; first by rewrite String.eqb_refl.
  case: (String.eqb_spec (in_name x) (in_name i)) => [e|ne]; last by apply: IH.
  exfalso. apply: Hni. rewrite e. exact: in_map.
Qed.

Lemma find_name A (f : A -> string) (l : list A) x : NoDup (map f l) -> In x l -> find (fun y => eqb (f y) (f x)) l = Some x.
Proof.
  elim: l => [|y l IH] //= Hnd. inversion Hnd as [|? ? Hni Hnd']; subst.
  case=> [->|H]; first by rewrite String.eqb_refl.
  case: (String.eqb_spec (f y) (f x)) => [e|ne]; last by apply: IH.
  exfalso. apply: Hni. rewrite e. exact: in_map.
Qed.
Lemma resolve_connector_lemma pyint a c (to : bool) n i idx : NoDup (map cn_name (as_conns a)) -> In c (as_conns a) ->
  no_slash (cn_name c) -> no_slash idx -> pyint idx = Ok (Z.of_nat n) ->
  nth_error (if to then cn_to c else cn_from c) n = Some i ->
  resolve pyint a ("connector/" ++ cn_name c ++ (if to then "/to/" else "/from/") ++ idx)%string =
    Ok (EEnd c to i, Some (in_space i)).
Proof.
  move=> Hnd Hin Hs Hs2 Hi Hn. rewrite /resolve.
  have Hix : forall A (l : list A) x, nth_error l n = Some x -> py_index l (Z.of_nat n) = Ok x.
  { move=> A l x Hx. rewrite /py_index. have -> : (Z.of_nat n <? 0)%Z = false by apply/Z.ltb_ge; lia.
    have -> : (Z.of_nat n <? 0)%Z = false by apply/Z.ltb_ge; lia. by rewrite Nat2Z.id Hx. }
  have -> : ("connector/" ++ cn_name c ++ (if to then "/to/" else "/from/") ++ idx =
    "connector" ++ String "/"%char (cn_name c ++ String "/"%char ((if to then "to" else "from") ++ String "/"%char idx)))%string
    by case: to {Hn}.
  rewrite split_app // split_app // split_app; first by case: to {Hn}. rewrite (split_one _ Hs2).
  rewrite (proj2 (eqb_neq _ "connector" "component")) // eqb_refl.
  rewrite find_name //. case: to Hn => Hn.
  - by rewrite eqb_refl Hi /= (Hix _ _ _ Hn).
  - rewrite (proj2 (eqb_neq _ "from" "to")) // eqb_refl Hi /= (Hix _ _ _ Hn). by [].
Qed.

(** Every rendered item is given the spaces of its own address space. *)
Lemma render_spaces_lemma pyint pd a item out template c i :
  render_item pyint a (Some (setup pd a)) item out template = Ok c ->
  entity_inst (ca_entity c) = Some i -> in_space i <> "" ->
  exists cs ad p, ca_cspace c = Some cs /\ ca_addr c = Some ad /\ ca_pd c = Some p /\
    dget (rs_cspaces (setup pd a)) (in_space i) = Some cs /\
    dget (rs_addr (setup pd a)) (in_space i) = Some ad /\ dget (rs_pds (setup pd a)) (in_space i) = Some p /\
    snd ad = p.
Proof.
  rewrite /render_item. case E: (resolve _ _ _) => [[e key]|] //=. have [_ Hk] := resolve_in _ _ _ _ _ E.
  rewrite Hk. move=> Hr Hi Hne. have He : ca_entity c = e.
  { move: Hr. case: (option_map _ _) => [[|x k]|]; try by move=> [<-].
    rewrite /lookup. case: (dget (rs_pds _) _) => [p|] //=. case: (dget (rs_cspaces _) _) => [cs|] //=.
    case: (dget (rs_addr _) _) => [ad|] //= [<-]. by []. }
  rewrite He in Hi. rewrite Hi /= in Hr. case Ek: (in_space i) Hr Hne => [|x k] // Hr _. rewrite -Ek in Hr |- *.
  have {}Hr : (pd0 <- lookup (rs_pds (setup pd a)) (in_space i) ;;
          cs <- lookup (rs_cspaces (setup pd a)) (in_space i) ;;
          ad <- lookup (rs_addr (setup pd a)) (in_space i) ;;
          Ok (mk_call out template e (Some cs) (Some ad) (Some pd0))) = Ok c by rewrite -Hr Ek.
  move: Hr. rewrite /lookup. case P: (dget (rs_pds _) _) => [p|] //=. case C: (dget (rs_cspaces _) _) => [cs|] //=.
  case D: (dget (rs_addr _) _) => [ad|] //= [<-]. exists cs, ad, p. do 6 (split; [done|]).
  case: (setup_ok_lemma pd (as_insts a)) => [_ _ _ _ _ _ Had]. move: (Had (in_space i)). rewrite -/(setup pd a) D P. by case=> ->.
Qed.

(** A software item never fails for want of a space. *)
Lemma render_software_lemma pyint pd a item out template e i key : resolve pyint a item = Ok (e, key) ->
  entity_inst e = Some i -> is_space a (in_space i) ->
  exists c, render_item pyint a (Some (setup pd a)) item out template = Ok c.
Proof.
  move=> E Hi Hs. have [_ Hk] := resolve_in _ _ _ _ _ E. rewrite /render_item E /= Hk Hi /=.
  case: (setup_ok_lemma pd (as_insts a)) => [[E1 E2] _ Hin _ _ _ _]. rewrite -/(setup pd a) in E1 E2 Hin.
  move: Hs => /Hin Hs. move: (Hs). rewrite -E1 => Hs1. move: (Hs). rewrite -E2 => Hs2.
  move: Hs Hs1 Hs2 => /dget_keys Hs /dget_keys Hs1 /dget_keys Hs2.
  case: (in_space i) Hs Hs1 Hs2 => [|x k] Hs Hs1 Hs2; first by eexists.
  rewrite /lookup. case: (dget (rs_pds _) _) Hs1 => [p|] // _. case: (dget (rs_cspaces _) _) Hs => [cs|] // _.
  case: (dget (rs_addr _) _) Hs2 => [ad|] // _. by eexists.
Qed.

Lemma addr_name_refuted_lemma : exists pd a k k' n p p', is_space a k /\ is_space a k' /\ k <> k' /\
  dget (rs_addr (setup pd a)) k = Some (n, p) /\ dget (rs_addr (setup pd a)) k' = Some (n, p').
Proof.
  exists "PD", (mk_asm [mk_inst "a.b" false "a.b"; mk_inst "a_b" false "a_b"] []), "a.b", "a_b".
  eexists. eexists. eexists. split; [|split; [|split; [by []|split; vm_compute; reflexivity]]].
  - exists (mk_inst "a.b" false "a.b"). split; [by left|done].
  - exists (mk_inst "a_b" false "a_b"). split; [by right; left|done].
Qed.

(** ** C47 *)
Lemma rejected_lemma pyint a rs outs items templates :
  List.length outs <> List.length items -> List.length items <> List.length templates ->
  main pyint a rs outs items templates = Err OtherException.
Proof.
  rewrite /main. move=> /Nat.eqb_neq -> /Nat.eqb_neq ->. by [].
Qed.
Lemma nth_zip3 A B C (l : list A) (m : list B) (n : list C) i :
  nth_error (zip3 l m n) i = match nth_error l i, nth_error m i, nth_error n i with
                            | Some a, Some b, Some c => Some (a, b, c) | _, _, _ => None end.
Proof.
  elim: l m n i => [|a l IH] [|b m] [|c n] [|i] //=; try (by case: (nth_error l i)); try (by case: (nth_error m i)).
  - by case: (nth_error l i) => //; case: (nth_error m i).
Qed.
Lemma length_zip3 A B C (l : list A) (m : list B) (n : list C) :
  List.length (zip3 l m n) = Nat.min (List.length l) (Nat.min (List.length m) (List.length n)).
Proof. elim: l m n => [|a l IH] [|b m] [|c n] //=. by rewrite IH. Qed.
Lemma Forall2_nth A B (R : A -> B -> Prop) l m i a : Forall2 R l m -> nth_error l i = Some a ->
  exists b, nth_error m i = Some b /\ R a b.
Proof.
  move=> H. elim: H i => [|x y l' m' Hxy _ IH] [|i] //=; first by move=> [<-]; exists y. exact: IH.
Qed.
Lemma Forall2_len A B (R : A -> B -> Prop) l m : Forall2 R l m -> List.length l = List.length m.
Proof. by elim=> [|x y l' m' _ _ IH] //=; rewrite IH. Qed.

Lemma render_fields pyint a rs item out template c : render_item pyint a rs item out template = Ok c ->
  ca_out c = out /\ ca_template c = template /\ exists key, resolve pyint a item = Ok (ca_entity c, key).
Proof.
  rewrite /render_item. case: (resolve _ _ _) => [[e key]|] //= H.
  suff : ca_out c = out /\ ca_template c = template /\ ca_entity c = e by move=> [-> [-> ->]]; do 2 (split; [done|]); exists key.
  move: H. case: key => [[|x k]|]; try by move=> [<-].
  case: rs => [rs|] //. case: (lookup _ _) => [p|] //=. case: (lookup _ _) => [cs|] //=. case: (lookup _ _) => [ad|] //= [<-].
  by [].
Qed.
Lemma main_calls pyint a rs outs items templates calls : main pyint a rs outs items templates = Ok calls ->
  List.length calls = Nat.min (List.length items) (Nat.min (List.length outs) (List.length templates)) /\
  forall n item out template, nth_error items n = Some item -> nth_error outs n = Some out -> nth_error templates n = Some template ->
    exists c key, nth_error calls n = Some c /\ ca_out c = out /\ ca_template c = template /\
      resolve pyint a item = Ok (ca_entity c, key).
Proof.
  rewrite /main. case: (_ && _) => //. rewrite mapM_Ok => H. split; first by rewrite -length_zip3 (Forall2_len _ _ _ _ _ H).
  move=> n item out template Hi Ho Ht.
  have Hz : nth_error (zip3 items outs templates) n = Some (item, out, template) by rewrite nth_zip3 Hi Ho Ht.
  have [c [Hc Hr]] := Forall2_nth _ _ _ _ _ _ _ H Hz. have [F1 [F2 [key F3]]] := render_fields _ _ _ _ _ _ _ Hr.
  by exists c, key.
Qed.
Lemma lined_up_lemma pyint a rs outs items templates calls :
  List.length outs = List.length items -> List.length items = List.length templates ->
  main pyint a rs outs items templates = Ok calls -> lined_up pyint a outs items templates calls.
Proof.
  move=> L1 L2 /main_calls [Hl Hc]. split; first by rewrite Hl; lia.
  move=> n out Ho. have Hlt : (n < List.length outs)%nat by apply/nth_error_Some; rewrite Ho.
  case Ei: (nth_error items n) => [item|]; last by move/nth_error_None in Ei; lia.
  case Et: (nth_error templates n) => [template|]; last by move/nth_error_None in Et; lia.
  have [c [key [H1 [H2 [H3 H4]]]]] := Hc _ _ _ _ Ei Ho Et. exists c, item, template.
  by have := resolve_names _ _ _ _ _ H4.
Qed.

Definition int0 (s : string) : res Z := Ok 0%Z.
Lemma mismatch_refuted_lemma : exists pyint a rs outs items templates calls,
  List.length items <> List.length templates /\
  main pyint a rs outs items templates = Ok calls /\
  exists out, In out outs /\ forall c, In c calls -> ca_out c <> out.
Proof.
  exists int0, (mk_asm [] []), None, ["x"; "y"], ["assembly"; "assembly"], ["t"].
  eexists. split; [by []|]. split; [vm_compute; reflexivity|]. exists "y".
  split; [by right; left|]. move=> c [<-|[]]. by [].
Qed.
Lemma duplicate_refuted_lemma : exists pyint a rs outs items templates calls,
  ~ NoDup outs /\ main pyint a rs outs items templates = Ok calls.
Proof.
  exists int0, (mk_asm [] []), None, ["x"; "x"], ["assembly"; "assembly"], ["t"; "u"].
  eexists. split; [|vm_compute; reflexivity]. move=> H. inversion H as [|? ? Hni _]; subst. apply: Hni. by left.
Qed.

Lemma alnum_spec c : alnum c = true <-> In c letters_digits.
Proof. rewrite -is_alnum_In. by case: c => [[] [] [] [] [] [] [] []]. Qed.
Lemma sanitise_mangled s : mangled s (sanitise s).
Proof.
  elim: s => [|c s IH] /=; first by constructor.
  case E: (alnum c); constructor=> //; rewrite -alnum_spec E //.
Qed.
Lemma space_name_lemma pd a k n p : dget (rs_addr (setup pd a)) k = Some (n, p) ->
  mangled (k ++ "_group_bin")%string n /\ dget (rs_pds (setup pd a)) k = Some p.
Proof.
  case: (setup_ok_lemma pd (as_insts a)) => [_ _ _ _ _ _ Had]. rewrite -/(setup pd a) in Had. rewrite Had.
  case: (dget (rs_pds _) _) => [q|] //= [<- <-]. split=> //. exact: sanitise_mangled.
Qed.
