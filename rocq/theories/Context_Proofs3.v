(** Proofs about allocation (C29), continued: the invariant and its consequences. *)
From Coq Require Import ssreflect ssrbool List Bool Arith NArith String Ascii Lia.
From Verif Require Import Prelude DecStr Context_Model Context_Spec Context_Proofs Context_Proofs2.
Import ListNotations.
Open Scope string_scope.
Open Scope list_scope.

Lemma keep_slot x : keep (option_map VSlot x) = match x with Some _ => true | None => false end.
Proof. by case: x. Qed.

Lemma upgrade_eq c r : upgrade c r = mk_kcap (kc_obj c)
  (mk_rights (r_read (kc_rights c) || r_read r) (r_write (kc_rights c) || r_write r)
            (r_grant (kc_rights c) || r_grant r) (r_grantreply (kc_rights c) || r_grantreply r)) (kc_badge c).
Proof. by rewrite -upgrade_union. Qed.

Definition wanted (ob : option nat) (r : rights) : rights := match ob with Some _ => r | None => no_rights end.

Lemma cap_step s ops objs l sp n ob r bd o s' v b : swf (c_store s) -> caps_inv s ops objs ->
  cap_key o = Some (sp, l, n) -> cap_rights o = wanted ob r ->
  cap_target objs o = option_map (fun i => (i, bd)) ob ->
  alloc_cap s l sp n ob r bd = Ok (s', v, b) ->
  caps_inv s' (ops ++ [o]) objs /\
  exists i, v = VSlot i /\ pos (l, n) (keys (ops ++ [o]) sp) = Some i.
Proof.
  move=> W [K1 K2] Hk Hr Ht Ea.
  have [s1 [E [S1 [S2 [S3 S4]]]]] := alloc_cap_guard _ _ _ _ _ _ _ _ _ _ Ea.
  have [W1 [H [_ [H1 H2]]]] := guard_spec _ _ _ _ _ _ _ W (fun s => cap_alloc_store _ _ _ _ s) E.
  rewrite K2 keep_slot in H1 H2.
  have Hkey : is_key (sp, l, n) o = true by rewrite /is_key Hk eqb_refl.
  have Hother : forall sp' l' n', (sp', l', n') <> (sp, l, n) -> is_key (sp', l', n') o = false.
  { move=> sp' l' n' ne. rewrite /is_key Hk. apply/eqb_neq. congruence. }
  have Hkeys : forall sp', sp' <> sp -> keys (ops ++ [o]) sp' = keys ops sp'.
  { move=> sp' ne. rewrite keys_snoc /keys_step Hk. case: (eqb_spec sp sp') => // e. by case: ne. }
  (* the contents of the store *)
  have Hcont : forall i, v = VSlot i -> pos (l, n) (keys (ops ++ [o]) sp) = Some i ->
    (forall l' n', (l', n') <> (l, n) -> pos (l', n') (keys (ops ++ [o]) sp) = pos (l', n') (keys ops sp)) ->
    forall l' sp' n', content (c_store s') (CapClient l' sp') (n' ++ "_cap")%string =
       option_map VSlot (pos (l', n') (keys (ops ++ [o]) sp')).
  { move=> i Hv Hp Hpo l' sp' n'. rewrite S1 H.
    case: (eqb_spec (CapClient l' sp') (CapClient l sp)) => [[? ?]|ne].
    - subst l' sp'. case: (eqb_spec (n' ++ "_cap")%string (n ++ "_cap")%string) => [e|ne].
      + have {}e := cap_suffix_inj _ _ e. subst n'. by rewrite /= Hp Hv.
      + rewrite K2 Hpo //. move=> [e]. by subst n'.
    - rewrite K2. case: (eqb_spec sp' sp) => [e|ne']; last by rewrite Hkeys.
      subst sp'. rewrite Hpo //. move=> [e _]. by subst l'. }
  case P: (pos (l, n) (keys ops sp)) H1 H2 => [i|] H1 H2.
  - (* known already *)
    have [E1 [E2 [E3 _]]] := H1 eq_refl. have Ev : v = VSlot i by move: E1 => /= [].
    have Hin : In (l, n) (keys ops sp) by apply: nth_error_In (pos_nth _ _ _ _ _ P).
    have Hks : keys (ops ++ [o]) sp = keys ops sp.
    { rewrite keys_snoc /keys_step Hk eqb_refl. by rewrite (proj2 (memb_In _ _ _) Hin). }
    split; last by exists i; rewrite Hks.
    split; last by apply: (Hcont i) => //; rewrite Hks.
    have [o1 Ho1] := find_key_Some _ _ _ _ Hin.
    have Hslots : forall sp', space_slots s1 sp' = space_slots s sp' by move=> sp'; rewrite /space_slots E3.
    have Hfc : first_cap0 objs (ops ++ [o]) (sp, l, n) =
      option_map (fun k => upgrade k (wanted ob r)) (first_cap0 objs ops (sp, l, n)).
    { rewrite !first_cap_eq (find_app_l _ _ _ _ _ Ho1) Ho1. case: (cap_target objs o1) => [[i1 b1]|] //=.
      rewrite upgrade_eq. cbn [kc_rights kc_obj kc_badge]. rewrite /asked_rights.
      cbn [r_read r_write r_grant r_grantreply]. by rewrite !asked_snoc Hkey Hr. }
    have Hrest : forall k, k <> (l, n) -> first_cap0 objs (ops ++ [o]) (sp, fst k, snd k) = first_cap0 objs ops (sp, fst k, snd k).
    { move=> [l' n'] ne. apply: first_cap_other. apply: Hother. cbn [fst snd]. congruence. }
    move=> sp'. case: (eqb_spec sp' sp) => [e|ne]; last first.
    { rewrite Hkeys //. 
      have -> : space_slots s' sp' = space_slots s sp'.
      { rewrite -Hslots. move: S4. case: ob {E H2 Ht Hr Hfc Ea} => [ob|] S4; last by rewrite /space_slots S4.
        case: S4 => i0 [k0 [_ [_ S4]]]. by rewrite (slots_dset _ _ _ _ _ S4) (proj2 (eqb_neq _ _ _) ne). }
      rewrite K1. apply: map_ext_in => [[l' n']] _. symmetry. apply: first_cap_other. apply: Hother. cbn [fst snd]. congruence. }
    subst sp'. rewrite Hks. move: S4 Hfc. case: ob {E H2 Ht Hr Ea} => [ob|] S4 Hfc.
    + case: S4 => i0 [k0 [Ev0 [Hn0 S4]]]. rewrite Ev in Ev0. move: Ev0 => [?]. subst i0.
      rewrite (slots_dset _ _ _ _ _ S4) eqb_refl Hslots K1.
      rewrite Hslots K1 in Hn0.
      have Hnm := map_nth_error (fun k => first_cap0 objs ops (sp, fst k, snd k)) _ _ (pos_nth _ _ _ _ _ P).
      rewrite Hn0 in Hnm. move: Hnm => [Hk0]. cbn [fst snd] in Hk0.
      apply: (set_nth_map _ _ _ _ _ _ _ _ (keys_NoDup ops sp) (pos_nth _ _ _ _ _ P)).
      * cbn [fst snd]. by rewrite Hfc -Hk0.
      * move=> k _ ne. exact: Hrest.
    + rewrite /space_slots S4 -/(space_slots s1 sp) Hslots K1. apply: map_ext_in => k Hin'.
      case: (eqb_spec k (l, n)) => [->|ne]; last by rewrite Hrest.
      cbn [fst snd]. rewrite Hfc. case: (first_cap0 _ _ _) => [[c [[] [] [] []] bb]|] //.
  - (* new *)
    have Hnin : ~ In (l, n) (keys ops sp) by apply/pos_None.
    have [s0 [E1 [E2 [_ [E3 [E4 [E5 _]]]]]]] := H2 eq_refl.
    have Hs0 : forall sp', space_slots s0 sp' = space_slots s sp' by move=> sp'; rewrite /space_slots E2.
    have Hks : keys (ops ++ [o]) sp = keys ops sp ++ [(l, n)].
    { rewrite keys_snoc /keys_step Hk eqb_refl. by rewrite (proj2 (memb_nIn _ _ _) Hnin). }
    have Hp : pos (l, n) (keys (ops ++ [o]) sp) = Some (List.length (keys ops sp)) by rewrite Hks pos_snoc.
    have Ev : v = VSlot (List.length (keys ops sp)).
    { rewrite -E3 /cap_alloc. cbn [snd]. by rewrite Hs0 K1 map_length. }
    split; last by eexists; split; eassumption.
    split; last first.
    { apply: (Hcont _ Ev Hp) => l' n' ne. rewrite Hks. exact: pos_snoc_ne. }
    have Hold : forall sp' k, In k (keys ops sp') -> first_cap0 objs (ops ++ [o]) (sp', fst k, snd k) = first_cap0 objs ops (sp', fst k, snd k).
    { move=> sp' [l' n'] Hin. apply: first_cap_other. apply: Hother. cbn [fst snd]. move=> [? ? ?]. by subst. }
    have Hnew : first_cap0 objs (ops ++ [o]) (sp, l, n) = option_map (fun i => mk_kcap i r bd) ob.
    { rewrite first_cap_eq (find_app_r _ _ _ _ (find_key_None _ _ _ _ Hnin)) /= Hkey Ht.
      rewrite /asked_rights !asked_snoc !asked_none // Hkey Hr. case: ob {E H2 Ht Hr S4 E3 E4 E5 Ea} => [i|] //=.
      by case: r. }
    have Hs1 : forall sp', space_slots s1 sp' =
      if eqb sp' sp then space_slots s sp ++ [option_map (fun i => mk_kcap i r bd) ob] else space_slots s sp'.
    { move=> sp'. have E5' : c_spaces s1 = dset (c_spaces s0) sp (space_slots s0 sp ++ [option_map (fun i => mk_kcap i r bd) ob]) by rewrite E5.
      rewrite (slots_dset _ _ _ _ sp' E5') !Hs0. by []. }
    move=> sp'. case: (eqb_spec sp' sp) => [e|ne]; last first.
    { rewrite Hkeys //.
      have -> : space_slots s' sp' = space_slots s sp'.
      { have Hs1' : space_slots s1 sp' = space_slots s sp' by rewrite Hs1 (proj2 (eqb_neq _ _ _) ne).
        rewrite -Hs1'. move: S4. case: (ob) => [ob'|] S4; last by rewrite /space_slots S4.
        case: S4 => i0 [k0 [_ [_ S4]]]. by rewrite (slots_dset _ _ _ _ _ S4) (proj2 (eqb_neq _ _ _) ne). }
      rewrite K1. apply: map_ext_in => k Hin. symmetry. exact: Hold. }
    subst sp'. rewrite Hks map_app /=. rewrite Hnew.
    have Hmap : map (fun k => first_cap0 objs (ops ++ [o]) (sp, fst k, snd k)) (keys ops sp) = space_slots s sp.
    { rewrite K1. apply: map_ext_in => k Hin. exact: Hold. }
    rewrite Hmap. have := Hs1 sp. rewrite eqb_refl => Hs1'.
    move: S4 Hs1'. case: (ob) => [ob'|] S4 Hs1'; last by rewrite /space_slots S4 -/(space_slots s1 sp) Hs1'.
    case: S4 => i0 [k0 [Ev0 [Hn0 S4]]]. rewrite Ev in Ev0. move: Ev0 => [?]. subst i0.
    rewrite (slots_dset _ _ _ _ _ S4) eqb_refl Hs1'. rewrite Hs1' in Hn0.
    have Hlen : List.length (keys ops sp) = List.length (space_slots s sp) by rewrite K1 map_length.
    rewrite Hlen nth_error_app2 in Hn0; first by lia. rewrite Nat.sub_diag /= in Hn0. move: Hn0 => [<-].
    rewrite Hlen. elim: (space_slots s sp) => [|x l0 IHl] /=; last by rewrite IHl.
    rewrite /upgrade /=. by case: (r) => [[] [] [] []].
Qed.

Lemma table_grow ops o k : obj_request o = Some k -> table (ops ++ [o]) = grow (table ops) k.
Proof. move=> H. by rewrite table_snoc /table_step H. Qed.
Lemma table_same ops o : obj_request o = None -> table (ops ++ [o]) = table ops.
Proof. move=> H. by rewrite table_snoc /table_step H. Qed.
Lemma table_mono ops o n i : find_obj (table ops) n 0 = Some i -> find_obj (table (ops ++ [o])) n 0 = Some i.
Proof.
  move=> H. case E: (obj_request o) => [k|]; last by rewrite table_same.
  rewrite (table_grow _ _ _ E). exact: grow_mono.
Qed.
Lemma requested_found ops o k : In o ops -> obj_request o = Some k -> exists i, find_obj (table ops) (ko_name k) 0 = Some i.
Proof.
  elim/rev_ind: ops => [|o' ops IH] // Hin Hk. destruct (in_app_or _ _ _ Hin) as [H|[H|[]]].
  - have [i Hi] := IH H Hk. exists i. exact: table_mono.
  - subst o'. rewrite (table_grow _ _ _ Hk). exact: grow_found.
Qed.
Lemma first_cap_table ops o key : first_cap0 (table (ops ++ [o])) ops key = first_cap0 (table ops) ops key.
Proof.
  rewrite !first_cap_eq. case E: (find _ _) => [o'|] //. have [Hin _] := find_some _ _ E.
  have -> // : cap_target (table (ops ++ [o])) o' = cap_target (table ops) o'.
  case: o' Hin {E} => // l sp n t ol r bd Hin. cbn [cap_target].
  have [i Hi] := requested_found _ _ _ Hin eq_refl. cbn [ko_name] in Hi.
  by rewrite Hi (table_mono _ _ _ _ Hi).
Qed.

Definition inv (ops : list op) (s : ctx) : Prop :=
  objs_inv s /\ c_objs s = table ops /\ caps_inv s ops (table ops).

Lemma guard_id_state s c k v s' w b : guard s c k (fun s => (s, v)) = (s', w, b) ->
  c_objs s' = c_objs s /\ c_spaces s' = c_spaces s.
Proof.
  rewrite /guard. case: (pop _ _ _) => st x. case: x => [|x|x|x|x]; by move=> [<- _ _].
Qed.

(** Requests that allocate nothing leave the invariant alone. *)
Lemma inv_other ops s o s' v : inv ops s -> exec s o = Ok (s', v) ->
  obj_request o = None -> cap_key o = None -> c_objs s' = c_objs s -> c_spaces s' = c_spaces s ->
  (forall l k, op_touches o (ObjClient l) k = false) ->
  (forall l sp k, op_touches o (CapClient l sp) k = false) -> inv (ops ++ [o]) s'.
Proof.
  move=> [[W I] [T [K1 K2]]] E Ho Hk So Ss H1 H2. have [W' C] := exec_store _ _ _ _ W E.
  have Hkeys : forall sp, keys (ops ++ [o]) sp = keys ops sp by move=> sp; rewrite keys_snoc /keys_step Hk.
  split; [split=> //|split; [|split]].
  - move=> l k w. rewrite C // So. exact: I.
  - by rewrite So table_same.
  - move=> sp. rewrite /space_slots Ss -/(space_slots s sp) K1 Hkeys table_same //. apply: map_ext => k.
    symmetry. apply: first_cap_other. by rewrite /is_key Hk.
  - move=> l sp n. by rewrite C // K2 Hkeys.
Qed.

Lemma inv_step ops s o s' v : inv ops s -> exec s o = Ok (s', v) -> inv (ops ++ [o]) s' /\
  (forall k, obj_request o = Some k -> cap_key o = None ->
     exists i, fst v = VObj i /\ find_obj (table (ops ++ [o])) (ko_name k) 0 = Some i) /\
  (forall sp l n, cap_key o = Some (sp, l, n) ->
     exists i, fst v = VSlot i /\ pos (l, n) (keys (ops ++ [o]) sp) = Some i).
Proof.
  move=> Hi. have Hi0 := Hi. case: Hi => [[W I] [T K]].
  case: o => [c0 k0 v0|c0 k0|c0 k0 v0|l n t ol|l sp n ob r bd|l sp n t ol r bd|t|t] E.
  - split; last by split. apply: (inv_other _ _ _ _ _ Hi0 E) => //; by move: E => [<- _].
  - split; last by split. apply: (inv_other _ _ _ _ _ Hi0 E) => //; move: E => /=; case: (pop _ _ _) => st w [<- _] //.
  - split; last by split. move: (E) => /=. case E1: (guard _ _ _ _) => [[s1 v1] b1] [Es _].
    have [G1 G2] := guard_id_state _ _ _ _ _ _ _ E1.
    apply: (inv_other _ _ _ _ _ Hi0 E) => //; by rewrite -Es.
  - have [W' C] := exec_store _ _ _ _ W E.
    move: E => /=. case E1: (alloc_obj _ _ _ _ _) => [[s1 v1] b1] [Es Ev]. subst s' v.
    have [I' [G1 [G2 [[i [G3 G4]] G5]]]] := alloc_obj_spec _ _ _ _ _ _ _ _ (conj W I) E1.
    have Tt : c_objs s1 = table (ops ++ [OAllocObj l n t ol]).
    { rewrite G1 T. by rewrite (table_grow ops (OAllocObj l n t ol) _ eq_refl). }
    split; [split; [done|split; [done|split]]|split].
    + move=> sp. rewrite /space_slots G2 -/(space_slots s sp) (proj1 K) keys_snoc /keys_step /=.
      apply: map_ext => k. rewrite first_cap_other // first_cap_table. by [].
    + move=> l' sp' n'. by rewrite G5 (proj2 K) keys_snoc.
    + move=> k [<-] _. exists i. split=> //. by rewrite -Tt.
    + by [].
  - move: (E) => /=. case E1: (alloc_cap _ _ _ _ _ _ _) => [[[s1 v1] b1]|] //= [Es Ev]. subst s' v.
    have [W' C] := exec_store _ _ _ _ W E.
    have Tt : table (ops ++ [OAllocCap l sp n ob r bd]) = table ops by apply: table_same.
    have [K' Hp] : caps_inv s1 (ops ++ [OAllocCap l sp n ob r bd]) (table ops) /\
      exists i, v1 = VSlot i /\ pos (l, n) (keys (ops ++ [OAllocCap l sp n ob r bd]) sp) = Some i.
    { apply: (cap_step _ _ _ _ _ _ _ _ _ _ _ _ _ W K _ _ _ E1) => //; by case: (ob). }
    have [s2 [E2 [_ [Ho _]]]] := alloc_cap_guard _ _ _ _ _ _ _ _ _ _ E1.
    have [_ [_ [_ [H1 H2]]]] := guard_spec _ _ _ _ _ _ _ W (fun s => cap_alloc_store _ _ _ _ s) E2.
    have Hob : c_objs s1 = c_objs s.
    { rewrite Ho. move: H1 H2. case: (keep _) => H1 H2; first by have [_ []] := H1 eq_refl.
      have [s0 [X1 [_ [_ [_ [X2 _]]]]]] := H2 eq_refl. by rewrite X2. }
    rewrite /inv Tt Hob. split; [split; [split=> //|by split]|split=> //].
    + move=> l' k w. rewrite C //= Hob. exact: I.
    + move=> sp' l' n' [<- <- <-]. exact: Hp.
  - move: (E). cbn [exec]. rewrite /alloc. case E1: (alloc_obj _ _ _ _ _) => [[s1 v1] b1].
    have [I1 [G1 [G2 [[i [G3 G4]] G5]]]] := alloc_obj_spec _ _ _ _ _ _ _ _ (conj W I) E1.
    rewrite G3. case E3: (alloc_cap _ _ _ _ _ _ _) => [[[s3 v3] b3]|] //= [Es Ev]. subst s' v.
    set o := OAlloc l sp n t ol r bd.
    have Tt : c_objs s1 = table (ops ++ [o]) by rewrite G1 T (table_grow ops o _ eq_refl).
    have K1 : caps_inv s1 ops (table (ops ++ [o])).
    { split.
      - move=> sp'. rewrite /space_slots G2 -/(space_slots s sp') (proj1 K). apply: map_ext => k. by rewrite first_cap_table.
      - move=> l' sp' n'. by rewrite G5 (proj2 K). }
    have [K' Hp] : caps_inv s3 (ops ++ [o]) (table (ops ++ [o])) /\
      exists i, v3 = VSlot i /\ pos (l, n) (keys (ops ++ [o]) sp) = Some i.
    { apply: (cap_step _ _ _ _ _ _ _ _ _ _ _ _ _ (proj1 I1) K1 _ _ _ E3) => //. by rewrite /o /= -Tt G4. }
    have [s2 [E2 [Hst [Ho _]]]] := alloc_cap_guard _ _ _ _ _ _ _ _ _ _ E3.
    have [W2 [C2 [_ [H1 H2]]]] := guard_spec _ _ _ _ _ _ _ (proj1 I1) (fun s => cap_alloc_store _ _ _ _ s) E2.
    have Hob : c_objs s3 = c_objs s1.
    { rewrite Ho. move: H1 H2. case: (keep _) => H1 H2; first by have [_ []] := H1 eq_refl.
      have [s0 [X1 [_ [_ [_ [X2 _]]]]]] := H2 eq_refl. by rewrite X2. }
    split; [split; [split|split]|split].
    + by rewrite Hst.
    + move=> l' k w. rewrite Hst C2 Hob /=. exact: (proj2 I1).
    + by rewrite Hob.
    + exact: K'.
    + by [].
    + move=> sp' l' n' [<- <- <-]. exact: Hp.
  - split; last by split. apply: (inv_other _ _ _ _ _ Hi0 E) => //; by move: E => [<- _].
  - split; last by split. apply: (inv_other _ _ _ _ _ Hi0 E) => //; by move: E => [<- _].
Qed.

Lemma inv_run ops st outs : run ctx0 ops = Ok (st, outs) -> inv ops st.
Proof.
  elim/rev_ind: ops st outs => [|o ops IH] st outs.
  - move=> [<- _]. split; [split=> //; split; [constructor|done]|split=> //].
  - move=> /run_snoc [s1 [vs [v [R [E _]]]]]. by have [] := inv_step _ _ _ _ _ (IH _ _ R) E.
Qed.

(** ** Consequences *)
Lemma find_obj_stable ops1 ops2 n i : find_obj (table ops1) n 0 = Some i -> find_obj (table (ops1 ++ ops2)) n 0 = Some i.
Proof.
  elim/rev_ind: ops2 => [|o ops2 IH] H; first by rewrite app_nil_r.
  rewrite app_assoc. apply: table_mono. exact: IH.
Qed.
Lemma pos_stable ops1 ops2 sp k i : pos k (keys ops1 sp) = Some i -> pos k (keys (ops1 ++ ops2) sp) = Some i.
Proof.
  elim/rev_ind: ops2 => [|o ops2 IH] H; first by rewrite app_nil_r.
  rewrite app_assoc keys_snoc /keys_step. case: (cap_key o) => [[[sp' l] n]|]; last by apply: IH.
  case: eqb; last by apply: IH. case: memb; first by apply: IH.
  apply: pos_app. exact: IH.
Qed.
Lemma split_at A (l : list A) i a : nth_error l i = Some a -> l = (firstn i l ++ [a]) ++ skipn (S i) l.
Proof. move=> H. by rewrite -(firstn_snoc _ _ _ _ H) firstn_skipn. Qed.

(** Every object request is answered by the object of that full name. *)
Lemma obj_answer ops st outs i l n t ol : run ctx0 ops = Ok (st, outs) ->
  nth_error ops i = Some (OAllocObj l n t ol) ->
  exists o b, nth_error outs i = Some (VObj o, b) /\ find_obj (table ops) (full_name l n) 0 = Some o.
Proof.
  move=> R Hn. have [s1 [vs [s2 [v [rest [R1 [E [-> _]]]]]]]] := run_nth _ _ _ _ _ _ R Hn.
  have [_ [H _]] := inv_step _ _ _ _ _ (inv_run _ _ _ R1) E.
  have [o [Hv Hf]] := H _ eq_refl eq_refl. exists o, (snd v). split; first by rewrite -Hv; case: (v).
  rewrite (split_at _ _ _ _ Hn). exact: find_obj_stable.
Qed.
Lemma cap_answer ops st outs i o sp l n : run ctx0 ops = Ok (st, outs) ->
  nth_error ops i = Some o -> cap_key o = Some (sp, l, n) ->
  exists s b, nth_error outs i = Some (VSlot s, b) /\ pos (l, n) (keys ops sp) = Some s.
Proof.
  move=> R Hn Hk. have [s1 [vs [s2 [v [rest [R1 [E [-> _]]]]]]]] := run_nth _ _ _ _ _ _ R Hn.
  have [_ [_ H]] := inv_step _ _ _ _ _ (inv_run _ _ _ R1) E.
  have [s [Hv Hf]] := H _ _ _ Hk. exists s, (snd v). split; first by rewrite -Hv; case: (v).
  rewrite (split_at _ _ _ _ Hn). exact: pos_stable.
Qed.

Lemma same_object_lemma ops st outs i j l n t ol t' ol' vi vj : run ctx0 ops = Ok (st, outs) ->
  nth_error ops i = Some (OAllocObj l n t ol) -> nth_error ops j = Some (OAllocObj l n t' ol') ->
  nth_error outs i = Some vi -> nth_error outs j = Some vj -> fst vi = fst vj.
Proof.
  move=> R Hi Hj Oi Oj.
  have [o [b [O1 F1]]] := obj_answer _ _ _ _ _ _ _ _ R Hi.
  have [o' [b' [O2 F2]]] := obj_answer _ _ _ _ _ _ _ _ R Hj.
  rewrite Oi in O1; rewrite Oj in O2. move: O1 O2 => [->] [->] /=. congruence.
Qed.
Lemma find_obj_nth os n i o : NoDup (map ko_name os) -> nth_error os i = Some o -> ko_name o = n -> find_obj os n 0 = Some i.
Proof.
  move=> Hnd Hn Ho. case E: (find_obj os n 0) => [j|].
  - have [_ [o' [H1 H2]]] := find_obj_spec _ _ _ _ E. rewrite Nat.sub_0_r in H1.
    f_equal. apply: (proj1 (NoDup_nth_error (map ko_name os)) Hnd).
    + rewrite map_length. apply/nth_error_Some. by rewrite H1.
    + rewrite (map_nth_error _ _ _ H1) (map_nth_error _ _ _ Hn). congruence.
  - move/find_obj_None in E. exfalso. apply: E. rewrite -Ho. apply: in_map. exact: nth_error_In Hn.
Qed.
Lemma distinct_object_lemma ops st outs i j l n t ol l' n' t' ol' vi vj : run ctx0 ops = Ok (st, outs) ->
  nth_error ops i = Some (OAllocObj l n t ol) -> nth_error ops j = Some (OAllocObj l' n' t' ol') ->
  nth_error outs i = Some vi -> nth_error outs j = Some vj ->
  full_name l n <> full_name l' n' -> fst vi <> fst vj.
Proof.
  move=> R Hi Hj Oi Oj ne.
  have [o [b [O1 F1]]] := obj_answer _ _ _ _ _ _ _ _ R Hi.
  have [o' [b' [O2 F2]]] := obj_answer _ _ _ _ _ _ _ _ R Hj.
  rewrite Oi in O1; rewrite Oj in O2. move: O1 O2 => [->] [->] /= [e]. subst o'. apply: ne.
  have [_ [x [X1 X2]]] := find_obj_spec _ _ _ _ F1. have [_ [y [Y1 Y2]]] := find_obj_spec _ _ _ _ F2.
  congruence.
Qed.

(** The object has the type and label of the first request for its name. *)
Lemma table_first ops n i : find_obj (table ops) n 0 = Some i ->
  nth_error (table ops) i = first_obj_request ops n /\ first_obj_request ops n <> None.
Proof.
  elim/rev_ind: ops i => [|o ops IH] i //. rewrite table_snoc /table_step.
  have Old : forall j, find_obj (table ops) n 0 = Some j ->
    first_obj_request (ops ++ [o]) n = first_obj_request ops n.
  { move=> j Hj. have [_] := IH _ Hj. rewrite /first_obj_request.
    case E: (find _ ops) => [x|] // _. by rewrite (find_app_l _ _ _ _ _ E). }
  case Eo: (obj_request o) => [k|]; last first.
  { move=> H. rewrite (Old _ H). exact: IH. }
  case Ek: (find_obj (table ops) (ko_name k) 0) => [j|].
  { move=> H. rewrite (Old _ H). exact: IH. }
  case En: (find_obj (table ops) n 0) => [j|].
  - rewrite (find_obj_app _ _ _ _ _ En) => [[<-]]. rewrite (Old _ En).
    have [H1 H2] := IH _ En. split=> //. rewrite nth_error_app1 //. apply/nth_error_Some. by rewrite H1.
  - rewrite (find_obj_app_None _ _ _ _ En) /=. case: (String.eqb_spec (ko_name k) n) => // e [<-].
    rewrite nth_error_app2 // Nat.sub_diag /=.
    have Hf : first_obj_request (ops ++ [o]) n = Some k; last by rewrite Hf.
    rewrite /first_obj_request find_app_r /=; last by rewrite Eo e String.eqb_refl.
    case E: (find _ ops) => [x|] //. exfalso. have [Hx Hx2] := find_some _ _ E.
    case Ex: (obj_request x) Hx2 => [kx|] // /String.eqb_eq Hkx. have [z Hz] := requested_found _ _ _ Hx Ex.
    rewrite Hkx in Hz. congruence.
Qed.

Lemma object_contents_lemma ops st outs i l n t ol v b : run ctx0 ops = Ok (st, outs) ->
  nth_error ops i = Some (OAllocObj l n t ol) -> nth_error outs i = Some (v, b) ->
  exists o, v = VObj o /\ nth_error (c_objs st) o = first_obj_request ops (full_name l n) /\
    first_obj_request ops (full_name l n) <> None.
Proof.
  move=> R Hi Oi. have [o [b' [O1 F1]]] := obj_answer _ _ _ _ _ _ _ _ R Hi.
  rewrite Oi in O1. move: O1 => [-> _]. exists o. split=> //.
  have [_ [-> _]] := inv_run _ _ _ R. exact: table_first.
Qed.

Lemma same_slot_lemma ops st outs i j oi oj key vi vj : run ctx0 ops = Ok (st, outs) ->
  nth_error ops i = Some oi -> nth_error ops j = Some oj -> cap_key oi = Some key -> cap_key oj = Some key ->
  nth_error outs i = Some vi -> nth_error outs j = Some vj -> fst vi = fst vj.
Proof.
  case: key => [[sp l] n] R Hi Hj Ki Kj Oi Oj.
  have [s [b [O1 P1]]] := cap_answer _ _ _ _ _ _ _ _ R Hi Ki.
  have [s' [b' [O2 P2]]] := cap_answer _ _ _ _ _ _ _ _ R Hj Kj.
  rewrite Oi in O1; rewrite Oj in O2. move: O1 O2 => [->] [->] /=. congruence.
Qed.
Lemma distinct_slot_lemma ops st outs i j oi oj sp l n l' n' vi vj : run ctx0 ops = Ok (st, outs) ->
  nth_error ops i = Some oi -> nth_error ops j = Some oj ->
  cap_key oi = Some (sp, l, n) -> cap_key oj = Some (sp, l', n') -> (l, n) <> (l', n') ->
  nth_error outs i = Some vi -> nth_error outs j = Some vj -> fst vi <> fst vj.
Proof.
  move=> R Hi Hj Ki Kj ne Oi Oj.
  have [s [b [O1 P1]]] := cap_answer _ _ _ _ _ _ _ _ R Hi Ki.
  have [s' [b' [O2 P2]]] := cap_answer _ _ _ _ _ _ _ _ R Hj Kj.
  rewrite Oi in O1; rewrite Oj in O2. move: O1 O2 => [->] [->] /= [e]. subst s'. apply: ne.
  have := pos_nth _ _ _ _ _ P1. rewrite (pos_nth _ _ _ _ _ P2). congruence.
Qed.
Lemma slot_contents_lemma ops st outs i o key v b : run ctx0 ops = Ok (st, outs) ->
  nth_error ops i = Some o -> cap_key o = Some key -> nth_error outs i = Some (v, b) ->
  exists s, v = VSlot s /\ contents st (fst (fst key)) s = Some (first_cap (c_objs st) ops key).
Proof.
  rewrite -first_capE. case: key => [[sp l] n] R Hi Ki Oi.
  have [s [b' [O1 P1]]] := cap_answer _ _ _ _ _ _ _ _ R Hi Ki.
  rewrite Oi in O1. move: O1 => [-> _]. exists s. split=> //. cbn [fst]. rewrite contentsE.
  have [_ [-> [K1 _]]] := inv_run _ _ _ R. rewrite K1.
  exact: (map_nth_error _ _ _ (pos_nth _ _ _ _ _ P1)).
Qed.

(** One request changes at most the slot it answers with, and no object. *)
Lemma frame_lemma ops st outs o s' v b sp i : run ctx0 ops = Ok (st, outs) -> exec st o = Ok (s', (v, b)) ->
  contents st sp i <> None -> contents s' sp i <> contents st sp i ->
  v = VSlot i /\ exists l n, cap_key o = Some (sp, l, n).
Proof.
  rewrite !contentsE. move=> R E /nth_error_Some Hlt Hne. have Hi := inv_run _ _ _ R. have [[_ [T' [K' _]]] [_ Hc]] := inv_step _ _ _ _ _ Hi E.
  have [_ [T [K _]]] := Hi. rewrite K map_length in Hlt.
  have [[l n] Hk] : exists k, nth_error (keys ops sp) i = Some k.
  { case En: (nth_error _ i) => [k|]; first by exists k. move/nth_error_None in En. lia. }
  have Hk' : nth_error (keys (ops ++ [o]) sp) i = Some (l, n).
  { rewrite keys_snoc /keys_step. case: (cap_key o) => [[[sp' l'] n']|] //. case: eqb => //. case: memb => //.
    rewrite nth_error_app1 //. }
  move: Hne. rewrite K K' (map_nth_error _ _ _ Hk) (map_nth_error _ _ _ Hk'). cbn [fst snd] => Hne.
  case Ek: (is_key (sp, l, n) o); last first.
  { exfalso. apply: Hne. by rewrite first_cap_other // first_cap_table. }
  have Hko : cap_key o = Some (sp, l, n).
  { move: Ek. rewrite /is_key. case: (cap_key o) => [k|] //. by move=> /eqb_eq ->. }
  have [s [Hv Hp]] := Hc _ _ _ Hko. cbn [fst] in Hv. split; last by exists l, n.
  rewrite Hv. f_equal. have Hs := pos_nth _ _ _ _ _ Hp.
  apply: (proj1 (NoDup_nth_error (keys (ops ++ [o]) sp)) (keys_NoDup _ _)); last by rewrite Hs Hk'.
  apply/nth_error_Some. by rewrite Hs.
Qed.
Lemma objects_kept_lemma ops st outs o s' v i k : run ctx0 ops = Ok (st, outs) -> exec st o = Ok (s', v) ->
  nth_error (c_objs st) i = Some k -> nth_error (c_objs s') i = Some k.
Proof.
  move=> R E. have Hi := inv_run _ _ _ R. have [[_ [-> _]] _] := inv_step _ _ _ _ _ Hi E.
  have [_ [-> _]] := Hi. move=> H. rewrite table_snoc /table_step.
  case: (obj_request o) => [k'|] //. case: find_obj => //. rewrite nth_error_app1 //.
  apply/nth_error_Some. by rewrite H.
Qed.

(** The only failure: rights asked for a slot that was first reserved empty. *)
Lemma failure_lemma ops st outs o e : run ctx0 ops = Ok (st, outs) -> exec st o = Err e ->
  e = KeyError /\ exists key, cap_key o = Some key /\ exists l sp n r bd,
    find (is_key key) ops = Some (OAllocCap l sp n None r bd).
Proof.
  move=> R. have Hi := inv_run _ _ _ R. have [[W I] [T [K1 K2]]] := Hi.
  have Core : forall s objs l sp n ob r bd, swf (c_store s) -> caps_inv s ops objs ->
    (forall o, In o ops -> forall l sp n t ol r bd, o = OAlloc l sp n t ol r bd -> find_obj objs (full_name l n) 0 <> None) ->
    alloc_cap s l sp n ob r bd = Err e -> e = KeyError /\ exists l0 sp0 n0 r0 bd0,
      find (is_key (sp, l, n)) ops = Some (OAllocCap l0 sp0 n0 None r0 bd0).
  { move=> s objs l sp n ob r bd Ws [C1 C2] Hreq. rewrite /alloc_cap.
    case E: (guard _ _ _ _) => [[s1 v1] b1]. case: ob E => [ob|] // E.
    have [W1 [H [_ [H1 H2]]]] := guard_spec _ _ _ _ _ _ _ Ws (fun s => cap_alloc_store _ _ _ _ s) E.
    rewrite C2 keep_slot in H1 H2. case P: (pos (l, n) (keys ops sp)) H1 H2 => [i|] H1 H2.
    - have [E1 [E2 [E3 _]]] := H1 eq_refl. move: E1 => /= [<-].
      have -> : space_slots s1 sp = space_slots s sp by rewrite /space_slots E3.
      rewrite C1 (map_nth_error _ _ _ (pos_nth _ _ _ _ _ P)). cbn [fst snd].
      have Hin : In (l, n) (keys ops sp) by apply: nth_error_In (pos_nth _ _ _ _ _ P).
      have [o1 Ho1] := find_key_Some _ _ _ _ Hin. rewrite first_cap_eq Ho1.
      have [Hin1 Hk1] := find_some _ _ Ho1.
      case: o1 Ho1 Hin1 Hk1 => // [l0 sp0 n0 [ob0|] r0 bd0|l0 sp0 n0 t0 ol0 r0 bd0] Ho1 Hin1 Hk1 //=.
      + move=> [<-]. split=> //. by exists l0, sp0, n0, r0, bd0.
      + have := Hreq _ Hin1 _ _ _ _ _ _ _ eq_refl. case: find_obj => [x|] //=.
    - have [s0 [E1 [E2 [_ [E3 [E4 [E5 _]]]]]]] := H2 eq_refl. move: E3. rewrite /cap_alloc. cbn [snd] => <-.
      have -> : space_slots s1 sp = space_slots s0 sp ++ [Some (mk_kcap ob r bd)].
      { by rewrite (slots_dset _ _ _ _ sp E5) eqb_refl. }
      rewrite nth_error_app2 // Nat.sub_diag /=. by []. }
  case: o => [c0 k0 v0|c0 k0|c0 k0 v0|l n t ol|l sp n ob r bd|l sp n t ol r bd|t|t] //=.
  - by case: (pop _ _ _).
  - by case: (guard _ _ _ _) => [[? ?] ?].
  - by case: (alloc_obj _ _ _ _ _) => [[? ?] ?].
  - case E: (alloc_cap _ _ _ _ _ _ _) => [[[s1 v1] b1]|e1] //= [Ee]. subst e1.
    have [He Hx] := Core _ _ _ _ _ _ _ _ W (conj K1 K2)
      (fun o Ho l sp n t ol r bd Eo => ltac:(have [z Hz] := requested_found _ _ (mk_kobj (full_name l n) t ol) Ho ltac:(by rewrite Eo); by rewrite Hz)) E.
    split=> //. by exists (sp, l, n).
  - rewrite /alloc. case E1: (alloc_obj _ _ _ _ _) => [[s1 v1] b1].
    have [I1 [G1 [G2 [[i [G3 G4]] G5]]]] := alloc_obj_spec _ _ _ _ _ _ _ _ (conj W I) E1.
    rewrite G3. case E3: (alloc_cap _ _ _ _ _ _ _) => [[[s3 v3] b3]|e1] //= [Ee]. subst e1.
    set o := OAlloc l sp n t ol r bd.
    have C1 : caps_inv s1 ops (table (ops ++ [o])).
    { split.
      - move=> sp'. rewrite /space_slots G2 -/(space_slots st sp') K1. apply: map_ext => k. by rewrite first_cap_table.
      - move=> l' sp' n'. by rewrite G5 K2. }
    have Hreq : forall o', In o' ops -> forall l sp n t ol r bd, o' = OAlloc l sp n t ol r bd -> find_obj (table (ops ++ [o])) (full_name l n) 0 <> None.
    { move=> o' Ho' l' sp' n' t' ol' r' bd' Eo. subst o'. have [z Hz] := requested_found _ _ _ Ho' eq_refl.
      by rewrite (table_mono _ _ _ _ Hz). }
    have [He Hx] := Core _ _ _ _ _ _ _ _ (proj1 I1) C1 Hreq E3.
    split=> //. by exists (sp, l, n).
Qed.
