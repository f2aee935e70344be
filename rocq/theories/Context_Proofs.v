(** Proofs about the store: C28, C30. *)
From Coq Require Import ssreflect ssrbool List Bool Arith NArith String Ascii Lia.
From Verif Require Import Prelude DecStr Context_Model Context_Spec.
Import ListNotations.
Open Scope string_scope.
Open Scope list_scope.

Lemma ddel_keys K V (E : Eqb K) (d : dict K V) k k' : In k' (dkeys (ddel d k)) -> In k' (dkeys d).
Proof.
  elim: d => [|[k0 v0] d IH] //=. case: eqb_spec => [e|n] /=; first by right.
  case; [by left|by move=> /IH; right].
Qed.
Lemma NoDup_ddel K V (E : Eqb K) (d : dict K V) k : NoDup (dkeys d) -> NoDup (dkeys (ddel d k)).
Proof.
  elim: d => [|[k0 v0] d IH] //= H. inversion H as [|? ? Hni Hnd]; subst.
  case: eqb_spec => [e|n] //=. constructor; last by apply: IH.
  move=> Hin. apply: Hni. by apply: ddel_keys Hin.
Qed.
Lemma dget_ddel K V (E : Eqb K) (d : dict K V) k k' : NoDup (dkeys d) ->
  dget (ddel d k) k' = if eqb k' k then None else dget d k'.
Proof.
  elim: d => [|[k0 v0] d IH] /=; first by case: eqb.
  move=> H; inversion H as [|? ? Hni Hnd]; subst.
  case: (eqb_spec k k0) => [e|n] /=.
  - subst. case: (eqb_spec k' k0) => [->|//]. apply/dget_None. exact: Hni.
  - rewrite (IH Hnd). case: (eqb_spec k' k0) => [->|n'] //.
    by case: (eqb_spec k0 k) => // e; case: n.
Qed.

Definition swf (st : store) : Prop :=
  NoDup (dkeys st) /\ forall c d, dget st c = Some d -> NoDup (dkeys d).
Definition content (st : store) (c : client) (k : string) : option value :=
  match dget st c with Some d => dget d k | None => None end.

Lemma swf_dset st c d : swf st -> NoDup (dkeys d) -> swf (dset st c d).
Proof.
  move=> [N1 N2] Hd. split; first by apply: NoDup_dset.
  move=> c' d'. rewrite dget_dset. case: eqb_spec => [e [<-] //|_]. exact: N2.
Qed.

Lemma stash_spec st c k v : swf st -> swf (stash st c k v) /\
  forall c' k', content (stash st c k v) c' k' =
    if eqb c' c && eqb k' k then Some v else content st c' k'.
Proof.
  move=> W. rewrite /stash. case Ec: (dget st c) => [d|].
  - rewrite Ec. split; first by apply: swf_dset => //; apply: NoDup_dset; apply: (proj2 W) Ec.
    move=> c' k'. rewrite /content dget_dset. case: (eqb_spec c' c) => [->|n] //=.
    by rewrite dget_dset Ec.
  - rewrite dget_dset_eq. split.
    + apply: swf_dset; first by apply: swf_dset => //; constructor.
      apply: NoDup_dset. constructor.
    + move=> c' k'. rewrite /content !dget_dset. case: (eqb_spec c' c) => [->|n] //=.
      rewrite Ec. by case: (String.eqb k' k).
Qed.

Lemma pop_spec st c k : swf st ->
  swf (fst (pop st c k)) /\
  snd (pop st c k) = match content st c k with Some v => v | None => VNone end /\
  forall c' k', content (fst (pop st c k)) c' k' =
    if eqb c' c && eqb k' k then None else content st c' k'.
Proof.
  move=> W. rewrite /pop /content. case Ec: (dget st c) => [d|]; last first; cbn [fst snd].
  { do 2 (split; [done|]). move=> c' k'. case: (eqb_spec c' c) => [->|n] //.
    rewrite Ec. by case: (_ && _). }
  have Nd := proj2 W _ _ Ec.
  case Ek: (dget d k) => [v|]; last first; cbn [fst snd].
  { do 2 (split; [done|]). move=> c' k'. case: (eqb_spec c' c) => [->|n] //.
    rewrite Ec. cbn [andb]. case: (eqb_spec k' k) => [->|] //. }
  have W' : swf (dset st c (ddel d k)).
  { apply: swf_dset => //. exact: NoDup_ddel. }
  case Ed: (ddel d k) => [|p d'].
  - rewrite -Ed. split; [|split; [done|]].
    + case: W' => N1 N2. split; first by apply: NoDup_ddel.
      move=> c' x. rewrite dget_ddel //. case: eqb => //. exact: N2.
    + move=> c' k'. rewrite dget_ddel; first by apply: (proj1 W').
      rewrite dget_dset. case: (eqb_spec c' c) => [->|n] //.
      rewrite Ec. case: (eqb_spec k' k) => [->|n] //.
      have H1 : dget (ddel d k) k' = if eqb k' k then None else dget d k' by apply: dget_ddel.
      by rewrite Ed (proj2 (eqb_neq _ k' k) n) in H1.
  - rewrite -Ed. split; [done|split; [done|]].
    move=> c' k'. rewrite dget_dset. case: (eqb_spec c' c) => [->|n] //.
    rewrite Ec dget_ddel //.
Qed.

(** What guard does, on contents; [func] must not touch the store. *)
Definition keep (h : option value) : bool :=
  match h with None => false | Some VNone => false | Some _ => true end.
Lemma guard_spec s c k func s' v b : swf (c_store s) ->
  (forall s0, c_store (fst (func s0)) = c_store s0) ->
  guard s c k func = (s', v, b) ->
  swf (c_store s') /\
  (forall c' k', content (c_store s') c' k' = if eqb c' c && eqb k' k then Some v else content (c_store s) c' k') /\
  b = negb (keep (content (c_store s) c k)) /\
  (keep (content (c_store s) c k) = true -> content (c_store s) c k = Some v /\
     c_objs s' = c_objs s /\ c_spaces s' = c_spaces s /\ c_counter s' = c_counter s) /\
  (keep (content (c_store s) c k) = false -> exists s0, c_objs s0 = c_objs s /\ c_spaces s0 = c_spaces s /\
     c_counter s0 = c_counter s /\ snd (func s0) = v /\
     c_objs s' = c_objs (fst (func s0)) /\ c_spaces s' = c_spaces (fst (func s0)) /\
     c_counter s' = c_counter (fst (func s0))).
Proof.
  move=> W Hf. rewrite /guard. have [W' [Hv Hc]] := pop_spec _ c k W.
  case: (pop (c_store s) c k) W' Hv Hc => st w /= W' Hv Hc.
  have Hc2 : forall x c' k', content (stash st c k x) c' k' =
    if eqb c' c && eqb k' k then Some x else content (c_store s) c' k'.
  { move=> x c' k'. rewrite (proj2 (stash_spec _ c k x W')) Hc. by case: (_ && _). }
  have Wst : forall x, swf (stash st c k x) by move=> x; apply: (proj1 (stash_spec _ c k x W')).
  have Hk : keep (content (c_store s) c k) = match w with VNone => false | _ => true end.
  { rewrite Hv. by case: (content _ c k) => [[]|]. }
  have Ew : w <> VNone -> content (c_store s) c k = Some w.
  { rewrite Hv. by case: (content _ c k). }
  rewrite Hk.
  case: w Hv Ew Hk => [|n|n|n|n] Hv Ew Hk.
  - case Ef: (func _) => [s1 v1] [<- <- <-] /=.
    have Es : c_store s1 = st. { have := Hf (set_store s st). by rewrite Ef. }
    rewrite Es. do 3 (split; [by []|]). split; [by []|]. move=> _.
    exists (set_store s st). by rewrite Ef.
  - move=> [<- <- <-] /=. do 3 (split; [by []|]). split=> // _. split; [by apply: Ew|by []].
  - move=> [<- <- <-] /=. do 3 (split; [by []|]). split=> // _. split; [by apply: Ew|by []].
  - move=> [<- <- <-] /=. do 3 (split; [by []|]). split=> // _. split; [by apply: Ew|by []].
  - move=> [<- <- <-] /=. do 3 (split; [by []|]). split=> // _. split; [by apply: Ew|by []].
Qed.

(** Histories, from the right. *)
Lemma run_app s ops1 ops2 : run s (ops1 ++ ops2) =
  ('(s1, v1) <- run s ops1 ;; '(s2, v2) <- run s1 ops2 ;; Ok (s2, v1 ++ v2)).
Proof.
  elim: ops1 s => [|o ops IH] s /=.
  - case: (run s ops2) => [[s2 v2]|] //.
  - case: (exec s o) => [[s1 v]|] //=. rewrite IH.
    case: (run s1 ops) => [[s2 v2]|] //=. by case: (run s2 ops2) => [[s3 v3]|].
Qed.
Lemma run_snoc s ops o st outs : run s (ops ++ [o]) = Ok (st, outs) ->
  exists s1 vs v, run s ops = Ok (s1, vs) /\ exec s1 o = Ok (st, v) /\ outs = vs ++ [v].
Proof.
  rewrite run_app. case: (run s ops) => [[s1 vs]|] //=. case Ee: (exec s1 o) => [[s2 v]|] //=.
  move=> [<- <-]. by exists s1, vs, v.
Qed.
Lemma run_length s ops st outs : run s ops = Ok (st, outs) -> List.length outs = List.length ops.
Proof.
  elim: ops s st outs => [|o ops IH] s st outs /=; first by move=> [_ <-].
  case: (exec s o) => [[s1 v]|] //=. case Er: (run s1 ops) => [[s2 vs]|] //= [_ <-].
  by rewrite /= (IH _ _ _ Er).
Qed.
Lemma run_nth s ops st outs i o : run s ops = Ok (st, outs) -> nth_error ops i = Some o ->
  exists s1 vs s2 v rest, run s (firstn i ops) = Ok (s1, vs) /\ exec s1 o = Ok (s2, v) /\
    nth_error outs i = Some v /\ run s2 (skipn (S i) ops) = Ok (st, rest) /\ outs = vs ++ v :: rest.
Proof.
  elim: ops s st outs i => [|o0 ops IH] s st outs i /=; first by case: i.
  case Ee: (exec s o0) => [[s1 v]|] //=. case Er: (run s1 ops) => [[s2 vs]|] //= [<- <-].
  case: i => [|i] /=.
  - move=> [<-]. by exists s, [], s1, v, vs.
  - move=> Hn. have [s3 [vs3 [s4 [v4 [rest [H1 [H2 [H3 [H4 H5]]]]]]]]] := IH _ _ _ _ Er Hn.
    exists s3, (v :: vs3), s4, v4, rest. rewrite Ee /= H1 /= H5. do 2 (split; [done|]).
    rewrite -H5. by [].
Qed.
Lemma firstn_snoc A (l : list A) i a : nth_error l i = Some a -> firstn (S i) l = firstn i l ++ [a].
Proof. elim: l i => [|x l IH] [|i] //=; first by move=> [->]. by move=> /IH <-. Qed.

(** Each request does one thing to the store. *)
Lemma obj_alloc_store t n l s : c_store (fst (obj_alloc s t n l)) = c_store s.
Proof. rewrite /obj_alloc. by case: find_obj. Qed.
Lemma cap_alloc_store sp o r b s : c_store (fst (cap_alloc s sp o r b)) = c_store s.
Proof. by []. Qed.

Definition op_touches (o : op) (c : client) (k : string) : bool :=
  match o with
  | OStash c' k' _ | OPop c' k' | OGuard c' k' _ => eqb c (Named c') && eqb k k'
  | OAllocObj l n _ _ => eqb c (ObjClient l) && eqb k (full_name l n ++ "_obj")%string
  | OAllocCap l sp n _ _ _ => eqb c (CapClient l sp) && eqb k (n ++ "_cap")%string
  | OAlloc l sp n _ _ _ _ =>
      (eqb c (ObjClient l) && eqb k (full_name l n ++ "_obj")%string) ||
      (eqb c (CapClient l sp) && eqb k (n ++ "_cap")%string)
  | _ => false
  end.

Lemma alloc_cap_guard s l sp n o r b s' v c : alloc_cap s l sp n o r b = Ok (s', v, c) ->
  exists s1, guard s (CapClient l sp) (n ++ "_cap")%string (fun s => cap_alloc s sp o r b) = (s1, v, c) /\
    c_store s' = c_store s1 /\ c_objs s' = c_objs s1 /\ c_counter s' = c_counter s1 /\
    match o with
    | None => c_spaces s' = c_spaces s1
    | Some _ => exists i k, v = VSlot i /\ nth_error (space_slots s1 sp) i = Some (Some k) /\
        c_spaces s' = dset (c_spaces s1) sp (set_nth (space_slots s1 sp) i (Some (upgrade k r)))
    end.
Proof.
  rewrite /alloc_cap. case: (guard _ _ _ _) => [[s1 v1] b1]. case: o => [o|].
  - case: v1 => // i. case En: (nth_error _ i) => [[k|]|] // [<- <- <-].
    exists s1. do 4 (split; [done|]). by exists i, k.
  - move=> [<- <- <-]. by exists s1.
Qed.

Lemma exec_store s o s' v : swf (c_store s) -> exec s o = Ok (s', v) ->
  swf (c_store s') /\
  forall c k, op_touches o c k = false -> content (c_store s') c k = content (c_store s) c k.
Proof.
  move=> W. case: o => [c0 k0 v0|c0 k0|c0 k0 v0|l n t ol|l sp n ob r bd|l sp n t ol r bd|t|t] /=.
  - move=> [<- _] /=. have [W1 H] := stash_spec _ (Named c0) k0 v0 W. split=> // c k E.
    rewrite H. by rewrite /= E.
  - have [W1 [_ H]] := pop_spec _ (Named c0) k0 W. case: (pop _ _ _) W1 H => st w /= W1 H [<- _] /=.
    split=> // c k E. by rewrite H /= E.
  - case E: (guard _ _ _ _) => [[s1 v1] b1] [<- _].
    have Hf : forall s0, c_store (fst ((fun s => (s, v0)) s0)) = c_store s0 by [].
    have [W1 [H _]] := guard_spec _ _ _ _ _ _ _ W Hf E. split=> // c k E1. by rewrite H /= E1.
  - rewrite /alloc_obj. case E: (guard _ _ _ _) => [[s1 v1] b1] [<- _].
    have [W1 [H _]] := guard_spec _ _ _ _ _ _ _ W (fun s => obj_alloc_store _ _ _ s) E.
    split=> // c k E1. by rewrite H /= E1.
  - case E: (alloc_cap _ _ _ _ _ _ _) => [[[s1 v1] b1]|] //= [<- _].
    have [s2 [E2 [-> _]]] := alloc_cap_guard _ _ _ _ _ _ _ _ _ _ E.
    have [W1 [H _]] := guard_spec _ _ _ _ _ _ _ W (fun s => cap_alloc_store _ _ _ _ s) E2.
    split=> // c k E1. by rewrite H /= E1.
  - rewrite /alloc /alloc_obj. case E: (guard _ _ _ _) => [[s1 v1] b1].
    have [W1 [H _]] := guard_spec _ _ _ _ _ _ _ W (fun s => obj_alloc_store _ _ _ s) E.
    case: v1 E H => // o E H. case E3: (alloc_cap _ _ _ _ _ _ _) => [[[s3 v3] b3]|] //= [<- _].
    have [s2 [E2 [-> _]]] := alloc_cap_guard _ _ _ _ _ _ _ _ _ _ E3.
    have [W2 [H2 _]] := guard_spec _ _ _ _ _ _ _ W1 (fun s => cap_alloc_store _ _ _ _ s) E2.
    split=> // c k /orb_false_iff [E4 E5]. rewrite H2 H /=. by rewrite E4 E5.
  - by move=> [<- _].
  - by move=> [<- _].
Qed.

Lemma run_swf ops st outs : run ctx0 ops = Ok (st, outs) -> swf (c_store st).
Proof.
  elim/rev_ind: ops st outs => [|o ops IH] st outs.
  - move=> [<- _]. split=> /=; [constructor|by []].
  - move=> /run_snoc [s1 [vs [v [/IH W [E _]]]]]. by have [] := exec_store _ _ _ _ W E.
Qed.

(** ** C28 *)
Lemma held_snoc ops o c k : held (ops ++ [o]) c k = held_step c k (held ops c k) o.
Proof. by rewrite /held fold_left_app. Qed.

Lemma held_content ops st outs : run ctx0 ops = Ok (st, outs) ->
  forall c k, content (c_store st) (Named c) k = held ops c k.
Proof.
  elim/rev_ind: ops st outs => [|o ops IH] st outs.
  - by move=> [<- _].
  - move=> /run_snoc [s1 [vs [v [R [E _]]]]] c k. have W := run_swf _ _ _ R.
    have Hc := IH _ _ R. rewrite held_snoc -Hc.
    case: o E => [c0 k0 v0|c0 k0|c0 k0 v0|l n t ol|l sp n ob r bd|l sp n t ol r bd|t|t] E.
    + move: E => [<- _] /=. by rewrite (proj2 (stash_spec _ (Named c0) k0 v0 W)).
    + move: E => /=. have [_ [_ H]] := pop_spec _ (Named c0) k0 W.
      case: (pop _ _ _) H => st' w /= H [<- _] /=. by rewrite H.
    + move: E => /=. case E: (guard _ _ _ _) => [[s2 v1] b1] [<- _].
      have Hf : forall s0, c_store (fst ((fun s => (s, v0)) s0)) = c_store s0 by [].
      have [_ [H [_ [H1 H2]]]] := guard_spec _ _ _ _ _ _ _ W Hf E. rewrite H.
      cbn [held_step]. change (eqb (Named c) (Named c0)) with (String.eqb c c0).
      change (eqb k k0) with (String.eqb k k0).
      case: (String.eqb_spec c c0) => [e|//]. subst c0.
      case: (String.eqb_spec k k0) => [e|//]. subst k0. cbn [andb].
      case Ek: (keep (content (c_store s1) (Named c) k)).
      * have [E1 _] := H1 Ek. rewrite E1 in Ek |- *. by case: (v1) Ek.
      * have [s0 [_ [_ [_ [<- _]]]]] := H2 Ek. by case: (content _ _ _) Ek => [[]|].
    + by have [_ ->] := exec_store _ _ _ _ W E.
    + by have [_ ->] := exec_store _ _ _ _ W E.
    + by have [_ ->] := exec_store _ _ _ _ W E.
    + by have [_ ->] := exec_store _ _ _ _ W E.
    + by have [_ ->] := exec_store _ _ _ _ W E.
Qed.

Lemma store_answers_lemma ops st outs i o c k : run ctx0 ops = Ok (st, outs) ->
  nth_error ops i = Some o -> store_key o = Some (c, k) ->
  nth_error outs i = store_answer (held (firstn i ops) c k) o.
Proof.
  move=> R Hn Hk. have [s1 [vs [s2 [v [rest [R1 [E [-> _]]]]]]]] := run_nth _ _ _ _ _ _ R Hn.
  have W := run_swf _ _ _ R1. rewrite -(held_content _ _ _ R1).
  case: o Hk E Hn => [c0 k0 v0|c0 k0|c0 k0 v0|l n t ol|l sp n ob r bd|l sp n t ol r bd|t|t] //= [? ?]; subst.
  - by move=> [_ <-].
  - have [_ [H _]] := pop_spec _ (Named c) k W. by case: (pop _ _ _) H => st' w /= -> [_ <-].
  - case E: (guard _ _ _ _) => [[s3 v1] b1] [_ <-] _.
    have Hf : forall s0, c_store (fst ((fun s => (s, v0)) s0)) = c_store s0 by [].
    have [_ [_ [-> [H1 H2]]]] := guard_spec _ _ _ _ _ _ _ W Hf E.
    case Ek: (keep (content (c_store s1) (Named c) k)).
    + have [E1 _] := H1 Ek. rewrite E1 in Ek |- *. by case: (v1) Ek.
    + have [s0 [_ [_ [_ [<- _]]]]] := H2 Ek. by case: (content _ _ _) Ek => [[]|].
Qed.

Lemma fold_held_keep c k ops v : v <> VNone -> Forall (fun o => ~ disturbs c k o) ops ->
  fold_left (held_step c k) ops (Some v) = Some v.
Proof.
  move=> Nv. elim: ops => [|o ops IH] //= H. inversion H as [|? ? H1 H2]; subst.
  have -> : held_step c k (Some v) o = Some v; last by apply: IH.
  case: o H1 {H} => [c0 k0 v0|c0 k0|c0 k0 v0|l n t ol|l sp n ob r bd|l sp n t ol r bd|t|t] //= H1.
  - case: (String.eqb_spec c c0) => //= e. case: (String.eqb_spec k k0) => //= e'.
    case: H1. left. exists v0. by subst.
  - case: (String.eqb_spec c c0) => //= e. case: (String.eqb_spec k k0) => //= e'.
    case: H1. right. by subst.
  - case: (_ && _) => //. by case: (v) Nv.
Qed.

Lemma guard_once_lemma ops st outs i j c k vi vj wi bi : run ctx0 ops = Ok (st, outs) -> (i < j)%nat ->
  nth_error ops i = Some (OGuard c k vi) -> nth_error ops j = Some (OGuard c k vj) ->
  Forall (fun o => ~ disturbs c k o) (firstn (j - S i) (skipn (S i) ops)) ->
  nth_error outs i = Some (wi, bi) -> wi <> VNone ->
  nth_error outs j = Some (wi, false).
Proof.
  move=> R Hij Hi Hj Hd Ho Hw.
  have Ai := store_answers_lemma _ _ _ _ _ _ _ R Hi eq_refl.
  have Aj := store_answers_lemma _ _ _ _ _ _ _ R Hj eq_refl.
  rewrite Aj. rewrite Ai in Ho.
  have Hs : held (firstn (S i) ops) c k = Some wi.
  { rewrite (firstn_snoc _ _ _ _ Hi) held_snoc. move: Ho => /=. rewrite !String.eqb_refl /=.
    case: (held _ _ _) => [[|?|?|?|?]|] [-> _] //. }
  have Hjj : firstn j ops = firstn (S i) ops ++ firstn (j - S i) (skipn (S i) ops).
  { rewrite -{1}(firstn_skipn (S i) ops) firstn_app.
    have Hl : List.length (firstn (S i) ops) = S i.
    { rewrite firstn_length. have : (i < List.length ops)%nat by apply/nth_error_Some; rewrite Hi. lia. }
    rewrite Hl. rewrite firstn_all2; [by lia|by []]. }
  have -> : held (firstn j ops) c k = Some wi.
  { rewrite Hjj. rewrite /held fold_left_app. rewrite /held in Hs. rewrite Hs. exact: fold_held_keep. }
  rewrite /=. by case: wi Hw {Ho Hs}.
Qed.

Lemma held_filter c k ops : held (filter (of_client c) ops) c k = held ops c k.
Proof.
  elim/rev_ind: ops => [|o ops IH] //. rewrite filter_app held_snoc /=.
  have H : of_client c o = false -> held_step c k (held ops c k) o = held ops c k.
  { case: o => [c0 k0 v0|c0 k0|c0 k0 v0|l n t ol|l sp n ob r bd|l sp n t ol r bd|t|t] //=;
    by rewrite /of_client /= => ->. }
  case E: (of_client c o); last by rewrite app_nil_r IH H.
  by rewrite held_snoc IH.
Qed.

Lemma exec_client_ok s o c : of_client c o = true -> exists s' v, exec s o = Ok (s', v).
Proof.
  case: o => [c0 k0 v0|c0 k0|c0 k0 v0|l n t ol|l sp n ob r bd|l sp n t ol r bd|t|t] //= _.
  - by eexists; eexists.
  - case: (pop _ _ _) => st v. by eexists; eexists.
  - case: (guard _ _ _ _) => [[s1 v1] b]. by eexists; eexists.
Qed.

Lemma isolated_lemma ops st outs c : run ctx0 ops = Ok (st, outs) ->
  exists st', run ctx0 (filter (of_client c) ops) = Ok (st', answers_of_client c ops outs).
Proof.
  elim/rev_ind: ops st outs => [|o ops IH] st outs.
  - move=> [_ <-]. by exists ctx0.
  - move=> R0. have [s1 [vs [v [R [E Eo]]]]] := run_snoc _ _ _ _ _ R0.
    have [st' R'] := IH _ _ R. rewrite filter_app /=.
    have Hl := run_length _ _ _ _ R.
    have -> : answers_of_client c (ops ++ [o]) outs =
      answers_of_client c ops vs ++ (if of_client c o then [v] else []).
    { rewrite /answers_of_client Eo.
      have -> : combine (ops ++ [o]) (vs ++ [v]) = combine ops vs ++ [(o, v)].
      { elim: (ops) vs Hl {R R0 E Eo IH R'} => [|x l IHl] [|y m] //= [Hl]. by rewrite (IHl _ Hl). }
      rewrite filter_app map_app /=. by case: of_client. }
    case Eof: (of_client c o); last by exists st'; rewrite !app_nil_r.
    have [s2 [v2 E2]] := exec_client_ok st' o c Eof.
    exists s2. rewrite run_app R' /= E2 /=. suff -> : v2 = v by [].
    (* both answers are determined by what is held *)
    have [k Hk] : exists k, store_key o = Some (c, k).
    { move: Eof. rewrite /of_client. case: (store_key o) => [[c0 k0]|] //. rewrite eqb_eq => <-. by exists k0. }
    have N1 : nth_error (ops ++ [o]) (List.length ops) = Some o.
    { rewrite nth_error_app2; first by lia. by rewrite Nat.sub_diag. }
    have A1 := store_answers_lemma _ _ _ _ _ _ _ R0 N1 Hk.
    have R2 : run ctx0 (filter (of_client c) ops ++ [o]) = Ok (s2, answers_of_client c ops vs ++ [v2]).
    { by rewrite run_app R' /= E2. }
    have N2 : nth_error (filter (of_client c) ops ++ [o]) (List.length (filter (of_client c) ops)) = Some o.
    { rewrite nth_error_app2; first by lia. by rewrite Nat.sub_diag. }
    have A2 := store_answers_lemma _ _ _ _ _ _ _ R2 N2 Hk.
    have L1 := run_length _ _ _ _ R'.
    rewrite Eo nth_error_app2 in A1; first by lia. rewrite Hl Nat.sub_diag /= in A1.
    rewrite nth_error_app2 in A2; first by lia. rewrite L1 Nat.sub_diag /= in A2.
    rewrite firstn_app firstn_all Nat.sub_diag /= app_nil_r in A1.
    rewrite firstn_app firstn_all Nat.sub_diag /= app_nil_r held_filter in A2.
    rewrite -A1 in A2. by case: A2.
Qed.

(** ** C30 *)
Definition is_sym (o : op) : bool := match o with OCSymbol _ | OISymbol _ => true | _ => false end.
Lemma guard_counter s c k func s' v b : (forall s0, c_counter (fst (func s0)) = c_counter s0) ->
  guard s c k func = (s', v, b) -> c_counter s' = c_counter s.
Proof.
  move=> Hf. rewrite /guard. case: (pop _ _ _) => st w.
  case: w => [|n|n|n|n]; [|by move=> [<- _ _]..].
  case E: (func _) => [s1 v1] [<- _ _] /=. have := Hf (set_store s st). by rewrite E.
Qed.
Lemma obj_alloc_counter t n l s : c_counter (fst (obj_alloc s t n l)) = c_counter s.
Proof. rewrite /obj_alloc. by case: find_obj. Qed.
Lemma exec_counter s o s' v : exec s o = Ok (s', v) ->
  c_counter s' = (c_counter s + if is_sym o then 1 else 0)%N.
Proof.
  case: o => [c0 k0 v0|c0 k0|c0 k0 v0|l n t ol|l sp n ob r bd|l sp n t ol r bd|t|t] /=;
    rewrite ?N.add_0_r.
  - by move=> [<- _].
  - case: (pop _ _ _) => st w [<- _]. by [].
  - case E: (guard _ _ _ _) => [[s1 v1] b1] [<- _]. by apply: (guard_counter _ _ _ _ _ _ _ _ E).
  - rewrite /alloc_obj. case E: (guard _ _ _ _) => [[s1 v1] b1] [<- _].
    apply: (guard_counter _ _ _ _ _ _ _ _ E). exact: obj_alloc_counter.
  - case E: (alloc_cap _ _ _ _ _ _ _) => [[[s1 v1] b1]|] //= [<- _].
    have [s2 [E2 [_ [_ [-> _]]]]] := alloc_cap_guard _ _ _ _ _ _ _ _ _ _ E.
    by apply: (guard_counter _ _ _ _ _ _ _ _ E2).
  - rewrite /alloc /alloc_obj. case E: (guard _ _ _ _) => [[s1 v1] b1].
    have H1 : c_counter s1 = c_counter s.
    { apply: (guard_counter _ _ _ _ _ _ _ _ E). exact: obj_alloc_counter. }
    case: v1 E => // o E. case E3: (alloc_cap _ _ _ _ _ _ _) => [[[s3 v3] b3]|] //= [<- _].
    have [s2 [E2 [_ [_ [-> _]]]]] := alloc_cap_guard _ _ _ _ _ _ _ _ _ _ E3.
    rewrite -H1. by apply: (guard_counter _ _ _ _ _ _ _ _ E2).
  - by move=> [<- _].
  - by move=> [<- _].
Qed.
Lemma run_counter_mono s ops st outs : run s ops = Ok (st, outs) -> (c_counter s <= c_counter st)%N.
Proof.
  elim: ops s st outs => [|o ops IH] s st outs /=; first by move=> [<- _]; lia.
  case E: (exec s o) => [[s1 v]|] //=. case Er: (run s1 ops) => [[s2 vs]|] //= [<- _].
  have := IH _ _ _ Er. have := exec_counter _ _ _ _ E. case: is_sym; lia.
Qed.

(** The number printed in a symbol grows strictly. *)
Lemma sym_counters ops st outs i j oi oj : run ctx0 ops = Ok (st, outs) -> (i < j)%nat ->
  nth_error ops i = Some oi -> nth_error ops j = Some oj -> is_sym oi = true ->
  exists si sj si' sj' vi vj, exec si oi = Ok (si', vi) /\ exec sj oj = Ok (sj', vj) /\
    nth_error outs i = Some vi /\ nth_error outs j = Some vj /\ (c_counter si < c_counter sj)%N.
Proof.
  move=> R Hij Hi Hj Hs.
  have [si [vsi [si' [vi [resti [Ri [Ei [Oi [Ri' _]]]]]]]]] := run_nth _ _ _ _ _ _ R Hi.
  have [sj [vsj [sj' [vj [restj [Rj [Ej [Oj [_ _]]]]]]]]] := run_nth _ _ _ _ _ _ R Hj.
  exists si, sj, si', sj', vi, vj. do 4 (split; [done|]).
  have Hsj : exists o2, run si' (firstn (j - S i) (skipn (S i) ops)) = Ok (sj, o2).
  { have Hf : firstn j ops = firstn i ops ++ oi :: firstn (j - S i) (skipn (S i) ops).
    { have E1 : firstn j ops = firstn (S i) ops ++ firstn (j - S i) (skipn (S i) ops).
      { rewrite -{1}(firstn_skipn (S i) ops) firstn_app.
        have Hl : List.length (firstn (S i) ops) = S i.
        { rewrite firstn_length. have : (i < List.length ops)%nat by apply/nth_error_Some; rewrite Hi. lia. }
        rewrite Hl. rewrite firstn_all2; [by lia|by []]. }
      by rewrite E1 (firstn_snoc _ _ _ _ Hi) -app_assoc. }
    move: Rj. rewrite Hf run_app Ri /= Ei /=. case: (run si' _) => [[s2 v2]|] //= [<- _]. by exists v2. }
  case: Hsj => o2 Hsj. have := run_counter_mono _ _ _ _ Hsj.
  have := exec_counter _ _ _ _ Ei. rewrite Hs. lia.
Qed.

Lemma c_sym_inj t t' n n' : ("_camkes_" ++ t ++ "_" ++ dec n = "_camkes_" ++ t' ++ "_" ++ dec n')%string -> n = n'.
Proof.
  move=> E. have {}E := string_app_inj_l _ _ _ E.
  have [_ H] : t = t' /\ dec n = dec n'.
  { apply: (sep_inj "_"%char is_digit) => //; exact: dec_digits. }
  exact: dec_inj.
Qed.
Lemma c_sym_lemma ops st outs i j ti tj vi vj : run ctx0 ops = Ok (st, outs) -> i <> j ->
  nth_error ops i = Some (OCSymbol ti) -> nth_error ops j = Some (OCSymbol tj) ->
  nth_error outs i = Some vi -> nth_error outs j = Some vj -> fst vi <> fst vj.
Proof.
  have Main : forall i j ti tj vi vj, run ctx0 ops = Ok (st, outs) -> (i < j)%nat ->
    nth_error ops i = Some (OCSymbol ti) -> nth_error ops j = Some (OCSymbol tj) ->
    nth_error outs i = Some vi -> nth_error outs j = Some vj -> fst vi <> fst vj.
  { move=> {}i {}j {}ti {}tj {}vi {}vj R Hij Hi Hj Oi Oj.
    have [si [sj [si' [sj' [wi [wj [Ei [Ej [Oi' [Oj' Hc]]]]]]]]]] := sym_counters _ _ _ _ _ _ _ R Hij Hi Hj eq_refl.
    rewrite Oi in Oi'; rewrite Oj in Oj'. move: Oi' Oj' => [?] [?]; subst wi wj.
    move: Ei Ej => /= [_ <-] [_ <-]. cbn [fst]. move=> [E].
    have := c_sym_inj _ _ _ _ (f_equal (String.append "_camkes_") E). lia. }
  move=> R Hij Hi Hj Oi Oj. have [H|H] : (i < j \/ j < i)%nat by lia.
  - exact: (Main _ _ _ _ _ _ R H Hi Hj Oi Oj).
  - move=> E. by apply: (Main _ _ _ _ _ _ R H Hj Hi Oj Oi).
Qed.

Lemma last_char_app a c : last_char (a ++ String c EmptyString)%string = Some c.
Proof. elim: a => [|x a IH] //=. by case: a IH => [|y a]. Qed.
Lemma dec_last n : exists c, last_char (dec n) = Some c /\ is_digit c = true.
Proof.
  have H := dec_digits n. have Hne : dec n <> EmptyString.
  { move=> E. have := undec_dec n. rewrite E. by case: n {H} E. }
  elim: (dec n) H Hne => [|c s IH] //= /andP [Hc Hs] _. case: s IH Hs => [|y s] IH Hs; first by exists c.
  exact: IH.
Qed.

Lemma contentsE s sp i : contents s sp i = nth_error (space_slots s sp) i.
Proof. rewrite /contents /space_slots. case: dget => [l|] //. by case: i. Qed.
