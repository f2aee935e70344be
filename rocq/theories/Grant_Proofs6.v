(** The kinds and labels of the objects. *)
From Coq Require Import List Bool Arith NArith String Ascii Lia.
From mathcomp Require Import ssreflect.
From Verif Require Import Prelude DecStr Context_Model Context_Spec Context_Proofs Context_Proofs2 Context_Proofs3
  Grant_Model Grant_Spec Grant_Proofs Grant_Proofs2 Grant_Proofs3 Grant_Proofs4.
Import ListNotations.
Open Scope string_scope.
Open Scope list_scope.

Section Objects.
Variables (rt : bool) (its : list item).
Definition justified (k : kobj) : Prop :=
  (exists e n r, In (End e) its /\ share rt e n r /\ k = mk_kobj (object_name (e_conn e) n) (kind_of n) (label_of e n)) \/
  (exists inst sp n t r, In (Own inst sp n t r) its /\ k = mk_kobj (object_name inst n) t inst).
Definition objs_ok (s : ctx) : Prop :=
  exists ops outs, run ctx0 ops = Ok (s, outs) /\ forall k, In k (table ops) -> justified k.

Lemma exec_ok s o s' v : objs_ok s -> exec s o = Ok (s', v) -> (forall k, obj_request o = Some k -> justified k) -> objs_ok s'.
Proof.
  move=> [ops [outs [R J]]] E Hk. exists (ops ++ [o]), (outs ++ [v]). split.
  { rewrite run_app R. cbn [bind]. by rewrite (run_one _ _ _ _ E). }
  move=> k. rewrite table_snoc /table_step. case Eo: (obj_request o) => [k'|]; last exact: J.
  case: (find_obj _ _ _) => [_|]; first exact: J. rewrite in_app_iff. case=> [|[<-|[]]]; first exact: J. exact: Hk.
Qed.
Lemma alloc__ok s e n r t ol s' : objs_ok s -> In (End e) its -> share rt e n r -> kind_of n = t -> label_of e n = ol ->
  alloc_ s e n t ol r = Ok s' -> objs_ok s'.
Proof.
  move=> G He Hs <- <-. rewrite /alloc_. case E: (alloc _ _ _ _ _ _ _ _) => [[[s1 v] b]|] //= [<-].
  apply: (exec_ok s (OAlloc (e_conn e) (e_space e) n (kind_of n) (label_of e n) r None) _ (v, b)) => //; first by rewrite /= E.
  move=> k [<-]. left. by exists e, n, r.
Qed.
Lemma alloc_obj_cap_ok s e cn r s' : objs_ok s -> In (End e) its -> share rt e "ep" r ->
  alloc_obj_cap s e "ep" cn endpoint r = Ok s' -> objs_ok s'.
Proof.
  move=> G He Hs. rewrite /alloc_obj_cap. case Eo: (alloc_obj _ _ _ _ _) => [[s1 v] b]. case: v Eo => // o Eo.
  case Ec: (alloc_cap _ _ _ _ _ _ _) => [[[s2 v2] b2]|] //= [<-].
  have G1 : objs_ok s1.
  { apply: (exec_ok s (OAllocObj (e_conn e) "ep" endpoint (e_conn e)) _ (VObj o, b)) => //; first by rewrite /= Eo.
    move=> k [<-]. left. exists e, "ep", r. by []. }
  apply: (exec_ok s1 (OAllocCap (e_conn e) (e_space e) cn (Some o) r None) _ (v2, b2)) => //. by rewrite /exec Ec.
Qed.
Lemma each_ok e p t r l s s' : (forall i, In i l -> share rt e (numbered_name p i) r) ->
  (forall i, kind_of (numbered_name p i) = t) -> (forall i, label_of e (numbered_name p i) = e_conn e) -> In (End e) its ->
  objs_ok s -> foldM (fun s i => alloc_ s e (numbered_name p i) t (e_conn e) r) l s = Ok s' -> objs_ok s'.
Proof.
  move=> + Hk Hl He. elim: l s => [|i l IH] s Hs G /=; first by move=> [<-].
  case E: (alloc_ _ _ _ _ _ _) => [s1|] //=. apply: IH; first by move=> j Hj; apply: Hs; right.
  apply: (alloc__ok _ _ _ _ _ _ _ G He (Hs i (or_introl eq_refl))) E => //.
Qed.
Lemma handoff_ok s e s' : In (End e) its -> e_kind e = Notification \/ e_kind e = NotificationQueue -> e_from e = false ->
  objs_ok s -> handoff_lock s e = Ok s' -> objs_ok s'.
Proof.
  move=> He Ek Ef G. rewrite /handoff_lock. case E: (alloc_ _ _ _ _ _ _) => [s1|] //= E2.
  have G1 := alloc__ok _ _ _ _ _ _ _ G He (handoff rt e Ek Ef) eq_refl eq_refl E.
  exact: alloc__ok G1 He (lock rt e Ek Ef) eq_refl eq_refl E2.
Qed.
Lemma render_ok s e s' : objs_ok s -> In (End e) its -> render rt s e = Ok s' -> objs_ok s'.
Proof.
  move=> G He. rewrite /render. case Ek: (e_kind e); case Ef: (e_from e).
  - rewrite /rpc_from /establish_from_rpc /establish_buffer. have Sh := caller rt e Ek Ef.
    case Eb: (e_buffer e) => [n|]; last by cbn [bind]; exact: alloc_obj_cap_ok.
    case: (_ || _) => //. case El: (Nat.ltb 1 n); last by cbn [bind]; exact: alloc_obj_cap_ok.
    case E: (alloc_ _ _ _ _ _ _) => [s1|] //=. move/Nat.ltb_lt in El.
    have G1 := alloc__ok _ _ _ _ _ _ _ G He (buffer_lock rt e n Ek Ef Eb El) eq_refl eq_refl E.
    exact: alloc_obj_cap_ok.
  - rewrite /establish_recv_rpc. have Sh := server rt e Ek Ef.
    case E: (alloc_obj_cap _ _ _ _ _ _) => [s1|] //. cbn [bind]. have G1 := alloc_obj_cap_ok _ _ _ _ _ G He Sh E.
    case Er: rt.
    { move=> E2. exact: (alloc__ok _ _ _ _ _ _ _ G1 He (reply rt e Ek Ef Er) eq_refl eq_refl E2). }
    case: (e_blocks e); last by move=> [<-].
    destruct (alloc_cap s1 (e_conn e) (e_space e) "reply_cap_slot" None (mk_rights false false false false) None)
      as [[[s2 v] b]|] eqn:E3; last by [].
    move=> [<-]. apply: (exec_ok s1 (OAllocCap (e_conn e) (e_space e) "reply_cap_slot" None (mk_rights false false false false) None) _ (v, b)) => //.
    by rewrite /exec E3.
  - apply: each_ok => // i /in_seq Hi. apply: emitter => //. lia.
  - case E: (alloc_ _ _ _ _ _ _) => [s1|] //=. have G1 := alloc__ok _ _ _ _ _ _ _ G He (consumer rt e Ek Ef) eq_refl eq_refl E.
    apply: handoff_ok => //. by left.
  - apply: each_ok => // i /in_seq Hi. apply: queue_emitter => //. lia.
  - case E: (alloc_ _ _ _ _ _ _) => [s1|] //=. have G1 := alloc__ok _ _ _ _ _ _ _ G He (queue_consumer rt e Ek Ef) eq_refl eq_refl E.
    apply: handoff_ok => //. by right.
  - exact: (alloc__ok _ _ _ _ _ _ _ G He (native_emitter rt e Ek Ef) eq_refl eq_refl).
  - exact: (alloc__ok _ _ _ _ _ _ _ G He (native_consumer rt e Ek Ef) eq_refl eq_refl).
  - exact: (alloc__ok _ _ _ _ _ _ _ G He (bind_emitter rt e Ek Ef) eq_refl eq_refl).
  - exact: (alloc__ok _ _ _ _ _ _ _ G He (bind_consumer rt e Ek Ef) eq_refl eq_refl).
Qed.
Lemma items_ok l s s' : incl l its -> objs_ok s -> foldM (render_item rt) l s = Ok s' -> objs_ok s'.
Proof.
  elim: l s => [|i l IH] s I G /=; first by move=> [<-].
  case E: (render_item rt s i) => [s1|] //=. apply: IH; first by move=> x Hx; apply: I; right.
  have Hi := I i (or_introl eq_refl). case: i E Hi {I} => [e|inst sp n t r] E Hi; first exact: render_ok E.
  move: E. rewrite /render_item. case E: (alloc _ _ _ _ _ _ _ _) => [[[s2 v] b]|] //= [<-].
  apply: (exec_ok s (OAlloc inst sp n t inst r None) _ (v, b)) => //; first by rewrite /= E.
  move=> k [<-]. right. by exists inst, sp, n, t, r.
Qed.
End Objects.

Lemma objects_lemma rt its st e n r k : render_all rt its = Ok st -> distinct_names its -> unmistakable rt its -> well_counted its ->
  In (End e) its -> share rt e n r -> In k (c_objs st) -> ko_name k = object_name (e_conn e) n ->
  ko_type k = kind_of n /\ ko_label k = label_of e n.
Proof.
  move=> Hr Hd U Hw He Hs Hk Nk.
  have G0 : objs_ok rt its ctx0 by exists [], []; split.
  have [ops [outs [R J]]] := items_ok rt its its ctx0 st (fun _ H => H) G0 Hr.
  have [_ [T _]] := inv_run _ _ _ R. rewrite T in Hk.
  case: (J _ Hk) => [[e1 [n1 [r1 [He1 [Hs1 Ek]]]]]|[inst [sp [m [t [r' [Ho Ek]]]]]]]; subst k; cbn [ko_name ko_type ko_label] in *; last first.
  { exfalso. exact: (no_own_name _ _ U _ _ _ _ _ _ _ _ He Hs Ho Nk). }
  have [Ec En] : e_conn e = e_conn e1 /\ n = n1.
  { case: (names_apart _ _ _ _ (share_word _ _ _ _ Hs) (share_word _ _ _ _ Hs1) (eq_sym Nk)) => [//|[E|E]]; exfalso.
    - exact: (no_buffer_name _ _ U _ _ He He1 E).
    - exact: (no_buffer_name _ _ U _ _ He1 He E). }
  subst n1. split=> //.
  case Ep: (prefix "handoff" n || prefix "lock" n || prefix "userspace" n); last by rewrite /label_of Ep Ec.
  suff -> : e1 = e by [].
  have Pn : forall p i, numbered_ p i = (p ++ String "_" (dec (N.of_nat i)))%string by [].
  have D : n = "userspace_buffer_ep" \/ exists p i, (p = "handoff" \/ p = "lock") /\ n = numbered_ p i.
  { case: (share_word _ _ _ _ Hs) => [E|[E|[E|[E|[p [i [Hp E]]]]]]]; subst n; try by []; first by left.
    right. exists p, i. split=> //. move: Hp => [E|[E|[E|[E|[]]]]]; subst p; try by []; [by left|by right]. }
  case: D => [En|[p [i [Hp En]]]]; subst n.
  - have [K' [F' [m' B']]] := share_ubuf _ _ _ Hs1. have [K [F [m B]]] := share_ubuf _ _ _ Hs.
    have [Hsn _] := buffers_lemma _ _ _ Hr _ _ He K F B. symmetry. exact: (single_sender _ Hw).
  - have [F1 I1] := share_handoff _ _ _ _ _ Hp Hs1. have [F2 I2] := share_handoff _ _ _ _ _ Hp Hs.
    apply: (own_number _ Hw) => //. congruence.
Qed.
