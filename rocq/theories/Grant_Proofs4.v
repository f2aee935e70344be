(** Consequences: ends of a connection meet, connections stay apart, directions, locks;
    rendering succeeds; and what goes wrong. *)
From Coq Require Import List Bool Arith NArith String Ascii Lia.
From mathcomp Require Import ssreflect.
From Verif Require Import Prelude DecStr Context_Model Context_Spec Context_Proofs Context_Proofs2 Context_Proofs3
  Grant_Model Grant_Spec Grant_Proofs Grant_Proofs2 Grant_Proofs3.
Import ListNotations.
Open Scope string_scope.
Open Scope list_scope.

Lemma channel_from rt its e i : well_counted its -> In (End e) its -> e_from e = true -> (i < e_receivers e)%nat ->
  exists r, share rt e (channel (e_kind e) i) r /\ r_write r = true.
Proof.
  move=> _ _ Hf Hi. case Ek: (e_kind e); eexists; (split; first by constructor); by [].
Qed.
Lemma channel_to rt e : e_from e = false -> exists r, share rt e (channel (e_kind e) (e_index e)) r /\ r_read r = true.
Proof.
  move=> Hf. case Ek: (e_kind e); eexists; (split; first by constructor); by [].
Qed.
Lemma meet_lemma rt its st s t : render_all rt its = Ok st -> distinct_names its -> well_counted its ->
  In (End s) its -> In (End t) its -> e_conn s = e_conn t -> e_from s = true -> e_from t = false ->
  exists slot c slot' c', contents st (e_space s) slot = Some (Some c) /\ contents st (e_space t) slot' = Some (Some c') /\
    kc_obj c = kc_obj c' /\ r_write (kc_rights c) = true /\ r_read (kc_rights c') = true.
Proof.
  move=> Hr Hd Hw Hs Ht Ec Fs Ft. have Ek := one_connector _ Hd _ _ Hs Ht Ec.
  have [r [S1 W1]] := channel_from rt _ _ _ Hw Hs Fs (number_bound _ Hw _ _ Hs Ht Ec Fs Ft).
  have [r' [S2 R2]] := channel_to rt _ Ft. rewrite Ek in S1.
  have [slot [c [C [Fo I]]]] := end_slot _ _ _ Hr Hd _ _ _ Hs S1.
  have [slot' [c' [C' [Fo' I']]]] := end_slot _ _ _ Hr Hd _ _ _ Ht S2.
  exists slot, c, slot', c'. rewrite Ec Fo' in Fo. move: Fo => [E]. split=> //. split=> //. split=> //.
  split; [exact: (proj1 (proj2 I))|exact: (proj1 I')].
Qed.

(** Objects of different connections, and different objects of one, are different. *)
Lemma apart_lemma rt its st e e' n n' r r' c c' k k' sp sp' slot slot' : render_all rt its = Ok st ->
  unmistakable rt its -> In (End e) its -> In (End e') its -> share rt e n r -> share rt e' n' r' ->
  contents st sp slot = Some (Some c) -> contents st sp' slot' = Some (Some c') ->
  nth_error (c_objs st) (kc_obj c) = Some k -> nth_error (c_objs st) (kc_obj c') = Some k' ->
  ko_name k = object_name (e_conn e) n -> ko_name k' = object_name (e_conn e') n' ->
  (kc_obj c = kc_obj c' <-> e_conn e = e_conn e' /\ n = n').
Proof.
  move=> Hr U He He' S S' C C' Hk Hk' Nk Nk'. split.
  - move=> E. rewrite E Hk' in Hk. move: Hk => [?]. subst k'. rewrite Nk in Nk'.
    case: (names_apart _ _ _ _ (share_word _ _ _ _ S) (share_word _ _ _ _ S') Nk') => [//|[E1|E1]]; exfalso.
    + exact: (no_buffer_name _ _ U _ _ He He' E1).
    + exact: (no_buffer_name _ _ U _ _ He' He E1).
  - move=> [Ec En]. have F1 := name_index _ _ _ Hr _ _ _ _ C Hk. have F2 := name_index _ _ _ Hr _ _ _ _ C' Hk'.
    rewrite Nk in F1. rewrite Nk' -Ec -En in F2. congruence.
Qed.

(** ** Directions *)
Lemma channel_share rt e k i r : e_kind e = k -> share rt e (channel k i) r ->
  (e_from e = true /\ (r = call /\ k = RPCCall \/ r = only_send /\ (k = Notification \/ k = NotificationNative \/ k = NotificationBind) \/
     r = send_and_receive /\ k = NotificationQueue)) \/
  (e_from e = false /\ (r = only_receive /\ k <> NotificationBind \/ r = send_and_receive /\ k = NotificationBind)).
Proof.
  have Dn : forall p i p' i', numbered_ p i = numbered_ p' i' -> all_chars (fun c => negb (Ascii.eqb c "_")) p = true ->
    all_chars (fun c => negb (Ascii.eqb c "_")) p' = true -> p = p'.
  { move=> p i0 p' i' E H H'. have Hdig : forall j, all_chars is_digit (dec j) = true by move=> j; exact: dec_digits.
    have [] := sep_inj "_" is_digit p (dec (N.of_nat i0)) p' (dec (N.of_nat i')) eq_refl (Hdig _) (Hdig _) E. by []. }
  move=> Ek H. remember (channel k i) as n eqn:En. 
  destruct H as [K F|K F|m K F B L|K F R|j K F L|K F|j K F L|K F|K F|K F|K F|K F|K F|K F]; rewrite Ek in K.
  all: try (left; split; [exact F|]; by [tauto|left|right; left; split; [|tauto]|right; right]).
  all: try (right; split; [exact F|]; by [left; split=> //; rewrite K|right]).
  all: try (rewrite K in En; exfalso; by case: En).
  - exfalso. case: K => K; rewrite K in En; have := Dn _ _ _ _ En eq_refl eq_refl; by [].
  - exfalso. case: K => K; rewrite K in En; have := Dn _ _ _ _ En eq_refl eq_refl; by [].
Qed.
Lemma one_way_lemma rt its st e i r0 sp r : render_all rt its = Ok st -> distinct_names its -> unmistakable rt its ->
  In (End e) its -> share rt e (channel (e_kind e) i) r0 ->
  holds st sp (object_name (e_conn e) (channel (e_kind e) i)) r ->
  (e_kind e <> NotificationQueue -> r_read r = true ->
     exists t, in_conn its (e_conn e) t /\ e_space t = sp /\ e_from t = false) /\
  (e_kind e <> NotificationBind -> r_write r = true ->
     exists s, in_conn its (e_conn e) s /\ e_space s = sp /\ e_from s = true) /\
  r_grant r = false /\
  (r_grantreply r = true -> e_kind e = RPCCall /\ exists s, in_conn its (e_conn e) s /\ e_space s = sp /\ e_from s = true).
Proof.
  move=> Hr Hd U He Hs Hh. have [_ Only] := only_lemma _ _ _ Hr Hd _ _ _ _ _ U He Hs Hh.
  have Step : forall f, is_right f -> f r = true -> exists e' r', in_conn its (e_conn e) e' /\ e_space e' = sp /\
     share rt e' (channel (e_kind e) i) r' /\ f r' = true /\ e_kind e' = e_kind e.
  { move=> f Hf Hfr. have [e' [r' [[I1 I2] [Sp [Sh Fr]]]]] := Only f Hf Hfr. exists e', r'. do 4!(split=> //).
    exact: one_connector Hd _ _ I1 He I2. }
  split; [|split; [|split]].
  - move=> NQ Hrd. have [e' [r' [I [Sp [Sh [Fr Ek]]]]]] := Step r_read ltac:(rewrite /is_right; tauto) Hrd.
    exists e'. split=> //. split=> //.
    case: (channel_share _ _ _ _ _ Ek Sh) => [[_ [[Er _]|[[Er _]|[_ Q]]]]|[F _]] //; by rewrite Er in Fr.
  - move=> NB Hwr. have [e' [r' [I [Sp [Sh [Fr Ek]]]]]] := Step r_write ltac:(rewrite /is_right; tauto) Hwr.
    exists e'. split=> //. split=> //.
    case: (channel_share _ _ _ _ _ Ek Sh) => [[F _]|[_ [[Er _]|[_ B]]]] //. by rewrite Er in Fr.
  - case Eg: (r_grant r) => //. exfalso. have [e' [r' [_ [_ [Sh [Fr Ek]]]]]] := Step r_grant ltac:(rewrite /is_right; tauto) Eg.
    by case: (channel_share _ _ _ _ _ Ek Sh) => [[_ [[Er _]|[[Er _]|[Er _]]]]|[_ [[Er _]|[Er _]]]]; rewrite Er in Fr.
  - move=> Hg. have [e' [r' [I [Sp [Sh [Fr Ek]]]]]] := Step r_grantreply ltac:(rewrite /is_right; tauto) Hg.
    case: (channel_share _ _ _ _ _ Ek Sh) => [[F [[Er K]|[[Er _]|[Er _]]]]|[_ [[Er _]|[Er _]]]]; try by rewrite Er in Fr.
    split=> //. by exists e'.
Qed.

(** ** Locks *)
Lemma numbered_inj p i p' i' : numbered_ p i = numbered_ p' i' -> p = p' /\ i = i'.
Proof.
  move=> E. have [Ep Ei] := sep_inj "_" is_digit p (dec (N.of_nat i)) p' (dec (N.of_nat i')) eq_refl (dec_digits _) (dec_digits _) E.
  split=> //. have := dec_inj _ _ Ei. lia.
Qed.
Lemma word_ubuf p i : In p ["ep"; "notification"; "handoff"; "lock"] -> numbered_ p i <> "userspace_buffer_ep".
Proof.
  move=> Hp E. have : bars (numbered_ p i) = 1%nat by rewrite numbered_E bars_app /= dec_bars (plainp _ Hp).
  by rewrite E.
Qed.
Lemma share_handoff rt e p i r : p = "handoff" \/ p = "lock" -> share rt e (numbered_ p i) r -> e_from e = false /\ e_index e = i.
Proof.
  move=> Hp H. remember (numbered_ p i) as n eqn:En.
  have Hb : bars n = 1%nat.
  { rewrite En numbered_E bars_app /= dec_bars. by case: Hp => ->. }
  destruct H as [K F|K F|m K F B L|K F R|j K F L|K F|j K F L|K F|K F|K F|K F|K F|K F|K F]; try by [].
  all: have [E1 E2] := numbered_inj _ _ _ _ En; subst p.
  all: try (by case: Hp).
  all: by split.
Qed.
Lemma share_ubuf rt e r : share rt e "userspace_buffer_ep" r ->
  e_kind e = RPCCall /\ e_from e = true /\ exists n, e_buffer e = Some n.
Proof.
  move=> H. remember "userspace_buffer_ep" as n eqn:En.
  destruct H as [K F|K F|m K F B L|K F R|j K F L|K F|j K F L|K F|K F|K F|K F|K F|K F|K F]; try by [].
  - split=> //. split=> //. by exists m.
  all: exfalso; apply: word_ubuf En; cbn [In]; tauto.
Qed.
Lemma rendered_item rt its s st i : foldM (render_item rt) its s = Ok st -> In i its ->
  exists s1 s2, render_item rt s1 i = Ok s2.
Proof.
  elim: its s => [|j its IH] s //=. case E: (render_item rt s j) => [s1|] //= H [<-|Hi]; first by exists s, s1.
  exact: IH H Hi.
Qed.
Lemma buffers_lemma rt its st : render_all rt its = Ok st -> buffers_ok its.
Proof.
  move=> Hr e n He K F B. have [s1 [s2]] := rendered_item _ _ _ _ _ Hr He. rewrite /render_item /render K F /rpc_from B.
  case E1: (Nat.eqb (e_senders e) 1) => //=. case E2: (Nat.eqb (e_receivers e) 1) => //= _.
  split; by apply/Nat.eqb_eq.
Qed.
Lemma private_lemma rt its st e n r sp r' : render_all rt its = Ok st -> distinct_names its -> unmistakable rt its ->
  well_counted its -> In (End e) its -> share rt e n r -> of_one_end e n ->
  holds st sp (object_name (e_conn e) n) r' -> sp = e_space e.
Proof.
  move=> Hr Hd U Hw He Hs Hone Hh. have [[e' [r1 [[He' Ec] [Sp Sh]]]] _] := only_lemma _ _ _ Hr Hd _ _ _ _ _ U He Hs Hh.
  suff -> : e = e' by []. case: Hone => [[F Hn]|[F Hn]].
  - have [F' Ei] : e_from e' = false /\ e_index e' = e_index e.
    { case: Hn => Hn; rewrite Hn in Sh; apply: share_handoff Sh; by [left|right]. }
    exact: (own_number _ Hw _ _ He He').
  - rewrite Hn in Sh Hs. have [K' [F' [m' B']]] := share_ubuf _ _ _ Sh. have [K [_ [m B]]] := share_ubuf _ _ _ Hs.
    have [Hsn _] := buffers_lemma _ _ _ Hr _ _ He K F B.
    exact: (single_sender _ Hw _ _ He He').
Qed.

(** ** Rendering succeeds *)
Section Succeeds.
Variables (rt : bool) (its : list item).
Hypothesis Hd : distinct_names its.
Hypothesis Hb : buffers_ok its.
Definition good (s : ctx) : Prop := exists qs, traced s qs /\ incl qs (flat_map (reqs rt) its).

Lemma good_exec s o q n : good s -> In q (flat_map (reqs rt) its) -> q_obj q = Some n ->
  (forall q', In q' (flat_map (reqs rt) its) -> same_key q q' -> q_obj q' <> None) ->
  cap_key o = Some (q_space q, q_label q, q_cap q) -> exists s' v, exec s o = Ok (s', v).
Proof.
  move=> [qs [[ops [outs [R F]]] I]] Hq Ho Hk Ck. case E: (exec s o) => [[s' v]|x]; first by exists s', v.
  exfalso. have [_ [key [Ck' [l [sp [m [r [bd Hf]]]]]]]] := failure_lemma _ _ _ _ _ R E.
  rewrite Ck in Ck'. move: Ck' => [?]. subst key.
  have [Hin Hkey] := find_some _ _ Hf. move/is_key_iff in Hkey. cbn [cap_key] in Hkey. move: Hkey => [? ? ?]. subst sp l m.
  have Hin' : In (OAllocCap (q_label q) (q_space q) (q_cap q) None r bd) (filter is_cap ops) by apply/filter_In.
  have [q' [Hq' [Kq' Oq']]] := Forall2_In_r _ _ _ _ _ _ F Hin'. cbn [cap_key] in Kq'. move: Kq' => [E1 E2 E3].
  apply: (Hk q' (I _ Hq')); first by split; [congruence|split; congruence].
  case: (q_obj q') Oq' => // k [i [Ct _]]. by [].
Qed.
Lemma good_none q e : In (End e) its -> In q (reqs_end rt e) -> q_obj q <> None ->
  forall q', In q' (flat_map (reqs rt) its) -> same_key q q' -> q_obj q' <> None.
Proof. move=> He Hq Hn q' Hq' Hk. by have [-> _] := same_object _ _ Hd _ _ _ He Hq Hq' Hk. Qed.

Lemma good_more s' qs q : incl qs (flat_map (reqs rt) its) -> In q (flat_map (reqs rt) its) -> traced s' (qs ++ [q]) -> good s'.
Proof. move=> I Hq T. exists (qs ++ [q]). split=> // x Hx. destruct (in_app_or _ _ _ Hx) as [H|[<-|[]]]; [exact: I|by []]. Qed.

Lemma alloc__good s e n t ol r : good s -> In (End e) its -> In (plain e n r) (reqs_end rt e) ->
  exists s', alloc_ s e n t ol r = Ok s' /\ good s'.
Proof.
  move=> G He Hq. have Hin := end_req _ _ _ _ He Hq.
  have [s' [v E]] := good_exec s (OAlloc (e_conn e) (e_space e) n t ol r None) _ n G Hin eq_refl
    (good_none _ _ He Hq ltac:(done)) eq_refl.
  move: E => /=. case E: (alloc _ _ _ _ _ _ _ _) => [[[s1 v1] b1]|] // _.
  exists s1. split; first by rewrite /alloc_ E. move: G => [qs [T I]].
  apply: (good_more _ qs _ I Hin). apply: (alloc__traced _ _ _ _ t ol _ _ T). by rewrite /alloc_ E.
Qed.
Lemma alloc_obj_cap_good s e on cn t r : good s -> In (End e) its ->
  In (mk_req (e_conn e) (e_space e) cn (Some on) r) (reqs_end rt e) ->
  exists s', alloc_obj_cap s e on cn t r = Ok s' /\ good s'.
Proof.
  move=> G He Hq. have Hin := end_req _ _ _ _ He Hq.
  suff [s' E] : exists s', alloc_obj_cap s e on cn t r = Ok s'.
  { exists s'. split=> //. move: G => [qs [T I]]. apply: (good_more _ qs _ I Hin). exact: alloc_obj_cap_traced T E. }
  rewrite /alloc_obj_cap. case Eo: (alloc_obj _ _ _ _ _) => [[s1 v] b].
  have X1 : exec s (OAllocObj (e_conn e) on t (e_conn e)) = Ok (s1, (v, b)) by rewrite /= Eo.
  have [qs [[ops [outs [R F]]] I]] := G.
  have [_ [Hv _]] := inv_step _ _ _ _ _ (inv_run _ _ _ R) X1. have [o [Ev _]] := Hv _ eq_refl eq_refl.
  cbn [fst] in Ev. rewrite Ev.
  have G1 : good s1.
  { exists qs. split=> //. have Q := traced_step _ qs [OAllocObj (e_conn e) on t (e_conn e)] s1 [(v, b)] [] ops outs R F
      (run_one _ _ _ _ X1) (Forall2_nil _). by rewrite app_nil_r in Q. }
  have [s2 [v2 E2]] := good_exec s1 (OAllocCap (e_conn e) (e_space e) cn (Some o) r None) _ on G1 Hin eq_refl
    (good_none _ _ He Hq ltac:(done)) eq_refl.
  move: E2. rewrite /exec. case: (alloc_cap _ _ _ _ _ _ _) => [[[s3 v3] b3]|] // _. by exists s3.
Qed.
Lemma each_good s e p t r l : good s -> In (End e) its ->
  (forall i, In i l -> In (plain e (numbered_name p i) r) (reqs_end rt e)) ->
  exists s', foldM (fun s i => alloc_ s e (numbered_name p i) t (e_conn e) r) l s = Ok s' /\ good s'.
Proof.
  move=> G He. elim: l s G => [|i l IH] s G H; first by exists s.
  have [s1 [E G1]] := alloc__good s e (numbered_name p i) t (e_conn e) r G He (H _ (or_introl eq_refl)).
  cbn [foldM]. rewrite E. cbn [bind]. apply: IH G1 _ => j Hj. apply: H. by right.
Qed.
Lemma handoff_good s e : good s -> In (End e) its -> In (plain e (numbered_name "handoff_" (e_index e)) read_write) (reqs_end rt e) ->
  In (plain e (numbered_name "lock_" (e_index e)) read_write) (reqs_end rt e) ->
  exists s', handoff_lock s e = Ok s' /\ good s'.
Proof.
  move=> G He H1 H2. rewrite /handoff_lock. have [s1 [-> G1]] := alloc__good s e _ endpoint (e_inst e) _ G He H1.
  cbn [bind]. exact: alloc__good.
Qed.
Lemma render_good s e : good s -> In (End e) its -> exists s', render rt s e = Ok s' /\ good s'.
Proof.
  move=> G He. rewrite /render. case Ek: (e_kind e); case Ef: (e_from e).
  - have L : In (mk_req (e_conn e) (e_space e) ("ep_" ++ e_iface e)%string (Some "ep") (mk_rights false true false true)) (reqs_end rt e).
    { rewrite /reqs_end Ek Ef. apply: in_or_app. right. by left. }
    rewrite /rpc_from /establish_from_rpc /establish_buffer.
    case Eb: (e_buffer e) => [n|]; last by cbn [bind]; exact: alloc_obj_cap_good.
    have [H1 H2] := Hb _ _ He Ek Ef Eb. rewrite H1 H2. cbn [Nat.eqb negb orb].
    case El: (Nat.ltb 1 n); last by cbn [bind]; exact: alloc_obj_cap_good.
    have M : In (plain e "userspace_buffer_ep" read_write) (reqs_end rt e) by rewrite /reqs_end Ek Ef Eb El; left.
    have [s1 [-> G1]] := alloc__good s e _ endpoint (e_inst e) _ G He M. cbn [bind]. exact: alloc_obj_cap_good.
  - have L : In (mk_req (e_conn e) (e_space e) ("ep_" ++ e_iface e)%string (Some "ep") read_only) (reqs_end rt e).
    { rewrite /reqs_end Ek Ef. by left. }
    rewrite /establish_recv_rpc. have [s1 [-> G1]] := alloc_obj_cap_good s e _ _ endpoint _ G He L. cbn [bind].
    case Er: rt.
    { apply: alloc__good => //. rewrite /reqs_end Ek Ef Er. by right; left. }
    case Ebl: (e_blocks e); last by exists s1.
    destruct (alloc_cap s1 (e_conn e) (e_space e) "reply_cap_slot" None (mk_rights false false false false) None)
      as [[[s2 v] b]|] eqn:E3.
    + exists s2. split; first by []. move: G1 => [qs [T I]]. 
      apply: (good_more _ qs _ I _ (empty_traced _ _ _ _ _ _ _ _ T E3)).
      apply: (end_req rt _ _ _ He). rewrite /reqs_end Ek Ef Er Ebl. by right; left.
    + exfalso. move: E3. rewrite /alloc_cap. by case: (guard _ _ _ _) => [[? ?] ?].
  - apply: each_good => // i Hi. rewrite /reqs_end Ek Ef. apply/in_map_iff. by exists i.
  - have M : forall n r, In (plain e n r) [plain e (numbered_name "notification_" (e_index e)) read_only;
       plain e (numbered_name "handoff_" (e_index e)) read_write; plain e (numbered_name "lock_" (e_index e)) read_write] ->
       In (plain e n r) (reqs_end rt e) by move=> n r; rewrite /reqs_end Ek Ef.
    have [s1 [-> G1]] := alloc__good s e _ ntfn (e_conn e) _ G He (M (numbered_name "notification_" (e_index e)) read_only (or_introl eq_refl)).
    cbn [bind]. apply: handoff_good => //; apply: M; [by right; left|by right; right; left].
  - apply: each_good => // i Hi. rewrite /reqs_end Ek Ef. apply/in_map_iff. by exists i.
  - have M : forall n r, In (plain e n r) [plain e (numbered_name "ep_" (e_index e)) read_only;
       plain e (numbered_name "handoff_" (e_index e)) read_write; plain e (numbered_name "lock_" (e_index e)) read_write] ->
       In (plain e n r) (reqs_end rt e) by move=> n r; rewrite /reqs_end Ek Ef.
    have [s1 [-> G1]] := alloc__good s e _ endpoint (e_conn e) _ G He (M (numbered_name "ep_" (e_index e)) read_only (or_introl eq_refl)).
    cbn [bind]. apply: handoff_good => //; apply: M; [by right; left|by right; right; left].
  - apply: alloc__good => //. rewrite /reqs_end Ek Ef. by left.
  - apply: alloc__good => //. rewrite /reqs_end Ek Ef. by left.
  - apply: alloc__good => //. rewrite /reqs_end Ek Ef. by left.
  - apply: alloc__good => //. rewrite /reqs_end Ek Ef. by left.
Qed.
Lemma own_good s inst sp n t r : good s -> In (Own inst sp n t r) its ->
  exists s', render_item rt s (Own inst sp n t r) = Ok s' /\ good s'.
Proof.
  move=> G Ho. have Hin : In (mk_req inst sp n (Some n) r) (flat_map (reqs rt) its).
  { apply/in_flat_map. exists (Own inst sp n t r). split=> //. by left. }
  have Hk : forall q', In q' (flat_map (reqs rt) its) -> same_key (mk_req inst sp n (Some n) r) q' -> q_obj q' <> None.
  { move=> q' Hq' [_ [S2 _]]. case: (req_item _ _ _ Hq') => [[e [He Hq]]|[i1 [s1 [n1 [t1 [r1 [_ ->]]]]]]] //.
    exfalso. have [L _] := reqs_place _ _ _ Hq. cbn [q_label] in S2. apply: (own_label _ Hd _ _ _ _ _ _ He Ho). congruence. }
  have [s' [v E]] := good_exec s (OAlloc inst sp n t inst r None) _ n G Hin eq_refl Hk eq_refl.
  move: E => /=. case E: (alloc _ _ _ _ _ _ _ _) => [[[s1 v1] b1]|] // _.
  exists s1. split=> //. move: G => [qs [T I]]. exact: (good_more _ qs _ I Hin (alloc_traced _ _ _ _ _ _ _ _ _ _ _ T E)).
Qed.
Lemma items_good l s : good s -> incl l its -> exists s', foldM (render_item rt) l s = Ok s' /\ good s'.
Proof.
  elim: l s => [|i l IH] s G I; first by exists s.
  have [s1 [E G1]] : exists s1, render_item rt s i = Ok s1 /\ good s1.
  { have Hi := I i (or_introl eq_refl). case: i Hi {I IH} => [e|inst sp n t r] Hi; [exact: render_good|exact: own_good]. }
  cbn [foldM]. rewrite E. cbn [bind]. apply: IH => // x Hx. apply: I. by right.
Qed.
End Succeeds.
Lemma renders_lemma rt its : distinct_names its -> (buffers_ok its <-> exists st, render_all rt its = Ok st).
Proof.
  move=> Hd. split; last by move=> [st Hr]; exact: buffers_lemma Hr.
  move=> Hb. have G0 : good rt its ctx0 by exists []; split; [exact: traced0|].
  have [st [E _]] := items_good rt its Hd Hb its ctx0 G0 (fun _ H => H). by exists st.
Qed.

(** ** The order of rendering *)
Lemma rights_ext r r' : (forall f, is_right f -> (f r = true <-> f r' = true)) -> r = r'.
Proof.
  move=> H. have H1 := H r_read ltac:(rewrite /is_right; tauto). have H2 := H r_write ltac:(rewrite /is_right; tauto).
  have H3 := H r_grant ltac:(rewrite /is_right; tauto). have H4 := H r_grantreply ltac:(rewrite /is_right; tauto).
  destruct r as [a b c d], r' as [a' b' c' d']; cbn in *.
  have B : forall x y : bool, (x = true <-> y = true) -> x = y by move=> [] [] // [Hx Hy]; try (by rewrite Hx); by rewrite Hy.
  by rewrite (B _ _ H1) (B _ _ H2) (B _ _ H3) (B _ _ H4).
Qed.
Lemma order_half rt its its' st st' e n r0 sp r : render_all rt its = Ok st -> render_all rt its' = Ok st' ->
  distinct_names its -> unmistakable rt its -> (forall i, In i its <-> In i its') ->
  In (End e) its -> share rt e n r0 ->
  holds st sp (object_name (e_conn e) n) r -> holds st' sp (object_name (e_conn e) n) r.
Proof.
  move=> Hr Hr' Hd U Hset He Hs [slot [c [k [C [Hk [Nk <-]]]]]].
  have Hin : forall q, In q (flat_map (reqs rt) its) <-> In q (flat_map (reqs rt) its').
  { move=> q. rewrite !in_flat_map. split; move=> [i [Hi Hq]]; exists i; (split; [by apply/Hset|by []]). }
  have [q [m [Hq [Sp [Ho [Fo Rr]]]]]] := slot_stems _ _ _ _ _ (all_traced _ _ _ Hr) C.
  have [_ [k' [K1 K2]]] := find_obj_spec _ _ _ _ Fo. rewrite Nat.sub_0_r Hk in K1. move: K1 => [?]. subst k'.
  rewrite Nk in K2.
  case: (req_item _ _ _ Hq) => [[e1 [He1 Hq1]]|[inst [sp' [m' [t [r' [Hown Eq]]]]]]]; last first.
  { exfalso. subst q. cbn [q_label q_obj] in *. move: Ho => [?]. subst m'.
    exact: (no_own_name _ _ U _ _ _ _ _ _ _ _ He Hs Hown (eq_sym K2)). }
  have Hsame : forall q', In q' (flat_map (reqs rt) its') -> same_key q q' -> q_obj q' = Some m.
  { move=> q' /Hin Hq' Hkey. by have [-> _] := same_object _ _ Hd _ _ _ He1 Hq1 Hq' Hkey. }
  have [slot' [c' [C' [Fo' Rr']]]] := slot_for _ _ _ _ (all_traced _ _ _ Hr') (proj1 (Hin q) Hq) Ho Hsame.
  have Ec : kc_rights c' = kc_rights c.
  { apply: rights_ext => f Hf. rewrite (Rr f Hf) (Rr' f Hf).
    split; move=> [q' [Hq' H]]; exists q'; (split; [by apply/Hin|by []]). }
  rewrite -Ec -Sp K2. exact: find_holds C' Fo'.
Qed.
Lemma order_lemma rt its its' st st' e n r0 sp r : render_all rt its = Ok st -> render_all rt its' = Ok st' ->
  distinct_names its -> unmistakable rt its -> (forall i, In i its <-> In i its') ->
  In (End e) its -> share rt e n r0 ->
  (holds st sp (object_name (e_conn e) n) r <-> holds st' sp (object_name (e_conn e) n) r).
Proof.
  move=> Hr Hr' Hd U Hset He Hs. split; first exact: (order_half _ _ _ _ _ _ _ _ _ _ Hr Hr' Hd U Hset He Hs).
  apply: (order_half _ _ _ _ _ _ _ r0 _ _ Hr' Hr) => //.
  - constructor; [move=> a b /Hset Ha /Hset Hb'; exact: (one_connector _ Hd)|].
    move=> a inst s' m t r' /Hset Ha /Hset Hb'. exact: (own_label _ Hd _ _ _ _ _ _ Ha Hb').
  - constructor; [move=> a b /Hset Ha /Hset Hb'; exact: (no_buffer_name _ _ U)|].
    move=> a m r' inst s' m' t r'' /Hset Ha Sh /Hset Hb'. exact: (no_own_name _ _ U _ _ _ _ _ _ _ _ Ha Sh Hb').
  - move=> i. by rewrite Hset.
  - by apply/Hset.
Qed.
