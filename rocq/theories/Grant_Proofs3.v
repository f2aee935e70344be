(** Who holds what. *)
From Coq Require Import List Bool Arith NArith String Ascii Lia.
From mathcomp Require Import ssreflect.
From Verif Require Import Prelude DecStr Context_Model Context_Spec Context_Proofs Context_Proofs2 Context_Proofs3
  Grant_Model Grant_Spec Grant_Proofs Grant_Proofs2.
Import ListNotations.
Open Scope string_scope.
Open Scope list_scope.

(** ** Requests and shares *)
Lemma reqs_place rt e q : In q (reqs_end rt e) -> q_label q = e_conn e /\ q_space q = e_space e.
Proof.
  rewrite /reqs_end. case: (e_kind e); case: (e_from e).
  - rewrite in_app_iff. case=> [|[<-|[]]] //. case: (e_buffer e) => [n|] //. case: Nat.ltb; last by []. by move=> [<-|[]].
  - case=> [<-|] //. case: rt; first by move=> [<-|[]]. case: (e_blocks e); last by []. by move=> [<-|[]].
  - move=> /in_map_iff [i [<- _]]. by [].
  - by move=> [<-|[<-|[<-|[]]]].
  - move=> /in_map_iff [i [<- _]]. by [].
  - by move=> [<-|[<-|[<-|[]]]].
  - by move=> [<-|[]].
  - by move=> [<-|[]].
  - by move=> [<-|[]].
  - by move=> [<-|[]].
Qed.
Lemma reqs_share rt e q n : In q (reqs_end rt e) -> q_obj q = Some n -> share rt e n (q_rights q).
Proof.
  rewrite /reqs_end. case Ek: (e_kind e); case Ef: (e_from e).
  - rewrite in_app_iff. case=> [|[<-|[]]] //; last by move=> [<-]; apply: caller.
    case Eb: (e_buffer e) => [m|] //. case El: (Nat.ltb 1 m); last by []. move=> [<-|[]] [<-]. apply: buffer_lock Ek Ef Eb _.
    by apply/Nat.ltb_lt.
  - move=> [<-|]; first by move=> [<-]; apply: server.
    case Er: rt; first by move=> [<-|[]] [<-]; apply: reply. case: (e_blocks e); last by []. by move=> [<-|[]].
  - move=> /in_map_iff [i [<- /in_seq Hi]] [<-]. apply: emitter => //. lia.
  - move=> [<-|[<-|[<-|[]]]] [<-]; [exact: consumer|apply: handoff => //; by left|apply: lock => //; by left].
  - move=> /in_map_iff [i [<- /in_seq Hi]] [<-]. apply: queue_emitter => //. lia.
  - move=> [<-|[<-|[<-|[]]]] [<-]; [exact: queue_consumer|apply: handoff => //; by right|apply: lock => //; by right].
  - by move=> [<-|[]] [<-]; apply: native_emitter.
  - by move=> [<-|[]] [<-]; apply: native_consumer.
  - by move=> [<-|[]] [<-]; apply: bind_emitter.
  - by move=> [<-|[]] [<-]; apply: bind_consumer.
Qed.
Lemma share_reqs rt e n r : share rt e n r -> exists q, In q (reqs_end rt e) /\ q_obj q = Some n /\ q_rights q = r.
Proof.
  move=> H. rewrite /reqs_end.
  destruct H as [K F|K F|m K F B L|K F R|i K F L|K F|i K F L|K F|K F|K F|K F|K F|K F|K F].
  - rewrite K F. eexists. split; first by apply/in_app_iff; right; left; reflexivity. by [].
  - rewrite K F. eexists. split; first by left; reflexivity. by [].
  - rewrite K F B. have -> : Nat.ltb 1 m = true by apply/Nat.ltb_lt. eexists. split; first by left; reflexivity. by [].
  - rewrite K F R. eexists. split; first by right; left; reflexivity. by [].
  - rewrite K F. exists (plain e (numbered_name "notification_" i) write_only). split=> //.
    apply/in_map_iff. exists i. split=> //. apply/in_seq. lia.
  - rewrite K F. eexists. split; first by left; reflexivity. by [].
  - rewrite K F. exists (plain e (numbered_name "ep_" i) read_write). split=> //.
    apply/in_map_iff. exists i. split=> //. apply/in_seq. lia.
  - rewrite K F. eexists. split; first by left; reflexivity. by [].
  - rewrite F. by case: K => ->; eexists; (split; first by right; left; reflexivity).
  - rewrite F. by case: K => ->; eexists; (split; first by right; right; left; reflexivity).
  - rewrite K F. eexists. split; first by left; reflexivity. by [].
  - rewrite K F. eexists. split; first by left; reflexivity. by [].
  - rewrite K F. eexists. split; first by left; reflexivity. by [].
  - rewrite K F. eexists. split; first by left; reflexivity. by [].
Qed.
Lemma share_word rt e n r : share rt e n r -> word n.
Proof.
  rewrite /word. case=> *; try by [left|right; left|right; right; left|right; right; right; left].
  all: right; right; right; right; do 2!eexists; split; [|reflexivity]; cbn [In]; tauto.
Qed.
(** The object a capability's name stands for within a connection. *)
Definition object_of (rt : bool) (k : connector) (cap : string) : option string :=
  match k with
  | RPCCall => if String.eqb cap "userspace_buffer_ep" then Some cap
               else if String.eqb cap "reply_cap_slot" then (if rt then Some cap else None) else Some "ep"
  | _ => Some cap
  end.
Lemma reqs_object rt e q : In q (reqs_end rt e) -> q_obj q = object_of rt (e_kind e) (q_cap q).
Proof.
  rewrite /reqs_end. case Ek: (e_kind e); case Ef: (e_from e).
  - rewrite in_app_iff. case=> [|[<-|[]]] //.
    case Eb: (e_buffer e) => [m|] //. case: Nat.ltb; last by []. by move=> [<-|[]].
  - case=> [<-|] //.
    case: rt; first by move=> [<-|[]]. case: (e_blocks e); last by []. by move=> [<-|[]].
  - move=> /in_map_iff [i [<- _]]. by [].
  - by move=> [<-|[<-|[<-|[]]]].
  - move=> /in_map_iff [i [<- _]]. by [].
  - by move=> [<-|[<-|[<-|[]]]].
  - by move=> [<-|[]].
  - by move=> [<-|[]].
  - by move=> [<-|[]].
  - by move=> [<-|[]].
Qed.

(** ** Capabilities *)
Section Rendered.
Variables (rt : bool) (its : list item) (st : ctx).
Hypothesis Hr : render_all rt its = Ok st.
Hypothesis Hd : distinct_names its.

Lemma req_item q : In q (flat_map (reqs rt) its) ->
  (exists e, In (End e) its /\ In q (reqs_end rt e)) \/
  (exists inst sp n t r, In (Own inst sp n t r) its /\ q = mk_req inst sp n (Some n) r).
Proof.
  move=> /in_flat_map [[e|inst sp n t r] [Hi Hq]]; first by left; exists e.
  right. exists inst, sp, n, t, r. split=> //. by move: Hq => [<-|[]].
Qed.
Lemma end_req e q : In (End e) its -> In q (reqs_end rt e) -> In q (flat_map (reqs rt) its).
Proof. move=> He Hq. apply/in_flat_map. by exists (End e). Qed.
Lemma same_object q q' e : In (End e) its -> In q (reqs_end rt e) -> In q' (flat_map (reqs rt) its) -> same_key q q' ->
  q_obj q' = q_obj q /\ exists e', In (End e') its /\ In q' (reqs_end rt e') /\ e_conn e' = e_conn e /\ e_space e' = e_space e.
Proof.
  move=> He Hq Hq' [S1 [S2 S3]]. have [L Sp] := reqs_place _ _ _ Hq.
  case: (req_item _ Hq') => [[e' [He' Hin]]|[inst [sp [n [t [r [Ho Eq]]]]]]].
  - have [L' Sp'] := reqs_place _ _ _ Hin. have Ec : e_conn e' = e_conn e by congruence.
    rewrite (reqs_object _ _ _ Hin) (reqs_object _ _ _ Hq) S3 (one_connector _ Hd _ _ He' He Ec). split=> //.
    exists e'. split=> //. split=> //. split=> //. congruence.
  - exfalso. apply: (own_label _ Hd e _ _ _ _ _ He Ho). rewrite -L -S2 Eq. by [].
Qed.
Lemma find_holds sp slot c name : contents st sp slot = Some (Some c) -> find_obj (c_objs st) name 0 = Some (kc_obj c) ->
  holds st sp name (kc_rights c).
Proof.
  move=> C /find_obj_spec [_ [k [K1 K2]]]. rewrite Nat.sub_0_r in K1. exists slot, c, k. by [].
Qed.
Lemma includesP r r' : (forall f, is_right f -> f r' = true -> f r = true) -> includes r r'.
Proof.
  move=> H. split; [|split; [|split]]; apply: H; rewrite /is_right; tauto.
Qed.
(** Each end holds its share. *)
Lemma end_slot e n r : In (End e) its -> share rt e n r ->
  exists slot c, contents st (e_space e) slot = Some (Some c) /\
    find_obj (c_objs st) (object_name (e_conn e) n) 0 = Some (kc_obj c) /\ includes (kc_rights c) r.
Proof.
  move=> He /share_reqs [q [Hq [Ho Hrr]]]. have [L Sp] := reqs_place _ _ _ Hq.
  have Hsame : forall q', In q' (flat_map (reqs rt) its) -> same_key q q' -> q_obj q' = Some n.
  { move=> q' Hq' Hk. by have [-> _] := same_object _ _ _ He Hq Hq' Hk. }
  have [slot [c [C [Fo Rr]]]] := slot_for _ _ _ _ (all_traced _ _ _ Hr) (end_req _ _ He Hq) Ho Hsame.
  exists slot, c. rewrite -Sp -L. split=> //. split=> //. subst r. apply: includesP => f Hf Hfr.
  apply/(Rr f Hf). exists q. split; first exact: (end_req _ _ He Hq).
  split; first by []. split; [by rewrite Ho|by []].
Qed.
Lemma held_lemma e n r : In (End e) its -> share rt e n r ->
  exists r', holds st (e_space e) (object_name (e_conn e) n) r' /\ includes r' r.
Proof.
  move=> He Hs. have [slot [c [C [Fo I]]]] := end_slot _ _ _ He Hs. exists (kc_rights c). split=> //.
  exact: find_holds C Fo.
Qed.
Lemma name_index sp slot c k : contents st sp slot = Some (Some c) -> nth_error (c_objs st) (kc_obj c) = Some k ->
  find_obj (c_objs st) (ko_name k) 0 = Some (kc_obj c).
Proof.
  move=> _ Hk. have [ops [outs [R _]]] := all_traced _ _ _ Hr. have [_ [T _]] := inv_run _ _ _ R.
  apply: find_obj_nth Hk eq_refl. rewrite T. exact: table_NoDup.
Qed.
(** Any capability to an object of a connection belongs to ends of that connection. *)
Lemma only_lemma e n r0 sp r : unmistakable rt its -> In (End e) its -> share rt e n r0 ->
  holds st sp (object_name (e_conn e) n) r ->
  (exists e' r', in_conn its (e_conn e) e' /\ e_space e' = sp /\ share rt e' n r') /\
  forall f, is_right f -> f r = true ->
    exists e' r', in_conn its (e_conn e) e' /\ e_space e' = sp /\ share rt e' n r' /\ f r' = true.
Proof.
  move=> U He Hs [slot [c [k [C [Hk [Nk <-]]]]]].
  have [q [m [Hq [Sp [Ho [Fo Rr]]]]]] := slot_stems _ _ _ _ _ (all_traced _ _ _ Hr) C.
  have [_ [k' [K1 K2]]] := find_obj_spec _ _ _ _ Fo. rewrite Nat.sub_0_r Hk in K1. move: K1 => [?]. subst k'.
  rewrite Nk in K2.
  case: (req_item _ Hq) => [[e1 [He1 Hin]]|[inst [sp' [m' [t [r' [Hown Eq]]]]]]]; last first.
  { exfalso. subst q. cbn [q_label q_obj] in *. move: Ho => [?]. subst m'.
    exact: (no_own_name _ _ U _ _ _ _ _ _ _ _ He Hs Hown (eq_sym K2)). }
  have [L1 Sp1] := reqs_place _ _ _ Hin. have Hs1 := reqs_share _ _ _ _ Hin Ho.
  rewrite L1 in K2.
  have [Ec En] : e_conn e = e_conn e1 /\ n = m.
  { case: (names_apart _ _ _ _ (share_word _ _ _ _ Hs) (share_word _ _ _ _ Hs1) K2) => [//|[E|E]]; exfalso.
    - exact: (no_buffer_name _ _ U _ _ He He1 E).
    - exact: (no_buffer_name _ _ U _ _ He1 He E). }
  subst m. split.
  - exists e1, (q_rights q). split; first by split. split=> //. congruence.
  - move=> f Hf /(Rr f Hf) [q' [Hq' [Hkey [On' Hfr]]]].
    have [Eo [e' [He' [Hin' [Ec' Sp']]]]] := same_object _ _ _ He1 Hin Hq' Hkey.
    rewrite Ho in Eo. exists e', (q_rights q'). split; first by split=> //; congruence. split; first by congruence.
    split=> //. exact: reqs_share Hin' Eo.
Qed.
End Rendered.
