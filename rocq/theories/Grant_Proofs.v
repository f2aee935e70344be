(** Every capability handed out stems from a request of a template. *)
From Coq Require Import List Bool Arith NArith String Ascii Lia.
From mathcomp Require Import ssreflect.
From Verif Require Import Prelude DecStr Context_Model Context_Spec Context_Proofs Context_Proofs2 Context_Proofs3
  Grant_Model Grant_Spec.
Import ListNotations.
Open Scope string_scope.
Open Scope list_scope.

(** A request for a capability: label, space, name of the capability, name of the object
    (none: an empty slot), rights. *)
Record req := mk_req { q_label : string; q_space : nat; q_cap : string; q_obj : option string; q_rights : rights }.

Definition plain (e : cend) (n : string) (r : rights) : req := mk_req (e_conn e) (e_space e) n (Some n) r.
Definition reqs_end (rt : bool) (e : cend) : list req :=
  match e_kind e, e_from e with
  | RPCCall, true =>
      match e_buffer e with
      | Some n => if Nat.ltb 1 n then [plain e "userspace_buffer_ep" read_write] else []
      | None => []
      end ++ [mk_req (e_conn e) (e_space e) ("ep_" ++ e_iface e)%string (Some "ep") (mk_rights false true false true)]
  | RPCCall, false =>
      mk_req (e_conn e) (e_space e) ("ep_" ++ e_iface e)%string (Some "ep") read_only ::
      (if rt then [plain e "reply_cap_slot" no_rights]
       else if e_blocks e then [mk_req (e_conn e) (e_space e) "reply_cap_slot" None no_rights] else [])
  | Notification, true => map (fun i => plain e (numbered_name "notification_" i) write_only) (seq 0 (e_receivers e))
  | Notification, false =>
      [plain e (numbered_name "notification_" (e_index e)) read_only;
       plain e (numbered_name "handoff_" (e_index e)) read_write; plain e (numbered_name "lock_" (e_index e)) read_write]
  | NotificationQueue, true => map (fun i => plain e (numbered_name "ep_" i) read_write) (seq 0 (e_receivers e))
  | NotificationQueue, false =>
      [plain e (numbered_name "ep_" (e_index e)) read_only;
       plain e (numbered_name "handoff_" (e_index e)) read_write; plain e (numbered_name "lock_" (e_index e)) read_write]
  | NotificationNative, true => [plain e "notification" write_only]
  | NotificationNative, false => [plain e "notification" read_only]
  | NotificationBind, true => [plain e "notification" write_only]
  | NotificationBind, false => [plain e "notification" read_write]
  end.
Definition reqs (rt : bool) (i : item) : list req :=
  match i with
  | End e => reqs_end rt e
  | Own inst sp n t r => [mk_req inst sp n (Some n) r]
  end.

Definition is_cap (o : op) : bool := match cap_key o with Some _ => true | None => false end.
(** What a request has to do with the operation it comes down to. *)
Definition answers (tbl : list kobj) (q : req) (o : op) : Prop :=
  cap_key o = Some (q_space q, q_label q, q_cap q) /\
  match q_obj q with
  | Some n => exists i, cap_target tbl o = Some (i, None) /\ find_obj tbl (full_name (q_label q) n) 0 = Some i /\ cap_rights o = q_rights q
  | None => exists r, o = OAllocCap (q_label q) (q_space q) (q_cap q) None r None
  end.

Lemma answers_mono ops1 ops2 q o : answers (table ops1) q o -> answers (table (ops1 ++ ops2)) q o.
Proof.
  move=> [K H]. split=> //. case: (q_obj q) H => [n|] // [i [T [F R]]]. exists i. split; last first.
  { split=> //. exact: find_obj_stable. }
  destruct o as [| | | |l sp nm [ob|] r bd|l sp nm t ol r bd| |]; cbn [cap_target] in *; try discriminate; try assumption.
  - move: T. case E: (find_obj _ _ _) => [j|] //= [<- ->]. by rewrite (find_obj_stable _ _ _ _ E).
Qed.

(** The history so far, and the requests it comes from. *)
Definition traced (s : ctx) (qs : list req) : Prop :=
  exists ops outs, run ctx0 ops = Ok (s, outs) /\ Forall2 (answers (table ops)) qs (filter is_cap ops).

Lemma traced_step s qs ops1 s' vs qs' ops outs :
  run ctx0 ops = Ok (s, outs) -> Forall2 (answers (table ops)) qs (filter is_cap ops) ->
  run s ops1 = Ok (s', vs) -> Forall2 (answers (table (ops ++ ops1))) qs' (filter is_cap ops1) ->
  traced s' (qs ++ qs').
Proof.
  move=> R F R1 F1. exists (ops ++ ops1), (outs ++ vs). split; first by rewrite run_app R /= R1.
  rewrite filter_app. apply: Forall2_app => //.
  elim: F => [|q o qs0 os A F IH]; constructor=> //. exact: answers_mono.
Qed.

Lemma run_one s o s' v : exec s o = Ok (s', v) -> run s [o] = Ok (s', [v]).
Proof. by move=> /= ->. Qed.

(** [alloc]: one request. *)
Lemma alloc_traced s qs l sp n t ol r s' v b : traced s qs -> alloc s l sp n t ol r None = Ok (s', v, b) ->
  traced s' (qs ++ [mk_req l sp n (Some n) r]).
Proof.
  move=> [ops [outs [R F]]] E.
  have X : exec s (OAlloc l sp n t ol r None) = Ok (s', (v, b)) by rewrite /= E.
  apply: (traced_step _ _ _ _ _ _ _ _ R F (run_one _ _ _ _ X)). cbn [filter is_cap cap_key]. constructor; last by constructor.
  split=> //. cbn [q_obj q_label cap_target cap_rights q_rights].
  have Hin : In (OAlloc l sp n t ol r None) (ops ++ [OAlloc l sp n t ol r None]) by apply: in_or_app; right; left.
  have [i Hi] := requested_found _ _ _ Hin eq_refl. cbn [ko_name] in Hi. exists i.
  rewrite /object_name in Hi. rewrite /full_name Hi. by [].
Qed.
Lemma alloc__traced s qs e n t ol r s' : traced s qs -> alloc_ s e n t ol r = Ok s' -> traced s' (qs ++ [plain e n r]).
Proof.
  rewrite /alloc_. move=> T. case E: (alloc _ _ _ _ _ _ _ _) => [[[s1 v] b]|] //= [<-]. exact: alloc_traced T E.
Qed.
(** [alloc_obj] and [alloc_cap]. *)
Lemma alloc_obj_cap_traced s qs e on cn t r s' : traced s qs -> alloc_obj_cap s e on cn t r = Ok s' ->
  traced s' (qs ++ [mk_req (e_conn e) (e_space e) cn (Some on) r]).
Proof.
  rewrite /alloc_obj_cap. move=> [ops [outs [R F]]]. case Eo: (alloc_obj _ _ _ _ _) => [[s1 v] b].
  case: v Eo => // o Eo. case Ec: (alloc_cap _ _ _ _ _ _ _) => [[[s2 v2] b2]|] //= [<-].
  have X1 : exec s (OAllocObj (e_conn e) on t (e_conn e)) = Ok (s1, (VObj o, b)) by rewrite /= Eo.
  have X2 : exec s1 (OAllocCap (e_conn e) (e_space e) cn (Some o) r None) = Ok (s2, (v2, b2)) by rewrite /= Ec.
  have RR : run s [OAllocObj (e_conn e) on t (e_conn e); OAllocCap (e_conn e) (e_space e) cn (Some o) r None]
            = Ok (s2, [(VObj o, b); (v2, b2)]).
  { cbn [run]. by rewrite X1 /= Ec. }
  apply: (traced_step _ _ _ _ _ _ _ _ R F RR). cbn [filter is_cap cap_key]. constructor; last by constructor.
  split=> //. cbn [q_obj q_label cap_target cap_rights q_rights]. exists o. split=> //. split=> //.
  have R1 : run ctx0 (ops ++ [OAllocObj (e_conn e) on t (e_conn e)]) = Ok (s1, outs ++ [(VObj o, b)]).
  { rewrite run_app R. cbn [bind]. by rewrite (run_one _ _ _ _ X1). }
  have Hn : nth_error (ops ++ [OAllocObj (e_conn e) on t (e_conn e)]) (List.length ops) =
            Some (OAllocObj (e_conn e) on t (e_conn e)) by rewrite nth_error_app2 // Nat.sub_diag.
  have [o' [b' [O1 F1]]] := obj_answer _ _ _ _ _ _ _ _ R1 Hn.
  have Hl : List.length outs = List.length ops.
  { clear -R. move: R. move: ctx0 => s0. elim: ops s0 s outs => [|x ops IH] s0 s outs /=; first by move=> [_ <-].
    case: (exec s0 x) => [[s1 v]|] //=. case Er: (run s1 ops) => [[s2 vs]|] //= [_ <-] /=. by rewrite (IH _ _ _ Er). }
  rewrite nth_error_app2 -Hl // Nat.sub_diag /= in O1. case: O1 => Eo' _. subst o'.
  have := find_obj_stable _ [OAllocCap (e_conn e) (e_space e) cn (Some o) r None] _ _ F1. by rewrite -app_assoc.
Qed.
Lemma empty_traced s qs e cn r s' v b : traced s qs -> alloc_cap s (e_conn e) (e_space e) cn None r None = Ok (s', v, b) ->
  traced s' (qs ++ [mk_req (e_conn e) (e_space e) cn None no_rights]).
Proof.
  move=> [ops [outs [R F]]] E.
  have X : exec s (OAllocCap (e_conn e) (e_space e) cn None r None) = Ok (s', (v, b)) by rewrite /exec E.
  apply: (traced_step _ _ _ _ _ _ _ _ R F (run_one _ _ _ _ X)). cbn [filter is_cap cap_key]. constructor; last by constructor.
  split=> //. by exists r.
Qed.
Lemma each_traced s qs e p t r s' : traced s qs -> each_receiver s e p t r = Ok s' ->
  traced s' (qs ++ map (fun i => plain e (numbered_name p i) r) (seq 0 (e_receivers e))).
Proof.
  rewrite /each_receiver. elim: (seq 0 _) s qs => [|i l IH] s qs T /=; first by move=> [<-]; rewrite app_nil_r.
  case E: (alloc_ _ _ _ _ _ _) => [s1|] //= H. have := IH _ _ (alloc__traced _ _ _ _ _ _ _ _ T E) H.
  by rewrite -app_assoc.
Qed.
Lemma handoff_traced s qs e s' : traced s qs -> handoff_lock s e = Ok s' ->
  traced s' (qs ++ [plain e (numbered_name "handoff_" (e_index e)) read_write; plain e (numbered_name "lock_" (e_index e)) read_write]).
Proof.
  rewrite /handoff_lock. move=> T. case E: (alloc_ _ _ _ _ _ _) => [s1|] //= H.
  have := alloc__traced _ _ _ _ _ _ _ _ (alloc__traced _ _ _ _ _ _ _ _ T E) H. by rewrite -app_assoc.
Qed.

Lemma render_traced rt s qs e s' : traced s qs -> render rt s e = Ok s' -> traced s' (qs ++ reqs_end rt e).
Proof.
  move=> T. rewrite /render /reqs_end. case: (e_kind e); case: (e_from e).
  - rewrite /rpc_from /establish_from_rpc /establish_buffer.
    have Go : forall s0 qs0, traced s0 qs0 -> alloc_obj_cap s0 e "ep" ("ep_" ++ e_iface e)%string endpoint (mk_rights false true false true) = Ok s' ->
      traced s' (qs0 ++ [mk_req (e_conn e) (e_space e) ("ep_" ++ e_iface e)%string (Some "ep") (mk_rights false true false true)]).
    { move=> s0 qs0 T0 E0. exact: alloc_obj_cap_traced T0 E0. }
    case: (e_buffer e) => [n|]; last by cbn [bind app]; exact: Go.
    case: (_ || _) => //. case: (Nat.ltb 1 n); last by cbn [bind app]; exact: Go.
    case E: (alloc_ _ _ _ _ _ _) => [s1|] //=. cbn [bind]. move=> H.
    have := Go _ _ (alloc__traced _ _ _ _ _ _ _ _ T E) H. by rewrite -app_assoc.
  - rewrite /establish_recv_rpc. case E: (alloc_obj_cap _ _ _ _ _ _) => [s1|] //. cbn [bind].
    have T1 := alloc_obj_cap_traced _ _ _ _ _ _ _ _ T E. case: rt.
    { move=> H. have := alloc__traced _ _ _ _ _ _ _ _ T1 H. by rewrite -app_assoc. }
    case: (e_blocks e); last by move=> [<-].
    destruct (alloc_cap s1 (e_conn e) (e_space e) "reply_cap_slot" None (mk_rights false false false false) None)
      as [[[s2 v] b]|] eqn:E3; last by [].
    move=> [<-]. have := empty_traced _ _ _ _ _ _ _ _ T1 E3. by rewrite -app_assoc.
  - exact: each_traced.
  - case E: (alloc_ _ _ _ _ _ _) => [s1|] //= H.
    have := handoff_traced _ _ _ _ (alloc__traced _ _ _ _ _ _ _ _ T E) H. by rewrite -app_assoc.
  - exact: each_traced.
  - case E: (alloc_ _ _ _ _ _ _) => [s1|] //= H.
    have := handoff_traced _ _ _ _ (alloc__traced _ _ _ _ _ _ _ _ T E) H. by rewrite -app_assoc.
  - exact: alloc__traced.
  - exact: alloc__traced.
  - exact: alloc__traced.
  - exact: alloc__traced.
Qed.
Lemma item_traced rt s qs i s' : traced s qs -> render_item rt s i = Ok s' -> traced s' (qs ++ reqs rt i).
Proof.
  case: i => [e|inst sp n t r] T; first exact: render_traced.
  rewrite /render_item. case E: (alloc _ _ _ _ _ _ _ _) => [[[s1 v] b]|] //= [<-]. exact: alloc_traced T E.
Qed.
Lemma items_traced rt its s qs s' : traced s qs -> foldM (render_item rt) its s = Ok s' -> traced s' (qs ++ flat_map (reqs rt) its).
Proof.
  elim: its s qs => [|i its IH] s qs T /=; first by move=> [<-]; rewrite app_nil_r.
  case E: (render_item _ _ _) => [s1|] //= H. have := IH _ _ (item_traced _ _ _ _ _ T E) H. by rewrite -app_assoc.
Qed.
Lemma traced0 : traced ctx0 [].
Proof. exists [], []. split=> //. constructor. Qed.
Lemma all_traced rt its st : render_all rt its = Ok st -> traced st (flat_map (reqs rt) its).
Proof. exact: items_traced traced0. Qed.
