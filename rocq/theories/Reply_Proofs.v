From Coq Require Import NArith List Bool Lia Arith ssreflect ssrbool.
From Verif Require Import Prelude Reply_Model Reply_Spec.
Import ListNotations.
Open Scope N_scope.

(** While the call of [c] is being served: its reply capability is in the TCB and known
    to be, or it is in the slot.  [r] are those replied to, [n] the saves so far. *)
Definition pending (c : N) (r : list N) (n : nat) (s : server) : Prop :=
  replied s = r /\
  ((in_tcb s = true /\ tcb s = Some c /\ slot s = None /\ saves s = n) \/
   (in_tcb s = false /\ slot s = Some c /\ saves s = Datatypes.S n)).

Lemma pending_user c r n s u : pending c r n s -> pending c r n (do_user s u).
Proof.
  move=> [Hr [[Hi [Ht [Hs Hn]]]|[Hi [Hs Hn]]]]; case: u => [x| |]; split=> //=;
  rewrite /protect_reply_cap Hi /save_caller ?Hs ?Ht //=; by [left|right|rewrite Hn; right].
Qed.

Lemma pending_users c r n l s : pending c r n s -> pending c r n (fold_left do_user l s).
Proof. elim: l s => [|u l IH] s //= H. apply: IH. by apply: pending_user. Qed.

(** Saved in this round exactly if asked to. *)
Lemma saved_users c r n l s : pending c r n s ->
  in_tcb (fold_left do_user l s) = in_tcb s && negb (existsb protects l).
Proof.
  elim: l s => [|u l IH] s /=; first by rewrite andb_true_r.
  move=> H. rewrite (IH _ (pending_user _ _ _ _ u H)).
  case: u => [x| |] //=; rewrite /protect_reply_cap; case E: (in_tcb s) => //=; rewrite ?E //.
Qed.

Lemma served_ok c r n s l c' : pending c r n s -> in_tcb s = true ->
  exists s', do_round s (Served l c') = Ok s' /\
    pending c' (c :: r) (n + if existsb protects l then 1 else 0)%nat s' /\ in_tcb s' = true.
Proof.
  move=> H Hi. have H' := pending_users _ _ _ l _ H. have E := saved_users _ _ _ l _ H.
  rewrite Hi /= in E. move: H' E. rewrite /=. move: (fold_left do_user l s) => s1.
  move=> [Hr [[Hi1 [Ht [Hs Hn]]]|[Hi1 [Hs Hn]]]] E; rewrite /reply_recv Hi1 /=.
  - rewrite Hi1 in E. eexists. split; first reflexivity. split=> //. split; first by rewrite /= Ht Hr.
    left. rewrite /= Hs Hn. case: (existsb protects l) E => //= _; rewrite ?Nat.add_0_r //.
  - rewrite /unprotect_reply_cap Hi1 /= /declare_reply_cap /= Hi1.
    eexists. split; first reflexivity. split=> //. split; first by rewrite /= Hs Hr.
    left. rewrite /= Hn. rewrite Hi1 in E. case: (existsb protects l) E => //= _; rewrite ?Nat.add_1_r //.
Qed.

Lemma rounds_ok c r n s l : pending c r n s -> in_tcb s = true -> all_served l ->
  exists s', do_rounds s l = Ok s' /\ in_tcb s' = true /\
    pending (last (callers c l) 0) (rev (removelast (callers c l)) ++ r) (n + saves_of l)%nat s'.
Proof.
  rewrite /callers. elim: l c r n s => [|x l IH] c r n s H Hi Ha.
  - exists s. split=> //. split=> //. by rewrite /= Nat.add_0_r.
  - case: x Ha => [u c'|u c'] Ha; last by case: (Ha (Dropped u c') (or_introl eq_refl)).
    have [s1 [E1 [P1 I1]]] := served_ok _ _ _ _ u c' H Hi.
    have Ha' : all_served l by move=> y Hy; apply: Ha; right.
    have [s2 [E2 [I2 P2]]] := IH c' (c :: r) _ s1 P1 I1 Ha'.
    exists s2. cbn [do_rounds]. rewrite E1 /=. split=> //. split=> //.
    rewrite -app_assoc.
    have -> : (n + saves_of (Served u c' :: l) = n + (if existsb protects u then 1 else 0) + saves_of l)%nat.
    { rewrite /saves_of /=. case: (existsb protects u) => /=; lia. }
    exact P2.
Qed.

Lemma fresh_pending c : exists s, begin_recv c fresh = Ok s /\ pending c [] 0 s /\ in_tcb s = true.
Proof. eexists. split; [reflexivity|]. split=> //. split=> //. by left. Qed.

(** Every call is replied to, in order, up to the one being served. *)
Lemma replies_in_order c l : all_served l ->
  exists s, serve c l = Ok s /\ rev (replied s) = removelast (callers c l) /\
    (tcb s = Some (last (callers c l) 0) /\ in_tcb s = true) /\
    saves s = saves_of l.
Proof.
  move=> Ha. have [s0 [E0 [P0 I0]]] := fresh_pending c.
  have [s [E [I P]]] := rounds_ok _ _ _ _ _ P0 I0 Ha.
  exists s. rewrite /serve E0 /=. split=> //.
  move: P => [Hr [[_ [Ht [_ Hn]]]|[Hi _]]]; last by rewrite I in Hi.
  rewrite Hr app_nil_r rev_involutive. split=> //.
Qed.

(** During the implementation's run the reply capability is never lost. *)
Lemma never_lost c l u : all_served l ->
  exists s, serve c l = Ok s /\
    let s' := fold_left do_user u s in
    (in_tcb s' = true /\ tcb s' = Some (last (callers c l) 0)) \/
    (in_tcb s' = false /\ slot s' = Some (last (callers c l) 0)).
Proof.
  move=> Ha. have [s0 [E0 [P0 I0]]] := fresh_pending c.
  have [s [E [I P]]] := rounds_ok _ _ _ _ _ P0 I0 Ha.
  exists s. rewrite /serve E0 /=. split=> //.
  have [_ [[H1 [H2 _]]|[H1 [H2 _]]]] := pending_users _ _ _ u _ P; [by left|by right].
Qed.

(** A dropped message: the server stops on an assertion. *)
Lemma dropped_stops c l n u : all_served l -> existsb protects u = false ->
  serve c (l ++ [Dropped u n]) = Err AssertionError.
Proof.
  move=> Ha Hu. have [s0 [E0 [P0 I0]]] := fresh_pending c.
  have [s [E [I P]]] := rounds_ok _ _ _ _ _ P0 I0 Ha.
  rewrite /serve E0 /=.
  have F : forall s1 l1 l2, do_rounds s1 (l1 ++ l2) = (s2 <- do_rounds s1 l1 ;; do_rounds s2 l2).
  { move=> s1 l1. elim: l1 s1 => [|x l1 IH] s1 l2 //=. case: (do_round s1 x) => //=. }
  rewrite F E /= /begin_recv /declare_reply_cap /=.
  by rewrite (saved_users _ _ _ u _ P) I Hu.
Qed.

(** A message dropped after the implementation blocked: the next caller's reply goes to
    the previous one. *)
Lemma wrong_recipient : exists s,
  serve 1 [Dropped [UWait None] 2; Served [UWait None] 3] = Ok s /\
  replied s = [1] /\ tcb s = Some 3 /\ slot s = None.
Proof. eexists. split; [vm_compute; reflexivity|]. by []. Qed.

Lemma might_block_sound p u c m s :
  (0 < p)%nat -> might_block p u c m s = false ->
  u = 0%nat /\ c = 0%nat /\ m = 0%nat /\ s = 0%nat /\ p = 1%nat.
Proof. rewrite /might_block => Hp /Nat.ltb_ge H. lia. Qed.

Lemma might_block_iff p u c m s : (0 < p)%nat ->
  might_block p u c m s = false <-> u = 0%nat /\ c = 0%nat /\ m = 0%nat /\ s = 0%nat /\ p = 1%nat.
Proof.
  move=> Hp. split; first exact: might_block_sound.
  move=> [-> [-> [-> [-> ->]]]]. by [].
Qed.
