(** Proofs about the IOAPIC interrupt connector. *)
From Coq Require Import List Bool PeanoNat Lia ssreflect.
From Verif Require Import Ioapic_Model Ioapic_Spec.
Import ListNotations.

Lemma exec_app s l l' : exec s (l ++ l') = match exec s l with Some s => exec s l' | None => None end.
Proof. elim: l s => //= a l IH s. by case: (step s a). Qed.

(** ** Executions *)
Lemma exec_ind (P : st -> Prop) : P init -> (forall s a s', P s -> step s a = Some s' -> P s') ->
  forall s, reachable s -> P s.
Proof.
  move=> P0 PS s [l E]. move: E. elim/rev_ind: l s => [|a l IH] s /=; first by case=> <-.
  rewrite exec_app. case E: (exec init l) => [s1|//] /=. case E2: (step s1 a) => [s2|//] [<-].
  exact: PS (IH _ E) E2.
Qed.
Lemma exec_from (P : st -> Prop) : (forall s a s', P s -> step s a = Some s' -> P s') ->
  forall l s s', P s -> exec s l = Some s' -> P s'.
Proof.
  move=> PS. elim=> [|a l IH] s s' Ps /=; first by case=> <-.
  case E: (step s a) => [s1|//]. exact: IH (PS _ _ _ Ps E).
Qed.
Lemma calm_ind (c : st -> act -> Prop) (P : st -> Prop) :
  (forall s a s', P s -> c s a -> step s a = Some s' -> P s') ->
  forall l s s', P s -> calm c s l -> exec s l = Some s' -> P s'.
Proof.
  move=> PS. elim=> [|a l IH] s s' Ps /=; first by move=> _ [<-].
  case E: (step s a) => [s1|] [C1 C2] // X. exact: IH (PS _ _ _ Ps C1 E) C2 X.
Qed.
Lemma calm_reachable c l s : exec init l = Some s -> calm c init l -> reachable s.
Proof. by move=> E _; exists l. Qed.

Lemma upd_same {A} (f : nat -> A) u x : upd f u x u = x.
Proof. by rewrite /upd Nat.eqb_refl. Qed.
Lemma upd_other {A} (f : nat -> A) u x v : v <> u -> upd f u x v = f v.
Proof. rewrite /upd => N. by case: Nat.eqb_spec. Qed.

(** All kinds of steps: one goal per branch of the code. *)
Ltac steps E :=
  match type of E with step ?s ?a = Some ?s' =>
    unfold step in E; destruct (aborted s) eqn:?Ab in E; [discriminate|];
    destruct a as [| |?u|?u|?u|?u ?ak]; cbn [step] in E;
    [ | unfold step_run in E; destruct (run s) as [|?i ?h|?i ?r ?h|?i ?r ?h|?h| |] eqn:?R in E
      | | unfold begin in E | unfold begin in E; cbn [users with_fresh] in E
      | unfold step_user in E; match type of E with context [users s ?v] => destruct (users s v) as [| | | | | | |?i ?r|?i ?r|?r] eqn:?U in E end ];
    repeat match type of E with
    | (match ?x with _ => _ end) = _ => destruct x eqn:?Q in E; try discriminate
    | (if ?x then _ else _) = _ => destruct x eqn:?Q in E; try discriminate
    end;
    try discriminate;
    injection E as <-
  end.
Ltac simp := cbn [armed notif callbacks callback_args event_pending sleepers lock run users aborted fresh log
  with_armed with_notif with_callback with_arg with_pending with_sleepers with_lock at_run at_user abort with_fresh logs] in *.
Ltac updc := repeat match goal with
  | H : context [upd _ ?u _ ?v] |- _ => unfold upd in H
  | |- context [upd _ ?u _ ?v] => unfold upd
  | H : context [Nat.eqb ?a ?b] |- _ => destruct (Nat.eqb_spec a b); subst
  | |- context [Nat.eqb ?a ?b] => destruct (Nat.eqb_spec a b); subst
  end.

(** ** Program points, slots and numbers are in range *)
Record ranges (s : st) : Prop := {
  rg_slot : forall i r, callbacks s i = Some r -> i < MAX_CALLBACKS /\ r < fresh s;
  rg_read : forall i h, run s = RRead i h -> i < MAX_CALLBACKS;
  rg_clear : forall i r h, run s = RClear i r h -> i < MAX_CALLBACKS /\ callbacks s i = Some r;
  rg_call : forall i r h, run s = RCall i r h -> i < MAX_CALLBACKS /\ r < fresh s;
  rg_try : forall u i r, users s u = UTry i r -> i < MAX_CALLBACKS /\ r < fresh s;
  rg_arg : forall u i r, users s u = UArg i r -> i < MAX_CALLBACKS /\ r < fresh s;
  rg_ack : forall u r, users s u = UAck r -> r < fresh s }.

Lemma next_read i h j g : next i h = RRead j g -> j = S i /\ j < MAX_CALLBACKS.
Proof. rewrite /next. case: Nat.ltb_spec => // L [<- _]. by split. Qed.
Lemma next_not i h : (forall j r g, next i h <> RClear j r g) /\ (forall j r g, next i h <> RCall j r g) /\
  next i h <> RCheck /\ next i h <> RWake /\ next i h <> RWait.
Proof. rewrite /next. by case: Nat.ltb. Qed.

Lemma ranges_step s a s' : ranges s -> step s a = Some s' -> ranges s'.
Proof.
  move=> [A B C D E F G] X. steps X; split; simp; intros;
  repeat match goal with
  | H : next _ _ = RRead _ _ |- _ => apply next_read in H as [? ?]
  | H : next ?i ?h = RClear _ _ _ |- _ => by move: (next_not i h) => [/(_ _ _ _ H)]
  | H : next ?i ?h = RCall _ _ _ |- _ => by move: (next_not i h) => [_ [/(_ _ _ _ H)]]
  end; updc;
  repeat match goal with
  | H : RRead _ _ = RRead _ _ |- _ => injection H as ? ?; subst
  | H : RClear _ _ _ = RClear _ _ _ |- _ => injection H as ? ? ?; subst
  | H : RCall _ _ _ = RCall _ _ _ |- _ => injection H as ? ? ?; subst
  | H : UTry _ _ = UTry _ _ |- _ => injection H as ? ?; subst
  | H : UArg _ _ = UArg _ _ |- _ => injection H as ? ?; subst
  | H : UAck _ = UAck _ |- _ => injection H as ?; subst
  | H : Some _ = Some _ |- _ => injection H as ?; subst
  | H : Nat.ltb _ _ = true |- _ => apply Nat.ltb_lt in H
  end; try discriminate; try congruence;
  try match goal with H : (if ?h then _ else _) = _ |- _ => destruct h; discriminate end;
  try (unfold MAX_CALLBACKS; lia);
  try match goal with
  | |- _ /\ _ => split; try assumption
  end;
  try solve [eauto | match goal with R : run s = RClear _ _ _ |- _ => move: (C _ _ _ R) => [? /A [? ?]]; lia end
    | match goal with R : run s = RClear _ _ _ |- _ => move: (C _ _ _ R) => [? ?]; congruence end | eapply A; eauto | eapply Nat.lt_lt_succ_r; eapply A; eauto
    | eapply B; eauto | eapply C; eauto | eapply D; eauto | eapply E; eauto | eapply F; eauto | eapply G; eauto
    | eapply Nat.lt_lt_succ_r; solve [eapply D; eauto | eapply E; eauto | eapply F; eauto | eapply G; eauto]].
Qed.
Lemma ranges_reachable s : reachable s -> ranges s.
Proof. apply: exec_ind; last exact: ranges_step. by split. Qed.

(** ** Where a registration is *)
Lemma cnt_cons p e l : cnt p (e :: l) = (if p e then 1 else 0) + cnt p l.
Proof. rewrite /cnt /=. by case: (p e). Qed.

Record places (s : st) : Prop := {
  pl_unique : forall u v i j r, users s u = UTry i r -> users s v = UTry j r -> u = v;
  pl_try : forall u i r, users s u = UTry i r -> cnt (published r) (log s) = 0;
  pl_slots : forall i j r, callbacks s i = Some r -> callbacks s j = Some r -> i = j;
  pl_slot : forall i r, callbacks s i = Some r ->
    cnt (published r) (log s) = 1 /\ cnt (invoked r) (log s) = 0 /\ forall j h, run s <> RCall j r h;
  pl_call : forall i r h, run s = RCall i r h -> cnt (published r) (log s) = 1 /\ cnt (invoked r) (log s) = 0;
  pl_count : forall r, cnt (published r) (log s) <= 1 /\ cnt (invoked r) (log s) <= cnt (published r) (log s);
  pl_where : forall r, cnt (published r) (log s) = 1 ->
    (exists i, callbacks s i = Some r) \/ (exists i h, run s = RCall i r h) \/ cnt (invoked r) (log s) = 1;
  pl_fresh : forall r, fresh s <= r -> cnt (published r) (log s) = 0 }.

(** Steps that move no registration. *)
Record quiet (s s' : st) : Prop := {
  q_cb : callbacks s' = callbacks s;
  q_pub : forall r, cnt (published r) (log s') = cnt (published r) (log s);
  q_inv : forall r, cnt (invoked r) (log s') = cnt (invoked r) (log s);
  q_run : forall i r h, run s' = RCall i r h <-> run s = RCall i r h;
  q_try : forall u i r, users s' u = UTry i r -> exists j, users s u = UTry j r;
  q_fresh : fresh s <= fresh s' }.
Lemma places_quiet s s' : quiet s s' -> places s -> places s'.
Proof.
  move=> [Qc Qp Qi Qr Qt Qf] [A B C D E F G H]. split; rewrite ?Qc.
  - move=> u v i j r /Qt [i' X] /Qt [j' Y]. exact: A X Y.
  - move=> u i r /Qt [j X]. rewrite Qp. exact: B X.
  - exact: C.
  - move=> i r /D [X [Y Z]]. rewrite Qp Qi. split=> //. split=> // j h /Qr. exact: Z.
  - move=> i r h /Qr /E. by rewrite Qp Qi.
  - move=> r. rewrite Qp Qi. exact: F.
  - move=> r. rewrite Qp Qi => /G [?|[[i [h X]]|?]]; [by left| |by right; right].
    right; left. exists i, h. by apply/Qr.
  - move=> r L. rewrite Qp. apply: H. lia.
Qed.

Lemma places_step s a s' : ranges s -> places s -> step s a = Some s' -> places s'.
Proof.
  move=> R P X. steps X;
  try (apply: (places_quiet s) P; split; simp; try done; intros; rewrite ?cnt_cons //=; try (split; by
    [| rewrite R0 | move=> K; move: (next_not i h) => [_ [/(_ _ _ _ K)]] | rewrite ?R0 //; try case: (h) => //; try case: Nat.ltb ]);
    updc; try discriminate; eauto; fail).
  - (* a callback is taken out of its slot *)
    move: P => [A B C D E F G H]. move: (rg_clear _ R _ _ _ R0) => [L S]. split; simp.
    + exact: A.
    + exact: B.
    + move=> j k q. rewrite /upd. case: Nat.eqb_spec => // _. case: Nat.eqb_spec => // _. exact: C.
    + move=> j q. rewrite /upd. case: Nat.eqb_spec => // N Z. move: (D _ _ Z) => [X [Y _]]. split=> //. split=> //.
      move=> k g [_ K _]. subst q. by move: (C _ _ _ Z S).
    + move=> j q g [_ <- _]. by move: (D _ _ S) => [X [Y _]].
    + exact: F.
    + move=> q /G [[j Z]|[[j [g Z]]|?]]; [|by rewrite R0 in Z|by right; right].
      case: (Nat.eq_dec j i) => [K|N].
      * subst j. right; left. exists i, h. move: Z S => -> [->]. done.
      * left. exists j. by rewrite upd_other.
    + exact: H.
  - (* a callback is called *)
    move: P => [A B C D E F G H]. split; simp.
    + exact: A.
    + move=> v j q Z. rewrite cnt_cons /=. exact: B Z.
    + exact: C.
    + move=> j q Z. rewrite !cnt_cons /=. move: (D _ _ Z) => [X [Y W]]. split=> //. split.
      * case: Nat.eqb_spec => // K. subst q. by move: (W i h).
      * move=> k g K. by move: (next_not i true) => [_ [/(_ _ _ _ K)]].
    + move=> j q g K. by move: (next_not i true) => [_ [/(_ _ _ _ K)]].
    + move=> q. rewrite !cnt_cons /=. case: Nat.eqb_spec => [->|N]; last by move: (F q).
      move: (E _ _ _ R0). lia.
    + move=> q. rewrite !cnt_cons /= => /G [?|[[j [g Z]]|Z]]; first by left.
      * right; right. rewrite R0 in Z. case: Z => _ <- _. rewrite Nat.eqb_refl. by move: (E _ _ _ R0) => [_ ->].
      * right; right. case: Nat.eqb_spec => // K. subst q. by move: (E _ _ _ R0) => [_]; rewrite Z.
    + move=> q L. rewrite cnt_cons /=. exact: H.
  - (* a registration begins *)
    move: P => [A B C D E F G H]. split; simp; try done.
    + move=> v w j k q. rewrite /upd. case: Nat.eqb_spec => [->|N]; case: Nat.eqb_spec => [->|N'] //.
      * move=> [_ <-] /(rg_try _ R). lia.
      * move=> /(rg_try _ R) ? [_ K]. lia.
      * exact: A.
    + move=> v j q. rewrite /upd. case: (Nat.eqb_spec v u) => [_|N]; last exact: B.
      case=> _ <-. exact: H.
    + move=> q L. apply: H. lia.
  - (* it finds a slot taken *)
    move: P => [A B C D E F G H]. split; simp; try done.
    + move=> v w j k q. rewrite /upd. case: Nat.eqb_spec => [->|N]; case: Nat.eqb_spec => [->|N'] //.
      * move=> [_ <-] Z. exact: A U Z.
      * move=> Z [_ K]. subst q. exact: A Z U.
      * exact: A.
    + move=> v j q. rewrite /upd cnt_cons /=. case: (Nat.eqb_spec v u) => [_|N]; last exact: B.
      case=> _ <-. exact: B U.
  - (* it gets a slot *)
    move: (rg_try _ R _ _ _ U) => B.
    move: P => [A B' C D E F G H]. move: (B' _ _ _ U) => Z0. split; simp.
    + move=> v w j k q. rewrite /upd. case: Nat.eqb_spec => [->|N]; case: Nat.eqb_spec => [->|N'] //. exact: A.
    + move=> v j q. rewrite /upd cnt_cons /=. case: (Nat.eqb_spec v u) => [_|N] // Z. rewrite (B' _ _ _ Z).
      case: Nat.eqb_spec => // K. subst q. by move: (A _ _ _ _ _ Z U).
    + move=> j k q. rewrite /upd. case: Nat.eqb_spec => [->|N]; case: Nat.eqb_spec => [->|N'] //.
      * move=> [<-] /D [K _]. by rewrite K in Z0.
      * move=> /D [K _] [L]. subst q. by rewrite K in Z0.
      * exact: C.
    + move=> j q. rewrite /upd !cnt_cons /=. case: (Nat.eqb_spec j i) => [_|N].
      * case=> <-. rewrite Nat.eqb_refl Z0. split=> //. split; first by move: (F r); lia.
        move=> k g /E [K _]. by rewrite K in Z0.
      * move=> Z. move: (D _ _ Z) => [X Y]. case: Nat.eqb_spec => // K. subst q. by rewrite Z0 in X.
    + move=> j q g Z. rewrite !cnt_cons /=. move: (E _ _ _ Z) => [X Y]. case: Nat.eqb_spec => // K. subst q. by rewrite Z0 in X.
    + move=> q. rewrite !cnt_cons /=. move: (F q). case: Nat.eqb_spec => // K. subst q. rewrite Z0. lia.
    + move=> q. rewrite !cnt_cons /=. case: Nat.eqb_spec => [->|N].
      * move=> _. left. exists i. by rewrite upd_same.
      * move=> /G [[j Z]|[?|?]]; [|by right; left|by right; right].
        left. exists j. rewrite upd_other // => K. subst j. by rewrite Q in Z.
    + move=> q L. rewrite cnt_cons /=. case: Nat.eqb_spec => [K|N]; last exact: H. subst q. lia.
Qed.
Lemma places_reachable s : reachable s -> places s.
Proof.
  move=> R. have: ranges s /\ places s; last by case.
  move: s R. apply: exec_ind; first by split; split=> //= *; cbn; lia.
  move=> s a s' [A B] X. split; [exact: ranges_step X|exact: places_step X].
Qed.

Theorem callback_once s r : reachable s ->
  cnt (published r) (log s) <= 1 /\ cnt (invoked r) (log s) <= cnt (published r) (log s) /\
  (cnt (published r) (log s) = 1 -> cnt (invoked r) (log s) = 0 ->
     (exists i, i < MAX_CALLBACKS /\ callbacks s i = Some r) \/ exists i h, run s = RCall i r h) /\
  (forall i, callbacks s i = Some r -> cnt (published r) (log s) = 1 /\ cnt (invoked r) (log s) = 0).
Proof.
  move=> X. move: (ranges_reachable _ X) (places_reachable _ X) => R P.
  move: (pl_count _ P r) => [A B]. split=> //. split=> //. split.
  - move=> C D. case: (pl_where _ P _ C) => [[i E]|[E|E]]; [left|by right|by rewrite E in D].
    exists i. split=> //. by move: (rg_slot _ R _ _ E) => [].
  - move=> i E. by move: (pl_slot _ P _ _ E) => [? [? _]].
Qed.

(** ** The next event calls every callback *)
Definition underway (i r : nat) (n : nat) (s : st) : Prop :=
  cnt (invoked r) (log s) = 1 \/
  (cnt is_marked (log s) = n /\
   ((callbacks s i = Some r /\
     match run s with
     | RWait | RClear _ _ _ | RRead _ _ | RCall _ _ _ => True
     | _ => False end /\
     (forall j h, run s = RRead j h -> j <= i) /\
     (forall j q h, run s = RCall j q h -> j < i) /\ (forall j q h, run s = RClear j q h -> j <= i)) \/
    exists h, run s = RCall i r h)).
Lemma next_lt i h : S i < MAX_CALLBACKS -> next i h = RRead (S i) h.
Proof. rewrite /next => L. by case: Nat.ltb_spec; last lia. Qed.
Lemma underway_step i r n s a s' : i < MAX_CALLBACKS -> ranges s -> places s -> places s' -> underway i r n s -> step s a = Some s' ->
  underway i r n s'.
Proof.
  move=> Li R P P' [I|[M [[S [W [Wr [Wc Wl]]]]|[h C]]]] X.
  - left. move: (pl_count _ P' r) => [A B]. steps X; simp; move: A B; rewrite ?cnt_cons /=; repeat match goal with |- context [Nat.eqb ?a ?b] => case: (Nat.eqb a b) end; lia.
  - move: (pl_slot _ P _ _ S) => [Sp [Sv Sn]]. steps X; rewrite /underway; simp; rewrite ?cnt_cons /= ?I;
    try by (right; split=> //; left; split=> //; rewrite ?R0).
    + (* the interrupt is received *) right. split=> //. left. split=> //. split=> //. split; last by split.
      move=> j h [<- _]. lia.
    + (* a callback is found *) right. split=> //. left. split=> //. split=> //. split=> //. split=> //.
      move=> j q g [<- _ _]. exact: Wr R0.
    + (* an empty slot *) right. split=> //. left. split=> //.
      have L: i0 < i. { move: (Wr _ _ R0) => L. case: (Nat.eq_dec i0 i) => K; last lia. subst i0. by rewrite Q in S. }
      rewrite next_lt; first lia. split=> //. split; last by split. move=> j g [<- _]. lia.
    + (* a callback is taken *) right. split=> //. case: (Nat.eq_dec i0 i) => K.
      * subst i0. right. exists h. move: (rg_clear _ R _ _ _ R0) => [_]. rewrite S. by case=> <-.
      * left. rewrite upd_other; first by auto. split=> //. split=> //. split=> //. split=> // j q g [<- _ _].
        move: (Wl _ _ _ R0). lia.
    + (* a callback is called *) right. split=> //. left. split=> //. move: (Wc _ _ _ R0) => L.
      rewrite next_lt; first lia. split=> //. split; last by split. move=> j g [<- _]. lia.
    + by rewrite R0 in W.
    + by rewrite R0 in W.
    + (* a registration gets a slot *) right. split=> //. left. split=> //.
      rewrite upd_other // => K. subst i0. by rewrite Q in S.
  - move: (pl_call _ P _ _ _ C) => [Cp Ci]. steps X; rewrite /underway; simp; rewrite ?cnt_cons /=; try congruence;
    try by (right; split=> //; right; exists h).
    left. rewrite C in R0. case: R0 => _ <- _. by rewrite Nat.eqb_refl Ci.
Qed.

Theorem all_called s l s' i r : reachable s -> run s = RWait -> callbacks s i = Some r -> exec s l = Some s' ->
  cnt is_marked (log s) < cnt is_marked (log s') -> cnt (invoked r) (log s') = 1.
Proof.
  move=> X W S E L. move: (ranges_reachable _ X) (places_reachable _ X) => R P.
  move: (rg_slot _ R _ _ S) => [Li _].
  have: ranges s' /\ places s' /\ underway i r (cnt is_marked (log s)) s'.
  { apply: (exec_from (fun s' => ranges s' /\ places s' /\ underway i r (cnt is_marked (log s)) s')) E.
    - move=> s1 a s2 [A [B C]] Y. move: (ranges_step _ _ _ A Y) (places_step _ _ _ A B Y) => A2 B2.
      split=> //. split=> //. exact: underway_step C Y.
    - split=> //. split=> //. right. split=> //. left. rewrite W. by do 3 split=> //. }
  move=> [_ [_ [//|[M _]]]]. lia.
Qed.

(** ** Arguments *)
Record args_ok (s : st) : Prop := {
  ao_slot : forall i r, callbacks s i = Some r -> callback_args s i = Some r \/ exists u, users s u = UArg i r;
  ao_user : forall u i r, users s u = UArg i r -> callbacks s i = Some r;
  ao_clear : forall i r h, run s = RClear i r h -> callback_args s i = Some r /\ forall u q, users s u <> UArg i q;
  ao_call : forall i r h, run s = RCall i r h -> callback_args s i = Some r /\ callbacks s i = None;
  ao_log : forall r a, In (Invoked r a) (log s) -> a = Some r }.

Lemma args_step s a s' : ranges s -> places s -> args_ok s -> calm_arguments s a -> step s a = Some s' -> args_ok s'.
Proof.
  move=> R P [A B C D E] K X. steps X; cbn [calm_arguments] in K; split; simp;
  try solve [ assumption
    | move=> *; discriminate
    | rewrite ?R0; move=> *; discriminate
    | move=> j q g J; move: (next_not i true) => [J1 [J2 _]]; by [move: (J1 _ _ _ J)|move: (J2 _ _ _ J)]
    | move=> j q g J; move: (next_not i h) => [J1 [J2 _]]; by [move: (J1 _ _ _ J)|move: (J2 _ _ _ J)]
    | move=> q b; case; [discriminate|exact: E q b]
    | move=> q b; case; [discriminate|]; case; [discriminate|exact: E q b]
    | move=> j q g J; move: (C _ _ _ J) => [J1 J2]; split=> // v w; rewrite /upd; case: (Nat.eqb v u) => //; exact: J2
    | case: (Nat.ltb 0 (sleepers s)); move=> *; discriminate
    | move=> v j q; rewrite /upd; case: (Nat.eqb v u) => //; exact: B
    | move=> j q Z; case: (A _ _ Z) => [?|[v V]]; [by left|right; exists v; rewrite upd_other // => W; subst v; congruence] ].
  - move=> j q g [<- <- _]. split; last by move=> v w; exact: K R0.
    case: (A _ _ Q) => // [[v V]]. by move: (K _ _ _ _ R0 V).
  - move=> j q. rewrite /upd. case: (Nat.eqb j i) => //. exact: A.
  - move=> v j q V. rewrite upd_other; last exact: B V. move=> J. subst j. move: (C _ _ _ R0) => [_ W]. exact: W V.
  - move=> j q g [<- <- _]. rewrite upd_same. by move: (C _ _ _ R0) => [-> _].
  - move=> q b /= [[<- <-]|]; last exact: E. by move: (D _ _ _ R0) => [-> _].
  - by case: (h).
  - by case: (h).
  - move=> j q. case: (Nat.eq_dec j i) => [->|N].
    + rewrite upd_same => [[<-]]. right. exists u. by rewrite upd_same.
    + rewrite upd_other // => /A [?|[v V]]; [by left|]. right. exists v. rewrite upd_other // => W. subst v. congruence.
  - move=> v j q. case: (Nat.eq_dec v u) => [->|N].
    + rewrite upd_same => [[<- <-]]. by rewrite upd_same.
    + rewrite upd_other // => V. rewrite upd_other; last exact: B V. move=> J. subst j. by rewrite (B _ _ _ V) in Q.
  - move=> j q g J. move: (C _ _ _ J) => [J1 J2]. split=> // v w. case: (Nat.eq_dec v u) => [->|N].
    + rewrite upd_same => [[W _]]. subst j. move: (rg_clear _ R _ _ _ J) => [_]. by rewrite Q.
    + rewrite upd_other //.
  - move=> j q g J. move: (D _ _ _ J) => [J1 J2]. split=> //. rewrite upd_other //. move=> W. subst j.
    exact: K _ _ _ _ J U.
  - move=> j q S. case: (Nat.eq_dec j i) => [W|N].
    + subst j. left. rewrite upd_same. rewrite (B _ _ _ U) in S. exact: S.
    + case: (A _ _ S) => [?|[v V]]; [left; by rewrite upd_other|right]. exists v. rewrite upd_other // => W. subst v. congruence.
  - move=> j q g J. move: (C _ _ _ J) => [J1 J2]. split.
    + rewrite upd_other // => W. subst j. exact: J2 U.
    + move=> v w. rewrite /upd. case: (Nat.eqb v u) => //.
  - move=> j q g J. move: (D _ _ _ J) => [J1 J2]. split=> //. rewrite upd_other // => W. subst j. by rewrite (B _ _ _ U) in J2.
Qed.
Theorem argument_ok l s r a : exec init l = Some s -> calm calm_arguments init l -> In (Invoked r a) (log s) -> a = Some r.
Proof.
  move=> E C. have: ranges s /\ places s /\ args_ok s; last by move=> [_ [_ X]]; exact: ao_log.
  apply: (calm_ind _ (fun s => ranges s /\ places s /\ args_ok s)) C E.
  - move=> s1 b s2 [A [B D]] K X. split; first exact: ranges_step X. split; first exact: places_step X. exact: args_step K X.
  - by split; [|split]; split=> //= *; cbn; lia.
Qed.

(** ** Results of a registration *)
Record results (s : st) : Prop := {
  rs_try : forall u i r, users s u = UTry i r -> forall j, j < i -> In (Busy r j) (log s);
  rs_arg : forall u i r, users s u = UArg i r -> In (Published r) (log s);
  rs_ack : forall u r, users s u = UAck r -> In (Published r) (log s);
  rs_ok : forall r, In (Returned r true) (log s) -> In (Published r) (log s);
  rs_fail : forall r, In (Returned r false) (log s) -> ~ In (Published r) (log s) -> forall i, i < MAX_CALLBACKS -> In (Busy r i) (log s) }.
Lemma cnt_In p l : 0 < cnt p l <-> exists e, In e l /\ p e = true.
Proof.
  rewrite /cnt. split.
  - case E: (filter p l) => [|e l'] /=; first lia. move=> _. exists e. apply/filter_In. rewrite E. by left.
  - move=> [e /filter_In]. by case: (filter p l) => //= *; lia.
Qed.
Lemma cnt_published r l : 0 < cnt (published r) l <-> In (Published r) l.
Proof.
  rewrite cnt_In. split; last by move=> X; exists (Published r); split=> //=; rewrite Nat.eqb_refl.
  move=> [e [X]]. case: e X => // q X /Nat.eqb_eq K. by subst q.
Qed.
Lemma results_step s a s' : ranges s -> places s -> results s -> step s a = Some s' -> results s'.
Proof.
  move=> R P [A B C D E] X. steps X; split; simp; cbn [In].
  all: try solve [assumption | move=> v j q; rewrite /upd; case: (Nat.eqb v u) => //; eauto 6
     | move=> v q; rewrite /upd; case: (Nat.eqb v u) => //; eauto 6 | move=> *; eauto 8
     | move=> q; case; [discriminate|eauto 6] ].
  - move=> v i q. rewrite /upd. case: (Nat.eqb v u); [by case=> <- _; lia|eauto].
  - move=> v j q. rewrite /upd. case: (Nat.eqb v u); [|eauto].
    case=> <- <- k L. case: (Nat.eq_dec k i) => [->|N]; [by left|right]. apply: A U _ _. lia.
  - move=> q [//|[//|K]]. eauto.
  - move=> q [[<-]|[//|K]].
    + move=> _ k L. right. case: (Nat.eq_dec k i) => [->|N]; [by left|right]. apply: A U _ _. apply Nat.ltb_ge in Q0. lia.
    + move=> N k L. right; right. apply: E => // Y. apply: N. eauto.
  - move=> v j q. rewrite /upd. case: (Nat.eqb v u); [|eauto]. case=> _ <-. by left.
  - move=> v q. rewrite /upd. case: (Nat.eqb v u); [|eauto]. case=> <-. eauto.
  - move=> q [[<-]|[//|K]]; eauto.
  - move=> q [//|[//|K]] N k L. right; right. apply: E => // Y. apply: N. eauto.
  - move=> q [[<-]|K] N k L; first by case: N; eauto. right. apply: E => // Y. apply: N. eauto.
  - move=> q [[<-]|K]; eauto.
Qed.

Lemma results_reachable s : reachable s -> results s.
Proof.
  move=> R. have: ranges s /\ places s /\ results s; last by move=> [_ []].
  move: s R. apply: exec_ind; first by split; [|split]; split=> //= *; cbn; lia.
  move=> s a s' [A [B C]] X. split; first exact: ranges_step X. split; first exact: places_step X. exact: results_step X.
Qed.
Theorem result_ok s r : reachable s ->
  (In (Returned r true) (log s) -> In (Published r) (log s)) /\
  (In (Returned r false) (log s) -> ~ In (Published r) (log s) -> forall i, i < MAX_CALLBACKS -> In (Busy r i) (log s)).
Proof. move=> /results_reachable [A B C D E]. split; [exact: D|exact: E]. Qed.
Theorem busy_taken s a s' r i : step s a = Some s' -> ~ In (Busy r i) (log s) -> In (Busy r i) (log s') -> callbacks s i <> None.
Proof.
  move=> X. steps X; simp; cbn [In]; try tauto.
  all: try solve [move=> N; intuition discriminate].
  - move=> N [[_ <-]|//]. by rewrite Q.
  - move=> N [//|[[_ <-]|//]]. by rewrite Q.
Qed.

(** ** Events *)
Definition b2n (b : bool) : nat := if b then 1 else 0.
Record events (s : st) : Prop := {
  es_marked : cnt is_delivered (log s) = cnt is_marked (log s) + (match run s with RRead _ _ | RClear _ _ _ | RCall _ _ _ | RSet _ => 1 | _ => 0 end);
  es_taken : cnt is_polled (log s) + cnt is_waited (log s) + b2n (event_pending s) <= cnt is_marked (log s);
  es_delivered : cnt is_delivered (log s) + b2n (notif s) <= cnt is_fired (log s);
  es_fired : cnt is_fired (log s) + b2n (armed s) <= 1 + cnt is_acked (log s) }.
Lemma next_hand i h : (match next i h with RRead _ _ | RClear _ _ _ | RCall _ _ _ | RSet _ => 1 | _ => 0 end) = 1.
Proof. rewrite /next. by case: Nat.ltb. Qed.
Lemma events_step s a s' : events s -> step s a = Some s' -> events s'.
Proof.
  move=> [A B C D] X. steps X; split; simp; rewrite ?cnt_cons ?next_hand /=;
  repeat match goal with H : run s = _ |- _ => rewrite ?H; rewrite H in A; clear H
  | H : event_pending s = _ |- _ => rewrite ?H; rewrite H in B; clear H
  | H : notif s = _ |- _ => rewrite ?H; rewrite H in C; clear H
  | H : armed s = _ |- _ => rewrite ?H; rewrite H in D; clear H end; cbn [b2n] in *;
  try (destruct (armed s)); try (destruct (notif s)); try (destruct (event_pending s)); cbn [b2n] in *; try lia.
  all: try (case: (h); lia). all: case: (Nat.ltb 0 (sleepers s)); lia.
Qed.
Lemma events_reachable s : reachable s -> events s.
Proof. apply: exec_ind; last exact: events_step. by split; cbn; lia. Qed.
Theorem events_bounded s : reachable s ->
  cnt is_polled (log s) + cnt is_waited (log s) <= cnt is_marked (log s) /\
  cnt is_marked (log s) <= cnt is_delivered (log s) <= cnt is_fired (log s) /\
  cnt is_fired (log s) <= 1 + cnt is_acked (log s).
Proof. move=> /events_reachable [A B C D]. lia. Qed.

(** Without registrations *)
Lemma unregistered_step s a s' : registers a = false -> step s a = Some s' ->
  (forall u, match users s u with UTry _ _ | UArg _ _ | UAck _ => False | _ => True end) /\ cnt is_acked (log s) = 0 ->
  (forall u, match users s' u with UTry _ _ | UArg _ _ | UAck _ => False | _ => True end) /\ cnt is_acked (log s') = 0.
Proof.
  move=> N X [A B]. steps X; simp; rewrite ?cnt_cons /=; split=> //; try discriminate;
  try (move=> v; rewrite /upd; case: (Nat.eqb v u) => //; exact: A).
  all: by move: (A u); rewrite U.
Qed.
Theorem one_interrupt l s : exec init l = Some s -> forallb (fun a => negb (registers a)) l = true -> cnt is_fired (log s) <= 1.
Proof.
  move=> E F. have R: reachable s by exists l.
  have: (forall u, match users s u with UTry _ _ | UArg _ _ | UAck _ => False | _ => True end) /\ cnt is_acked (log s) = 0.
  { clear R. have I: (forall u, match users init u with UTry _ _ | UArg _ _ | UAck _ => False | _ => True end) /\ cnt is_acked (log init) = 0 by [].
    move: init I E F. elim: l => [|a l IH] s0 I /=; first by case=> <-.
    case X: (step s0 a) => [s1|//] E /andb_prop [F1 F2]. apply: (IH s1) => //. apply: unregistered_step X I. by move: F1; case: registers. }
  move=> [_ Z]. move: (events_bounded _ R). lia.
Qed.

(** ** Sleepers *)
Definition counted (x : upc) : bool := match x with UAssert1 | USleep | UAssert2 | UDec => true | _ => false end.
Definition sleepers_ok (s : st) : Prop :=
  aborted s = false /\ exists L, NoDup L /\ length L = sleepers s /\ forall u, In u L <-> counted (users s u) = true.
Lemma sleepers_same s s' : aborted s' = false -> sleepers s' = sleepers s -> (forall u, counted (users s' u) = counted (users s u)) ->
  sleepers_ok s -> sleepers_ok s'.
Proof.
  move=> A B C [_ [L [N [Z I]]]]. split=> //. exists L. rewrite B. split=> //. split=> // u. by rewrite C.
Qed.
Lemma sleepers_step s a s' : sleepers_ok s -> step s a = Some s' -> sleepers_ok s'.
Proof.
  move=> O X. steps X;
  try (apply: (sleepers_same s) O => //; simp; move=> v; rewrite /upd; case: (Nat.eqb_spec v u) => // K; subst v; by rewrite ?U ?Q).
  all: move: O => [_ [L [N [Z I]]]].
  - split=> //. exists (u :: L). simp. split.
    + constructor=> // /I. by rewrite U.
    + split; first by rewrite /= Z. move=> v. rewrite /= /upd. case: (Nat.eqb_spec v u) => [->|K]; first by intuition.
      rewrite -I. intuition. by subst v.
  - exfalso. apply Nat.ltb_ge in Q. have: In u L by apply/I; rewrite U. case: L Z {N I} => //= *. lia.
  - exfalso. apply Nat.ltb_ge in Q. have: In u L by apply/I; rewrite U. case: L Z {N I} => //= *. lia.
  - split=> //. have J: In u L by apply/I; rewrite U. exists (remove Nat.eq_dec u L). simp. split.
    + clear -N. elim: L N => //= v L IH /NoDup_cons_iff [A B]. case: Nat.eq_dec => // K; first exact: IH. constructor; last exact: IH. by move=> Y; case: (in_remove _ _ _ _ Y).
    + split.
      * rewrite -Z. clear -N J. elim: L N J => //= v L IH /NoDup_cons_iff [A B]. case: Nat.eq_dec => [->|K].
        -- move=> _. by rewrite notin_remove.
        -- case=> [E|J]; first by rewrite E in K. cbn [length]. rewrite IH //. by case: (L) J.
      * move=> v. rewrite /upd. case: (Nat.eqb_spec v u) => [->|K].
        -- split=> //. by move=> Y; case: (in_remove _ _ _ _ Y).
        -- rewrite -I. split; [by move=> Y; case: (in_remove _ _ _ _ Y)|move=> ?; exact: in_in_remove].
Qed.
Theorem sleepers_reachable s : reachable s -> sleepers_ok s.
Proof.
  apply: exec_ind; last exact: sleepers_step. split=> //. exists []. split; first by constructor. by split.
Qed.

(** ** Waiters *)
Definition asleep (x : upc) : bool := match x with UAssert1 | USleep => true | _ => false end.
Definition awake (x : upc) : bool := match x with UAssert2 | UDec | UPoll => true | _ => false end.
Definition waits_ok (s : st) : Prop :=
  (forall u, users s u = UInc -> event_pending s = false) /\
  (event_pending s = true -> last_called (log s) = false -> run s <> RCheck -> run s <> RWake ->
   lock s = true \/ (exists u, awake (users s u) = true) \/ forall u, asleep (users s u) = false).
Lemma waits_step s a s' : sleepers_ok s -> waits_ok s -> calm_waits s a -> step s a = Some s' -> waits_ok s'.
Proof.
  move=> O [A B] K X. steps X; cbn [calm_waits] in K; split; simp; cbn [last_called].
  all: try solve [assumption | discriminate | congruence].
  all: try solve [move=> v; rewrite /upd; case: (Nat.eqb v u) => //; eauto].
  all: try solve [move=> P C _ _; apply: B => //; congruence].
  all: try (move=> P C N1 N2).
  all: try solve [move: (A _ U); congruence].
  all: try solve [move: (B P C N1 N2) => [?|[[v V]|V]];
    [by left|right; left; exists v; rewrite /upd; case: (Nat.eqb_spec v u) => // E; subst v; move: V; by rewrite ?U ?Q
    |right; right=> v; rewrite /upd; case: (Nat.eqb_spec v u) => // E; subst v; move: (V u); by rewrite ?U ?Q]].
  all: try solve [right; left; exists u; by rewrite upd_same].
  - move=> v V. by move: (K _ _ R V).
  - move: C N1. by case: (h).
  - move: N2. case: Nat.ltb_spec => // L _. right; right=> v. move: O => [_ [M [_ [Z I]]]].
    case Y: (asleep (users s v)) => //. have: In v M by apply/I; move: Y; case: (users s v). move: Z. case: M {I} => //= *. lia.
  - by left.
Qed.
Lemma asleep_iff x : asleep x = true <-> sleeping x.
Proof. rewrite /sleeping. case: x => /=; by intuition. Qed.
Lemma awake_iff x : awake x = true <-> looking x.
Proof. rewrite /looking. case: x => /=; by intuition. Qed.
Theorem waiters_woken l s : exec init l = Some s -> calm calm_waits init l ->
  run s = RWait -> event_pending s = true -> last_called (log s) = false ->
  lock s = true \/ (exists u, looking (users s u)) \/ forall u, ~ sleeping (users s u).
Proof.
  move=> E C R P F. have [_ [_ W]]: sleepers_ok s /\ waits_ok s.
  { apply: (calm_ind _ (fun s => sleepers_ok s /\ waits_ok s)) C E.
    - move=> s1 b s2 [A B] K X. split; [exact: sleepers_step X|exact: waits_step K X].
    - split; last by split. apply: sleepers_reachable. by exists []. }
  case: (W P F); rewrite ?R //; [by left|]. move=> [[u /awake_iff U]|U]; right; [left; by exists u|right=> u /asleep_iff].
  by rewrite U.
Qed.
Theorem asserts_hold s : reachable s -> aborted s = false.
Proof. by move=> /sleepers_reachable []. Qed.

Lemma pending_log s : reachable s -> event_pending s = untaken (log s).
Proof.
  apply: (exec_ind (fun s => event_pending s = untaken (log s))) => // s' a s'' A X.
  steps X; simp; cbn [untaken]; congruence.
Qed.
Theorem poll_outcome s u s' : reachable s -> step s (APoll u) = Some s' ->
  log s' = (if untaken (log s) then [Polled] else []) ++ log s.
Proof.
  move=> /pending_log <-. rewrite /step. case: (aborted s) => //. case: (users s u) => //.
  by case: (event_pending s) => [[<-]|[<-]].
Qed.
Theorem wait_outcome s u k s' : reachable s -> users s u = UPoll -> step s (AUser u k) = Some s' ->
  if untaken (log s) then users s' u = UIdle /\ log s' = Waited :: log s else users s' u = UInc /\ log s' = log s.
Proof.
  move=> /pending_log <-. rewrite /step /step_user. case: (aborted s) => //. move=> ->.
  by case: (event_pending s) => [[<-]|[<-]]; simp; rewrite upd_same.
Qed.
Theorem registration_runs s u k : reachable s -> registering (users s u) -> exists s', step s (AUser u k) = Some s'.
Proof.
  move=> /asserts_hold A. rewrite /step /step_user A. case: (users s u) => //.
  - move=> i r _. case: (callbacks s i) => [?|]; last by eexists. case: Nat.ltb; by eexists.
  - move=> i r _. by eexists.
  - move=> r _. case: k; by eexists.
Qed.

(** ** What goes wrong *)
Definition u1 := AUser 1 Accepted.
Definition early : list act := [AReg 1; u1; Fire; ARun; ARun; ARun; ARun].
Definition swapped : list act := [AReg 1; u1; u1; u1; Fire; ARun; ARun; ARun; AReg 2; AUser 2 Accepted; AUser 2 Accepted; ARun].
Theorem argument_refuted :
  (exists s, reachable s /\ In (Invoked 0 None) (log s)) /\ (exists s, reachable s /\ In (Invoked 0 (Some 1)) (log s)).
Proof.
  split.
  - case E: (exec init early) => [s|]; last by vm_compute in E. exists s. split; first by exists early.
    vm_compute in E. case: E => <-. by left.
  - case E: (exec init swapped) => [s|]; last by vm_compute in E. exists s. split; first by exists swapped.
    vm_compute in E. case: E => <-. by left.
Qed.
Definition twice : list act := [AReg 1; u1; u1; u1; Fire] ++ repeat ARun 14 ++ [APoll 2].
Theorem twice_refuted : exists s, reachable s /\ cnt is_fired (log s) = 1 /\ In (Invoked 0 (Some 0)) (log s) /\ In Polled (log s).
Proof.
  case E: (exec init twice) => [s|]; last by vm_compute in E. exists s. split; first by exists twice.
  vm_compute in E. case: E => <-. split=> //. split; cbn; tauto.
Qed.
Definition failing : list act := [AReg 1; u1; u1; AUser 1 Failed; Fire; ARun; ARun; ARun; ARun].
Theorem failed_refuted : exists s, reachable s /\ In (Returned 0 false) (log s) /\ In (Invoked 0 (Some 0)) (log s).
Proof.
  case E: (exec init failing) => [s|]; last by vm_compute in E. exists s. split; first by exists failing.
  vm_compute in E. case: E => <-. split; cbn; tauto.
Qed.
Definition missed : list act := [AWait 1; u1; Fire] ++ repeat ARun 13 ++ [u1; u1].
Theorem missed_refuted : exists s, reachable s /\ event_pending s = true /\ cnt is_invoked (log s) = 0 /\ users s 1 = USleep /\
  forall a, begins a = false -> step s a = None.
Proof.
  case E: (exec init missed) => [s|]; last by vm_compute in E. exists s. split; first by exists missed.
  have [P [I [U [A [N [R [W [F L]]]]]]]]: event_pending s = true /\ cnt is_invoked (log s) = 0 /\ users s 1 = USleep /\ armed s = false /\ notif s = false /\
    run s = RWait /\ (forall v, v <> 1 -> users s v = UIdle) /\ aborted s = false /\ lock s = false.
  { vm_compute in E. case: E => <-. do 6 split=> //. split=> //. move=> v Nv. rewrite /= . by case: v Nv => [|[|v]]. }
  split=> //. split=> //. split=> // a. rewrite /step F. case: a => //=.
  - by rewrite A.
  - rewrite /step_run. by rewrite R N.
  - move=> v k _. rewrite /step_user. case: (Nat.eq_dec v 1) => [->|D]; by rewrite ?U ?L ?W.
Qed.

(** ** Acknowledgements and wake-ups *)
Lemma reenabled s a s' : step s a = Some s' -> cnt is_acked (log s) < cnt is_acked (log s') -> exists s'', step s' Fire = Some s''.
Proof.
  unfold step. destruct (aborted s) eqn:A; [discriminate|]. destruct a.
  - destruct (armed s); [|discriminate]. injection 1 as <-. unfold cnt. cbn. lia.
  - unfold step_run. destruct (run s); cbn; repeat match goal with |- context [match ?x with _ => _ end = Some _] => destruct x end; try discriminate; injection 1 as <-; cbn; unfold cnt; cbn; lia.
  - destruct (users s u); try discriminate. destruct (event_pending s); injection 1 as <-; cbn; unfold cnt; cbn; lia.
  - unfold begin. destruct (users s u); try discriminate. injection 1 as <-. unfold cnt. cbn. lia.
  - unfold begin. cbn. destruct (users s u); try discriminate. injection 1 as <-. unfold cnt. cbn. lia.
  - unfold step_user. destruct (users s u); try discriminate.
    all: try (repeat match goal with |- context [match ?x with _ => _ end = Some _] => destruct x end; try discriminate; injection 1 as <-; cbn; unfold cnt; cbn; lia).
    destruct k; injection 1 as <-; cbn; unfold cnt; cbn; try lia. intros _. rewrite A. eauto.
Qed.
Definition credit (s : st) : nat :=
  (if lock s then 1 else 0) + match run s with RCheck | RWake => 1 | _ => 0 end.
Lemma wake_step s a s' : step s a = Some s' ->
  (if wakes_one s a then 1 else 0) + credit s' + cnt is_marked (log s) <= cnt is_marked (log s') + credit s.
Proof.
  unfold step. destruct (aborted s) eqn:A; [discriminate|]. destruct a; cbn [wakes_one].
  - destruct (armed s); [|discriminate]. injection 1 as <-. unfold credit, cnt. cbn. lia.
  - assert (N : forall i h, match next i h with RCheck | RWake => 1 | _ => 0 end = 0) by (intros i h; unfold next; destruct (Nat.ltb (S i) MAX_CALLBACKS); reflexivity).
    unfold step_run, credit, cnt. destruct (run s) as [|i h|i r h|i r h|h| |] eqn:R.
    + destruct (notif s); [|discriminate]. injection 1 as <-. cbn. destruct (lock s); lia.
    + destruct (callbacks s i); injection 1 as <-; cbn -[next]; rewrite ?N; destruct (lock s); cbn; lia.
    + injection 1 as <-. cbn. destruct (lock s); lia.
    + injection 1 as <-. cbn -[next]. rewrite ?N. destruct (lock s); cbn; lia.
    + injection 1 as <-. cbn. destruct h; destruct (lock s); lia.
    + injection 1 as <-. destruct (Nat.ltb 0 (sleepers s)); cbn; destruct (lock s); lia.
    + injection 1 as <-. cbn. destruct (lock s); lia.
  - destruct (users s u); try discriminate. unfold credit, cnt. destruct (event_pending s); injection 1 as <-; cbn; clear; destruct (lock s), (run s); cbn; lia.
  - unfold begin. destruct (users s u); try discriminate. injection 1 as <-. unfold credit, cnt. cbn. lia.
  - unfold begin. cbn. destruct (users s u); try discriminate. injection 1 as <-. unfold credit, cnt. cbn. lia.
  - unfold step_user, credit, cnt. destruct (users s u); try discriminate.
    all: try (repeat match goal with |- context [match ?x with _ => _ end = Some _] => destruct x end; try discriminate; injection 1 as <-; cbn; lia).
Qed.
Lemma wakes_run l : forall s s', exec s l = Some s' ->
  wakes s l + credit s' + cnt is_marked (log s) <= cnt is_marked (log s') + credit s.
Proof.
  induction l as [|a l IH]; cbn; intros s s' E.
  - injection E as <-. lia.
  - destruct (step s a) as [t|] eqn:X; [|discriminate]. pose proof (IH _ _ E). pose proof (wake_step _ _ _ X). lia.
Qed.
Lemma wakes_bounded l s : exec init l = Some s -> wakes init l <= cnt is_marked (log s).
Proof. intros E. pose proof (wakes_run _ _ _ E) as H. cbn in H. unfold credit in H. cbn in H. lia. Qed.
