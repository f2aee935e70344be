From Coq Require Import NArith ZArith List Bool Lia ssreflect ssrbool.
From Verif Require Import Prelude Registry_Model Registry_Spec.
Import ListNotations.
Open Scope N_scope.

Lemma run_from_app s l1 l2 :
  run_from s (l1 ++ l2) =
  ('(s1, h1) <- run_from s l1 ;; '(s2, h2) <- run_from s1 l2 ;; Ok (s2, h1 ++ h2)).
Proof.
  elim: l1 s => [|o l1 IH] s /=.
  - by case: (run_from s l2) => [[s2 h2]|e].
  - case: (step s o) => [[s1 r]|e] //=. rewrite IH.
    case: (run_from s1 l1) => [[s2 h1]|e] //=.
    by case: (run_from s2 l2) => [[s3 h2]|e].
Qed.

Lemma run_snoc l o s h :
  run (l ++ [o]) = Ok (s, h) ->
  exists s0 h0 r, run l = Ok (s0, h0) /\ step s0 o = Ok (s, r) /\ h = h0 ++ [(o, r)].
Proof.
  rewrite /run run_from_app. case: (run_from [] l) => [[s0 h0]|e] //=.
  case E: (step s0 o) => [[s1 r]|e] //=. move=> [? ?]; subst.
  by exists s0, h0, r.
Qed.

Lemma times_snoc h e ty i : times (h ++ [e]) ty i = count1 ty i (times h ty i) e.
Proof. by rewrite /times fold_left_app. Qed.

(** ** The outer list *)
Lemma find_set_eq ty l r : find_outer ty r <> None -> find_outer ty (set_outer ty l r) = Some l.
Proof.
  elim: r => [|[t k] r IH] //=. case E: (t =? ty) => /=; rewrite E //.
Qed.

Lemma find_set_ne ty ty' l r : ty' <> ty -> find_outer ty' (set_outer ty l r) = find_outer ty' r.
Proof.
  move=> H. elim: r => [|[t k] r IH] //=. case: (N.eqb_spec t ty) => E /=; last by rewrite IH.
  subst t. by have -> : (ty =? ty') = false by apply/N.eqb_neq; congruence.
Qed.

(** How often an instance occurs in the list of its type. *)
Fixpoint occ (i : N) (l : list N) : nat :=
  match l with [] => 0%nat | j :: l' => if j =? i then Datatypes.S (occ i l') else occ i l' end.

Definition occ_in (r : registry) (ty i : N) : nat :=
  match find_outer ty r with None => 0%nat | Some l => occ i l end.

Lemma occ_delete i j l : occ i (delete_first j l) = if j =? i then Nat.pred (occ i l) else occ i l.
Proof.
  elim: l => [|x l IH] /=; first by case: (j =? i).
  case: (N.eqb_spec x j) => [->|E] /=.
  - by case: (j =? i).
  - rewrite IH. case: (N.eqb_spec x i) => E2 //.
    have -> // : (j =? i) = false by apply/N.eqb_neq => E3; congruence.
Qed.

Lemma occ_In i l : occ i l <> 0%nat <-> In i l.
Proof.
  elim: l => [|x l IH] /=; first by split.
  case: (N.eqb_spec x i) => [->|E]; first by split=> // _; left.
  rewrite IH. split; [by right|]. by case.
Qed.

Lemma occ_inv l r h : run l = Ok (r, h) -> forall ty i, occ_in r ty i = times h ty i.
Proof.
  elim/rev_ind: l r h => [|o l IH] r h; first by move=> [<- <-].
  move=> /run_snoc [r0 [h0 [z [R [S ->]]]]] ty i. rewrite times_snoc -(IH _ _ R ty i).
  case: o S => [m1 m2 t j p|t j] /=.
  - rewrite /interface_register.
    case: (_ && _); first by move=> [<- <-] /=; rewrite andb_false_r.
    case E: (find_outer t r0) => [k|].
    + case: (memb j k) => /=; last by move=> [<- <-]; rewrite andb_false_r.
      case: m2 => /=; last by move=> [<- <-]; rewrite andb_false_r.
      case: p => // [[<- <-]]. rewrite /occ_in.
      case: (N.eqb_spec t ty) => [Et|Et] /=.
      * subst t. rewrite find_set_eq ?E //= andb_true_r. by case: (j =? i).
      * rewrite find_set_ne //. congruence.
    + case: m1 => /=; last by move=> [<- <-]; rewrite andb_false_r.
      case: m2 => /=; last by move=> [<- <-]; rewrite andb_false_r.
      case: p => // [[<- <-]]. rewrite /occ_in /=.
      case: (N.eqb_spec t ty) => [Et|Et] //=. subst t. rewrite E andb_true_r /=. by case: (j =? i).
  - move=> [S]. move: S. rewrite /interface_unregister.
    case: (_ && _); first by move=> [<- <-] /=; rewrite andb_false_r.
    case E: (find_outer t r0) => [k|] [<- <-] /=; rewrite andb_true_r /occ_in.
    + case: (N.eqb_spec t ty) => [Et|Et] /=.
      * subst t. rewrite find_set_eq ?E //= occ_delete. by [].
      * rewrite find_set_ne //. congruence.
    + case: (N.eqb_spec t ty) => [Et|Et] //=. subst t. rewrite E. by case: (j =? i).
Qed.

(** A type has a node exactly when some registration under it was accepted. *)
Lemma outer_used l r h : run l = Ok (r, h) -> forall ty, find_outer ty r <> None <-> used h ty.
Proof.
  elim/rev_ind: l r h => [|o l IH] r h.
  { move=> [<- <-] ty. split=> // [[m1 [m2 [i [p []]]]]]. }
  move=> /run_snoc [r0 [h0 [z [R [S ->]]]]] ty. have {}IH := IH _ _ R ty.
  have Hmono : used h0 ty -> used (h0 ++ [(o, z)]) ty.
  { move=> [m1 [m2 [i [p H]]]]. exists m1, m2, i, p. apply/in_or_app. by left. }
  have Hlast : used (h0 ++ [(o, z)]) ty -> used h0 ty \/ exists m1 m2 i p, o = ORegister m1 m2 ty i p /\ z = 0%Z.
  { move=> [m1 [m2 [i [p H]]]]. destruct (in_app_or _ _ _ H) as [H'|[H'|[]]].
    - left. by exists m1, m2, i, p.
    - right. exists m1, m2, i, p. by case: H'. }
  have Hsame : r = r0 -> (z <> 0%Z \/ forall m1 m2 i p, o <> ORegister m1 m2 ty i p) ->
    find_outer ty r <> None <-> used (h0 ++ [(o, z)]) ty.
  { move=> -> Hz. rewrite IH. split=> // /Hlast [//|[m1 [m2 [i [p [E1 E2]]]]]]. exfalso.
    by case: Hz => [H|H]; [apply: H|apply: (H _ _ _ _ E1)]. }
  case: o S Hmono Hlast Hsame => [m1 m2 t j p|t j] /= S Hmono Hlast Hsame.
  - move: S. rewrite /interface_register.
    case: (_ && _); first by move=> [? ?]; subst; apply: Hsame => //; left.
    case E: (find_outer t r0) => [k|].
    + case: (memb j k) => /=; last by move=> [? ?]; subst; apply: Hsame => //; left.
      case: m2 S Hmono Hlast Hsame => S Hmono Hlast Hsame /=; last by move=> [? ?]; subst; apply: Hsame => //; left.
      case: p S Hmono Hlast Hsame => // S Hmono Hlast Hsame [? ?]; subst.
      case: (N.eq_dec t ty) => [Et|Et].
      * subst t. rewrite find_set_eq ?E //. split=> // _. apply: Hmono. apply/IH. by rewrite E.
      * rewrite find_set_ne; first by congruence. rewrite IH. split=> // /Hlast [//|[? [? [? [? [E2 _]]]]]].
        by case: E2 => _ _ E2 _.
    + case: m1 S Hmono Hlast Hsame => S Hmono Hlast Hsame /=; last by move=> [? ?]; subst; apply: Hsame => //; left.
      case: m2 S Hmono Hlast Hsame => S Hmono Hlast Hsame /=; last by move=> [? ?]; subst; apply: Hsame => //; left.
      case: p S Hmono Hlast Hsame => // S Hmono Hlast Hsame [? ?]; subst => /=.
      case: (N.eqb_spec t ty) => [Et|Et].
      * subst t. split=> // _. exists true, true, j, false. apply/in_or_app. right. by left.
      * rewrite IH. split=> // /Hlast [//|[? [? [? [? [E2 _]]]]]]. by case: E2 => _ _ E2 _.
  - move: S => [S]. move: S. rewrite /interface_unregister.
    case: (_ && _); first by move=> [? ?]; subst; apply: Hsame => //; left.
    case E: (find_outer t r0) => [k|] [? ?]; subst; last by apply: Hsame => //; right.
    have -> : (find_outer ty (set_outer t (delete_first j k) r0) <> None) <-> (find_outer ty r0 <> None).
    { case: (N.eq_dec t ty) => [Et|Et].
      - subst t. by rewrite find_set_eq E.
      - rewrite find_set_ne //. congruence. }
    rewrite IH. split=> // /Hlast [//|[? [? [? [? [E2 _]]]]]]. by [].
Qed.

Lemma memb_occ i l : memb i l = true <-> occ i l <> 0%nat.
Proof. by rewrite occ_In memb_In. Qed.

(** When a registration is accepted. *)
Lemma accepted_iff l r h ty i :
  run l = Ok (r, h) -> i <> 0 ->
  ((exists r', run (l ++ [ORegister true true ty i false]) = Ok (r', h ++ [(ORegister true true ty i false, 0%Z)]))
   <-> ~ used h ty \/ registered h ty i).
Proof.
  move=> R Hi. have O := occ_inv _ _ _ R ty i. have Q := outer_used _ _ _ R ty.
  rewrite /run run_from_app. rewrite /run in R. rewrite R /= /interface_register.
  have -> : (i =? 0) = false by apply/N.eqb_neq. rewrite /=.
  rewrite /registered -O /occ_in. move: Q. case E: (find_outer ty r) => [k|] Q.
  - case M: (memb i k) => /=.
    + split=> _; last by eexists. right. by apply/memb_occ.
    + split.
      * move=> [r' [_ H]]. by apply app_inj_tail in H; move: H => [_ []].
      * case; first by move=> H; exfalso; apply: H; apply/Q.
        move/memb_occ. by rewrite M.
  - split=> _; last by eexists. left => /Q. by [].
Qed.

(** Look-ups. *)
Lemma search_exact i l : search (looking_for i) l = 0%Z <-> In i l.
Proof.
  elim: l => [|x l IH] /=; first by split.
  rewrite /looking_for. case: (N.eqb_spec x i) => [->|E] /=; first by split=> // _; left.
  rewrite IH. split; [by right|]. by case.
Qed.

Lemma found_iff l r h ty i :
  run l = Ok (r, h) ->
  (interface_find ty (Some (looking_for i)) r = 0%Z <-> registered h ty i).
Proof.
  move=> R. rewrite /registered -(occ_inv _ _ _ R ty i) /interface_find /occ_in.
  case: (find_outer ty r) => [k|]; last by split.
  by rewrite search_exact occ_In.
Qed.

Lemma search_cases f l :
  (exists l1 i l2, l = l1 ++ i :: l2 /\ (f i < 0 \/ f i = ps_found_match)%Z /\
     (forall j, In j l1 -> (0 <= f j)%Z /\ f j <> ps_found_match) /\
     search f l = if (f i <? 0)%Z then f i else 0%Z) \/
  ((forall j, In j l -> (0 <= f j)%Z /\ f j <> ps_found_match) /\ search f l = ENOENT).
Proof.
  elim: l => [|x l IH] /=; first by right.
  case: Z.ltb_spec => Hx.
  { left. exists [], x, l. split=> //. split; [by left|]. split=> //. by rewrite (proj2 (Z.ltb_lt _ _) Hx). }
  case: Z.eqb_spec => Ex.
  { left. exists [], x, l. split=> //. split; [by right|]. split=> //. by rewrite (proj2 (Z.ltb_ge _ _) Hx). }
  case: IH => [[l1 [i [l2 [-> [Hi [H1 H2]]]]]]|[H1 H2]].
  - left. exists (x :: l1), i, l2. do 2 (split; [done|]). split; last by [].
    by move=> j [<-|/H1].
  - right. split=> //. by move=> j [<-|/H1].
Qed.

(** Any handler: its answer on a registered instance, or ENOENT if it passes over all. *)
Lemma find_handler l r h ty f :
  run l = Ok (r, h) ->
  (exists i, registered h ty i /\ (f i < 0)%Z /\ interface_find ty (Some f) r = f i) \/
  (exists i, registered h ty i /\ f i = ps_found_match /\ interface_find ty (Some f) r = 0%Z) \/
  ((forall i, registered h ty i -> (0 <= f i)%Z /\ f i <> ps_found_match) /\
   interface_find ty (Some f) r = ENOENT).
Proof.
  move=> R. have O := occ_inv _ _ _ R ty. rewrite /interface_find.
  rewrite /registered. rewrite /occ_in in O. move: O. case: (find_outer ty r) => [k|] O.
  - case: (search_cases f k) => [[l1 [i [l2 [Ek [Hi [H1 ->]]]]]]|[H1 ->]].
    + have Hr : times h ty i <> 0%nat by rewrite -O occ_In Ek in_app_iff /=; tauto.
      case: Z.ltb_spec => Hz; first by left; exists i.
      right. left. exists i. split=> //. split=> //. case: Hi => //. lia.
    + right. right. split=> //. move=> i. rewrite -O occ_In. by apply: H1.
  - right. right. split=> //. move=> i. by rewrite -O.
Qed.

(** The claim of the property fails both ways. *)
Lemma second_instance_refused : exists l r h,
  run l = Ok (r, h) /\ ~ registered h 3 20 /\ used h 3 /\
  step r (ORegister true true 3 20 false) = Ok (r, EINVAL).
Proof.
  exists [ORegister true true 3 10 false]. do 2 eexists. split; [vm_compute; reflexivity|].
  split; [by vm_compute|]. split; [|by vm_compute].
  exists true, true, 10, false. by left.
Qed.

Lemma duplicate_accepted : exists l r h r',
  run l = Ok (r, h) /\ registered h 3 10 /\
  step r (ORegister true true 3 10 false) = Ok (r', 0%Z).
Proof.
  exists [ORegister true true 3 10 false]. do 3 eexists. split; [vm_compute; reflexivity|].
  split; [by vm_compute|]. vm_compute. reflexivity.
Qed.

Lemma never_again : exists l r h,
  run l = Ok (r, h) /\ (forall i, ~ registered h 3 i) /\
  (forall m1 m2 i p, i <> 0 -> step r (ORegister m1 m2 3 i p) = Ok (r, EINVAL)).
Proof.
  exists [ORegister true true 3 10 false; OUnregister 3 10]. do 2 eexists. split; [vm_compute; reflexivity|].
  split.
  - move=> i. rewrite /registered /times /=. by case: i => [|[p|p|]] //=; do 4 (try case: p => p //=).
  - move=> m1 m2 i p Hi. rewrite /step /interface_register.
    by have -> : (i =? 0) = false by apply/N.eqb_neq.
Qed.

Lemma no_handler r ty : interface_find ty None r = EINVAL.
Proof. by []. Qed.
Lemma properE ty i : (i =? 0) && negb (ty =? ps_null_interface) = false <-> proper ty i.
Proof.
  rewrite /proper andb_false_iff negb_false_iff N.eqb_neq N.eqb_eq. by [].
Qed.
Lemma register_iff l r h m1 m2 ty i :
  run l = Ok (r, h) ->
  exists r' z, run (l ++ [ORegister m1 m2 ty i false]) =
      Ok (r', h ++ [(ORegister m1 m2 ty i false, z)]) /\
    (z = 0%Z <-> proper ty i /\ m2 = true /\ (m1 = true \/ used h ty) /\
               (~ used h ty \/ registered h ty i)) /\
    (z = EINVAL <-> ~ proper ty i \/ (used h ty /\ ~ registered h ty i)) /\
    (z = 0 \/ z = EINVAL \/ z = ENOMEM)%Z.
Proof.
  move=> R. have O := occ_inv _ _ _ R ty i. have Q := outer_used _ _ _ R ty.
  rewrite /run run_from_app. rewrite /run in R. rewrite R /= /interface_register.
  have P := properE ty i. move: P. case: (_ && _) => P.
  { have Hp : ~ proper ty i by move=> /P. do 2 eexists. split; first reflexivity.
    rewrite /EINVAL. intuition discriminate. }
  have Hp : proper ty i by apply/P. clear P.
  rewrite /registered -O /occ_in. move: Q. case E: (find_outer ty r) => [k|] Q.
  - have Hu : used h ty by apply/Q. have M := memb_occ i k. case: (memb i k) M => M /=.
    + have Hm : occ i k <> 0%nat by apply/M.
      case: m2; do 2 eexists; (split; first reflexivity); rewrite /EINVAL /ENOMEM;
        intuition discriminate.
    + have Hm : ~ occ i k <> 0%nat by move=> /M.
      do 2 eexists; (split; first reflexivity); rewrite /EINVAL /ENOMEM; intuition discriminate.
  - have Hu : ~ used h ty by move=> /Q.
    case: m1; case: m2 => /=; do 2 eexists; (split; first reflexivity);
      rewrite /EINVAL /ENOMEM; intuition discriminate.
Qed.
Lemma unregister_total l r h ty i :
  run l = Ok (r, h) ->
  exists r' z, run (l ++ [OUnregister ty i]) = Ok (r', h ++ [(OUnregister ty i, z)]) /\
    (proper ty i -> z = 0%Z) /\ (~ proper ty i -> z = EINVAL).
Proof.
  rewrite /run run_from_app => -> /=. rewrite /interface_unregister.
  have P := properE ty i. move: P. case: (_ && _) => P.
  { have Hp : ~ proper ty i by move=> /P. do 2 eexists. by split. }
  have Hp : proper ty i by apply/P.
  case: (find_outer ty r) => [k|]; do 2 eexists; split; first reflexivity; by split.
Qed.
