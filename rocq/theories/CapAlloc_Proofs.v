From Coq Require Import NArith List Bool ssreflect ssrbool.
From Verif Require Import Prelude CapAlloc_Model CapAlloc_Spec.
Import ListNotations.
Open Scope N_scope.

Lemma run_from_app s l1 l2 :
  run_from s (l1 ++ l2) =
  ('(s1, h1) <- run_from s l1 ;; '(s2, h2) <- run_from s1 l2 ;; Ok (s2, h1 ++ h2)).
Proof.
  elim: l1 s => [|o l1 IH] s /=.
  - by case: (run_from s l2) => [[s2 h2]|e].
  - case: (step s o) => [[s1 r]|e] //=. rewrite IH.
    case: (run_from s1 l1) => [[s2 h1]|e] //=.
    by case: (run_from s2 l2) => [[s3 h2]|e].
Qed.

Lemma run_snoc l o s h :
  run (l ++ [o]) = Ok (s, h) ->
  exists s0 h0 r, run l = Ok (s0, h0) /\ step s0 o = Ok (s, r) /\ h = h0 ++ [(o, r)].
Proof.
  rewrite /run run_from_app. case: (run_from [] l) => [[s0 h0]|e] //=.
  case E: (step s0 o) => [[s1 r]|e] //=. move=> [? ?]; subst.
  by exists s0, h0, r.
Qed.

Lemma run_ops l s h : run l = Ok (s, h) -> map fst h = l.
Proof.
  rewrite /run. elim: l [] s h => [|o l IH] s0 s h /=; first by move=> [_ <-].
  case: (step s0 o) => [[s1 r]|e] //=.
  case E: (run_from s1 l) => [[s2 h2]|e] //= [_ <-] /=. by rewrite (IH _ _ _ E).
Qed.

(** A history splits into runs at any point. *)
Lemma run_prefix l s h h1 h2 :
  run l = Ok (s, h) -> h = h1 ++ h2 -> exists s1, run (map fst h1) = Ok (s1, h1).
Proof.
  move=> R E. have F := run_ops _ _ _ R.
  move: R. rewrite -F E map_app /run run_from_app.
  case E1: (run_from [] (map fst h1)) => [[s1 k1]|e] //=.
  case E2: (run_from s1 (map fst h2)) => [[s2 k2]|e] //= [_ Ek].
  exists s1. have F1 := run_ops _ _ _ E1.
  have L : List.length k1 = List.length h1 by rewrite -(map_length fst h1) -F1 map_length.
  suff -> : h1 = k1 by [].
  move: L Ek. clear. elim: k1 h1 => [|a k1 IH] [|b h1] //= [L] [-> Ek].
  by rewrite (IH _ L Ek).
Qed.

Lemma provided_snoc h e : provided (h ++ [e]) = provided h ++ provided1 e.
Proof. by rewrite /provided flat_map_app /= app_nil_r. Qed.

Lemma held_snoc h e p : held (h ++ [e]) p = hold1 p (held h p) e.
Proof. by rewrite /held fold_left_app. Qed.

Lemma held_app h k p : held (h ++ k) p = fold_left (hold1 p) k (held h p).
Proof. by rewrite /held fold_left_app. Qed.

Definition node_of (h : history) (d : desc) : node :=
  Node (d_type d) (d_size d) (d_ptr d) (held h (d_ptr d)) (d_attr d).

(** What camkes_alloc does, by the first suitable node. *)
Lemma alloc_cases t z f s :
  (exists s1 n s2, s = s1 ++ n :: s2 /\ suits t z f n = true /\
     (forall m, In m s1 -> suits t z f m = false) /\
     camkes_alloc t z f s = (s1 ++ set_used true n :: s2, n_ptr n)) \/
  ((forall m, In m s -> suits t z f m = false) /\ camkes_alloc t z f s = (s, cap_null)).
Proof.
  elim: s => [|n s IH] /=; first by right.
  case E: (suits t z f n).
  - left. by exists [], n, s.
  - case: IH => [[s1 [m [s2 [-> [Hm [Hs ->]]]]]]|[Hs ->]].
    + left. exists (n :: s1), m, s2. do 2 (split; [done|]). split; [|done].
      by move=> x [<-|/Hs].
    + right. split=> //. by move=> x [<-|/Hs].
Qed.

Lemma free_cases p s :
  (exists s1 n s2, s = s1 ++ n :: s2 /\ n_ptr n = p /\
     (forall m, In m s1 -> n_ptr m <> p) /\
     camkes_free p s = if n_used n then Ok (s1 ++ set_used false n :: s2) else Err AssertionError) \/
  ((forall m, In m s -> n_ptr m <> p) /\ camkes_free p s = Err AssertionError).
Proof.
  elim: s => [|n s IH] /=; first by right.
  case: (N.eqb_spec (n_ptr n) p) => E.
  - left. by exists [], n, s.
  - case: IH => [[s1 [m [s2 [-> [Hm [Hs ->]]]]]]|[Hs ->]].
    + left. exists (n :: s1), m, s2. do 2 (split; [done|]). split.
      * by move=> x [<-|/Hs].
      * by case: (n_used m).
    + right. split=> //. by move=> x [<-|/Hs].
Qed.

(** The fields of the list are what was provided, without any hypothesis. *)
Definition desc_of (n : node) : desc := Desc (n_type n) (n_ptr n) (n_size n) (n_attr n).

Lemma desc_set_used b n : desc_of (set_used b n) = desc_of n.
Proof. by []. Qed.

Lemma descs l s h : run l = Ok (s, h) -> map desc_of s = rev (provided h).
Proof.
  elim/rev_ind: l s h => [|o l IH] s h; first by move=> [<- <-].
  move=> /run_snoc [s0 [h0 [r [R [S ->]]]]]. have {}IH := IH _ _ R.
  rewrite provided_snoc rev_app_distr. case: o S => [m t p z a|t z f|p] /=.
  - rewrite /camkes_provide. case: m => [[<- <-]|[<- <-]] //=. by rewrite IH.
  - case: (alloc_cases t z f s0) => [[s1 [n [s2 [E [_ [_ ->]]]]]]|[_ ->]] [<- _] //.
    rewrite -IH E !map_app /=. by [].
  - case: (free_cases p s0) => [[s1 [n [s2 [E [_ [_ ->]]]]]]|[_ ->]] //.
    case: (n_used n) => //= [[<- _]] /=. by rewrite -IH E !map_app.
Qed.

Lemma map_ptr_rev h : map n_ptr (map (node_of h) (rev (provided h))) = rev (map d_ptr (provided h)).
Proof. by rewrite map_map /= map_rev. Qed.

Lemma node_of_ext h h' d : held h' (d_ptr d) = held h (d_ptr d) -> node_of h' d = node_of h d.
Proof. by rewrite /node_of => ->. Qed.

(** Updating the only node with a given pointer. *)
Lemma map_update h h' ds1 d ds2 b :
  NoDup (map d_ptr (ds1 ++ d :: ds2)) ->
  held h' (d_ptr d) = b ->
  (forall q, q <> d_ptr d -> held h' q = held h q) ->
  map (node_of h) ds1 ++ set_used b (node_of h d) :: map (node_of h) ds2 =
  map (node_of h') (ds1 ++ d :: ds2).
Proof.
  move=> Hnd Hd Hq. rewrite map_app /=. rewrite map_app /= in Hnd.
  have Hni := NoDup_remove_2 _ _ _ Hnd.
  have H1 : forall x, In x ds1 -> d_ptr x <> d_ptr d.
  { move=> x Hx E. apply: Hni. apply/in_or_app. left. rewrite -E. by apply: in_map. }
  have H2 : forall x, In x ds2 -> d_ptr x <> d_ptr d.
  { move=> x Hx E. apply: Hni. apply/in_or_app. right. rewrite -E. by apply: in_map. }
  have -> : map (node_of h') ds1 = map (node_of h) ds1.
  { apply: map_ext_in => x Hx. apply: node_of_ext. by apply/Hq/H1. }
  have -> : map (node_of h') ds2 = map (node_of h) ds2.
  { apply: map_ext_in => x Hx. apply: node_of_ext. by apply/Hq/H2. }
  suff -> : node_of h' d = set_used b (node_of h d) by []. by rewrite /node_of Hd.
Qed.

Lemma map_split {A B} (g : A -> B) l l1 x l2 :
  map g l = l1 ++ x :: l2 ->
  exists k1 y k2, l = k1 ++ y :: k2 /\ map g k1 = l1 /\ g y = x /\ map g k2 = l2.
Proof.
  elim: l l1 => [|a l IH] [|b l1] //=.
  - move=> [<- <-]. by exists [], a, l.
  - move=> [<- /IH [k1 [y [k2 [-> [<- [<- <-]]]]]]]. by exists (a :: k1), y, k2.
Qed.

Lemma well_provided_app h k : well_provided (h ++ k) -> well_provided h.
Proof.
  rewrite /well_provided /provided flat_map_app map_app => [[Hnd Hni]]. split.
  - move: Hnd. clear. elim: (map d_ptr (flat_map provided1 h)) => [|a l IH] /=.
    + move=> _. by constructor.
    + move=> H. inversion H as [|? ? Hn Hd]; subst. constructor; last by apply: IH.
      move=> Hin. apply: Hn. apply/in_or_app. by left.
  - move=> Hin. apply: Hni. apply/in_or_app. by left.
Qed.

Lemma held_provided l s h p : run l = Ok (s, h) -> p <> cap_null -> held h p = true ->
  In p (map d_ptr (provided h)).
Proof.
  elim/rev_ind: l s h => [|o l IH] s h; first by move=> [_ <-].
  move=> /run_snoc [s0 [h0 [r [R [S ->]]]]] Hp. have {}IH := IH _ _ R Hp.
  have D := descs _ _ _ R.
  rewrite held_snoc provided_snoc map_app in_app_iff.
  case: o S => [m t q z a|t z f|q] /=.
  - move=> _ /IH H. by left.
  - case: (alloc_cases t z f s0) => [[s1 [n [s2 [E [_ [_ ->]]]]]]|[_ ->]] [_ <-] /=.
    + case: (N.eqb_spec (n_ptr n) p) => [Ep _|_ /IH]; last by left.
      left. apply (proj2 (in_rev _ _)). rewrite -map_rev -D map_map. apply/in_map_iff. exists n.
      split=> //. rewrite E in_app_iff /=. tauto.
    + case: (p) Hp IH => [|p'] Hp IH //= /IH H. by left.
  - case: (q =? p) => // _ /IH H. by left.
Qed.

(** The state after any history of a well-behaved user. *)
Lemma closed_form l s h : run l = Ok (s, h) -> well_provided h ->
  s = map (node_of h) (rev (provided h)).
Proof.
  elim/rev_ind: l s h => [|o l IH] s h; first by move=> [<- <-].
  move=> /run_snoc [s0 [h0 [r [R [S ->]]]]] W.
  have W0 := well_provided_app _ _ W. have {}IH := IH _ _ R W0.
  have [Hnd0 Hn0] := W0.
  have Hr : NoDup (map d_ptr (rev (provided h0))) by rewrite map_rev; apply: NoDup_rev.
  rewrite provided_snoc rev_app_distr map_app.
  case: o S W => [m t p z a|t z f|p] /= S W.
  - move: S. rewrite /camkes_provide. case: m W => W [? ?]; subst s r; simpl.
    + have Hf : held h0 p = false.
      { case E: (held h0 p) => //. exfalso.
        have [Hnd Hnn] := W. rewrite provided_snoc map_app /= in Hnd Hnn.
        have Hp : p <> cap_null by move=> Ep; apply: Hnn; apply in_or_app; right; left.
        have Hin := held_provided _ _ _ _ R Hp E.
        apply NoDup_remove_2 in Hnd. apply: Hnd. by rewrite app_nil_r. }
      rewrite {1}/node_of /= held_snoc /= Hf. congr (_ :: _).
      rewrite IH. apply: map_ext => d. by rewrite /node_of held_snoc.
    + rewrite IH. apply: map_ext => d. by rewrite /node_of held_snoc.
  - move: S. case: (alloc_cases t z f s0) => [[s1 [n [s2 [E [_ [_ ->]]]]]]|[_ ->]] [<- <-] /=.
    + rewrite IH in E. have [k1 [d [k2 [Ek [<- [En <-]]]]]] := map_split _ _ _ _ _ E.
      rewrite Ek -En. apply: map_update.
      * by rewrite -Ek.
      * by rewrite held_snoc /= N.eqb_refl.
      * move=> q Hq. rewrite held_snoc /=. by case: N.eqb_spec => // E2; rewrite -E2 in Hq.
    + rewrite IH. apply: map_ext_in => d Hd.
      have Hd0 : cap_null <> d_ptr d.
      { move=> E2. apply: Hn0. change 0 with cap_null. rewrite E2. apply: in_map. by apply/in_rev. }
      rewrite /node_of held_snoc. cbn [hold1]. by rewrite (proj2 (N.eqb_neq _ _) Hd0).
  - move: S. case: (free_cases p s0) => [[s1 [n [s2 [E [En [_ ->]]]]]]|[_ ->]] //.
    case: (n_used n) => //= [[<- <-]] /=.
    rewrite IH in E. have [k1 [d [k2 [Ek [<- [En2 <-]]]]]] := map_split _ _ _ _ _ E.
    rewrite Ek -En2. apply: map_update.
    * by rewrite -Ek.
    * rewrite held_snoc /=. rewrite -En2 /= in En. by rewrite -En N.eqb_refl.
    * move=> q Hq. rewrite held_snoc /=. rewrite -En2 /= in En.
      by case: N.eqb_spec => // E2; rewrite -E2 En in Hq.
Qed.

Lemma suits_answers t z f n :
  suits t z f n = true <-> answers t z f (desc_of n) /\ n_used n = false.
Proof.
  rewrite /suits /answers /=. split.
  - move=> /andP [/andP [/andP [/N.eqb_eq Ht /negbTE Hu] /N.eqb_eq Ha] /orP Hz].
    split=> //. split=> //. split.
    + case: Hz => [/N.eqb_eq ->|/N.eqb_eq ->]; tauto.
    + move=> i Hi. rewrite -Ha N.land_spec in Hi. by case/andP: Hi.
  - move=> [[-> [Hz Ha]] ->]. rewrite N.eqb_refl /=.
    have -> : N.land (n_attr n) f = f.
    { apply: N.bits_inj => i. rewrite N.land_spec.
      case E: (N.testbit f i); last by rewrite andb_false_r. by rewrite (Ha i E). }
    rewrite N.eqb_refl /=. case: Hz => ->; by rewrite N.eqb_refl ?orb_true_r.
Qed.

(** The returned capability was provided and answers the request. *)
Lemma alloc_answers l s h h1 t z f p h2 :
  run l = Ok (s, h) -> h = h1 ++ (OAlloc t z f, RCap p) :: h2 -> p <> cap_null ->
  exists d, In d (provided h1) /\ d_ptr d = p /\ answers t z f d.
Proof.
  move=> R E Hp.
  have E' : h = (h1 ++ [(OAlloc t z f, RCap p)]) ++ h2 by rewrite -app_assoc.
  have [s1] := run_prefix _ _ _ _ _ R E'. rewrite map_app => R1.
  have [s0 [h0 [r [R0 [S E0]]]]] := run_snoc _ _ _ _ R1.
  apply app_inj_tail in E0. move: E0 => [E1 [E2]]. subst r. subst h0.
  have D := descs _ _ _ R0. move: S => /=.
  case: (alloc_cases t z f s0) => [[a [n [b [En [Hn [_ ->]]]]]]|[_ ->]] [Es Er]; last by subst p.
  exists (desc_of n). split; last first.
  { split; first by []. by have [] := proj1 (suits_answers _ _ _ _) Hn. }
  apply (proj2 (in_rev _ _)). rewrite -D. apply: in_map. rewrite En in_app_iff /=. tauto.
Qed.

(** Success exactly when some provided capability answers the request and is not held. *)
Lemma alloc_success l s h h1 t z f p h2 :
  run l = Ok (s, h) -> well_provided h -> h = h1 ++ (OAlloc t z f, RCap p) :: h2 ->
  (p <> cap_null <-> exists d, In d (provided h1) /\ answers t z f d /\ held h1 (d_ptr d) = false).
Proof.
  move=> R W E.
  have E' : h = (h1 ++ [(OAlloc t z f, RCap p)]) ++ h2 by rewrite -app_assoc.
  have [s1] := run_prefix _ _ _ _ _ R E'. rewrite map_app => R1.
  have W1 : well_provided h1 by rewrite E in W; apply: well_provided_app W.
  have [s0 [h0 [r [R0 [S E0]]]]] := run_snoc _ _ _ _ R1.
  apply app_inj_tail in E0. move: E0 => [E1 [E2]]. subst r. subst h0.
  have C := closed_form _ _ _ R0 W1. have [_ Hnn] := W1. move: S => /=.
  case: (alloc_cases t z f s0) => [[a [n [b [En [Hn [_ ->]]]]]]|[Hs ->]] [Es Er].
  - have [Ha Hu] := proj1 (suits_answers _ _ _ _) Hn.
    rewrite C in En. have [k1 [d [k2 [Ek [_ [En2 _]]]]]] := map_split _ _ _ _ _ En.
    have Hd : In d (provided h1) by apply/in_rev; rewrite Ek in_app_iff /=; tauto.
    rewrite -En2 in Ha Hu Er. split=> _.
    + exists d. split=> //.
    + rewrite -Er /= => E3. apply: Hnn. change 0 with cap_null; rewrite -E3. by apply: in_map.
  - subst p. split=> // [[d [Hd [Ha Hh]]]]. exfalso.
    have Hin : In (node_of h1 d) s0 by rewrite C; apply: in_map; apply/in_rev; rewrite rev_involutive.
    have := Hs _ Hin. have -> // : suits t z f (node_of h1 d) = true.
    apply/suits_answers. by split.
Qed.

(** A held capability is not handed out. *)
Lemma alloc_not_held l s h h1 t z f p h2 :
  run l = Ok (s, h) -> well_provided h -> h = h1 ++ (OAlloc t z f, RCap p) :: h2 ->
  p <> cap_null -> held h1 p = false.
Proof.
  move=> R W E Hp.
  have E' : h = (h1 ++ [(OAlloc t z f, RCap p)]) ++ h2 by rewrite -app_assoc.
  have [s1] := run_prefix _ _ _ _ _ R E'. rewrite map_app => R1.
  have W1 : well_provided h1 by rewrite E in W; apply: well_provided_app W.
  have [s0 [h0 [r [R0 [S E0]]]]] := run_snoc _ _ _ _ R1.
  apply app_inj_tail in E0. move: E0 => [E1 [E2]]. subst r. subst h0.
  have C := closed_form _ _ _ R0 W1. move: S => /=.
  case: (alloc_cases t z f s0) => [[a [n [b [En [Hn [_ ->]]]]]]|[Hs ->]] [Es Er]; last by subst p.
  have [Ha Hu] := proj1 (suits_answers _ _ _ _) Hn.
  rewrite C in En. have [k1 [d [k2 [Ek [_ [En2 _]]]]]] := map_split _ _ _ _ _ En.
  by rewrite -En2 /= in Er Hu; rewrite -Er.
Qed.

Lemma held_stays k p b : b = true -> (forall r, ~ In (OFree p, r) k) -> fold_left (hold1 p) k b = true.
Proof.
  elim: k b => [|[o r] k IH] b //= Hb Hk. apply: IH; last by move=> r' Hin; apply: (Hk r'); right.
  case: o Hk => [m t q z a|t z f|q] Hk //=.
  - case: r Hk => // q Hk. by case: (q =? p).
  - case: N.eqb_spec => // E. exfalso. apply: (Hk r). left. by rewrite E.
Qed.

(** Between two allocations of the same capability lies a free of it. *)
Lemma exclusive l s h h1 a1 k a2 h2 p :
  run l = Ok (s, h) -> well_provided h ->
  h = h1 ++ (a1, RCap p) :: k ++ (a2, RCap p) :: h2 -> p <> cap_null ->
  exists r, In (OFree p, r) k.
Proof.
  move=> R W E Hp.
  have Ea : forall g o g', h = g ++ (o, RCap p) :: g' -> exists t z f, o = OAlloc t z f.
  { move=> g o g' Eg.
    have E' : h = (g ++ [(o, RCap p)]) ++ g' by rewrite -app_assoc.
    have [s1] := run_prefix _ _ _ _ _ R E'. rewrite map_app => R1.
    have [s0 [h0 [r [R0 [S E0]]]]] := run_snoc _ _ _ _ R1.
    apply app_inj_tail in E0. move: E0 => [E1 [E2]]. subst r.
    case: o S {E1 E' Eg R1} => [m t q z a|t z f|q] /=.
    - rewrite /camkes_provide. by case: m.
    - by exists t, z, f.
    - by case: (camkes_free q s0). }
  have [t1 [z1 [f1 Ea1]]] := Ea _ _ _ E.
  have E2 : h = (h1 ++ (a1, RCap p) :: k) ++ (a2, RCap p) :: h2 by rewrite -app_assoc.
  have [t2 [z2 [f2 Ea2]]] := Ea _ _ _ E2. subst a1 a2.
  have Hf := alloc_not_held _ _ _ _ _ _ _ _ _ R W E2 Hp.
  have Hdec : (exists r, In (OFree p, r) k) \/ ~ (exists r, In (OFree p, r) k).
  { clear. elim: k => [|[o r] k [[r' IH]|IH]]; first by right => [[r []]].
    - left. exists r'. by right.
    - case: o => [m t q z a|t z f|q]; try by right => [[r' [//|H]]]; apply: IH; exists r'.
      case: (N.eq_dec q p) => [->|n]; first by left; exists r; left.
      right => [[r' [[E _]|H]]]; [by apply: n|]. apply: IH; by exists r'. }
  case: Hdec => // Hn. exfalso.
  rewrite held_app /= N.eqb_refl in Hf. rewrite held_stays in Hf => //.
  move=> r Hr. apply: Hn. by exists r.
Qed.

(** A free is accepted exactly for a held capability. *)
Lemma free_ok l s h p :
  run l = Ok (s, h) -> well_provided h -> p <> cap_null ->
  ((exists s' h', run (l ++ [OFree p]) = Ok (s', h')) <-> held h p = true).
Proof.
  move=> R W Hp. have C := closed_form _ _ _ R W.
  rewrite /run run_from_app. rewrite /run in R. rewrite R /=.
  case: (free_cases p s) => [[s1 [n [s2 [E [En [_ ->]]]]]]|[Hs ->]] /=.
  - rewrite C in E. have [k1 [d [k2 [Ek [_ [En2 _]]]]]] := map_split _ _ _ _ _ E.
    have Hu : n_used n = held h p by rewrite -En -En2.
    rewrite Hu. case: (held h p) => /=.
    + split=> // _. by do 2 eexists.
    + by split=> // [[s' [h' H]]].
  - split; first by move=> [s' [h' H]].
    move=> Hh. exfalso. have := held_provided _ _ _ _ R Hp Hh.
    move=> /in_map_iff [d [Ed Hd]]. apply: (Hs (node_of h d)); last by [].
    rewrite C. apply: in_map. apply/in_rev. by rewrite rev_involutive.
Qed.

(** A freed capability can be had again. *)
Lemma free_available l s h p d t z f :
  run (l ++ [OFree p]) = Ok (s, h) -> well_provided h -> In d (provided h) -> d_ptr d = p ->
  answers t z f d ->
  exists s' q, run (l ++ [OFree p] ++ [OAlloc t z f]) = Ok (s', h ++ [(OAlloc t z f, RCap q)]) /\
    q <> cap_null.
Proof.
  move=> R W Hd Ed Ha.
  have [s' [q Rq]] : exists s' q, run (l ++ [OFree p] ++ [OAlloc t z f]) = Ok (s', h ++ [(OAlloc t z f, RCap q)]).
  { rewrite app_assoc /run run_from_app. rewrite /run in R. rewrite R /=.
    case: (camkes_alloc t z f s) => s' q /=. by exists s', q. }
  exists s', q. split=> //.
  have W' : well_provided (h ++ [(OAlloc t z f, RCap q)]).
  { by rewrite /well_provided provided_snoc app_nil_r. }
  apply/(alloc_success _ _ _ _ _ _ _ _ _ Rq W'); first by [].
  exists d. split=> //. split=> //. rewrite Ed.
  have [s0 [h0 [r [R0 [S ->]]]]] := run_snoc _ _ _ _ R.
  by rewrite held_snoc /= N.eqb_refl.
Qed.

(** Without the user's side of the contract. *)
Lemma twice_provided : exists l s h p k1 k2 k3,
  run l = Ok (s, h) /\ p <> cap_null /\
  h = k1 ++ (OAlloc 1 0 0, RCap p) :: k2 ++ (OAlloc 1 0 0, RCap p) :: k3 /\
  (forall r, ~ In (OFree p, r) k2).
Proof.
  exists [OProvide true 1 5 4 0; OProvide true 1 5 4 0; OAlloc 1 0 0; OAlloc 1 0 0].
  do 2 eexists. exists 5, [(OProvide true 1 5 4 0, ROk); (OProvide true 1 5 4 0, ROk)], [], [].
  split; [vm_compute; reflexivity|]. do 2 (split; [done|]). by move=> r [].
Qed.

Lemma provide_total l s h m t p z a :
  run l = Ok (s, h) ->
  exists s', run (l ++ [OProvide m t p z a]) =
    Ok (s', h ++ [(OProvide m t p z a, if m then ROk else RFail)]).
Proof.
  rewrite /run run_from_app => -> /=. by case: m; eexists.
Qed.
Lemma alloc_total l s h t z f :
  run l = Ok (s, h) ->
  exists s' p, run (l ++ [OAlloc t z f]) = Ok (s', h ++ [(OAlloc t z f, RCap p)]).
Proof.
  rewrite /run run_from_app => -> /=. case: (camkes_alloc t z f s) => s' p. by exists s', p.
Qed.
