(** Proofs about the mutexes. *)
From Coq Require Import NArith List Bool Lia PeanoNat.
From Coq Require Import ssreflect ssrbool.
From Verif Require Import Prelude CapAlloc_Model CapAlloc_Spec CapAlloc_Proofs Mutex_Model Mutex_Spec.
Import ListNotations.
Open Scope N_scope.

(** ** The pools *)
Lemma filled_nodes p : filled p = rev (map (fun '(t, c, z, a) => Node t z c false a) (provisions p)).
Proof.
  rewrite /filled -[rev _]app_nil_r. move: (@nil node) => s. elim: (provisions p) s => [|[[[t c] z] a] l IH] s //=.
  by rewrite IH -app_assoc.
Qed.
Lemma filled_ptrs p : map n_ptr (filled p) = rev (all_caps p).
Proof.
  rewrite filled_nodes map_rev. f_equal. rewrite /provisions /all_caps !map_app !map_map.
  apply: f_equal2; first by elim: (tcb_pool p) => //= ? ? ->.
  apply: f_equal2; first by elim: (ep_pool p) => //= ? ? ->.
  apply: f_equal2; first by elim: (notification_pool p) => //= ? ? ->.
  by elim: (untyped_pool p) => //= [[b c] l] ->.
Qed.
Definition is_ntfn (n : node) : Prop := n_type n = seL4_NotificationObject.
Lemma filled_ntfn p n : In n (filled p) -> is_ntfn n ->
  In (n_ptr n) (notification_pool p) /\ n_attr n = N.lor seL4_CanRead seL4_CanWrite /\ n_used n = false.
Proof.
  rewrite filled_nodes -in_rev in_map_iff => [[[[[t c] z] a] [<- I]]]. rewrite /is_ntfn /=.
  move: I. rewrite /provisions !in_app_iff !in_map_iff.
  by move=> [[? [[<- <- _ <-] ?]]|[[? [[<- <- _ <-] ?]]|[[? [[<- <- _ <-] ?]]|[[? ?] [[<- <- _ <-] ?]]]]].
Qed.
Lemma filled_pool p c : In c (notification_pool p) -> In (Node seL4_NotificationObject 0 c false (N.lor seL4_CanRead seL4_CanWrite)) (filled p).
Proof.
  move=> I. rewrite filled_nodes -in_rev in_map_iff. exists (seL4_NotificationObject, c, 0, N.lor seL4_CanRead seL4_CanWrite).
  split=> //. rewrite /provisions !in_app_iff !in_map_iff. right; right; left. by exists c.
Qed.
Lemma filled_unused p n : In n (filled p) -> n_used n = false.
Proof. rewrite filled_nodes -in_rev in_map_iff => [[[[[t c] z] a] [<- _]]]. done. Qed.

(** ** Invariant *)
Record minv (p : pools) (s : mst) : Prop := {
  mi_desc : map desc_of (resources s) = map desc_of (filled p);
  mi_ids : NoDup (map fst (mutexes s));
  mi_fresh : forall m, In m (map fst (mutexes s)) -> (m < counter s)%nat;
  mi_caps : NoDup (map snd (mutexes s));
  mi_pool : incl (map snd (mutexes s)) (notification_pool p);
  mi_used : forall n, In n (resources s) -> (n_used n = true <-> In (n_ptr n) (map snd (mutexes s))) }.

Lemma ptr_desc l l' : map desc_of l = map desc_of l' -> map n_ptr l = map n_ptr l'.
Proof. move=> E. have: map d_ptr (map desc_of l) = map d_ptr (map desc_of l') by rewrite E. by rewrite !map_map. Qed.
Lemma same_node p s n : minv p s -> In n (resources s) -> exists n', In n' (filled p) /\ desc_of n' = desc_of n.
Proof.
  move=> [D _ _ _ _ _] I. have: In (desc_of n) (map desc_of (filled p)) by rewrite -D; apply: in_map.
  by rewrite in_map_iff => [[n' [? ?]]]; exists n'.
Qed.
Lemma suits_ntfn p s n : minv p s -> In n (resources s) ->
  (suits seL4_NotificationObject 0 (N.lor seL4_CanRead seL4_CanWrite) n = true <-> is_ntfn n /\ n_used n = false).
Proof.
  move=> I In_n. rewrite /suits /is_ntfn. split.
  - move=> /andP [/andP [/andP [/N.eqb_eq -> /negPf ->] _] _]. done.
  - move=> [T U]. move: (same_node _ _ _ I In_n) => [n' [F E]]. move: E => [E1 E3 E2 E4].
    have T': is_ntfn n' by rewrite /is_ntfn E1.
    move: (filled_ntfn _ _ F T') => [_ [A _]]. by rewrite T U -E4 A.
Qed.
Lemma ntfn_pool p s n : minv p s -> In n (resources s) -> is_ntfn n -> In (n_ptr n) (notification_pool p).
Proof.
  move=> I In_n T. move: (same_node _ _ _ I In_n) => [n' [F E]]. move: E => [E1 E3 E2 E4].
  have T': is_ntfn n' by rewrite /is_ntfn E1. rewrite -E3. by move: (filled_ntfn _ _ F T') => [].
Qed.
Lemma pool_node p s c : minv p s -> In c (notification_pool p) -> exists n, In n (resources s) /\ n_ptr n = c /\ is_ntfn n.
Proof.
  move=> [D _ _ _ _ _] /filled_pool I. have: In (desc_of (Node seL4_NotificationObject 0 c false (N.lor seL4_CanRead seL4_CanWrite))) (map desc_of (resources s)).
  { rewrite D. exact: in_map. }
  rewrite in_map_iff => [[n [E J]]]. exists n. move: E => [E1 E3 E2 E4]. by rewrite /is_ntfn E1 E3.
Qed.
Lemma ptr_inj p s n n' : good_pools p -> minv p s -> In n (resources s) -> In n' (resources s) -> n_ptr n = n_ptr n' -> n = n'.
Proof.
  move=> [G _] I. have N: NoDup (map n_ptr (resources s)).
  { rewrite (ptr_desc _ _ (mi_desc _ _ I)) filled_ptrs. exact: NoDup_rev. }
  move: N. elim: (resources s) => [|a l IH] //= /NoDup_cons_iff [A B] [<-|X] [<-|Y] // E.
  - case: A. rewrite E. exact: in_map.
  - case: A. rewrite -E. exact: in_map.
  - exact: IH.
Qed.
Lemma not_null p s n : good_pools p -> minv p s -> In n (resources s) -> n_ptr n <> 0.
Proof.
  move=> [_ G] I X E. apply: G. rewrite in_rev -filled_ptrs -(ptr_desc _ _ (mi_desc _ _ I)) -E. exact: in_map.
Qed.
Lemma minv_filled p : minv p (Mst (filled p) [] 0).
Proof.
  split=> //=; try by constructor. move=> n /filled_unused ->. done.
Qed.

(** ** Steps *)
Lemma lookup_In m l : (exists c, lookup m l = Some c) <-> In m (map fst l).
Proof.
  elim: l => [|[k c] l IH] /=; first by split=> // [[]].
  case: Nat.eqb_spec => [->|N]; first by split; [left|exists c]. rewrite IH. by intuition.
Qed.
Lemma lookup_pair m c l : lookup m l = Some c -> In (m, c) l.
Proof. elim: l => [|[k d] l IH] //=. case: Nat.eqb_spec => [->|_] X; [left; by case: X => ->|right; exact: IH]. Qed.

Lemma filter_sub {A B} (g : A -> B) (f : A -> bool) l x : In x (map g (filter f l)) -> In x (map g l).
Proof. rewrite !in_map_iff => [[y [<- /filter_In [I _]]]]. by exists y. Qed.
Lemma filter_nodup {A B} (g : A -> B) (f : A -> bool) l : NoDup (map g l) -> NoDup (map g (filter f l)).
Proof.
  elim: l => [|a l IH] //= /NoDup_cons_iff [A1 A2]. case: (f a) => /=; last exact: IH.
  constructor; last exact: IH. move=> X. exact: A1 (filter_sub _ _ _ _ X).
Qed.
Lemma pair_fun (l : list (nat * N)) m m' c : NoDup (map snd l) -> In (m, c) l -> In (m', c) l -> m = m'.
Proof.
  elim: l => [|[k d] l IH] //= ND. move: (proj1 (NoDup_cons_iff _ _) ND) => [A B]. move=> [[E1 E2]|X] [[E3 E4]|Y]; last exact: IH.
  - congruence.
  - case: A. rewrite E2. apply/in_map_iff. by exists (m', c).
  - case: A. rewrite E4. apply/in_map_iff. by exists (m, c).
Qed.

(** Taking a free notification *)
Lemma alloc_step p s : good_pools p -> minv p s ->
  (exists r c, camkes_alloc seL4_NotificationObject 0 (N.lor seL4_CanRead seL4_CanWrite) (resources s) = (r, c) /\
     c <> cap_null /\ ~ In c (map snd (mutexes s)) /\ In c (notification_pool p) /\
     map desc_of r = map desc_of (resources s) /\
     (forall n, In n r -> (n_used n = true <-> n_ptr n = c \/ In (n_ptr n) (map snd (mutexes s)))) /\
     camkes_free c r = Ok (resources s)) \/
  (camkes_alloc seL4_NotificationObject 0 (N.lor seL4_CanRead seL4_CanWrite) (resources s) = (resources s, cap_null) /\
   forall c, In c (notification_pool p) -> In c (map snd (mutexes s))).
Proof.
  move=> G I. case: (alloc_cases seL4_NotificationObject 0 (N.lor seL4_CanRead seL4_CanWrite) (resources s)).
  - move=> [s1 [n [s2 [E [S [_ A]]]]]]. left. have In_n: In n (resources s) by rewrite E in_app_iff /=; tauto.
    move: (proj1 (suits_ntfn _ _ _ I In_n) S) => [T U].
    exists (s1 ++ set_used true n :: s2), (n_ptr n). split=> //. split; first exact (not_null _ _ _ G I In_n). split.
    { move=> X. move: (proj2 (mi_used _ _ I _ In_n) X). by rewrite U. }
    split; first exact (ntfn_pool _ _ _ I In_n T). split; first by rewrite E !map_app.
    have Nd: NoDup (map n_ptr (resources s)).
    { rewrite (ptr_desc _ _ (mi_desc _ _ I)) filled_ptrs. apply: NoDup_rev. by case: G. }
    split.
    + move=> x. rewrite in_app_iff /=. move=> X.
      have [->|[Xs Ne]]: x = set_used true n \/ (In x (resources s) /\ n_ptr x <> n_ptr n).
      { move: Nd. rewrite E map_app /= => Nd. move: (NoDup_remove_2 _ _ _ Nd) => Nr.
        case: X => [X|[X|X]]; [right|by left|right]; (split; [rewrite in_app_iff /=; tauto|move=> Y; apply: Nr; rewrite -Y in_app_iff]);
        [left|right]; exact: in_map. }
      * cbn. split=> //. by left.
      * rewrite (mi_used _ _ I _ Xs). by intuition.
    + case: (free_cases (n_ptr n) (s1 ++ set_used true n :: s2)).
      * move=> [t1 [m [t2 [E2 [Em [Hm ->]]]]]].
        have [-> [-> ->]]: t1 = s1 /\ m = set_used true n /\ t2 = s2.
        { move: Nd. rewrite E map_app /= => Nd. clear -E2 Em Hm Nd. elim: s1 t1 Nd E2 Hm => [|a s1 IH] [|b t1] /= Nd E2 Hm.
          - case: E2 => <- <-. done.
          - case: E2 => B _. by move: (Hm b (or_introl eq_refl)); rewrite -B.
          - case: E2 => B E3. exfalso. subst a. move: (proj1 (NoDup_cons_iff _ _) Nd) => [X _]. apply: X. rewrite Em in_app_iff /=. tauto.
          - case: E2 => B E3. move: (proj1 (NoDup_cons_iff _ _) Nd) => [_ Nd']. case: (IH _ Nd' E3) => [x X|-> [-> ->]]; first by apply: Hm; right.
            by rewrite B. }
        cbn. rewrite E. do 2 f_equal. f_equal. by case: (n) U => ? ? ? ? ? /= ->.
      * move=> [X _]. by move: (X (set_used true n)); rewrite in_app_iff /=; case; [tauto|].
  - move=> [A B]. right. split=> // c C. move: (pool_node _ _ _ I C) => [n [X [<- T]]].
    apply/(mi_used _ _ I _ X). case U: (n_used n) => //. by move: (A _ X); rewrite (proj2 (suits_ntfn _ _ _ I X) (conj T U)).
Qed.

(** Giving one back *)
Lemma free_step p s m c : good_pools p -> minv p s -> lookup m (mutexes s) = Some c ->
  exists r, camkes_free c (resources s) = Ok r /\
    minv p (Mst r (filter (fun x => negb (Nat.eqb (fst x) m)) (mutexes s)) (counter s)).
Proof.
  move=> G I L. move: (lookup_pair _ _ _ L) => P.
  have Pc: In c (map snd (mutexes s)) by apply/in_map_iff; exists (m, c).
  move: (pool_node _ _ _ I (mi_pool _ _ I _ Pc)) => [n [In_n [En T]]].
  case: (free_cases c (resources s)).
  - move=> [s1 [k [s2 [E [Ek [Hk ->]]]]]].
    have ->: n_used k = true.
    { apply/(mi_used _ _ I k); first by rewrite E in_app_iff /=; tauto. by rewrite Ek. }
    eexists; split=> //.
    have Nd: NoDup (map n_ptr (resources s)).
    { rewrite (ptr_desc _ _ (mi_desc _ _ I)) filled_ptrs. apply: NoDup_rev. by case: G. }
    split=> /=.
    + rewrite -(mi_desc _ _ I) E !map_app /=. by [].
    + apply: filter_nodup. exact: mi_ids I.
    + move=> x X. exact (mi_fresh _ _ I _ (filter_sub _ _ _ _ X)).
    + apply: filter_nodup. exact: mi_caps I.
    + move=> x X. exact (mi_pool _ _ I _ (filter_sub _ _ _ _ X)).
    + have F: forall d, In d (map snd (filter (fun x => negb (Nat.eqb (fst x) m)) (mutexes s))) <->
                In d (map snd (mutexes s)) /\ d <> c.
      { move=> d. rewrite !in_map_iff. split.
        - move=> [[m' d'] [/= Ed /filter_In [X /= Y]]]. split; first by exists (m', d').
          move=> Ec. subst d' d. move: (pair_fun _ _ _ _ (mi_caps _ _ I) P X) => Em. subst m'. by rewrite Nat.eqb_refl in Y.
        - move=> [[[m' d'] [/= Ed X]] N]. exists (m', d'). split=> //. apply/filter_In. split=> //=.
          case: (Nat.eqb_spec m' m) => // Em. subst m'. case: N.
          have ND := mi_ids _ _ I. move: ND P X. subst d'. elim: (mutexes s) => [|[a b] l IH] //= ND.
          move: (proj1 (NoDup_cons_iff _ _) ND) => [A B]. move=> [[E1 E2]|X] [[E3 E4]|Y]; last exact: IH.
          + congruence.
          + case: A. rewrite E1. apply/in_map_iff. by exists (m, d).
          + case: A. rewrite E3. apply/in_map_iff. by exists (m, c). }
      move=> x. rewrite in_app_iff F /= => X.
      have [->|[Xs Ne]]: x = set_used false k \/ (In x (resources s) /\ n_ptr x <> n_ptr k).
      { move: Nd. rewrite E map_app /= => Nd. move: (NoDup_remove_2 _ _ _ Nd) => Nr.
        case: X => [X|[X|X]]; [right|by left|right]; (split; [rewrite in_app_iff /=; tauto|move=> Y; apply: Nr; rewrite -Y in_app_iff]);
        [left|right]; exact: in_map. }
      * cbn. split=> // [[_ X']]. by case: X'.
      * rewrite (mi_used _ _ I _ Xs) -Ek. by intuition.
  - move=> [X _]. by move: (X _ In_n En).
Qed.

Lemma nodup_r {A} (l l' : list A) : NoDup (l ++ l') -> NoDup l'.
Proof. elim: l => [|a l IH] //= H. apply: IH. exact (proj2 (proj1 (NoDup_cons_iff _ _) H)). Qed.
Lemma nodup_l {A} (l l' : list A) : NoDup (l ++ l') -> NoDup l.
Proof.
  elim: l => [|a l IH] /= H; first by constructor. move: (proj1 (NoDup_cons_iff _ _) H) => [X Y].
  constructor; last exact: IH. move=> Z. apply: X. rewrite in_app_iff. by left.
Qed.
Lemma new_step p s mem init : good_pools p -> minv p s ->
  exists s' r, mutex_new mem init s = Ok (s', r) /\ minv p s' /\ mutexes s' = live1 (mutexes s) (New mem init, r) /\
  ((mem = true /\ init = true /\ (length (mutexes s) < length (notification_pool p))%nat /\
    exists c, r = RMutex (counter s) c /\ ~ In (counter s) (map fst (mutexes s)) /\ ~ In c (map snd (mutexes s)) /\ In c (notification_pool p)) \/
   (r = RNull /\ s' = s /\ (mem = false \/ init = false \/ length (mutexes s) = length (notification_pool p)))).
Proof.
  move=> G I. rewrite /mutex_new. have Gn: NoDup (notification_pool p).
  { case: G => G _. move: G. rewrite /all_caps => G. move: (nodup_r _ _ G) => {}G.
    move: (nodup_r _ _ G) => {}G. exact (nodup_l _ _ G). }
  have Le: (length (mutexes s) <= length (notification_pool p))%nat.
  { move: (NoDup_incl_length (mi_caps _ _ I) (mi_pool _ _ I)). by rewrite map_length. }
  have Es: Mst (resources s) (mutexes s) (counter s) = s by case: (s).
  case: (alloc_step p s G I).
  - move=> [r [c [-> [N0 [Nc [Pc [D [U F]]]]]]]]. move: (proj2 (N.eqb_neq _ _) N0) => ->.
    case: mem => /=; last first. { rewrite F /= Es. exists s, RNull. do 3 (split; first done). right. do 2 (split; first done). tauto. }
    case: init => /=; last first. { rewrite F /= Es. exists s, RNull. do 3 (split; first done). right. do 2 (split; first done). tauto. }
    have Fr: ~ In (counter s) (map fst (mutexes s)) by move=> /(mi_fresh _ _ I); lia.
    eexists _, _. split=> //. split; [split=> /=|split=> //].
    + by rewrite D (mi_desc _ _ I).
    + constructor=> //. exact: mi_ids I.
    + move=> x [<-|/(mi_fresh _ _ I)]; lia.
    + constructor=> //. exact: mi_caps I.
    + move=> x [<-|X] //. exact (mi_pool _ _ I _ X).
    + move=> n X. rewrite (U _ X). by intuition.
    + left. repeat split=> //; last by exists c.
      case: (Nat.lt_ge_cases (length (mutexes s)) (length (notification_pool p))) => // Ge.
      case: Nc. apply: (NoDup_length_incl (mi_caps _ _ I)) Pc; last exact: mi_pool I. by rewrite map_length.
  - move=> [-> All]. rewrite N.eqb_refl Es. exists s, RNull. do 3 (split; first done). right. do 2 (split; first done). right; right.
    move: (NoDup_incl_length Gn All). rewrite map_length. lia.
Qed.

(** ** Executions *)
Lemma live_app l h e : fold_left live1 (h ++ [e]) l = live1 (fold_left live1 h l) e.
Proof. by rewrite fold_left_app. Qed.
Lemma run_from_inv p l : good_pools p -> forall s s' h, minv p s -> mrun_from s l = Ok (s', h) ->
  minv p s' /\ mutexes s' = fold_left live1 h (mutexes s).
Proof.
  move=> G. elim: l => [|o l IH] s s' h I /=; first by move=> [<- <-].
  case E: (mstep s o) => [[s1 r]|] //=. case E2: (mrun_from s1 l) => [[s2 h2]|] //= [<- <-] /=.
  have [I1 M1]: minv p s1 /\ mutexes s1 = live1 (mutexes s) (o, r).
  { case: o E => [mem init|m] /=.
    - move: (new_step p s mem init G I) => [t [q [-> [X [Y _]]]]] [<- <-]. done.
    - rewrite /mutex_free. case L: lookup => [c|] //. move: (free_step p s m c G I L) => [t [-> X]] /= [<- <-]. done. }
  by move: (IH _ _ _ I1 E2) => [X ->]; rewrite M1.
Qed.
Lemma run_inv p l s h : good_pools p -> mrun p l = Ok (s, h) -> minv p s /\ mutexes s = live h.
Proof. move=> G E. exact (run_from_inv p l G _ _ _ (minv_filled p) E). Qed.

Lemma mutex_distinct p l s h : good_pools p -> mrun p l = Ok (s, h) ->
  NoDup (map fst (live h)) /\ NoDup (map snd (live h)) /\ incl (map snd (live h)) (notification_pool p).
Proof. move=> G E. move: (run_inv _ _ _ _ G E) => [[_ A _ B C _] <-]. done. Qed.

Lemma run_from_app l o : forall s, mrun_from s (l ++ [o]) =
  match mrun_from s l with
  | Ok (s1, h) => match mstep s1 o with Ok (s2, r) => Ok (s2, h ++ [(o, r)]) | Err e => Err e end
  | Err e => Err e
  end.
Proof.
  elim: l => [|a l IH] s /=. { by case: (mstep s o) => [[? ?]|]. }
  case: (mstep s a) => [[s1 r]|] //=. rewrite IH. case: (mrun_from s1 l) => [[s2 h]|] //=.
  by case: (mstep s2 o) => [[? ?]|].
Qed.
Lemma mutex_new_ok p l s h mem init : good_pools p -> mrun p l = Ok (s, h) ->
  exists s' r, mrun p (l ++ [New mem init]) = Ok (s', h ++ [(New mem init, r)]) /\
  if mem && init && (length (live h) <? length (notification_pool p))%nat
  then exists m c, r = RMutex m c /\ ~ In m (map fst (live h)) /\ ~ In c (map snd (live h)) /\ In c (notification_pool p)
  else r = RNull.
Proof.
  move=> G E. move: (run_inv _ _ _ _ G E) => [I M]. rewrite /mrun run_from_app. move: E. rewrite /mrun => ->. rewrite -M.
  move: (new_step p s mem init G I) => [s' [r [Es [_ [_ C]]]]]. cbn [mstep]. rewrite Es. exists s', r. split=> //.
  case: C => [[-> [-> [/Nat.ltb_lt -> [c [-> X]]]]]|[-> [_ X]]] /=; first by exists (counter s), c.
  case: X => [->|[->|->]]; rewrite ?andb_false_r //= Nat.ltb_irrefl andb_false_r. done.
Qed.
Lemma mutex_destroy_ok p l s h m : good_pools p -> mrun p l = Ok (s, h) ->
  (In m (map fst (live h)) -> exists s', mrun p (l ++ [Destroy m]) = Ok (s', h ++ [(Destroy m, RZero)])) /\
  (~ In m (map fst (live h)) -> exists e, mrun p (l ++ [Destroy m]) = Err e).
Proof.
  move=> G E. move: (run_inv _ _ _ _ G E) => [I M]. rewrite /mrun run_from_app. move: E. rewrite /mrun => ->. rewrite -M.
  rewrite -lookup_In. cbn [mstep]. rewrite /mutex_free. split.
  - move=> [c L]. rewrite L. move: (free_step p s m c G I L) => [r [-> _]] /=. by eexists.
  - case L: lookup => [c|] X; last by eexists. by case: X; exists c.
Qed.

(** ** What the pools provide *)
Lemma filled_stocked p t z c u a : In (Node t z c u a) (filled p) <-> u = false /\ stocked p t z c a.
Proof.
  rewrite filled_nodes -in_rev in_map_iff /stocked /provisions. split.
  - move=> [[[[t' c'] z'] a'] [[-> -> -> <- ->]]]. rewrite !in_app_iff !in_map_iff.
    move=> [[x [[<- <- <- <-] I]]|[[x [[<- <- <- <-] I]]|[[x [[<- <- <- <-] I]]|[[b x] [[<- <- <- <-] I]]]]]; split=> //; [by left|by right; left|by right; right; left|].
    do 3 right. split=> //. split=> //. exists b. split; [exact: (N.shiftl_1_l b)|exact: I].
  - move=> [-> H]. exists (t, c, z, a). split=> //. rewrite !in_app_iff !in_map_iff.
    move: H => [[-> [-> [-> I]]]|[[-> [-> [-> I]]]|[[-> [-> [-> I]]]|[-> [-> [b [-> I]]]]]]]; [left; by exists c|right; left; by exists c|do 2 right; left; by exists c|].
    do 3 right. exists (b, c). split=> //. cbv beta iota. by rewrite N.shiftl_1_l.
Qed.
Lemma alloc_cases t z f s : (exists n, In n s /\ suits t z f n = true /\ snd (camkes_alloc t z f s) = n_ptr n) \/
  ((forall n, In n s -> suits t z f n = false) /\ snd (camkes_alloc t z f s) = 0).
Proof.
  elim: s => [|n s IH] /=; first by right. case E: (suits t z f n); first by left; exists n; split; [left|].
  case A: (camkes_alloc t z f s) IH => [s2 q] /= [[m [I [S ->]]]|[N ->]]; [left; exists m; split; [by right|]|right; split=> // m [<-|]]; by auto.
Qed.
Lemma stocked_caps p t z c a : stocked p t z c a -> In c (all_caps p).
Proof.
  rewrite /all_caps !in_app_iff. move=> [[_ [_ [_ I]]]|[[_ [_ [_ I]]]|[[_ [_ [_ I]]]|[_ [_ [b [_ I]]]]]]]; auto.
  do 3 right. exact: (in_map snd _ _ I).
Qed.
Lemma suits_spec t z f n : suits t z f n = true <->
  n_type n = t /\ n_used n = false /\ N.land (n_attr n) f = f /\ (z = 0 \/ z = n_size n).
Proof.
  rewrite /suits !andb_true_iff orb_true_iff !N.eqb_eq negb_true_iff. tauto.
Qed.
Lemma first_alloc p t z f : good_pools p ->
  let c := snd (camkes_alloc t z f (filled p)) in
  (c <> 0 -> exists size rights, stocked p t size c rights /\ (z = 0 \/ z = size) /\ N.land rights f = f) /\
  (c = 0 -> forall size c' rights, stocked p t size c' rights -> (z = 0 \/ z = size) -> N.land rights f <> f).
Proof.
  move=> [_ Z] c. rewrite /c. case: (alloc_cases t z f (filled p)) => [[[t' z' c' u a] [I [/suits_spec [/= <- [_ [A B]]] E]]]|[N E]].
  - move/filled_stocked: I => [_ S]. split=> [_|E0]; first (exists z', a; rewrite E; exact: (conj S (conj B A))).
    have X := stocked_caps _ _ _ _ _ S. exfalso. apply: Z. move: E0. rewrite E /=. by move=> <-.
  - split=> // _ size c' a S B A. have I : In (Node t size c' false a) (filled p) by apply/filled_stocked.
    move: (N _ I). have -> // : suits t z f (Node t size c' false a) = true by apply/suits_spec.
Qed.
