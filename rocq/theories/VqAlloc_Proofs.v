From Coq Require Import NArith List Bool Arith Lia Permutation ssreflect ssrbool.
From Verif Require Import Prelude VqAlloc_Model VqAlloc_Spec.
Import ListNotations.
Open Scope N_scope.

(** The specification with the constants of the model: the pool lies in the address space, sizes are
    unsigned, and buffer numbers are non-negative ints. *)
Definition usable0 (pool len block : N) : Prop :=
  0 < block /\ block < two32 /\ len < two32 /\ pool + len <= two64 /\ len / block <= two31.


Lemma run_app a l1 l2 :
  run a (l1 ++ l2) =
  ('(a1, h1) <- run a l1 ;; '(a2, h2) <- run a1 l2 ;; Ok (a2, h1 ++ h2)).
Proof.
  elim: l1 a => [|o l1 IH] a /=.
  - by case: (run a l2) => [[s2 h2]|e].
  - case: (step a o) => [[s1 r]|e] //=. rewrite IH.
    case: (run s1 l1) => [[s2 h1]|e] //=.
    by case: (run s2 l2) => [[s3 h2]|e].
Qed.

Lemma run_snoc a l o s h :
  run a (l ++ [o]) = Ok (s, h) ->
  exists s0 h0 r, run a l = Ok (s0, h0) /\ step s0 o = Ok (s, r) /\ h = h0 ++ [(o, r)].
Proof.
  rewrite run_app. case: (run a l) => [[s0 h0]|e] //=.
  case E: (step s0 o) => [[s1 r]|e] //=. move=> [? ?]; subst.
  by exists s0, h0, r.
Qed.

Lemma run_ops a l s h : run a l = Ok (s, h) -> map fst h = l.
Proof.
  elim: l a s h => [|o l IH] s0 s h /=; first by move=> [_ <-].
  case: (step s0 o) => [[s1 r]|e] //=.
  case E: (run s1 l) => [[s2 h2]|e] //= [_ <-] /=. by rewrite (IH _ _ _ E).
Qed.

Lemma run_prefix a l s h h1 h2 :
  run a l = Ok (s, h) -> h = h1 ++ h2 -> exists s1, run a (map fst h1) = Ok (s1, h1).
Proof.
  move=> R E. have F := run_ops _ _ _ _ R.
  move: R. rewrite -F E map_app run_app.
  case E1: (run a (map fst h1)) => [[s1 k1]|e] //=.
  case E2: (run s1 (map fst h2)) => [[s2 k2]|e] //= [_ Ek].
  exists s1. have F1 := run_ops _ _ _ _ E1.
  have L : List.length k1 = List.length h1 by rewrite -(map_length fst h1) -F1 map_length.
  suff -> : h1 = k1 by [].
  move: L Ek. clear. elim: k1 h1 => [|x k1 IH] [|b h1] //= [L] [-> Ek].
  by rewrite (IH _ L Ek).
Qed.

Lemma live_snoc h e : live (h ++ [e]) = live1 (live h) e.
Proof. by rewrite /live fold_left_app. Qed.

Lemma disciplined_app h k : disciplined (h ++ k) -> disciplined h.
Proof.
  move=> D h1 p r h2 E. apply: (D h1 p r (h2 ++ k)). by rewrite E -app_assoc.
Qed.

(** ** The free list *)

(** The entries reached from [i] are [l], ending at the terminator [n]. *)
Fixpoint chain (fl : list nat) (n i : nat) (l : list nat) : Prop :=
  match l with
  | [] => i = n
  | x :: l' => i = x /\ (x < n)%nat /\ exists j, nth_error fl x = Some j /\ chain fl n j l'
  end.

Lemma nth_set_eq l i x : (i < List.length l)%nat -> nth_error (set_nth l i x) i = Some x.
Proof. elim: l i => [|y l IH] [|i] //= H; try lia. apply: IH. lia. Qed.

Lemma nth_set_ne l i j x : i <> j -> nth_error (set_nth l i x) j = nth_error l j.
Proof. elim: l i j => [|y l IH] [|i] [|j] //= H. apply: IH. lia. Qed.

Lemma set_nth_length l i x : List.length (set_nth l i x) = List.length l.
Proof. elim: l i => [|y l IH] [|i] //=. by rewrite IH. Qed.

Lemma chain_set fl n i l k x : chain fl n i l -> ~ In k l -> chain (set_nth fl k x) n i l.
Proof.
  elim: l i => [|y l IH] i //= [-> [Hy [j [Hj Hc]]]] Hk. split=> //. split=> //. exists j. split.
  - rewrite nth_set_ne //. move=> E. apply: Hk. by left.
  - apply: IH => //. move=> Hin. apply: Hk. by right.
Qed.

Lemma chain_init n k : (k <= n)%nat -> chain (map Datatypes.S (seq 0 n)) n (n - k) (seq (n - k) k).
Proof.
  elim: k => [|k IH] Hk.
  - rewrite /=. lia.
  - cbn [seq chain]. split=> //. split; first lia. exists (Datatypes.S (n - Datatypes.S k)). split.
    + rewrite nth_error_map.
      have -> : nth_error (seq 0 n) (n - Datatypes.S k) = Some (n - Datatypes.S k)%nat; last by [].
      rewrite (nth_error_nth' _ 0%nat); first by rewrite seq_length; lia.
      rewrite seq_nth //. lia.
    + have E : Datatypes.S (n - Datatypes.S k) = (n - k)%nat by lia. rewrite E. apply: IH. lia.
Qed.

(** ** Addresses *)

Definition addr (pool block : N) (i : nat) : N := pool + block * N.of_nat i.

Section Inv.
Variables pool len block : N.
Hypothesis U : usable0 pool len block.

Lemma block_bound i : (i < N.to_nat (len / block))%nat -> block * N.of_nat i + block <= len.
Proof.
  move=> Hi. have [Hb _] := U.
  have H1 : N.of_nat i + 1 <= len / block by lia.
  have H2 : block * (len / block) <= len by apply: N.mul_div_le; lia.
  nia.
Qed.

Lemma addr_alloc i : (i < N.to_nat (len / block))%nat ->
  (pool + (block * N.of_nat i) mod two32) mod two64 = addr pool block i.
Proof.
  move=> Hi. have Hb := block_bound i Hi. have [H0 [H1 [H2 [H3 H4]]]] := U.
  rewrite (N.mod_small (block * N.of_nat i)); first lia. rewrite N.mod_small //. lia.
Qed.

Lemma addr_inj i j : addr pool block i = addr pool block j -> i = j.
Proof. have [H0 _] := U. rewrite /addr => H. have E : N.of_nat i = N.of_nat j by nia. lia. Qed.

Lemma addr_index fl hd i : (i < N.to_nat (len / block))%nat ->
  buffer_index (Vq pool block (N.to_nat (len / block)) fl hd) (addr pool block i) = Some i.
Proof.
  move=> Hi. have Hb := block_bound i Hi. have [H0 [H1 [H2 [H3 H4]]]] := U.
  rewrite /buffer_index /=.
  have E : (addr pool block i + two64 - pool) mod two64 = block * N.of_nat i.
  { have -> : addr pool block i + two64 - pool = block * N.of_nat i + 1 * two64 by rewrite /addr; lia.
    rewrite N.mod_add; first by rewrite /two64; lia. rewrite N.mod_small //.
    apply: (N.le_lt_trans _ len); [lia|]. rewrite /two32 in H2. rewrite /two64. lia. }
  rewrite E (N.mul_comm block) N.div_mul; first lia.
  have Hlt : N.of_nat i < two31 by lia.
  rewrite N.mod_small; first by apply: (N.lt_trans _ two31).
  rewrite (proj2 (N.ltb_lt _ _) Hlt). by rewrite Nat2N.id.
Qed.

(** ** The invariant: free and live buffer numbers together are all the numbers *)

Definition inv (a : vq) (lv : list N) : Prop :=
  exists fr li, vq_buffer a = pool /\ vq_block a = block /\ vq_size a = N.to_nat (len / block) /\
    List.length (vq_free a) = vq_size a /\
    chain (vq_free a) (vq_size a) (vq_head a) fr /\
    Permutation (fr ++ li) (seq 0 (vq_size a)) /\ lv = map (addr pool block) li.

Lemma inv_init : exists a, init_vq_allocator pool len block = Ok a /\ inv a [].
Proof.
  have [H0 [H1 _]] := U. rewrite /init_vq_allocator.
  have -> : (block =? 0) = false by apply/N.eqb_neq; lia.
  eexists. split; first reflexivity.
  exists (seq 0 (N.to_nat (len / block))), []. cbn [vq_buffer vq_block vq_size vq_free vq_head].
  do 2 (split; [rewrite ?N.mod_small //|]). split=> //. split; first by rewrite map_length seq_length.
  split; last by rewrite app_nil_r.
  have := chain_init (N.to_nat (len / block)) (N.to_nat (len / block)) (Nat.le_refl _).
  by rewrite Nat.sub_diag.
Qed.

Lemma map_remove li i : NoDup li -> In i li ->
  remove N.eq_dec (addr pool block i) (map (addr pool block) li) = map (addr pool block) (remove Nat.eq_dec i li).
Proof.
  move=> _ _. elim: li => [|x li IH] //=. case: N.eq_dec => E; case: Nat.eq_dec => E2; rewrite ?IH //.
  - by have := addr_inj _ _ E.
  - by rewrite E2 in E.
Qed.

Lemma remove_perm li i : NoDup li -> In i li -> Permutation li (i :: remove Nat.eq_dec i li).
Proof.
  elim: li => [|x li IH] //= Hnd Hin. inversion Hnd as [|? ? Hni Hnd']; subst.
  case: Nat.eq_dec => E.
  - subst. by rewrite notin_remove.
  - case: Hin => [E2|Hin]; first by rewrite E2 in E.
    apply: (perm_trans (l' := x :: i :: remove Nat.eq_dec i li)); last by constructor.
    constructor. by apply: IH.
Qed.

Lemma inv_bounds a fr li : Permutation (fr ++ li) (seq 0 (vq_size a)) ->
  NoDup (fr ++ li) /\ (forall i, In i (fr ++ li) -> (i < vq_size a)%nat).
Proof.
  move=> P. split.
  - apply: (Permutation_NoDup (Permutation_sym P)). by apply: seq_NoDup.
  - move=> i Hi. have := Permutation_in _ P Hi. rewrite in_seq. lia.
Qed.

Lemma nodup_app_r {A} (l1 l2 : list A) : NoDup (l1 ++ l2) -> NoDup l2.
Proof. elim: l1 => [|x l1 IH] //= H. inversion H; subst. by apply: IH. Qed.

Lemma nodup_app_disj {A} (l1 l2 : list A) x : NoDup (l1 ++ l2) -> In x l1 -> In x l2 -> False.
Proof.
  elim: l1 => [|y l1 IH] //= H Hx Hy. inversion H as [|? ? Hni Hnd]; subst.
  case: Hx => [E|Hx]; last by apply: IH.
  subst. apply: Hni. apply/in_or_app. by right.
Qed.

(** One allocation. *)
Lemma inv_alloc a lv z : inv a lv ->
  (exists a' i, buffer_alloc a z = Ok (a', Some (addr pool block i)) /\
     inv a' (addr pool block i :: lv) /\ z <= block /\ (i < N.to_nat (len / block))%nat /\
     ~ In (addr pool block i) lv /\ i = vq_head a) \/
  (buffer_alloc a z = Ok (a, None) /\
     (block < z \/ List.length lv = N.to_nat (len / block))).
Proof.
  move=> [fr [li [Ep [Eb [En [El [C [P Ev]]]]]]]]. have [Hnd Hlt] := inv_bounds _ _ _ P.
  rewrite /buffer_alloc Eb Ep. case: (N.ltb_spec block z) => Hz.
  { right. split=> //. by left. }
  case: Nat.eqb_spec => Eh.
  { right. split=> //. right.
    have Ef : fr = [].
    { case: fr C {P Hnd Hlt} => [|x fr] //= [E1 [H1 _]]. rewrite -E1 Eh in H1. lia. }
    subst fr. rewrite Ev map_length -(seq_length (N.to_nat (len / block)) 0) -En. by apply: Permutation_length. }
  left. case: fr C P Hnd Hlt => [|x fr] C P Hnd Hlt; first by rewrite /= in C.
  move: C => [Ex [Hx [j [Hj C]]]]. rewrite Ex Hj.
  eexists; exists x. rewrite addr_alloc; first by rewrite -En.
  split; first reflexivity.
  have Hxl : ~ In x li.
  { move=> Hin. apply: (nodup_app_disj _ _ x Hnd) => //. by left. }
  split; last first.
  { split=> //. split; first by rewrite -En. split=> //. rewrite Ev => /in_map_iff [y [/addr_inj -> Hy]]. by apply: Hxl. }
  exists fr, (x :: li). do 5 (split; [done|]). split; last by rewrite Ev.
  apply: perm_trans P. rewrite /=. apply: Permutation_sym. apply: Permutation_middle.
Qed.

(** One free of a live buffer. *)
Lemma inv_free a lv p : inv a lv -> In p lv ->
  inv (buffer_free a p) (remove N.eq_dec p lv) /\
  exists i, p = addr pool block i /\ vq_head (buffer_free a p) = i /\ (i < N.to_nat (len / block))%nat.
Proof.
  move=> [fr [li [Ep [Eb [En [El [C [P Ev]]]]]]]] Hp. have [Hnd Hlt] := inv_bounds _ _ _ P.
  rewrite Ev in Hp. apply in_map_iff in Hp. move: Hp => [i [Ei Hi]].
  have Hb : (i < N.to_nat (len / block))%nat by rewrite -En; apply: Hlt; apply/in_or_app; right.
  have EI : buffer_free a p = Vq pool block (vq_size a) (set_nth (vq_free a) i (vq_head a)) i.
  { rewrite /buffer_free. have -> : a = Vq pool block (N.to_nat (len / block)) (vq_free a) (vq_head a).
    { clear -Ep Eb En. case: a Ep Eb En => b k n f h /= -> -> -> //. }
    rewrite -Ei addr_index //. cbn [vq_size vq_buffer vq_block vq_free vq_head].
    by rewrite (proj2 (Nat.leb_gt _ _) Hb). }
  rewrite EI. split; last by exists i.
  have Hnl := nodup_app_r _ _ Hnd.
  exists (i :: fr), (remove Nat.eq_dec i li). cbn [vq_buffer vq_block vq_size vq_free vq_head].
  do 3 (split; [done|]). split; first by rewrite set_nth_length. split; last split.
  - split=> //. split; first by rewrite En. exists (vq_head a). split.
    + apply: nth_set_eq. by rewrite El En.
    + apply: chain_set => // Hin. by apply: (nodup_app_disj _ _ i Hnd).
  - apply: perm_trans P. rewrite /=.
    apply: (perm_trans (l' := fr ++ i :: remove Nat.eq_dec i li)); first by apply: Permutation_middle.
    apply: Permutation_app_head. apply: Permutation_sym. by apply: remove_perm.
  - by rewrite Ev -Ei map_remove.
Qed.

Lemma run_inv a0 l a h : inv a0 [] -> run a0 l = Ok (a, h) -> disciplined h -> inv a (live h).
Proof.
  move=> I0. elim/rev_ind: l a h => [|o l IH] a h; first by move=> [<- <-].
  move=> /run_snoc [s0 [h0 [r [R [S ->]]]]] D.
  have I := IH _ _ R (disciplined_app _ _ D). rewrite live_snoc. case: o S D => [z|p] /= S D.
  - move: S. case: (inv_alloc _ _ z I) => [[a' [i [-> [I' _]]]]|[-> _]] /= [? ?]; by subst.
  - move: S => [<- _]. have [] // := inv_free _ _ p I. apply: (D h0 p r []). by [].
Qed.

(** Calls of a disciplined user never go wrong. *)
Lemma run_total a0 l a h : inv a0 [] -> run a0 l = Ok (a, h) -> disciplined h ->
  forall o, exists a' r, run a0 (l ++ [o]) = Ok (a', h ++ [(o, r)]).
Proof.
  move=> I0 R D o. have I := run_inv _ _ _ _ I0 R D. rewrite run_app R /=.
  case: o => [z|p] /=; last by do 2 eexists.
  case: (inv_alloc _ _ z I) => [[a' [i [-> _]]]|[-> _]] /=; by do 2 eexists.
Qed.

Lemma alloc_at a0 l a h h1 z p h2 : inv a0 [] -> run a0 l = Ok (a, h) -> disciplined h ->
  h = h1 ++ (OAlloc z, RBuf p) :: h2 ->
  exists a1, run a0 (map fst h1) = Ok (a1, h1) /\ inv a1 (live h1) /\
    exists a2, buffer_alloc a1 z = Ok (a2, p).
Proof.
  move=> I0 R D E.
  have E' : h = (h1 ++ [(OAlloc z, RBuf p)]) ++ h2 by rewrite -app_assoc.
  have [s1] := run_prefix _ _ _ _ _ _ R E'. rewrite map_app => R1.
  have [s0 [h0 [r [R0 [S E0]]]]] := run_snoc _ _ _ _ _ R1.
  apply app_inj_tail in E0. move: E0 => [E1 [E2]]. subst r. subst h0.
  have D1 : disciplined h1 by apply: (disciplined_app _ ((OAlloc z, RBuf p) :: h2)); rewrite -E.
  have I := run_inv _ _ _ _ I0 R0 D1. exists s0. do 2 (split; [done|]).
  move: S => /=. case: (buffer_alloc s0 z) => [[a2 q]|e] //= [_ <-]. by exists a2.
Qed.

Lemma live_addr a lv q : inv a lv -> In q lv -> exists i, q = addr pool block i /\ (i < N.to_nat (len / block))%nat.
Proof.
  move=> [fr [li [Ep [Eb [En [El [C [P Ev]]]]]]]] Hq. have [Hnd Hlt] := inv_bounds _ _ _ P.
  rewrite Ev in Hq. apply in_map_iff in Hq. move: Hq => [i [Ei Hi]]. exists i. split=> //.
  rewrite -En. apply: Hlt. apply/in_or_app. by right.
Qed.

Lemma live_length a lv : inv a lv -> NoDup lv /\ (List.length lv <= N.to_nat (len / block))%nat.
Proof.
  move=> [fr [li [Ep [Eb [En [El [C [P Ev]]]]]]]]. have [Hnd Hlt] := inv_bounds _ _ _ P.
  rewrite Ev map_length. split.
  - apply: FinFun.Injective_map_NoDup; first by move=> x y /addr_inj.
    by apply: nodup_app_r Hnd.
  - have := Permutation_length P. rewrite app_length seq_length. lia.
Qed.

Lemma disjoint_addr i j : i <> j -> disjoint block (addr pool block i) (addr pool block j).
Proof. move=> H. rewrite /disjoint /addr. nia. Qed.

End Inv.

Section Main.
Variables pool len block : N.
Hypothesis U : usable0 pool len block.

Lemma start_inv a0 : init_vq_allocator pool len block = Ok a0 -> inv pool len block a0 [].
Proof. move=> H. have [a [Ha I]] := inv_init pool len block U. rewrite H in Ha. by case: Ha => ->. Qed.

(** A buffer handed out lies in the pool and overlaps no live buffer. *)
Lemma alloc_fresh a0 l a h h1 z p h2 :
  init_vq_allocator pool len block = Ok a0 -> run a0 l = Ok (a, h) -> disciplined h ->
  h = h1 ++ (OAlloc z, RBuf (Some p)) :: h2 ->
  z <= block /\ pool <= p /\ p + block <= pool + len /\
  (forall q, In q (live h1) -> disjoint block p q).
Proof.
  move=> H0 R D E. have [a1 [R1 [I [a2 S]]]] := alloc_at _ _ _ U _ _ _ _ _ _ _ _ (start_inv _ H0) R D E.
  case: (inv_alloc _ _ _ U _ _ z I) => [[a' [i [Ea [I' [Hz [Hi [Hn _]]]]]]]|[Ea _]]; last by rewrite Ea in S.
  rewrite Ea in S. move: S => [_ Ep]. subst p.
  have Hb := block_bound _ _ _ U i Hi. split=> //. rewrite {1 2}/addr. split; first lia. split; first lia.
  move=> q Hq. have [j [Eq Hj]] := live_addr _ _ _ _ _ _ I Hq. subst q. apply: disjoint_addr => // E2. subst j. by [].
Qed.

(** An allocation fails exactly when too much is asked for or all buffers are live. *)
Lemma alloc_fails_iff a0 l a h h1 z p h2 :
  init_vq_allocator pool len block = Ok a0 -> run a0 l = Ok (a, h) -> disciplined h ->
  h = h1 ++ (OAlloc z, RBuf p) :: h2 ->
  (p = None <-> block < z \/ List.length (live h1) = N.to_nat (len / block)).
Proof.
  move=> H0 R D E. have [a1 [R1 [I [a2 S]]]] := alloc_at _ _ _ U _ _ _ _ _ _ _ _ (start_inv _ H0) R D E.
  case: (inv_alloc _ _ _ U _ _ z I) => [[a' [i [Ea [I' [Hz [Hi [Hn _]]]]]]]|[Ea Hc]].
  - rewrite Ea in S. move: S => [_ Ep]. subst p. split=> // [[Hb|Hf]]; first lia.
    have [_] := live_length _ _ _ U _ _ I'. rewrite /=. lia.
  - rewrite Ea in S. move: S => [_ Ep]. by subst p.
Qed.

(** No call of a disciplined user reads outside the free list. *)
Lemma never_stuck a0 l a h o :
  init_vq_allocator pool len block = Ok a0 -> run a0 l = Ok (a, h) -> disciplined h ->
  exists a' r, run a0 (l ++ [o]) = Ok (a', h ++ [(o, r)]).
Proof. move=> H0 R D. by apply: (run_total _ _ _ U _ _ _ _ (start_inv _ H0) R D). Qed.

(** A freed buffer is the next one handed out. *)
Lemma freed_next a0 l a h p z :
  init_vq_allocator pool len block = Ok a0 -> run a0 l = Ok (a, h) -> disciplined h ->
  In p (live h) -> z <= block ->
  exists a', run a0 (l ++ [OFree p; OAlloc z]) =
    Ok (a', h ++ [(OFree p, RVoid); (OAlloc z, RBuf (Some p))]).
Proof.
  move=> H0 R D Hp Hz. have I := run_inv _ _ _ U _ _ _ _ (start_inv _ H0) R D.
  have [I1 [i [Ei [Eh Hi]]]] := inv_free _ _ _ U _ _ _ I Hp.
  rewrite run_app R /=.
  case: (inv_alloc _ _ _ U _ _ z I1) => [[a' [j [-> [I' [_ [_ [_ Ej]]]]]]]|[_ [Hb|Hf]]].
  - exists a'. by rewrite /= Ej Eh -Ei.
  - lia.
  - exfalso. have [Hnd HL] := live_length _ _ _ U _ _ I. clear -Hf Hnd Hp HL.
    have L : (List.length (remove N.eq_dec p (live h)) < List.length (live h))%nat by apply: remove_length_lt.
    lia.
Qed.
End Main.

(** Setting up a driver: the pool is the shared buffer minus the rings. *)
Lemma driver_init_pool z buffer qlen bs block :
  rings_len z qlen <= bs -> bs < two32 -> buffer + bs < two64 -> 0 < block -> block < two32 ->
  (bs - rings_len z qlen) / block <= two31 ->
  driver_init z buffer qlen bs block =
    init_vq_allocator (buffer + rings_len z qlen) (bs - rings_len z qlen) block /\
  usable0 (buffer + rings_len z qlen) (bs - rings_len z qlen) block.
Proof.
  move=> H1 H2 H3 H4 H5 H6. rewrite /driver_init.
  have E1 : (buffer + rings_len z qlen) mod two64 = buffer + rings_len z qlen by apply: N.mod_small; lia.
  have E2 : rings_len z qlen mod two64 = rings_len z qlen.
  { apply: N.mod_small. apply: (N.lt_trans _ two32); [lia|]. by []. }
  have E3 : bs + two64 - rings_len z qlen = (bs - rings_len z qlen) + 1 * two64 by lia.
  have E4 : (bs - rings_len z qlen) < two64 by apply: (N.lt_trans _ two32); [lia|].
  rewrite E1 E2 E3 N.mod_add; first by []. rewrite (N.mod_small _ two64) // (N.mod_small _ two32); first lia.
  split=> //. rewrite /usable0. do 2 (split; [done|]). split; [lia|]. split; [lia|done].
Qed.

(** A shared buffer smaller than the rings: buffers beyond its end are handed out. *)
Lemma small_buffer : exists z buffer qlen bs block a0 p a1,
  driver_init z buffer qlen bs block = Ok a0 /\ rings_len z qlen > bs /\
  buffer_alloc a0 block = Ok (a1, Some p) /\ p > buffer + bs.
Proof.
  exists (Sizes 4 4 8 16), 65536, 4, 100, two31.
  do 3 eexists. split; [vm_compute; reflexivity|]. split; [vm_compute; reflexivity|].
  split; [vm_compute; reflexivity|vm_compute; reflexivity].
Qed.

(** Freeing twice: two live buffers are the same. *)
Lemma double_free : exists a0 l a h p,
  init_vq_allocator 4096 256 128 = Ok a0 /\ run a0 l = Ok (a, h) /\
  h = [(OAlloc 1, RBuf (Some p)); (OFree p, RVoid); (OFree p, RVoid);
       (OAlloc 1, RBuf (Some p)); (OAlloc 1, RBuf (Some p))].
Proof.
  eexists. exists [OAlloc 1; OFree 4096; OFree 4096; OAlloc 1; OAlloc 1]. do 2 eexists. exists 4096.
  split; [vm_compute; reflexivity|]. split; [vm_compute; reflexivity|]. reflexivity.
Qed.

Lemma ringsE z qlen : rings_len z qlen = rings z qlen.
Proof. rewrite /rings_len /rings. lia. Qed.
Lemma driver_pool z buffer qlen bs block :
  rings z qlen <= bs -> bs < 2 ^ 32 -> buffer + bs < 2 ^ 64 -> 0 < block -> block < 2 ^ 32 ->
  (bs - rings z qlen) / block <= 2 ^ 31 ->
  driver_init z buffer qlen bs block =
    init_vq_allocator (buffer + rings z qlen) (bs - rings z qlen) block /\
  usable (buffer + rings z qlen) (bs - rings z qlen) block.
Proof. rewrite -ringsE. exact: driver_init_pool. Qed.
Lemma small_pool : exists z buffer qlen bs block a0 p a1,
  driver_init z buffer qlen bs block = Ok a0 /\ rings z qlen > bs /\
  buffer_alloc a0 block = Ok (a1, Some p) /\ p > buffer + bs.
Proof.
  have [z [b [q [bs [k [a0 [p [a1 H]]]]]]]] := small_buffer.
  exists z, b, q, bs, k, a0, p, a1. by rewrite -ringsE.
Qed.
