(** Proofs about the DMA allocator: free lists, allocation. *)
From Coq Require Import ZArith List Bool Lia ssreflect ssrbool.
From Verif Require Import Prelude Dma_Model Dma_Spec.
Import ListNotations.
Open Scope Z_scope.

(** * Counting *)

Definition ind (b : bool) : nat := if b then 1%nat else 0%nat.

Lemma cover_cons r l b : cover (r :: l) b = (ind (covers r b) + cover l b)%nat.
Proof. unfold cover. cbn [filter]. case: (covers r b); reflexivity. Qed.
Lemma cover_app l l' b : cover (l ++ l') b = (cover l b + cover l' b)%nat.
Proof. by rewrite /cover filter_app app_length. Qed.
Lemma cover_flag_cons c r l b : cover_flag c (r :: l) b = (ind (covers r b && Bool.eqb (flag r) c) + cover_flag c l b)%nat.
Proof. unfold cover_flag. cbn [filter]. case: (covers r b && _); reflexivity. Qed.
Lemma cover_flag_app c l l' b : cover_flag c (l ++ l') b = (cover_flag c l b + cover_flag c l' b)%nat.
Proof. by rewrite /cover_flag filter_app app_length. Qed.
Lemma cover_flags l b : cover l b = (cover_flag true l b + cover_flag false l b)%nat.
Proof.
  elim: l => [//|r l IH]. rewrite cover_cons !cover_flag_cons IH.
  case: (covers r b) => /=; case: (flag r) => /=; lia.
Qed.

Lemma coversP a n c b : covers (a, n, c) b = true <-> a <= b < a + n.
Proof. rewrite /covers andb_true_iff Z.leb_le Z.ltb_lt. tauto. Qed.
Lemma covers_false a n c b : covers (a, n, c) b = false <-> ~ (a <= b < a + n).
Proof. rewrite -(coversP a n c b). case: (covers _ _); intuition congruence. Qed.
Lemma covers_flag a n c c' b : covers (a, n, c) b = covers (a, n, c') b.
Proof. done. Qed.
Lemma covers_split a n n' c c' c'' b : 0 <= n -> 0 <= n' ->
  ind (covers (a, n + n', c) b) = (ind (covers (a, n, c') b) + ind (covers ((a + n)%Z, n', c'') b))%nat.
Proof.
  move=> Hn Hn'. rewrite /covers.
  case: (Z.leb_spec a b); case: (Z.ltb_spec b (a + (n + n'))); case: (Z.ltb_spec b (a + n));
  case: (Z.leb_spec (a + n) b); case: (Z.ltb_spec b (a + n + n')) => /=; lia.
Qed.
Lemma cover_in r l b : In r l -> covers r b = true -> (1 <= cover l b)%nat.
Proof.
  elim: l => [//|x l IH] /= [->|H] C; rewrite cover_cons.
  - rewrite C /=. lia.
  - have := IH H C. lia.
Qed.
Lemma cover_ge1 l b : (1 <= cover l b)%nat -> exists r, In r l /\ covers r b = true.
Proof.
  elim: l => [|x l IH]; first by rewrite /cover /=; lia.
  rewrite cover_cons. case C: (covers x b).
  - move=> _. exists x. split=> //. by left.
  - move=> /= H. have [r [Hr C']] := IH H. exists r. split=> //. by right.
Qed.

Lemma cover_flag_ge1 c l b : (1 <= cover_flag c l b)%nat -> exists r, In r l /\ covers r b = true /\ flag r = c.
Proof.
  elim: l => [|x l IH]; first by rewrite /cover_flag /=; lia.
  rewrite cover_flag_cons. case C: (covers x b && Bool.eqb (flag x) c).
  - move=> _. move/andP: C => [C1 /eqb_prop C2]. exists x. split=> //. by left.
  - move=> /= H. have [r [Hr C']] := IH H. exists r. split=> //. by right.
Qed.
Lemma cover_flag_in c r l b : In r l -> covers r b = true -> flag r = c -> (1 <= cover_flag c l b)%nat.
Proof.
  elim: l => [//|x l IH] /= [->|H] C F; rewrite cover_flag_cons.
  - rewrite C F Bool.eqb_reflx /=. lia.
  - have := IH H C F. lia.
Qed.

(** * Chains *)

Definition pcs (m : Z -> node) (l : list Z) : list piece := map (piece_at m) l.

Lemma pcs_app m l l' : pcs m (l ++ l') = pcs m l ++ pcs m l'.
Proof. exact: map_app. Qed.
Lemma pcs_cons m x l : pcs m (x :: l) = (x, nsize (m x), ncached (m x)) :: pcs m l.
Proof. done. Qed.
Lemma pcs_ext m m' l : (forall x, In x l -> nsize (m' x) = nsize (m x) /\ ncached (m' x) = ncached (m x)) -> pcs m' l = pcs m l.
Proof.
  elim: l => [//|x l IH] H. rewrite !pcs_cons. have [-> ->] := H x (or_introl eq_refl).
  rewrite IH // => y Hy. apply: H. by right.
Qed.

Lemma chain_ext m m' l : forall a, (forall x, In x l -> nnext (m' x) = nnext (m x)) -> chain m a l -> chain m' a l.
Proof.
  elim: l => [//|x l IH] a H /= [-> [Hx C]]. split=> //. split=> //.
  rewrite H; first by left. apply: IH => // y Hy. apply: H. by right.
Qed.
Lemma chain_nonzero m l : forall a, chain m a l -> forall x, In x l -> x <> 0.
Proof. elim: l => [//|x l IH] a /= [_ [Hx C]] y [<-//|H]. exact: IH C y H. Qed.
Lemma chain_fun m l : forall a l', chain m a l -> chain m a l' -> l = l'.
Proof.
  elim: l => [|x l IH] a [|y l'] //=.
  - move=> -> [H [Hy _]]. congruence.
  - move=> [-> [Hx _]] H. congruence.
  - move=> [-> [Hx C]] [E [Hy C']]. subst y. f_equal. exact: IH C C'.
Qed.
(** A chain is a segment followed by a chain. *)
Fixpoint seg (m : Z -> node) (a : Z) (l : list Z) (z : Z) : Prop :=
  match l with
  | [] => a = z
  | x :: l => a = x /\ x <> 0 /\ seg m (nnext (m x)) l z
  end.
Lemma chain_app m l l' : forall a, chain m a (l ++ l') <-> exists z, seg m a l z /\ chain m z l'.
Proof.
  elim: l => [|x l IH] a /=.
  - split=> [H|[z [-> H]]] //. by exists a.
  - rewrite IH. split.
    + move=> [-> [Hx [z [H1 H2]]]]. by exists z.
    + move=> [z [[-> [Hx H1]] H2]]. split=> //. split=> //. by exists z.
Qed.
Lemma seg_ext m m' l z : forall a, (forall x, In x l -> nnext (m' x) = nnext (m x)) -> seg m a l z -> seg m' a l z.
Proof.
  elim: l => [//|x l IH] a H /= [-> [Hx C]]. split=> //. split=> //.
  rewrite H; first by left. apply: IH => // y Hy. apply: H. by right.
Qed.
(** Redirecting the last link of a segment. *)
Lemma seg_redirect m m' l z z' : forall a, l <> [] -> NoDup l -> seg m a l z ->
  (forall x, In x l -> x <> last l 0 -> nnext (m' x) = nnext (m x)) -> nnext (m' (last l 0)) = z' -> seg m' a l z'.
Proof.
  elim: l => [//|x l IH] a _ ND /= [-> [Hx C]] H1 H2. split=> //. split=> //.
  move/NoDup_cons_iff: ND => [N ND].
  destruct l as [|y l].
  - move: H2 => /= <-. done.
  - have -> : nnext (m' x) = nnext (m x).
    { apply: H1; first by left. move=> Ex. apply: N. rewrite {1}Ex.
      have : y :: l <> [] by []. move: (y :: l) => k Hk.
      have := @exists_last _ k Hk. move=> [k' [e ->]]. rewrite last_last. apply/in_or_app. right. by left. }
    apply: IH => //. move=> w Hw Hl. apply: H1 => //. by right.
Qed.
Lemma last_In {X} (l : list X) d : l <> [] -> In (last l d) l.
Proof. move=> H. have [k [e ->]] := exists_last H. rewrite last_last. apply/in_or_app. right. by left. Qed.

(** * Nodes *)

Section arch.
Variable A : arch.
Variable E : env.
Hypothesis HA : arch_ok A.

Definition good (b : Z) : Prop := 4096 <= phys E b /\ phys E b mod 4096 = b mod 4096 /\ fcached E b <> None.

Definition wfn (n : node) (x : Z) : Prop :=
  0 < x /\ (AL A | x) /\ (AL A | nsize n) /\ SZ A <= nsize n /\
  (nupper n = 0 \/ nupper n = Z.shiftr (phys E x) 12) /\ contiguous E x (nsize n) /\
  (forall b, x <= b < x + nsize n -> good b).

Definition FL (s : st) (l : list Z) : Prop :=
  chain (mem s) (head s) l /\ (forall x, In x l -> wfn (mem s x) x) /\ (forall b, (cover (pcs (mem s) l) b <= 1)%nat).

Lemma wfn_covers m x : wfn (m x) x -> covers (piece_at m x) x = true.
Proof. move: HA => [H1 [H2 _]] [Hx [_ [_ [Hs _]]]]. apply/coversP. lia. Qed.

Lemma FL_nodup s l : FL s l -> NoDup l.
Proof.
  move=> [_ [W C]]. move: W C. elim: l => [|x l IH] W C; first by constructor.
  constructor.
  - move=> H. have := C x. rewrite pcs_cons cover_cons.
    have Hc := wfn_covers (mem s) x (W x (or_introl eq_refl)).
    rewrite -/(piece_at (mem s) x) Hc /=. have := cover_in (piece_at (mem s) x) (pcs (mem s) l) x (in_map _ _ _ H) Hc. lia.
  - apply: IH; first by move=> y Hy; apply: W; right.
    move=> b. have := C b. rewrite pcs_cons cover_cons. lia.
Qed.
Lemma cover_two m l x y b : In x l -> In y l -> x <> y -> covers (piece_at m x) b = true -> covers (piece_at m y) b = true ->
  (2 <= cover (pcs m l) b)%nat.
Proof.
  elim: l => [//|z l IH] Hx Hy N Cx Cy. rewrite pcs_cons cover_cons.
  case: Hx Hy => [Ex|Hx] [Ey|Hy].
  - congruence.
  - subst z. rewrite -/(piece_at m x) Cx /=. have := cover_in _ _ _ (in_map (piece_at m) _ _ Hy) Cy. rewrite -/(pcs m l). lia.
  - subst z. rewrite -/(piece_at m y) Cy /=. have := cover_in _ _ _ (in_map (piece_at m) _ _ Hx) Cx. rewrite -/(pcs m l). lia.
  - have := IH Hx Hy N Cx Cy. lia.
Qed.
(** Two nodes sharing a byte are the same. *)
Lemma FL_sep s l x y b : FL s l -> In x l -> In y l ->
  x <= b < x + nsize (mem s x) -> y <= b < y + nsize (mem s y) -> x = y.
Proof.
  move=> [_ [_ C]] Hx Hy Bx By. case: (Z.eq_dec x y) => // N. exfalso.
  have Cx : covers (piece_at (mem s) x) b = true by apply/coversP.
  have Cy : covers (piece_at (mem s) y) b = true by apply/coversP.
  have := cover_two (mem s) l x y b Hx Hy N Cx Cy. have := C b. lia.
Qed.
Lemma FL_node s l x y : FL s l -> In x l -> In y l -> x <= y < x + nsize (mem s x) -> x = y.
Proof.
  move=> F Hx Hy B. apply: (FL_sep s l x y y F Hx Hy B).
  move: (F) => [_ [W _]]. have [_ [_ [_ [Hs _]]]] := W y Hy. move: HA => [_ [H _]]. lia.
Qed.

(** ** Physical addresses *)

Lemma paddr_join u x : 0 <= u -> u mod 4096 = x mod 4096 -> Z.lor (Z.shiftl (Z.shiftr u 12) 12) (Z.land x (Z.ones 12)) = u.
Proof.
  move=> Hu Hm.
  have E1 : Z.land x (Z.ones 12) = Z.land u (Z.ones 12).
  { rewrite !Z.land_ones; try lia. change (2 ^ 12) with 4096. by rewrite Hm. }
  rewrite E1. apply: Z.bits_inj' => n Hn.
  rewrite Z.lor_spec Z.land_spec Z.testbit_ones_nonneg; try lia.
  case: (Z.ltb_spec n 12) => H.
  - rewrite Z.shiftl_spec_low; [lia|]. by rewrite andb_true_r.
  - rewrite Z.shiftl_spec_high; [lia|lia|]. rewrite Z.shiftr_spec; [lia|]. rewrite andb_false_r orb_false_r. f_equal. lia.
Qed.
Lemma shiftr_pos u : 4096 <= u -> Z.shiftr u 12 <> 0.
Proof.
  move=> H. rewrite Z.shiftr_div_pow2; [lia|]. change (2 ^ 12) with 4096.
  have := Z.div_le_mono 4096 u 4096 ltac:(lia) H. rewrite Z.div_same; lia.
Qed.
Lemma good_x n x : wfn n x -> good x.
Proof. move: HA => [_ [H _]] [_ [_ [_ [Hs [_ [_ G]]]]]]. apply: G. lia. Qed.

Lemma try_extract_wfn s x : wfn (mem s x) x -> try_extract_paddr s x = (if nupper (mem s x) =? 0 then 0 else phys E x).
Proof.
  move=> W. rewrite /try_extract_paddr. case: (Z.eqb_spec (nupper (mem s x)) 0) => [-> //|N].
  move: (W) => [_ [_ [_ [_ [[?|->] _]]]]] //. have [G1 [G2 _]] := good_x _ _ W. apply: paddr_join; lia.
Qed.

(** States that differ in remembered physical addresses only. *)
Definition sim (s s' : st) : Prop :=
  head s' = head s /\ forall x, ncached (mem s' x) = ncached (mem s x) /\ nsize (mem s' x) = nsize (mem s x) /\
    nnext (mem s' x) = nnext (mem s x) /\ (nupper (mem s' x) = nupper (mem s x) \/ nupper (mem s' x) = Z.shiftr (phys E x) 12).
Lemma sim_refl s : sim s s.
Proof. split=> // x. tauto. Qed.
Lemma sim_trans s1 s2 s3 : sim s1 s2 -> sim s2 s3 -> sim s1 s3.
Proof.
  move=> [H1 H2] [H3 H4]. split; first congruence. move=> x.
  have [E1 [E2 [E3 E4]]] := H2 x. have [F1 [F2 [F3 F4]]] := H4 x.
  rewrite F1 F2 F3. do 3 (split; first done). case: F4 => ->; tauto.
Qed.
Lemma sim_wfn s s' x : sim s s' -> wfn (mem s x) x -> wfn (mem s' x) x.
Proof.
  move=> [_ H]. have [E1 [E2 [E3 E4]]] := H x. rewrite /wfn E2 => [[? [? [? [? [U ?]]]]]].
  do 4 (split; first done). split; last done. case: E4 => ->; tauto.
Qed.
Lemma sim_pcs s s' l : sim s s' -> pcs (mem s') l = pcs (mem s) l.
Proof. move=> [_ H]. apply: pcs_ext => x _. have [-> [-> _]] := H x. done. Qed.
Lemma sim_FL s s' l : sim s s' -> FL s l -> FL s' l.
Proof.
  move=> S [C [W V]]. split; [|split].
  - move: (S) => [-> H]. apply: chain_ext C => x _. by have [_ [_ [-> _]]] := H x.
  - move=> x Hx. apply: sim_wfn S _. exact: W.
  - by rewrite (sim_pcs s s').
Qed.

Lemma save_paddr_sim s x : sim s (save_paddr s x (phys E x)).
Proof.
  split=> // y. rewrite /save_paddr /set_upper /set_mem /write /=. case: (Z.eqb_spec y x) => [->|_] /=; tauto.
Qed.
Lemma extract_ok s x : wfn (mem s x) x -> exists s', extract_paddr E s x = Ok (s', phys E x) /\ sim s s'.
Proof.
  move=> W. have [G1 [G2 _]] := good_x _ _ W.
  have NZ : phys E x =? 0 = false by apply/Z.eqb_neq; lia.
  rewrite /extract_paddr (try_extract_wfn s x W).
  case U: (nupper (mem s x) =? 0) => /=.
  - rewrite NZ /=. have W' := sim_wfn _ _ x (save_paddr_sim s x) W.
    rewrite (try_extract_wfn _ x W'). 
    have -> : nupper (mem (save_paddr s x (phys E x)) x) =? 0 = false.
    { rewrite /save_paddr /set_upper /set_mem /write /= Z.eqb_refl /=. apply/Z.eqb_neq. exact: shiftr_pos. }
    rewrite NZ /=. eexists. split; first done. exact: save_paddr_sim.
  - rewrite NZ. exists s. split=> //. exact: sim_refl.
Qed.

(** * Allocation *)

Lemma find_place_spec size align p p_end : 0 < align -> 0 < SZ A -> forall fuel q, q - p < Z.of_nat fuel * align ->
  exists r, find_place A (S fuel) size align p p_end q = Ok r /\
    (forall q', r = Some q' -> q' <= q /\ (align | q - q') /\ (q' = p \/ p + SZ A <= q') /\
       (p_end - (q' + size) = 0 \/ SZ A <= p_end - (q' + size))).
Proof.
  move=> Ha HS. elim=> [|fuel IH] q H.
  - cbn [find_place]. case: (Z.eqb_spec q p) => [?|_]; first lia. case: (Z.leb_spec (p + SZ A) q) => [?|_]; first lia.
    cbn [orb]. by exists None.
  - have {}IH := IH (q - align) ltac:(lia).
    cbn [find_place] in IH |- *.
    case C: ((q =? p) || (p + SZ A <=? q)); last by exists None.
    case D: (negb (p_end - (q + size) =? 0) && (p_end - (q + size) <? SZ A)).
    + move: IH => [r [-> IH]]. exists r. split=> // q' Eq. have [H1 [H2 H3]] := IH q' Eq. split; first lia. split=> //.
      have -> : q - q' = (q - align - q') + align by lia. apply: Z.divide_add_r => //. exact: Z.divide_refl.
    + exists (Some q). split=> // q' [<-]. split; first lia. split; first by rewrite Z.sub_diag; exact: Z.divide_0_r.
      split.
      * move/orP: C => [/Z.eqb_eq ?|/Z.leb_le ?]; tauto.
      * move/andb_false_iff: D => [/negbFE /Z.eqb_eq ?|/Z.ltb_ge ?]; tauto.
Qed.

Lemma mem_set_mem s a n x : mem (set_mem s a n) x = if x =? a then n else mem s x.
Proof. done. Qed.
Lemma mem_set_size s a z x : mem (set_size s a z) x =
  if x =? a then mk_node (ncached (mem s a)) z (nnext (mem s a)) (nupper (mem s a)) else mem s x.
Proof. done. Qed.
Lemma mem_set_next s a z x : mem (set_next s a z) x =
  if x =? a then mk_node (ncached (mem s a)) (nsize (mem s a)) z (nupper (mem s a)) else mem s x.
Proof. done. Qed.
Lemma mem_set_upper s a z x : mem (set_upper s a z) x =
  if x =? a then mk_node (ncached (mem s a)) (nsize (mem s a)) (nnext (mem s a)) z else mem s x.
Proof. done. Qed.
Lemma remove_fields s pr n x : ncached (mem (remove_node s pr n) x) = ncached (mem s x) /\
  nsize (mem (remove_node s pr n) x) = nsize (mem s x) /\ nupper (mem (remove_node s pr n) x) = nupper (mem s x) /\
  (x <> pr -> nnext (mem (remove_node s pr n) x) = nnext (mem s x)).
Proof.
  rewrite /remove_node. case: (pr =? 0) => //. rewrite mem_set_next. by case: (Z.eqb_spec x pr) => [->|_].
Qed.

Lemma seg_last m l z a : seg m a l z -> l <> [] -> nnext (m (last l 0)) = z.
Proof.
  elim: l a => [//|x l IH] a /= [_ [Hx C]] _. destruct l as [|y l]; first by move: C.
  apply: IH C _. done.
Qed.

Lemma NoDup_app_l {X} (a b : list X) : NoDup (a ++ b) -> NoDup a.
Proof.
  elim: a => [|x a IH] /=; first by constructor. move=> /NoDup_cons_iff [H1 H2]. constructor; last exact: IH.
  move=> H. apply: H1. apply/in_or_app. by left.
Qed.
Lemma NoDup_app_disj {X} (a b : list X) x : NoDup (a ++ b) -> In x a -> In x b -> False.
Proof.
  elim: a => [//|y a IH] /= /NoDup_cons_iff [H1 H2] [E1|H] Hb.
  - apply: H1. apply/in_or_app. right. by rewrite E1.
  - exact: IH.
Qed.

(** Removing a node. *)
Lemma remove_chain s a p b : NoDup (a ++ p :: b) -> chain (mem s) (head s) (a ++ p :: b) ->
  chain (mem (remove_node s (last a 0) p)) (head (remove_node s (last a 0) p)) (a ++ b).
Proof.
  move=> ND C. have NZ := chain_nonzero _ _ _ C.
  move/chain_app: C => [z [C1 [Ez [Hp C2]]]]. subst z.
  destruct (list_eq_dec Z.eq_dec a []) as [->|Na].
  - move: C1 => /= E1. rewrite /remove_node /=. done.
  - have NL : last a 0 <> 0 by apply: NZ; apply/in_or_app; left; exact: last_In.
    rewrite /remove_node. have -> : last a 0 =? 0 = false by apply/Z.eqb_neq. cbn [head set_next set_mem].
    have ND1 : NoDup a by exact: NoDup_app_l ND.
    have NI : forall x, In x (p :: b) -> x <> last a 0.
    { move=> x Hx Ex. subst x. exact: (NoDup_app_disj _ _ _ ND (last_In a 0 Na) Hx). }
    apply/chain_app. exists (nnext (mem s p)). split.
    + apply: (seg_redirect (mem s) _ a p) => //.
      * move=> x Hx Nx. rewrite mem_set_next. by have -> : x =? last a 0 = false by apply/Z.eqb_neq.
      * by rewrite mem_set_next Z.eqb_refl.
    + apply: chain_ext C2 => x Hx. rewrite mem_set_next.
      by have -> : x =? last a 0 = false by apply/Z.eqb_neq; apply: NI; right.
Qed.

Lemma NoDup_mid {X} (a b : list X) p : NoDup (a ++ p :: b) -> NoDup (a ++ b) /\ ~ In p (a ++ b).
Proof. move=> H. split; [exact: NoDup_remove_1 H | exact: NoDup_remove_2 H]. Qed.

Lemma wfn_sub n x n' x' : wfn n x -> x <= x' -> x' + nsize n' <= x + nsize n -> SZ A <= nsize n' ->
  (AL A | x') -> (AL A | nsize n') -> (nupper n' = 0 \/ nupper n' = Z.shiftr (phys E x') 12) -> wfn n' x'.
Proof.
  move=> [H1 [H2 [H3 [H4 [H5 [H6 H7]]]]]] L1 L2 Hs D1 D2 U.
  split; first lia. do 3 (split; first done). split; first done.
  have HS : 0 < SZ A by move: HA => [_ [? _]].
  split.
  - move=> k Hk. have -> : x' + k = x + (x' - x + k) by lia. rewrite H6; first lia.
    have -> : phys E x' = phys E x + (x' - x); last lia.
    rewrite -H6; first lia. f_equal. lia.
  - move=> b Hb. apply: H7. lia.
Qed.

Lemma cover_mid m m' a b k y : (forall x, In x (a ++ b) -> nsize (m' x) = nsize (m x) /\ ncached (m' x) = ncached (m x)) ->
  cover (pcs m' (a ++ k ++ b)) y = (cover (pcs m' k) y + cover (pcs m (a ++ b)) y)%nat.
Proof.
  move=> H. rewrite -(pcs_ext m m' (a ++ b)) // !pcs_app !cover_app. lia.
Qed.
Lemma cover_midr m m' a b r y : (forall x, In x (a ++ b) -> nsize (m' x) = nsize (m x) /\ ncached (m' x) = ncached (m x)) ->
  cover (pcs m' (a ++ r :: b)) y = (ind (covers (r, nsize (m' r), ncached (m' r)) y) + cover (pcs m (a ++ b)) y)%nat.
Proof. move=> H. rewrite (cover_mid m m' a b [r] y H) pcs_cons cover_cons /cover /=. lia. Qed.
Lemma cover_mid1 m a b p y : cover (pcs m (a ++ p :: b)) y = (ind (covers (piece_at m p) y) + cover (pcs m (a ++ b)) y)%nat.
Proof. rewrite (cover_mid m m a b [p] y) // pcs_cons cover_cons /cover /=. lia. Qed.

(** What an allocation of [size] bytes out of the free list does. *)
Definition alloc_post (s : st) (l : list Z) (size align : Z) (cached : bool) (s' : st) (q : Z) : Prop :=
  (align | q) /\ 0 < q /\ (exists p, In p l /\ ncached (mem s p) = cached /\ p <= q /\ q + size <= p + nsize (mem s p)) /\
  (forall x, ncached (mem s' x) = ncached (mem s x)) /\
  exists l', FL s' l' /\ (forall b c, (cover (pcs (mem s') l') b + ind (covers (q, size, c) b))%nat = cover (pcs (mem s) l) b) /\
    (forall x', In x' l' -> exists x, In x l /\ x <= x' /\ x' + nsize (mem s' x') <= x + nsize (mem s x)).

Lemma calculate_ok s r p offset : wfn (mem s p) p -> r = p + offset -> 0 <= offset < nsize (mem s p) ->
  exists u, calculate_paddr_for_new_region s r p offset = Ok (set_upper s r u) /\ (u = 0 \/ u = Z.shiftr (phys E r) 12).
Proof.
  move=> W -> Ho. rewrite /calculate_paddr_for_new_region.
  have -> : offset <=? nsize (mem s p) = true by apply/Z.leb_le; lia.
  cbn [assert bind]. eexists. split; first by rewrite /save_paddr.
  rewrite (try_extract_wfn s p W). case U: (nupper (mem s p) =? 0) => /=; first by left.
  have [G1 _] := good_x _ _ W. have -> : phys E p =? 0 = false by apply/Z.eqb_neq; lia.
  right. f_equal. move: W => [_ [_ [_ [_ [_ [C _]]]]]]. rewrite C //.
Qed.

Lemma replace_chain s a p b r : NoDup (a ++ p :: b) -> ~ In r (a ++ p :: b) -> r <> 0 -> chain (mem s) (head s) (a ++ p :: b) ->
  chain (mem (replace_node s (last a 0) p r)) (head (replace_node s (last a 0) p r)) (a ++ r :: b).
Proof.
  move=> ND NR Rz C. have NZ := chain_nonzero _ _ _ C.
  move/chain_app: C => [z [C1 [Ez [Hp C2]]]]. subst z.
  have NRb : ~ In r b by move=> H; apply: NR; apply/in_or_app; right; right.
  have NRa : ~ In r a by move=> H; apply: NR; apply/in_or_app; left.
  destruct (list_eq_dec Z.eq_dec a []) as [->|Na].
  - rewrite /replace_node. cbn [last Z.eqb head set_head app chain mem]. split=> //. split=> //.
    rewrite mem_set_next Z.eqb_refl. cbn [nnext]. apply: chain_ext C2 => x Hx. rewrite mem_set_next.
    have -> // : x =? r = false by apply/Z.eqb_neq => ?; subst x.
  - have NL : last a 0 <> 0 by apply: NZ; apply/in_or_app; left; exact: last_In.
    have NLr : last a 0 <> r by move=> Er; apply: NRa; rewrite -Er; exact: last_In.
    rewrite /replace_node. have -> : last a 0 =? 0 = false by apply/Z.eqb_neq. cbn [head set_next set_mem].
    have ND1 : NoDup a by exact: NoDup_app_l ND.
    have NI : forall x, In x (p :: b) -> x <> last a 0.
    { move=> x Hx Ex. subst x. exact: (NoDup_app_disj _ _ _ ND (last_In a 0 Na) Hx). }
    apply/chain_app. exists r. split.
    + apply: (seg_redirect (mem s) _ a p) => //.
      * move=> x Hx Nx. rewrite !mem_set_next. have -> : x =? last a 0 = false by apply/Z.eqb_neq.
        have -> // : x =? r = false by apply/Z.eqb_neq => ?; subst x.
      * by rewrite mem_set_next Z.eqb_refl.
    + split=> //. split=> //. rewrite !mem_set_next Z.eqb_refl.
      have -> : r =? last a 0 = false by apply/Z.eqb_neq => ?; congruence.
      cbn [nnext]. apply: chain_ext C2 => x Hx. rewrite !mem_set_next.
      have -> : x =? last a 0 = false by apply/Z.eqb_neq; apply: NI; right.
      have -> // : x =? r = false by apply/Z.eqb_neq => ?; subst x.
Qed.
Lemma replace_fields s pr p r x : ncached (mem (replace_node s pr p r) x) = ncached (mem s x) /\
  nsize (mem (replace_node s pr p r) x) = nsize (mem s x) /\ nupper (mem (replace_node s pr p r) x) = nupper (mem s x).
Proof.
  rewrite /replace_node. case: (pr =? 0); cbn [set_head mem]; rewrite !mem_set_next.
  - by case: (Z.eqb_spec x r) => [->|_].
  - destruct (Z.eqb_spec x pr) as [Ex|_]; [subst x; destruct (Z.eqb_spec pr r) as [Er|_]; [subst r|]; done|].
    destruct (Z.eqb_spec x r) as [Ex|_]; [subst x|]; done.
Qed.

Lemma try_alloc_region_ok s a p b size align : FL s (a ++ p :: b) -> SZ A <= size -> (AL A | size) -> AL A <= align -> (AL A | align) ->
  size <= nsize (mem s p) ->
  exists s' q, try_alloc_from_free_region A s size align (last a 0) p = Ok (s', q) /\
    (q = 0 /\ s' = s \/ alloc_post s (a ++ p :: b) size align (ncached (mem s p)) s' q).
Proof.
  move=> F Hs D1 Ha D2 Hp. move: (HA) => [H1 [H2 [H3 _]]].
  have ND := FL_nodup _ _ F. have [ND1 NI] := NoDup_mid _ _ _ ND.
  have Hin : In p (a ++ p :: b) by apply/in_or_app; right; left.
  have Hsub : forall x, In x (a ++ b) -> In x (a ++ p :: b).
  { move=> x H0. destruct (in_app_or _ _ _ H0) as [H|H]; apply/in_or_app; [by left | by right; right]. }
  move: (F) => [C [W V]]. have Wp := W p Hin. move: (Wp) => [P1 [P2 [P3 [P4 [P5 [P6 P7]]]]]].
  rewrite /try_alloc_from_free_region.
  have -> : SZ A <=? size = true by apply/Z.leb_le.
  have -> : size mod AL A =? 0 = true by apply/Z.eqb_eq; apply/Z.mod_divide; [lia|].
  have -> : AL A <=? align = true by apply/Z.leb_le.
  cbn [assert bind].
  remember (nsize (mem s p)) as ps eqn:Eps.
  remember (round_down (p + ps - size) align) as q0 eqn:Eq0.
  have Hq0 : q0 <= p + ps - size /\ (align | q0).
  { rewrite Eq0 /round_down. have := Z.mod_pos_bound (p + ps - size) align ltac:(lia). split; first lia.
    exists ((p + ps - size) / align). rewrite {1}(Z.div_mod (p + ps - size) align); lia. }
  move: Hq0 => [Q1 Q2].
  have -> : (Z.to_nat ps + 2 = S (Z.to_nat ps + 1))%nat by lia.
  have [r [-> Hr]] := find_place_spec size align p (p + ps) ltac:(lia) H2 (Z.to_nat ps + 1) q0 ltac:(nia).
  cbn [bind]. destruct r as [q|]; last by exists s, 0; split=> //; left.
  have {Hr} [R1 [R2 [R3 R4]]] := Hr q eq_refl.
  have Q : (align | q).
  { replace q with (q0 - (q0 - q)) by lia. exact: Z.divide_sub_r. }
  have Qp : 0 < q by lia.
  have QA : (AL A | q) by apply: Z.divide_trans Q.
  (* what is common to the four cases *)
  have step : forall s' l', (forall x, ncached (mem s' x) = ncached (mem s x)) -> chain (mem s') (head s') l' ->
     (forall x, In x l' -> wfn (mem s' x) x) ->
     (forall y c, (cover (pcs (mem s') l') y + ind (covers (q, size, c) y))%nat = cover (pcs (mem s) (a ++ p :: b)) y) ->
     (forall x', In x' l' -> exists x, In x (a ++ p :: b) /\ x <= x' /\ x' + nsize (mem s' x') <= x + nsize (mem s x)) ->
     alloc_post s (a ++ p :: b) size align (ncached (mem s p)) s' q.
  { move=> s' l' HC Hch Hwf Hcov Hsb. split=> //. split=> //. split.
    - exists p. split=> //. split=> //. rewrite -Eps. lia.
    - split=> //. exists l'. split; last by []. split=> //. split=> // y. have := Hcov y true. have := V y. lia. }
  case: (Z.eqb_spec p q) => [Epq|Npq].
  - (* at the start of the region *)
    subst q. case: (Z.eqb_spec ps size) => [Ez|Nz].
    + (* 1 *)
      cbn [bind]. do 2 eexists. split; first reflexivity. right.
      have RF := remove_fields s (last a 0) p.
      apply: (step _ (a ++ b)).
      * move=> x. by have [-> _] := RF x.
      * exact: remove_chain.
      * move=> x Hx. have [_ [E2 [E3 _]]] := RF x. have Wx := W x (Hsub x Hx).
        rewrite /wfn E2 E3. exact: Wx.
      * move=> y c. rewrite (cover_mid1 (mem s)). rewrite -(pcs_ext (mem s) (mem (remove_node s (last a 0) p)) (a ++ b)).
        { move=> x _. have [-> [-> _]] := RF x. done. }
        rewrite /piece_at -Eps Ez (covers_flag p size c (ncached (mem s p))).
        rewrite (pcs_ext (mem s)); last lia. move=> x _. have [-> [-> _]] := RF x. done.
      * move=> x Hx. exists x. split; first exact: Hsub. have [_ [-> _]] := RF x. lia.
    + (* 2 *)
      remember (p + size) as r eqn:Er.
      have NR : ~ In r (a ++ p :: b).
      { move=> Hr. have := FL_node s _ p r F Hin Hr ltac:(lia). lia. }
      have Nrp : p =? r = false by apply/Z.eqb_neq; lia.
      have Wp' : wfn (mem (set_size s r (ps - size)) p) p by rewrite mem_set_size Nrp.
      have [u [-> Hu]] := calculate_ok (set_size s r (ps - size)) r p size Wp' Er
         ltac:(rewrite mem_set_size Nrp -Eps; lia).
      cbn [bind]. do 2 eexists. split; first reflexivity. right.
      remember (set_upper (set_size s r (ps - size)) r u) as s2 eqn:Es2.
      have M2 : forall x, mem s2 x = if x =? r then mk_node (ncached (mem s r)) (ps - size) (nnext (mem s r)) u else mem s x.
      { move=> x. rewrite Es2 mem_set_upper !mem_set_size Z.eqb_refl /=. by case: (x =? r). }
      have M2' : forall x, In x (a ++ p :: b) -> mem s2 x = mem s x.
      { move=> x Hx. rewrite M2. have -> // : x =? r = false by apply/Z.eqb_neq => ?; subst x. }
      have RF := replace_fields s2 (last a 0) p r.
      have CF : forall x, ncached (mem (replace_node s2 (last a 0) p r) x) = ncached (mem s x).
      { move=> x. have [-> _] := RF x. rewrite M2. by case: (Z.eqb_spec x r) => [->|_]. }
      have SR : nsize (mem (replace_node s2 (last a 0) p r) r) = ps - size.
      { have [_ [-> _]] := RF r. by rewrite M2 Z.eqb_refl. }
      have SO : forall x, In x (a ++ b) -> nsize (mem (replace_node s2 (last a 0) p r) x) = nsize (mem s x).
      { move=> x Hx. have [_ [-> _]] := RF x. by rewrite M2' //; exact: Hsub. }
      apply: (step _ (a ++ r :: b)) => //.
      * apply: replace_chain => //; first lia.
        have -> : head s2 = head s by rewrite Es2. apply: chain_ext C => x Hx. by rewrite M2'.
      * move=> x Hx. case: (Z.eq_dec x r) => [Ex|Nx].
        -- subst x. apply: (wfn_sub (mem s p) p) => //; rewrite ?SR -?Eps; try lia.
           ++ rewrite Er. exact: Z.divide_add_r.
           ++ exact: Z.divide_sub_r.
           ++ have [_ [_ ->]] := RF r. rewrite M2 Z.eqb_refl. exact: Hu.
        -- have Hx' : In x (a ++ b).
           { destruct (in_app_or _ _ _ Hx) as [H|[H|H]]; [|congruence|]; apply/in_or_app; tauto. }
           have Wx := W x (Hsub x Hx'). rewrite /wfn SO //. have [_ [_ ->]] := RF x. rewrite M2'; first exact: Hsub. exact: Wx.
      * move=> y c. rewrite (cover_mid1 (mem s)). rewrite (cover_midr (mem s) _ a b r).
        { move=> x Hx. rewrite SO // CF. }
        rewrite SR /piece_at -Eps.
        have := covers_split p size (ps - size) (ncached (mem s p)) c (ncached (mem (replace_node s2 (last a 0) p r) r)) y ltac:(lia) ltac:(lia).
        rewrite -Er. have -> : size + (ps - size) = ps by lia. move=> ->. lia.
      * move=> x Hx. case: (Z.eq_dec x r) => [Ex|Nx].
        -- subst x. exists p. split=> //. rewrite SR -Eps. lia.
        -- have Hx' : In x (a ++ b).
           { destruct (in_app_or _ _ _ Hx) as [H|[H|H]]; [|congruence|]; apply/in_or_app; tauto. }
           exists x. split; first exact: Hsub. rewrite SO //. lia.
  - case: (Z.eqb_spec (p + ps - (q + size)) 0) => [Ez|Nz].
    + (* 3 *)
      rewrite /shrink_node -Eps.
      have -> : (0 <? size) && (size <? ps) = true by apply/andP; split; apply/Z.ltb_lt; lia.
      cbn [assert bind]. do 2 eexists. split; first reflexivity. right.
      have M : forall x, x <> p -> mem (set_size s p (ps - size)) x = mem s x.
      { move=> x Hx. rewrite mem_set_size. by have -> : x =? p = false by apply/Z.eqb_neq. }
      have MS : nsize (mem (set_size s p (ps - size)) p) = ps - size by rewrite mem_set_size Z.eqb_refl.
      have CF : forall x, ncached (mem (set_size s p (ps - size)) x) = ncached (mem s x).
      { move=> x. rewrite mem_set_size. by case: (Z.eqb_spec x p) => [->|]. }
      apply: (step _ (a ++ p :: b)) => //.
      * apply: chain_ext C => x _. rewrite mem_set_size. by case: (Z.eqb_spec x p) => [->|].
      * move=> x Hx. case: (Z.eq_dec x p) => [Ex|Nx].
        -- subst x. apply: (wfn_sub (mem s p) p) => //; rewrite ?MS -?Eps; try lia.
           ++ exact: Z.divide_sub_r.
           ++ rewrite mem_set_size Z.eqb_refl. exact: P5.
        -- rewrite M //. exact: W.
      * move=> y c. rewrite (cover_mid1 (mem s)). rewrite (cover_midr (mem s) _ a b p).
        { move=> x Hx. rewrite CF M //. move=> ?; subst x. exact: NI. }
        rewrite MS /piece_at -Eps.
        have := covers_split p (ps - size) size (ncached (mem s p)) (ncached (mem (set_size s p (ps - size)) p)) c y ltac:(lia) ltac:(lia).
        have -> : ps - size + size = ps by lia. have -> : p + (ps - size) = q by lia. move=> ->. lia.
      * move=> x Hx. exists x. split=> //. split; first lia. case: (Z.eq_dec x p) => [->|Nx]; [rewrite MS; lia|rewrite M //; lia].
    + (* 4 *)
      remember (q + size) as r eqn:Er.
      have NR : ~ In r (a ++ p :: b).
      { move=> Hr. have := FL_node s _ p r F Hin Hr ltac:(lia). lia. }
      have Nrp : p =? r = false by apply/Z.eqb_neq; lia.
      have Off : q - p + size = r - p by lia. rewrite Off.
      have Wp' : wfn (mem (set_size s r (ps - (r - p))) p) p by rewrite mem_set_size Nrp.
      have [u [-> Hu]] := calculate_ok (set_size s r (ps - (r - p))) r p (r - p) Wp' ltac:(lia)
         ltac:(rewrite mem_set_size Nrp -Eps; lia).
      cbn [bind]. do 2 eexists. split; first reflexivity. right.
      remember (prepend_node (set_size (set_upper (set_size s r (ps - (r - p))) r u) p (q - p)) r) as s2 eqn:Es2.
      have M2 : forall x, mem s2 x = if x =? r then mk_node (ncached (mem s r)) (ps - (r - p)) (head s) u
         else if x =? p then mk_node (ncached (mem s p)) (q - p) (nnext (mem s p)) (nupper (mem s p)) else mem s x.
      { move=> x. rewrite Es2 /prepend_node. cbn [set_head mem]. have Nrp' : r =? p = false by apply/Z.eqb_neq; lia.
        rewrite mem_set_next !mem_set_size !mem_set_upper !mem_set_size ?Nrp ?Nrp' !Z.eqb_refl.
        cbn [ncached nsize nnext nupper]. case: (x =? r) => //; by case: (x =? p). }
      have Hd : head s2 = r by rewrite Es2.
      have CF : forall x, ncached (mem s2 x) = ncached (mem s x).
      { move=> x. rewrite M2. case: (Z.eqb_spec x r) => [->|_] //. by case: (Z.eqb_spec x p) => [->|_]. }
      have SR : nsize (mem s2 r) = ps - (r - p) by rewrite M2 Z.eqb_refl.
      have SP : nsize (mem s2 p) = q - p by rewrite M2 Nrp Z.eqb_refl.
      have MO : forall x, In x (a ++ b) -> mem s2 x = mem s x.
      { move=> x Hx. rewrite M2. have -> : x =? r = false by apply/Z.eqb_neq => ?; subst x; apply: NR; exact: Hsub.
        have -> // : x =? p = false by apply/Z.eqb_neq => ?; subst x. }
      apply: (step _ (r :: a ++ p :: b)) => //.
      * rewrite Hd. split=> //. split; first lia. rewrite M2 Z.eqb_refl. cbn [nnext]. apply: chain_ext C => x Hx.
        rewrite M2. have -> : x =? r = false by apply/Z.eqb_neq => ?; subst x.
        by case: (Z.eqb_spec x p) => [->|_].
      * move=> x [Ex|Hx]; first subst x.
        -- apply: (wfn_sub (mem s p) p) => //; rewrite ?SR -?Eps; try lia.
           ++ rewrite Er. exact: Z.divide_add_r.
           ++ apply: Z.divide_sub_r => //. rewrite -Off. apply: Z.divide_add_r => //. exact: Z.divide_sub_r.
           ++ rewrite M2 Z.eqb_refl. exact: Hu.
        -- case: (Z.eq_dec x p) => [Ex|Nx].
           ++ subst x. apply: (wfn_sub (mem s p) p) => //; rewrite ?SP -?Eps; try lia.
              ** exact: Z.divide_sub_r.
              ** rewrite M2 Nrp Z.eqb_refl. exact: P5.
           ++ have Hx' : In x (a ++ b).
              { destruct (in_app_or _ _ _ Hx) as [H|[H|H]]; [|congruence|]; apply/in_or_app; tauto. }
              rewrite MO //. exact: W.
      * move=> y c. rewrite (cover_mid1 (mem s)) pcs_cons cover_cons SR. rewrite (cover_midr (mem s) _ a b p).
        { move=> x Hx. rewrite MO //. }
        rewrite SP /piece_at -Eps.
        have := covers_split p (q - p) (ps - (q - p)) (ncached (mem s p)) (ncached (mem s2 p)) c y ltac:(lia) ltac:(lia).
        have -> : p + (q - p) = q by lia. have -> : q - p + (ps - (q - p)) = ps by lia. move=> ->.
        have := covers_split q size (ps - (r - p)) c c (ncached (mem s2 r)) y ltac:(lia) ltac:(lia).
        rewrite -Er. have -> : size + (ps - (r - p)) = ps - (q - p) by lia. move=> ->. lia.
      * move=> x [Ex|Hx]; first subst x.
        -- exists p. split=> //. rewrite SR -Eps. lia.
        -- exists x. split=> //. split; first lia. case: (Z.eq_dec x p) => [->|Nx]; first (rewrite SP; lia).
           have Hx' : In x (a ++ b).
           { destruct (in_app_or _ _ _ Hx) as [H|[H|H]]; [|congruence|]; apply/in_or_app; tauto. }
           rewrite MO //. lia.
Qed.

Lemma try_alloc_list_ok size align cached : SZ A <= size -> (AL A | size) -> AL A <= align -> (AL A | align) ->
  forall b a s fuel, FL s (a ++ b) -> (List.length b < fuel)%nat ->
  exists s' q, try_alloc_from_free_list A fuel s size align cached (last a 0) (hd 0 b) = Ok (s', q) /\
    (q = 0 /\ s' = s \/ alloc_post s (a ++ b) size align cached s' q).
Proof.
  move=> Hs D1 Ha D2. elim=> [|p b IH] a s [|fuel] F Hf; cbn [List.length] in Hf; try lia.
  - exists s, 0. split=> //. by left.
  - cbn [hd try_alloc_from_free_list].
    have [Cn [W _]] := F.
    have Hp : p <> 0. { apply: (chain_nonzero _ _ _ Cn). apply/in_or_app. right. by left. }
    have -> : p =? 0 = false by apply/Z.eqb_neq.
    have Nx : nnext (mem s p) = hd 0 b.
    { move/chain_app: Cn => [z [_ [Ez [_ C2]]]]. by case: (b) C2 => [|y k] //= []. }
    have F' : FL s ((a ++ [p]) ++ b) by rewrite -app_assoc.
    have Hf' : (List.length b < fuel)%nat by lia.
    have {}IH := IH (a ++ [p]) s fuel F' Hf'. rewrite last_last -app_assoc in IH. cbn [app] in IH.
    rewrite Nx.
    case T: ((nsize (mem s p) <? size) || negb (Bool.eqb (ncached (mem s p)) cached)); first exact: IH.
    move/orb_false_iff: T => [/Z.ltb_ge T1 /negbFE /eqb_prop T2].
    have [s' [q [-> Hq]]] := try_alloc_region_ok s a p b size align F Hs D1 Ha D2 T1.
    cbn [bind]. case: (Z.eqb_spec q 0) => [Eq|Nq].
    + case: Hq => [[_ ->]|[_ [? _]]]; last lia. rewrite Nx. exact: IH.
    + exists s', q. split=> //. right. case: Hq => [[? _]|]; first lia. by rewrite T2.
Qed.
End arch.
