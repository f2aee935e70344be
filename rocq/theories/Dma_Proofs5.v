(** Reachable states used in the examples. *)
From Coq Require Import ZArith List Bool Lia ssreflect ssrbool.
From Verif Require Import Prelude Dma_Model Dma_Spec Dma_Proofs3 Dma_Proofs4.
Import ListNotations.
Open Scope Z_scope.

Lemma A64_ok : arch_ok A64.
Proof.
  split; first done. split; first done. split; first by exists 3. split; last done. exists 3. by split.
Qed.
Lemma do_init_reach A E w pool n page c : reachable A E w -> 0 < pool -> 0 <= n -> size_ok A page ->
  (forall b, pool <= b < pool + n * page -> cover (pools w) b = 0%nat /\ fcached E b = Some c /\
       4096 <= phys E b /\ phys E b mod 4096 = b mod 4096) ->
  (forall i, 0 <= i < n -> contiguous E (pool + i * page) page) ->
  reachable A E (do_init A w pool n page c).
Proof.
  move=> R H1 H2 H3 H4 H5. rewrite /do_init. case I: (camkes_dma_init _ _ _ _ _ _) => [[s|]|e] //.
  apply: R_use R _. exact: U_init.
Qed.
Lemma do_alloc_reach A E fuel w size align c : reachable A E w -> size_ok A size -> align_ok align ->
  reachable A E (do_alloc A E fuel w size align c).
Proof.
  move=> R H1 H2. rewrite /do_alloc. case I: (camkes_dma_alloc _ _ _ _ _ _ _) => [[s q]|e] //.
  apply: R_use R _. exact: U_alloc I.
Qed.
Lemma do_free_reach A E w ptr size : reachable A E w -> In (ptr, size) (live w) -> reachable A E (do_free A E w ptr size).
Proof.
  move=> R H. rewrite /do_free. case I: (camkes_dma_free _ _ _ _ _) => [s|e] //. apply: R_use R _. exact: U_free I.
Qed.
Lemma do_init_tidy A E w pool n page c : reachable_tidy A E w -> 0 < pool -> 0 <= n -> size_ok A page ->
  (forall b, pool <= b < pool + n * page -> cover (pools w) b = 0%nat /\ fcached E b = Some c /\
       4096 <= phys E b /\ phys E b mod 4096 = b mod 4096) ->
  (forall i, 0 <= i < n -> contiguous E (pool + i * page) page) ->
  reachable_tidy A E (do_init A w pool n page c).
Proof.
  move=> R H1 H2 H3 H4 H5. rewrite /do_init. case I: (camkes_dma_init _ _ _ _ _ _) => [[s|]|e] //.
  apply: T_use R _. exact: U_init.
Qed.
Lemma do_alloc_tidy A E fuel w size align c : reachable_tidy A E w -> size_ok A size -> align_ok align ->
  reachable_tidy A E (do_alloc A E fuel w size align c).
Proof.
  move=> R H1 H2. rewrite /do_alloc. case I: (camkes_dma_alloc _ _ _ _ _ _ _) => [[s q]|e] //.
  apply: T_use R _. exact: U_alloc I.
Qed.

Lemma demo1_ok c : reachable A64 (E_id c) (demo1 c).
Proof.
  apply: do_init_reach; [exact: R_start|done|done|by split| |].
  - move=> b Hb. cbn [phys fcached E_id]. split=> //. split=> //. split=> //. lia.
  - by move=> i Hi k Hk.
Qed.
Lemma demo2_ok c : reachable A64 (E_id c) (demo2 c).
Proof. apply: do_alloc_reach; [exact: demo1_ok|by split|]. right. by exists 6. Qed.
Lemma demo3_ok c : reachable A64 (E_id c) (demo3 c).
Proof. apply: do_alloc_reach; [exact: demo2_ok|by split|]. by left. Qed.
Lemma demo4_ok c : reachable A64 (E_id c) (demo4 c).
Proof. apply: do_alloc_reach; [exact: demo3_ok|by split|]. right. by exists 12. Qed.
Lemma demo5_ok c : reachable A64 (E_id c) (demo5 c).
Proof. apply: do_free_reach; [exact: demo4_ok|]. case: c; vm_compute; tauto. Qed.
Lemma demo2_tidy : reachable_tidy A64 (E_id false) (demo2 false).
Proof.
  apply: do_alloc_tidy; [|by split|]; last by right; exists 6.
  apply: do_init_tidy; [|done|done|by split| |].
  - apply: T_start. by move=> a c [<-].
  - move=> b Hb. cbn [phys fcached E_id]. split=> //. split=> //. split=> //. lia.
  - by move=> i Hi k Hk.
Qed.

Lemma page1_ok c : reachable A64 (E_id c) (page1 c).
Proof.
  apply: do_init_reach; [exact: R_start|done|done|by split| |].
  - move=> b Hb. cbn [phys fcached E_id]. split=> //. split=> //. split=> //. lia.
  - by move=> i Hi k Hk.
Qed.
Lemma page2_ok c : reachable A64 (E_id c) (page2 c).
Proof. apply: do_alloc_reach; [exact: page1_ok|by split|]. right. by exists 12. Qed.

Lemma ok_witness {X} (r : res X) (P : X -> Prop) : match r with Ok x => P x | Err _ => False end -> exists x, r = Ok x /\ P x.
Proof. case: r => [x|e] // H. by exists x. Qed.

Lemma incomplete_lemma : exists w s' p n q, reachable A64 (E_id true) w /\
  camkes_dma_alloc A64 (E_id true) 20 (dma w) 4056 16 true = Ok (s', 0) /\
  (exists fl, free_list s' fl /\ In (p, n, true) fl) /\
  p <= q /\ (16 | q) /\ q + real_size A64 4056 + SZ A64 <= p + n.
Proof.
  have [[s q] [H P]] := ok_witness (camkes_dma_alloc A64 (E_id true) 20 (dma (page1 true)) 4056 16 true)
     (fun '(s, q) => q = 0 /\ chain (mem s) (head s) [8192] /\ piece_at (mem s) 8192 = (8192, 4096, true)) ltac:(vm_compute; repeat split; congruence).
  move: P => [P1 [P2 P3]]. subst q.
  exists (page1 true), s, 8192, 4096, 8192. split; first exact: page1_ok. split=> //. split.
  - exists (map (piece_at (mem s)) [8192]). split; first by exists [8192]. left. exact: P3.
  - split; first lia. split; first by exists 512. vm_compute. congruence.
Qed.
Lemma stale_flag_lemma : exists w s' q, reachable A64 (E_id true) w /\
  camkes_dma_alloc A64 (E_id true) 20 (dma w) 100 0 false = Ok (s', q) /\ q <> 0 /\ fcached (E_id true) q = Some true.
Proof.
  have [[s q] [H P]] := ok_witness (camkes_dma_alloc A64 (E_id true) 20 (dma (page2 true)) 100 0 false)
     (fun '(s, q) => q <> 0) ltac:(vm_compute; congruence).
  exists (page2 true), s, q. split; first exact: page2_ok. by [].
Qed.
Lemma overflow_lemma : exists w, reachable A64 (E_id true) w /\
  camkes_dma_alloc A64 (E_id true) 20 (dma w) (2 ^ 64 - 1) 0 true = Err AssertionError.
Proof. exists (page1 true). split; first exact: page1_ok. by vm_compute. Qed.
Lemma odd_align_lemma : exists w s' q, reachable A64 (E_id true) w /\
  camkes_dma_alloc A64 (E_id true) 400 (dma w) 100 12 true = Ok (s', q) /\ q <> 0 /\
  camkes_dma_free A64 (E_id true) s' q 100 = Err AssertionError.
Proof.
  have [[s q] [H [P1 P2]]] := ok_witness (camkes_dma_alloc A64 (E_id true) 400 (dma (page1 true)) 100 12 true)
     (fun '(s, q) => q <> 0 /\ camkes_dma_free A64 (E_id true) s q 100 = Err AssertionError) ltac:(vm_compute; split; congruence).
  exists (page1 true), s, q. split; first exact: page1_ok. by [].
Qed.

(** ** Sizes and initialisation *)
Lemma block_size_lemma A size : arch_ok A -> size_ok A size -> real_size A size = block_size A size.
Proof.
  move=> [H1 [H2 [H3 [_ H4]]]] [S1 S2]. rewrite /real_size /block_size.
  have -> : (if size <? SZ A then SZ A else size) = Z.max size (SZ A) by case: (Z.ltb_spec size (SZ A)) => L; lia.
  have Z1 : 0 <= Z.max size (SZ A) /\ Z.max size (SZ A) + AL A < MODULUS A by lia.
  move: (Z.max size (SZ A)) Z1 => z [Z1 Z2]. have D := Z.div_mod z (AL A) ltac:(lia).
  have B := Z.mod_pos_bound z (AL A) ltac:(lia). move: D B. move: (z / AL A) (z mod AL A) => d m D B.
  case: (Z.eqb_spec m 0) => M.
  - rewrite -(Z.div_unique_pos (z + AL A - 1) (AL A) d (AL A - 1)); lia.
  - rewrite /round_up. have -> : z mod AL A = m.
    { symmetry. apply: (Z.mod_unique_pos _ _ d); lia. }
    have -> : m =? 0 = false by apply/Z.eqb_neq. rewrite Z.mod_small; first lia.
    rewrite -(Z.div_unique_pos (z + AL A - 1) (AL A) (d + 1) (m - 1)); lia.
Qed.
Lemma complete_block A E : arch_ok A -> forall w fuel size align cached s',
  reachable A E w -> size_ok A size -> 0 <= align <= AL A ->
  camkes_dma_alloc A E fuel (dma w) size align cached = Ok (s', 0) ->
  forall free, free_list s' free -> forall p n, In (p, n, cached) free ->
  n <> block_size A size /\ n < block_size A size + SZ A.
Proof. move=> HA w fuel size align cached s' R Hs. rewrite -block_size_lemma //. exact: complete_lemma. Qed.

Lemma is_pow2_true z : power_of_2 z -> is_pow2 z = true.
Proof.
  move=> [k [K ->]]. rewrite /is_pow2. have P : 0 < 2 ^ k by exact: Z.pow_pos_nonneg.
  have -> : 0 <? 2 ^ k = true by apply/Z.ltb_lt. have -> : 2 ^ k - 1 = Z.ones k by rewrite Z.ones_equiv.
  by rewrite Z.land_ones // Z.mod_same //; lia.
Qed.
Lemma init_pages_total A page cached : 0 < AL A -> (AL A | page) -> forall n s base, (AL A | base) ->
  exists s', init_pages A n s base page cached = Ok s'.
Proof.
  move=> H Hp. elim=> [|n IH] s base Hb /=; first by eexists.
  have X : base mod AL A =? 0 = true by apply/Z.eqb_eq; apply/Z.mod_divide; [lia|done].
  rewrite X /= /free_region X /=. apply: IH. exact: Z.divide_add_r.
Qed.
Lemma init_lemma A s pool sz page cached : arch_ok A -> 0 < page ->
  match camkes_dma_init A s pool sz page cached with
  | Ok (Some _) => SZ A < page /\ AL A <= page /\ power_of_2 page /\ pool <> 0 /\ (page | pool)
  | Ok None => ~ (SZ A < page /\ AL A <= page /\ power_of_2 page /\ pool <> 0 /\ (page | pool))
  | Err _ => False
  end.
Proof.
  move=> [H1 [H2 [H3 [H4 _]]]] P. rewrite /camkes_dma_init.
  have MD : forall x, (x | pool) -> 0 < x -> pool mod x = 0 by move=> x D X; apply/Z.mod_divide; [lia|done].
  have DV : power_of_2 page -> AL A <= page -> (AL A | page) by move=> X Y; exact: pow2_divide.
  case: (Z.leb_spec page (SZ A)) => C1 /=; first lia.
  case: (Z.eqb_spec (pool mod page) 0) => C2 /=; last by move=> [_ [_ [_ [_ D]]]]; apply: C2; exact: MD.
  have D2 : (page | pool) by apply/Z.mod_divide; [lia|done].
  case: (Z.eqb_spec pool 0) => C3 /=; first tauto.
  case: (Z.eqb_spec (pool mod AL A) 0) => C4 /=; last first.
  { move=> [_ [X [Y _]]]. apply: C4. apply: MD => //. apply: Z.divide_trans D2. exact: DV. }
  have D4 : (AL A | pool) by apply/Z.mod_divide; [lia|done].
  case C5: (is_pow2 page) => /=; last by move=> [_ [_ [X _]]]; rewrite is_pow2_true in C5.
  have D5 := is_pow2_ok _ C5.
  case: (Z.ltb_spec page (AL A)) => C6; first lia.
  have [s' ->] := init_pages_total A page cached H1 (DV D5 C6) (Z.to_nat ((sz + page - 1) / page)) s pool D4.
  by [].
Qed.
