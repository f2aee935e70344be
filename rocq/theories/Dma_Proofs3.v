(** Proofs about the DMA allocator: termination of defragmentation, histories. *)
From Coq Require Import ZArith List Bool Lia ssreflect ssrbool.
From Verif Require Import Prelude Dma_Model Dma_Spec Dma_Proofs Dma_Proofs2.
Import ListNotations.
Open Scope Z_scope.

Section arch.
Variable A : arch.
Variable E : env.
Hypothesis HA : arch_ok A.
Notation FL := (FL A E).
Notation wfn := (wfn A E).
Notation sim := (sim E).
Notation pw := (pw E).
Notation good := (good E).

Lemma pw_sim s s' l : sim s s' -> pw (mem s) l -> pw (mem s') l.
Proof. move=> S P x y Hx Hy /(sim_adj E s s' x y S). exact: P. Qed.

Lemma defrag_outer_ok fuel' : forall fuel s pre cur pprev,
  FL s (pre ++ cur) -> OInv E s pre cur pprev ->
  (List.length (pre ++ cur) * (List.length (pre ++ cur) + 1) + List.length cur < fuel)%nat ->
  (List.length (pre ++ cur) < fuel')%nat ->
  exists s' l', defrag_outer E fuel fuel' s pprev (hd 0 cur) = Ok s' /\ FL s' l' /\
    (forall z c, cover_flag c (pcs (mem s') l') z = cover_flag c (pcs (mem s) (pre ++ cur)) z) /\
    (forall x, ncached (mem s' x) = ncached (mem s x)) /\ pw (mem s') l' /\ (List.length l' <= List.length (pre ++ cur))%nat.
Proof.
  elim=> [|fuel IH] s pre cur pprev F O Hf Hf'; first lia.
  destruct cur as [|p post].
  - cbn [hd defrag_outer Z.eqb]. exists s, pre. rewrite app_nil_r in F *. split=> //. split=> //. split=> //. split=> //. split=> //. exact: (proj1 O).
  - cbn [hd defrag_outer].
    have [Cn [W V]] := F.
    have Hp : In p (pre ++ p :: post) by apply/in_or_app; right; left.
    have -> : p =? 0 = false by apply/Z.eqb_neq; exact: chain_nonzero Cn p Hp.
    have [s1 [-> Sm]] := extract_ok A E HA s p (W p Hp). cbn [bind].
    have F1 := sim_FL A E _ _ _ Sm F. move: (Sm) => [Sh Sf].
    have O1 : OInv E s1 pre (p :: post) pprev.
    { move: O => [O1 O2]. split; first exact: pw_sim Sm O1. case: O2 => [?|[B1 [B2 [B3 [B4 B5]]]]]; [by left|right].
      split=> //. split=> //. split=> //. split; first by have [_ [_ [-> _]]] := Sf pprev.
      move=> q Hq /(sim_adj E s s1 _ _ Sm). exact: B5. }
    have Hh : head s1 = hd p pre.
    { have := chain_hd _ _ _ (proj1 F1). by case: (pre). }
    rewrite Hh.
    have [s2 [r [H1 H2]]] := defrag_inner_ok A E HA p post pre [] s1 fuel' pprev F1
       ltac:(rewrite app_length in Hf'; cbn [List.length] in Hf'; lia) O1 ltac:(done).
    cbn [last] in H1. rewrite H1. cbn [bind].
    case: r H1 H2 => [p'|] H1 H2.
    + move: H2 => [pre' [cur' [F2 [L2 [C2 [N2 [X2 O2]]]]]]]. rewrite X2. cbn [app] in L2, C2.
      have [s3 [l3 [G1 [G2 [G3 [G4 G5]]]]]] := IH s2 pre' cur' p' F2 O2 ltac:(rewrite !app_length in Hf, L2 |- *; nia) ltac:(lia).
      exists s3, l3. split=> //. split=> //. split.
      { move=> z c. by rewrite G3 C2 (sim_pcs E s s1). }
      split. { move=> x. rewrite G4 N2. by have [-> _] := Sf x. }
      split; first by case: G5. case: G5 => _. lia.
    + move: H2 => [Sm2 P2]. cbn [app] in P2.
      have F2 := sim_FL A E _ _ _ Sm2 F1.
      have -> : nnext (mem s2 p) = hd 0 post.
      { have [C2 _] := F2. exact: (chain_next _ _ _ _ pre C2). }
      have EL : (pre ++ [p]) ++ post = pre ++ p :: post by rewrite -app_assoc.
      have {}IH := IH s2 (pre ++ [p]) post p. rewrite EL in IH.
      have [s3 [l3 [G1 [G2 [G3 [G4 G5]]]]]] : exists s' l', defrag_outer E fuel fuel' s2 p (hd 0 post) = Ok s' /\ FL s' l' /\
        (forall z c, cover_flag c (pcs (mem s') l') z = cover_flag c (pcs (mem s2) (pre ++ p :: post)) z) /\
        (forall x, ncached (mem s' x) = ncached (mem s2 x)) /\ pw (mem s') l' /\ (List.length l' <= List.length (pre ++ p :: post))%nat.
      { apply: IH => //; last (cbn [List.length] in Hf; lia). split; first exact: pw_sim Sm2 P2. left. by rewrite last_last. }
      exists s3, l3. split=> //. split=> //. split.
      { move=> z c. by rewrite G3 (sim_pcs E s1 s2) // (sim_pcs E s s1). }
      split=> //. move=> x. rewrite G4. move: Sm2 => [_ Sf2]. have [-> _] := Sf2 x. by have [-> _] := Sf x.
Qed.

Lemma defrag_ok fuel s l : FL s l -> head s <> 0 -> (List.length l * (List.length l + 2) < fuel)%nat ->
  exists s' l', defrag E fuel s = Ok s' /\ FL s' l' /\
    (forall z c, cover_flag c (pcs (mem s') l') z = cover_flag c (pcs (mem s) l) z) /\
    (forall x, ncached (mem s' x) = ncached (mem s x)) /\ pw (mem s') l' /\ (List.length l' <= List.length l)%nat.
Proof.
  move=> F Hh Hf. rewrite /defrag. have -> : head s =? 0 = false by apply/Z.eqb_neq. cbn [negb assert bind].
  have -> : head s = hd 0 l by apply: (chain_hd (mem s)); case: F.
  apply: (defrag_outer_ok fuel fuel s [] l 0) => //; try (cbn [app]; nia).
  split; last by left. by move=> x y [].
Qed.

(** ** Sizes *)
Lemma real_size_ok size : size_ok A size -> SZ A <= real_size A size /\ size <= real_size A size /\ (AL A | real_size A size).
Proof.
  move: HA => [H1 [H2 [H3 [_ H4]]]] [S1 S2]. rewrite /real_size.
  have Hc : exists z, (if size <? SZ A then SZ A else size) = z /\ SZ A <= z /\ size <= z /\ z + AL A < MODULUS A.
  { eexists. split; first reflexivity. case: (Z.ltb_spec size (SZ A)) => H; lia. }
  move: Hc => [z [-> [Z1 [Z2 Z3]]]].
  case: (Z.eqb_spec (z mod AL A) 0) => M.
  - split=> //. split=> //. apply/Z.mod_divide; [lia|done].
  - rewrite /round_up. have -> : z mod AL A =? 0 = false by apply/Z.eqb_neq.
    have B := Z.mod_pos_bound z (AL A) ltac:(lia). rewrite Z.mod_small; first lia.
    split; first lia. split; first lia.
    exists (z / AL A + 1). have := Z.div_mod z (AL A). lia.
Qed.

Lemma pow2_divide a b : power_of_2 a -> power_of_2 b -> a <= b -> (a | b).
Proof.
  move=> [k [Hk ->]] [j [Hj ->]] L. have K : k <= j by apply/(Z.pow_le_mono_r_iff 2); lia.
  exists (2 ^ (j - k)). rewrite -Z.pow_add_r; [lia|lia|]. f_equal. lia.
Qed.
Lemma is_pow2_ok z : is_pow2 z = true -> power_of_2 z.
Proof.
  rewrite /is_pow2 => /andP [/Z.ltb_lt P /Z.eqb_eq L]. exists (Z.log2 z). split; first exact: Z.log2_nonneg.
  have [S1 S2] := Z.log2_spec z P. have Nn := Z.log2_nonneg z.
  case: (Z.eq_dec z (2 ^ Z.log2 z)) => // N. exfalso.
  have E1 : Z.testbit z (Z.log2 z) = true by exact: Z.bit_log2.
  have E2 : Z.testbit (z - 1) (Z.log2 z) = true.
  { have -> : Z.log2 z = Z.log2 (z - 1).
    - symmetry. apply: Z.log2_unique; lia.
    - apply: Z.bit_log2. have : 0 < 2 ^ Z.log2 z by apply: Z.pow_pos_nonneg; lia. lia. }
  have : Z.testbit (Z.land z (z - 1)) (Z.log2 z) = true by rewrite Z.land_spec E1 E2. by rewrite L Z.bits_0.
Qed.

(** ** Allocation *)
Definition bump (align : Z) : Z := let align := if align =? 0 then 1 else align in if align <? AL A then AL A else align.
Lemma bump_ok align : align_ok align -> AL A <= bump align /\ (AL A | bump align) /\ forall q, (bump align | q) -> align = 0 \/ (align | q).
Proof.
  move: HA => [H1 [_ [_ [HP _]]]]. rewrite /bump /align_ok => [[->|P]].
  - cbn [Z.eqb]. case: (Z.ltb_spec 1 (AL A)) => H.
    + split; first lia. split; first exact: Z.divide_refl. move=> q _. by left.
    + split; first lia. split; last by move=> q _; left. have -> : AL A = 1 by lia. exact: Z.divide_refl.
  - have Pz : 0 < align by move: P => [k [Hk ->]]; apply: Z.pow_pos_nonneg; lia.
    have -> : align =? 0 = false by apply/Z.eqb_neq; lia.
    case: (Z.ltb_spec align (AL A)) => H.
    + split; first lia. split; first exact: Z.divide_refl. move=> q Hq. right. apply: Z.divide_trans Hq. apply: pow2_divide => //. lia.
    + split=> //. split; first exact: pow2_divide. move=> q Hq. by right.
Qed.

Lemma alloc_ok fuel s l size align cached : FL s l -> size_ok A size -> align_ok align ->
  (List.length l * (List.length l + 2) + 1 < fuel)%nat ->
  exists s' q, camkes_dma_alloc A E fuel s size align cached = Ok (s', q) /\
    (forall x, ncached (mem s' x) = ncached (mem s x)) /\
    exists s1 l1, FL s1 l1 /\ (forall z c, cover_flag c (pcs (mem s1) l1) z = cover_flag c (pcs (mem s) l) z) /\
      (q = 0 /\ s' = s1 \/ alloc_post A E s1 l1 (real_size A size) (bump align) cached s' q).
Proof.
  move=> F Hs Ha Hf. rewrite /camkes_dma_alloc.
  case: (Z.eqb_spec (head s) 0) => Hh.
  { exists s, 0. split=> //. split=> //. exists s, l. split=> //. split=> //. by left. }
  rewrite -/(bump align). have [S1 [S2 S3]] := real_size_ok size Hs. have [A1 [A2 A3]] := bump_ok align Ha.
  have Hd : forall s l, FL s l -> head s = hd 0 l by move=> s0 l0 [C _]; exact: (chain_hd (mem s0)).
  have [s1 [q [H1 H2]]] := try_alloc_list_ok A E HA (real_size A size) (bump align) cached S1 S3 A1 A2 l [] s fuel F ltac:(nia).
  cbn [last app] in H1, H2. rewrite (Hd s l F) H1. cbn [bind].
  case C: ((q =? 0) && (SZ A <? real_size A size)).
  - move/andP: C => [/Z.eqb_eq Eq _]. case: H2 => [[_ Es]|[_ [? _]]]; last lia. subst s1.
    have [s2 [l2 [D1 [D2 [D3 [D4 [_ D6]]]]]]] := defrag_ok fuel s l F Hh ltac:(lia).
    rewrite D1. cbn [bind].
    have [s3 [q3 [H3 H4]]] := try_alloc_list_ok A E HA (real_size A size) (bump align) cached S1 S3 A1 A2 l2 [] s2 fuel D2 ltac:(nia).
    cbn [last app] in H3, H4. rewrite (Hd s2 l2 D2) H3. exists s3, q3. split=> //. split.
    + move=> x. rewrite -D4. case: H4 => [[_ ->]//|[_ [_ [_ [H _]]]]]. exact: H.
    + exists s2, l2. split=> //.
  - exists s1, q. split=> //. split.
    + move=> x. case: H2 => [[_ ->]//|[_ [_ [_ [H _]]]]]. exact: H.
    + exists s, l. split=> //.
Qed.

(** ** Freeing *)
Lemma free_region_ok s l ptr size cached : FL s l -> size_ok A size -> 0 < ptr -> (AL A | ptr) -> contiguous E ptr (real_size A size) ->
  (forall b, ptr <= b < ptr + real_size A size -> good b /\ cover (pcs (mem s) l) b = 0%nat) ->
  exists s', free_region A s ptr size cached = Ok s' /\ FL s' (ptr :: l) /\
    (forall z c, cover_flag c (pcs (mem s') (ptr :: l)) z =
       (ind (covers (ptr, real_size A size, cached) z && Bool.eqb cached c) + cover_flag c (pcs (mem s) l) z)%nat) /\
    (forall x, ncached (mem s' x) = if x =? ptr then cached else ncached (mem s x)).
Proof.
  move=> F Hs P1 P2 Hc Hb. move: (HA) => [H1 [H2 [H3 _]]]. have [S1 [S2 S3]] := real_size_ok size Hs.
  rewrite /free_region. have -> : ptr mod AL A =? 0 = true by apply/Z.eqb_eq; apply/Z.mod_divide; [lia|done].
  cbn [assert bind]. eexists. split; first reflexivity.
  remember (prepend_node (set_mem s ptr (mk_node cached (real_size A size) (nnext (mem s ptr)) 0)) ptr) as s' eqn:Es'.
  have M : forall x, mem s' x = if x =? ptr then mk_node cached (real_size A size) (head s) 0 else mem s x.
  { move=> x. rewrite Es' /prepend_node. cbn [mem set_head]. rewrite mem_set_next !mem_set_mem Z.eqb_refl. by case: (x =? ptr). }
  have [C [W V]] := F.
  have NI : ~ In ptr l.
  { move=> H. have [_ G] := Hb ptr ltac:(lia). have := cover_in _ _ ptr (in_map (piece_at (mem s)) _ _ H) (wfn_covers A E HA (mem s) ptr (W ptr H)).
    rewrite -/(pcs (mem s) l). lia. }
  have MO : forall x, In x l -> mem s' x = mem s x.
  { move=> x Hx. rewrite M. have -> // : x =? ptr = false by apply/Z.eqb_neq => ?; subst x. }
  have CV : forall z c, cover_flag c (pcs (mem s') (ptr :: l)) z =
       (ind (covers (ptr, real_size A size, cached) z && Bool.eqb cached c) + cover_flag c (pcs (mem s) l) z)%nat.
  { move=> z c. rewrite pcs_cons cover_flag_cons M Z.eqb_refl. cbn [nsize ncached flag snd]. rewrite (pcs_ext (mem s)) //.
    move=> x Hx. by rewrite MO. }
  split; [|split=> //].
  - split; [|split].
    + have -> : head s' = ptr by rewrite Es'. split=> //. split; first lia. rewrite M Z.eqb_refl. cbn [nnext]. apply: chain_ext C => x Hx. by rewrite MO.
    + move=> x [Ex|Hx]; last by rewrite MO //; exact: W. subst x. rewrite M Z.eqb_refl. rewrite /Dma_Proofs.wfn. cbn [nsize nupper].
      split=> //. split=> //. split=> //. split=> //. split; first by left. split=> // b Hb'. exact: (proj1 (Hb b Hb')).
    + move=> z. have := V z. rewrite !cover_flags !CV. case C': (covers (ptr, real_size A size, cached) z).
      * move/coversP: C' => C'. have [_ C0] := Hb z C'. rewrite cover_flags in C0. case: (cached) => /=; lia.
      * cbn [andb ind]. lia.
  - move=> x. rewrite M. by case: (x =? ptr).
Qed.

Lemma init_pages_ok page cached : size_ok A page -> real_size A page = page -> (AL A | page) -> forall n s l base,
  FL s l -> 0 < base -> (AL A | base) -> (forall i, 0 <= i < Z.of_nat n -> contiguous E (base + i * page) page) ->
  (forall b, base <= b < base + Z.of_nat n * page -> good b /\ cover (pcs (mem s) l) b = 0%nat /\ fcached E b = Some cached) ->
  exists s' l', init_pages A n s base page cached = Ok s' /\ FL s' l' /\
    (forall z c, cover_flag c (pcs (mem s') l') z =
       (ind (covers (base, (Z.of_nat n * page)%Z, cached) z && Bool.eqb cached c) + cover_flag c (pcs (mem s) l) z)%nat) /\
    (tidy E (mk_world s [] []) -> tidy E (mk_world s' [] [])).
Proof.
  move=> Hp Hr HL. have [S1 [S2 S3]] := real_size_ok page Hp. rewrite Hr in S1 S2 S3. move: (HA) => [H1 [H2 [H3 _]]].
  elim=> [|n IH] s l base F B1 B2 Hc Hg.
  - exists s, l. split=> //. split=> //. split=> // z c.
    have -> : covers (base, Z.of_nat 0 * page, cached) z = false by apply/covers_false; lia. done.
  - cbn [init_pages]. have -> : base mod AL A =? 0 = true by apply/Z.eqb_eq; apply/Z.mod_divide; [lia|done].
    cbn [assert bind].
    have Hc0 : contiguous E base page. { have := Hc 0 ltac:(lia). by rewrite Z.mul_0_l Z.add_0_r. }
    have [s1 [-> [F1 [C1 N1]]]] := free_region_ok s l base page cached F Hp B1 B2 ltac:(rewrite Hr; exact Hc0)
      ltac:(rewrite Hr => b Hb; have [G1 [G2 _]] := Hg b ltac:(nia); done).
    cbn [bind]. rewrite Hr in C1.
    have [s2 [l2 [-> [F2 [C2 T2]]]]] : exists s' l', init_pages A n s1 (base + page) page cached = Ok s' /\ FL s' l' /\
      (forall z c, cover_flag c (pcs (mem s') l') z =
       (ind (covers ((base + page)%Z, (Z.of_nat n * page)%Z, cached) z && Bool.eqb cached c) + cover_flag c (pcs (mem s1) (base :: l)) z)%nat) /\
      (tidy E (mk_world s1 [] []) -> tidy E (mk_world s' [] [])).
    { apply: IH => //; first lia.
      - exact: Z.divide_add_r.
      - move=> i Hi. have -> : base + page + i * page = base + (i + 1) * page by lia. apply: Hc. lia.
      - move=> b Hb. have [G1 [G2 G3]] := Hg b ltac:(nia). split=> //. split=> //. rewrite cover_flags !C1.
        rewrite cover_flags in G2. have -> : covers (base, page, cached) b = false by apply/covers_false; lia. cbn [andb ind]. lia. }
    exists s2, l2. split=> //. split=> //. split.
    + move=> z c. rewrite C2 C1. have := covers_split base page (Z.of_nat n * page) cached cached cached z ltac:(lia) ltac:(nia).
      have -> : page + Z.of_nat n * page = Z.of_nat (S n) * page by lia.
      case: (Bool.eqb cached c); rewrite ?andb_true_r ?andb_false_r; cbn [ind]; lia.
    + move=> T. apply: T2. move=> a c Ha. cbn [dma]. rewrite N1. case: (Z.eqb_spec a base) => [Ea|_]; last exact: T Ha.
      subst a. have [_ [_ G3]] := Hg base ltac:(nia). congruence.
Qed.

(** ** Fuel *)
Lemma inner_mono p vs ve ps pe pc pprev : forall f f' s qprev q r, (f <= f')%nat ->
  defrag_inner E f s pprev p vs ve ps pe pc qprev q = Ok r -> defrag_inner E f' s pprev p vs ve ps pe pc qprev q = Ok r.
Proof.
  elim=> [//|f IH] [|f'] s qprev q r L; first lia. cbn [defrag_inner].
  case: (q =? p) => //. case: (extract_paddr E s q) => [[s1 qps]|e] //. cbn [bind].
  case: (assert _) => [u|e] //. cbn [bind]. case: (_ && _ && _) => //. case: (_ && _ && _) => //. apply: IH. lia.
Qed.
Lemma outer_mono : forall f f' g g' s pprev p r, (f <= f')%nat -> (g <= g')%nat ->
  defrag_outer E f g s pprev p = Ok r -> defrag_outer E f' g' s pprev p = Ok r.
Proof.
  elim=> [//|f IH] [|f'] g g' s pprev p r L1 L2; first lia. cbn [defrag_outer].
  case: (p =? 0) => //. case: (extract_paddr E s p) => [[s1 ps]|e] //. cbn [bind].
  case I: (defrag_inner E g _ _ _ _ _ _ _ _ _ _) => [[s2 mv]|e] //. rewrite (inner_mono _ _ _ _ _ _ _ _ g' _ _ _ _ L2 I). cbn [bind].
  apply: IH; lia.
Qed.
Lemma list_mono size align cached : forall f f' s prev p r, (f <= f')%nat ->
  try_alloc_from_free_list A f s size align cached prev p = Ok r -> try_alloc_from_free_list A f' s size align cached prev p = Ok r.
Proof.
  elim=> [//|f IH] [|f'] s prev p r L; first lia. cbn [try_alloc_from_free_list].
  case: (p =? 0) => //. case: (_ || _); first by apply: IH; lia.
  case: (try_alloc_from_free_region _ _ _ _ _ _) => [[s1 q]|e] //. cbn [bind]. case: (q =? 0) => //. apply: IH. lia.
Qed.
Lemma alloc_mono f f' s size align cached r : (f <= f')%nat ->
  camkes_dma_alloc A E f s size align cached = Ok r -> camkes_dma_alloc A E f' s size align cached = Ok r.
Proof.
  move=> L. rewrite /camkes_dma_alloc. case: (head s =? 0) => //.
  case T: (try_alloc_from_free_list A f _ _ _ _ _ _) => [[s1 q]|e] //. rewrite (list_mono _ _ _ _ f' _ _ _ _ L T). cbn [bind].
  case: (_ && _) => //. rewrite /defrag. case: (assert _) => [u|e] //. cbn [bind].
  case D: (defrag_outer E f f _ _ _) => [s2|e] //. rewrite (outer_mono _ f' _ f' _ _ _ _ L L D). cbn [bind]. exact: list_mono.
Qed.

(** ** Histories *)
Definition Inv (w : world) (l : list Z) : Prop :=
  FL (dma w) l /\
  (forall b, (cover (pcs (mem (dma w)) l) b + cover (live_pieces A w) b)%nat = cover (pools w) b) /\
  (forall b, (cover (pools w) b <= 1)%nat) /\
  (forall q n, In (q, n) (live w) -> size_ok A n /\ 0 < q /\ (AL A | q) /\ contiguous E q (real_size A n)) /\
  (forall b, (1 <= cover (pools w) b)%nat -> good b).

Lemma live_cover w q n b : In (q, n) (live w) -> q <= b < q + real_size A n -> (1 <= cover (live_pieces A w) b)%nat.
Proof. move=> H Hb. apply: (cover_in (q, real_size A n, true)); [exact: (in_map (fun r => (fst r, real_size A (snd r), true)) _ _ H)|by apply/coversP]. Qed.
Lemma drop_first_cover q n l b : In (q, n) l ->
  cover (map (fun r : Z * Z => (fst r, real_size A (snd r), true)) l) b =
  (ind (covers (q, real_size A n, true) b) + cover (map (fun r : Z * Z => (fst r, real_size A (snd r), true)) (drop_first (q, n) l)) b)%nat.
Proof.
  elim: l => [//|[q' n'] l IH] H. cbn [map drop_first fst snd]. rewrite cover_cons.
  case C: ((q =? q') && (n =? n')).
  - move/andP: C => [/Z.eqb_eq -> /Z.eqb_eq ->]. done.
  - cbn [map fst snd]. rewrite cover_cons IH; last lia. case: H => // [[E1 E2]]. subst. by rewrite !Z.eqb_refl in C.
Qed.
Lemma drop_first_in x y l : In y (drop_first x l) -> In y l.
Proof. elim: l => [//|z l IH] /=. case: (_ && _); [by right|]. move=> [->|H]; [by left|right; exact: IH]. Qed.

Definition hom (w : world) (l : list Z) : Prop :=
  tidy E w /\ (forall c b, (1 <= cover_flag c (pcs (mem (dma w)) l) b)%nat -> fcached E b = Some c) /\
  (forall q n, In (q, n) (live w) -> forall b, q <= b < q + real_size A n -> fcached E b = fcached E q).

Lemma hom_block s l p : (forall c b, (1 <= cover_flag c (pcs (mem s) l) b)%nat -> fcached E b = Some c) -> In p l ->
  forall b, p <= b < p + nsize (mem s p) -> fcached E b = Some (ncached (mem s p)).
Proof.
  move=> H Hp b Hb. apply: H. apply: (cover_flag_in _ (piece_at (mem s) p)) => //; [exact: (in_map (piece_at (mem s)))|by apply/coversP].
Qed.

Lemma use_inv w w' : use A E w w' -> forall l, Inv w l -> exists l', Inv w' l' /\ (hom w l -> hom w' l').
Proof.
  move=> U. move: (HA) => [H1 [H2 [H3 [HP _]]]]. destruct U as [w pool n page cached s' P1 P2 P3 P4 P5 P6|w fuel size align cached s' q P1 P2 P3|w ptr size s' P1 P2];
    move=> l [F [C [D [L G]]]].
  - (* init *)
    move: P6. rewrite /camkes_dma_init.
    case C1: ((page <=? SZ A) || ~~ (pool mod page =? 0)) => //. case C2: ((pool =? 0) || ~~ (pool mod AL A =? 0)) => //.
    case C3: (~~ is_pow2 page || (page <? AL A)) => //.
    move/orb_false_iff: C1 => [/Z.leb_gt C1 _]. move/orb_false_iff: C2 => [_ /negbFE /Z.eqb_eq C2].
    move/orb_false_iff: C3 => [/negbFE /is_pow2_ok C3 /Z.ltb_ge C4].
    have HL : (AL A | page) by exact: pow2_divide.
    have Hr : real_size A page = page.
    { rewrite /real_size. have -> : page <? SZ A = false by apply/Z.ltb_ge; lia.
      have -> // : page mod AL A =? 0 = true by apply/Z.eqb_eq; apply/Z.mod_divide; [lia|done]. }
    have -> : (n * page + page - 1) / page = n.
    { symmetry. apply: (Z.div_unique_pos _ _ _ (page - 1)); lia. }
    have Hg : forall b, pool <= b < pool + Z.of_nat (Z.to_nat n) * page -> good b /\ cover (pcs (mem (dma w)) l) b = 0%nat /\ fcached E b = Some cached.
    { move=> b Hb. have [Q1 [Q2 [Q3 Q4]]] := P4 b ltac:(nia). split; first by split; [|split; [|congruence]].
      split=> //. have := C b. lia. }
    have Hal : (AL A | pool) by apply/Z.mod_divide; [lia|done].
    have [s2 [l2 [-> [F2 [C2' TD]]]]] := init_pages_ok page cached P3 Hr HL (Z.to_nat n) (dma w) l pool F P1 Hal
       ltac:(move=> i Hi; apply: P5; lia) Hg.
    cbn [bind]. move=> [?]. subst s2. exists l2.
    have Hn : Z.of_nat (Z.to_nat n) = n by lia. rewrite Hn in C2'.
    split; last first.
    { move=> [HT [HF HL']]. split; first exact: TD HT. split=> // c b. cbn [dma]. rewrite C2'.
      case Cb: (covers (pool, n * page, cached) b && Bool.eqb cached c); last exact: HF.
      move=> _. move/andP: Cb => [/coversP Cb /eqb_prop <-]. by have [_ [-> _]] := P4 b Cb. }
    split=> //. cbn [dma live pools].
    split; [|split; [|split]].
    + move=> b. rewrite cover_flags !C2'. rewrite cover_cons. have := C b. rewrite cover_flags /live_pieces. cbn [live].
      case: (cached); rewrite /= ?andb_true_r ?andb_false_r; cbn [ind]; lia.
    + move=> b. rewrite cover_cons. case Cb: (covers (pool, n * page, cached) b); last exact: D.
      move/coversP: Cb => Cb. have [-> _] := P4 b Cb. done.
    + exact: L.
    + move=> b. rewrite cover_cons. case Cb: (covers (pool, n * page, cached) b); last exact: G.
      move=> _. move/coversP: Cb => Cb. have [_ [Q2 [Q3 Q4]]] := P4 b Cb. split=> //. split=> //. congruence.
  - (* alloc *)
    have [s2 [q2 [P3' [NC [s1 [l1 [F1 [C1 Q]]]]]]]] := alloc_ok (fuel + (List.length l * (List.length l + 2) + 2))%nat (dma w) l size align cached F P1 P2 ltac:(lia).
    have P4 := alloc_mono fuel (fuel + (List.length l * (List.length l + 2) + 2))%nat _ _ _ _ _ ltac:(lia) P3.
    rewrite P4 in P3'. move: P3' => [? ?]. subst s2 q2.
    have C1' : forall b, cover (pcs (mem s1) l1) b = cover (pcs (mem (dma w)) l) b by move=> b; rewrite !cover_flags !C1.
    have HF1 : hom w l -> forall c b, (1 <= cover_flag c (pcs (mem s1) l1) b)%nat -> fcached E b = Some c.
    { move=> [_ [HF _]] c b. rewrite C1. exact: HF. }
    case: Q => [[Eq Es]|Q].
    + subst q s'. exists l1. cbn [Z.eqb]. split; last first.
      { move=> H. split; last by split; [exact: HF1 H|case: H => _ []]. move=> a c Ha. cbn [dma]. rewrite NC. by case: H => H _; exact: H. }
      split=> //. cbn [dma live pools]. split=> //. move=> b. by rewrite C1'.
    + move: (Q) => [Q1 [Q2 [[p [Q3 [Q4 [Q5 Q6]]]] [Q7 [l2 [F2 [C2 SB]]]]]]]. have -> : q =? 0 = false by apply/Z.eqb_neq; lia.
      have [S1 [S2 S3]] := real_size_ok size P1.
      exists l2. split; last first.
      { move=> H. have TD : tidy E (mk_world s' ((q, size) :: live w) (pools w)).
        { move=> a c Ha. cbn [dma]. rewrite NC. by case: H => H _; exact: H. }
        split=> //. split.
        - move=> c b /cover_flag_ge1 [r [Hr [Cr Fr]]]. cbn [dma] in Hr. move/in_map_iff: Hr => [x' [Ex' Hx']]. subst r.
          move: Cr Fr => /coversP Cr Fr. cbn [flag snd piece_at] in Fr. have [x [Hx [X1 X2]]] := SB x' Hx'.
          have HB := hom_block s1 l1 x (HF1 H) Hx.
          have [_ [W2 _]] := F2. have [_ [_ [_ [Z2 _]]]] := W2 x' Hx'.
          rewrite (HB b); first lia. have := TD x' _ (HB x' ltac:(lia)). cbn [dma]. congruence.
        - cbn [live]. move=> q' n' [[E1 E2]|H']; last by case: H => _ [_ HL]; exact: HL.
          subst q' n'. move=> b Hb. have HB := hom_block s1 l1 p (HF1 H) Q3. rewrite !HB //; lia. }
      split=> //. cbn [dma live pools]. split; [|split=> //; split=> //].
      * move=> b. rewrite /live_pieces. cbn [live map fst snd]. rewrite cover_cons. have := C2 b true. rewrite C1'. have := C b. rewrite /live_pieces. lia.
      * move=> q' n' [[E1 E2]|H]; last exact: L. subst q' n'. split=> //. split=> //. 
        have [A1 [A2 A3]] := bump_ok align P2. split; first exact: Z.divide_trans A2 Q1.
        have [_ [W _]] := F1. have [_ [_ [_ [_ [_ [K _]]]]]] := W p Q3. move=> k Hk.
        have -> : q + k = p + (q - p + k) by lia. rewrite K; first lia. have -> : phys E q = phys E p + (q - p); last lia.
        rewrite -K; last by f_equal; lia. have [? _] := real_size_ok size P1. lia.
  - (* free *)
    move: P2. rewrite /camkes_dma_free. have [L1 [L2 [L3 L4]]] := L ptr size P1. have -> : ptr =? 0 = false by apply/Z.eqb_neq; lia.
    have [S1 [S2 S3]] := real_size_ok size L1.
    have Hb : forall b, ptr <= b < ptr + real_size A size -> good b /\ cover (pcs (mem (dma w)) l) b = 0%nat.
    { move=> b Hb. have H := live_cover w ptr size b P1 Hb. have := C b. have := D b. split; last lia. apply: G. lia. }
    have [Gp _] := Hb ptr ltac:(lia). case Ef: (fcached E ptr) => [cached|]; last by move: Gp => [_ [_ ?]].
    have [s2 [-> [F2 [C2 N2]]]] := free_region_ok (dma w) l ptr size cached F L1 L2 L3 L4 Hb.
    move=> [?]. subst s2. exists (ptr :: l). split; last first.
    { move=> [HT [HF HL]]. split; [|split].
      - move=> a c Ha. cbn [dma]. rewrite N2. case: (Z.eqb_spec a ptr) => [Ea|_]; last exact: HT. subst a. congruence.
      - move=> c b. cbn [dma]. rewrite C2. case Cb: (covers (ptr, real_size A size, cached) b && Bool.eqb cached c); last exact: HF.
        move=> _. move/andP: Cb => [/coversP Cb /eqb_prop <-]. by rewrite (HL ptr size P1 b Cb).
      - move=> q n H. apply: HL. cbn [live] in H. exact: drop_first_in H. }
    split=> //. cbn [dma live pools]. split; [|split=> //; split=> //].
    + move=> b. have := C b. rewrite /live_pieces. cbn [live]. rewrite (drop_first_cover ptr size) //. rewrite !cover_flags !C2.
      rewrite /covers. case: (cached); rewrite /= ?andb_true_r ?andb_false_r; cbn [ind]; lia.
    + move=> q n H. apply: L. exact: drop_first_in H.
Qed.

Lemma scribble_inv w w' l : scribble A w w' -> Inv w l -> Inv w' l /\ (tidy E w' -> hom w l -> hom w' l).
Proof.
  move=> U. destruct U as [w a n Ha]. move=> [F [C [D [L G]]]]. have [Cn [W V]] := F.
  have NI : ~ In a l.
  { move=> H. have := cover_in _ _ a (in_map (piece_at (mem (dma w))) _ _ H) (wfn_covers A E HA _ a (W a H)). rewrite -/(pcs (mem (dma w)) l). have := C a. have := D a. lia. }
  have MO : forall x, In x l -> write (mem (dma w)) a n x = mem (dma w) x.
  { move=> x Hx. rewrite /write. have -> // : x =? a = false by apply/Z.eqb_neq => ?; subst x. }
  have EP : pcs (write (mem (dma w)) a n) l = pcs (mem (dma w)) l by apply: pcs_ext => x Hx; rewrite MO.
  split; last by move=> HT [_ [HF HL]]; split=> //; split=> // c b; cbn [dma mem]; rewrite EP; exact: HF.
  split; last by split; [move=> b; cbn [dma mem]; rewrite EP; exact: C|].
  split; [|split].
  - cbn [dma mem head]. apply: chain_ext Cn => x Hx. by rewrite MO.
  - cbn [dma mem]. move=> x Hx. rewrite MO //. exact: W.
  - cbn [dma mem]. by rewrite EP.
Qed.

Lemma reachable_inv w : reachable A E w -> exists l, Inv w l.
Proof.
  elim=> {w} [m|w w' _ [l H] U|w w' _ [l H] U].
  - exists []. split; first by split; [|split=> //; move=> b; rewrite /cover /=; lia]. split=> //. split; first by move=> b; rewrite /cover /=; lia. split=> //. move=> b. rewrite /cover /=. lia.
  - have [l' [H' _]] := use_inv _ _ U l H. by exists l'.
  - exists l. exact: (proj1 (scribble_inv _ _ _ U H)).
Qed.
Lemma tidy_inv w : reachable_tidy A E w -> exists l, Inv w l /\ hom w l.
Proof.
  elim=> {w} [m HT|w w' _ [l [H Hh]] U|w w' _ [l [H Hh]] U HT].
  - exists []. split; last by split=> //; split=> // c b; rewrite /cover_flag /=; lia.
    split; first by split; [|split=> //; move=> b; rewrite /cover /=; lia]. split=> //. split; first by move=> b; rewrite /cover /=; lia. split=> //. move=> b. rewrite /cover /=. lia.
  - have [l' [H' Hh']] := use_inv _ _ U l H. exists l'. split=> //. exact: Hh'.
  - exists l. have [H' Hh'] := scribble_inv _ _ _ U H. split=> //. exact: Hh'.
Qed.
Lemma tidy_reachable w : reachable_tidy A E w -> reachable A E w.
Proof. elim=> {w} [m _|w w' _ H U|w w' _ H U _]; [exact: R_start|exact: R_use H U|exact: R_scribble H U]. Qed.
End arch.
