(** Proofs about the DMA allocator: the properties. *)
From Coq Require Import ZArith List Bool Lia ssreflect ssrbool.
From Verif Require Import Prelude Dma_Model Dma_Spec Dma_Proofs Dma_Proofs2 Dma_Proofs3.
Import ListNotations.
Open Scope Z_scope.

Section arch.
Variable A : arch.
Variable E : env.
Hypothesis HA : arch_ok A.
Notation FL := (FL A E).
Notation Inv := (Inv A E).

Lemma FL_free s l : FL s l -> free_list s (pcs (mem s) l).
Proof. move=> [C _]. by exists l. Qed.
Lemma FL_unique s l fl : FL s l -> free_list s fl -> fl = pcs (mem s) l.
Proof. move=> [C _] [l' [C' ->]]. by rewrite (chain_fun _ _ _ _ C C'). Qed.

Lemma partition_lemma w : reachable A E w ->
  exists fl, free_list (dma w) fl /\
    forall b, (cover fl b + cover (live_pieces A w) b)%nat = cover (pools w) b /\ (cover (pools w) b <= 1)%nat.
Proof.
  move=> /(reachable_inv A E HA) [l [F [C [D _]]]]. exists (pcs (mem (dma w)) l). split; first exact: FL_free.
  move=> b. split; [exact: C|exact: D].
Qed.

Lemma alloc_result w l fuel size align cached s' q : Inv w l -> size_ok A size -> align_ok align ->
  camkes_dma_alloc A E fuel (dma w) size align cached = Ok (s', q) ->
  exists s1 l1, FL s1 l1 /\ (forall z c, cover_flag c (pcs (mem s1) l1) z = cover_flag c (pcs (mem (dma w)) l) z) /\
      (q = 0 /\ s' = s1 \/ alloc_post A E s1 l1 (real_size A size) (bump A align) cached s' q).
Proof.
  move=> [F _] Hs Ha H.
  have [s2 [q2 [P3' [_ Q]]]] := alloc_ok A E HA (fuel + (List.length l * (List.length l + 2) + 2))%nat (dma w) l size align cached F Hs Ha ltac:(lia).
  have P4 := alloc_mono A E fuel (fuel + (List.length l * (List.length l + 2) + 2))%nat _ _ _ _ _ ltac:(lia) H.
  rewrite P4 in P3'. move: P3' => [? ?]. by subst s2 q2.
Qed.

Lemma alloc_lemma w fuel size align cached s' q : reachable A E w -> size_ok A size -> align_ok align ->
  camkes_dma_alloc A E fuel (dma w) size align cached = Ok (s', q) -> q <> 0 ->
  (align = 0 \/ (align | q)) /\
  (forall b, q <= b < q + size -> pool_byte w b /\ cover (live_pieces A w) b = 0%nat) /\
  contiguous E q size.
Proof.
  move=> /(reachable_inv A E HA) [l I] Hs Ha H Nq.
  have [s1 [l1 [F1 [C1 [[? _]//|Q]]]]] := alloc_result w l fuel size align cached s' q I Hs Ha H.
  move: I => [F [C [D _]]]. move: Q => [Q1 [Q2 [[p [Q3 [Q4 [Q5 Q6]]]] _]]].
  have [S1 [S2 S3]] := real_size_ok A HA size Hs. have [_ [_ B]] := bump_ok A HA align Ha.
  have [_ [W _]] := F1. have [_ [_ [_ [_ [_ [K _]]]]]] := W p Q3.
  split; first exact: B. split.
  - move=> b Hb. have H1 : (1 <= cover (pcs (mem s1) l1) b)%nat.
    { apply: (cover_in (piece_at (mem s1) p)); [exact: (in_map (piece_at (mem s1)))|apply/coversP; lia]. }
    rewrite cover_flags !C1 -cover_flags in H1. rewrite /pool_byte. have := C b. have := D b. lia.
  - move=> k Hk. have -> : q + k = p + (q - p + k) by lia. rewrite K; first lia. have -> : phys E q = phys E p + (q - p); last lia.
    rewrite -K; last by f_equal; lia. move: Hs => [? _]. lia.
Qed.

Lemma alloc_total w size align cached : reachable A E w -> size_ok A size -> align_ok align ->
  exists n, forall fuel, (n <= fuel)%nat -> exists s' q, camkes_dma_alloc A E fuel (dma w) size align cached = Ok (s', q).
Proof.
  move=> /(reachable_inv A E HA) [l [F _]] Hs Ha. exists (List.length l * (List.length l + 2) + 2)%nat => fuel Hf.
  have [s' [q [H _]]] := alloc_ok A E HA fuel (dma w) l size align cached F Hs Ha ltac:(lia). by exists s', q.
Qed.
Lemma free_total w ptr size : reachable A E w -> In (ptr, size) (live w) -> exists s', camkes_dma_free A E (dma w) ptr size = Ok s'.
Proof.
  move=> /(reachable_inv A E HA) [l [F [C [D [L G]]]]] H. have [L1 [L2 [L3 L4]]] := L ptr size H.
  have [S1 [S2 S3]] := real_size_ok A HA size L1. move: (HA) => [_ [HS _]].
  have Hb : forall b, ptr <= b < ptr + real_size A size -> good E b /\ cover (pcs (mem (dma w)) l) b = 0%nat.
  { move=> b Hb. have H' := live_cover A w ptr size b H Hb. have := C b. have := D b. split; last lia. apply: G. lia. }
  have [Gp _] := Hb ptr ltac:(lia). rewrite /camkes_dma_free. have -> : ptr =? 0 = false by apply/Z.eqb_neq; lia.
  case Ef: (fcached E ptr) => [cached|]; last by move: Gp => [_ [_ ?]].
  have [s2 [-> _]] := free_region_ok A E HA (dma w) l ptr size cached F L1 L2 L3 L4 Hb. by exists s2.
Qed.

Lemma defrag_lemma w : reachable A E w -> head (dma w) <> 0 ->
  exists n, forall fuel, (n <= fuel)%nat -> exists s', defrag E fuel (dma w) = Ok s' /\
    (exists fl', free_list s' fl') /\
    forall fl fl', free_list (dma w) fl -> free_list s' fl' ->
      (forall b c, cover_flag c fl' b = cover_flag c fl b) /\
      (forall r1 r2, In r1 fl' -> In r2 fl' -> ~ mergeable E r1 r2) /\
      (forall r, In r fl' -> contiguous E (fst (fst r)) (snd (fst r))).
Proof.
  move=> /(reachable_inv A E HA) [l [F _]] Hh. exists (List.length l * (List.length l + 2) + 1)%nat => fuel Hf.
  have [s' [l' [H [F' [C' [_ [P' _]]]]]]] := defrag_ok A E HA fuel (dma w) l F Hh ltac:(lia).
  exists s'. split=> //. split; first by exists (pcs (mem s') l'); exact: FL_free.
  move=> fl fl' /(FL_unique _ _ _ F) -> /(FL_unique _ _ _ F') ->. split; first by move=> b c; exact: C'. split.
  - move=> r1 r2 /in_map_iff [x1 [<- H1]] /in_map_iff [x2 [<- H2]]. exact: (P' x1 x2 H1 H2).
  - move=> r /in_map_iff [x [<- Hx]]. have [_ [W _]] := F'. by have [_ [_ [_ [_ [_ [K _]]]]]] := W x Hx.
Qed.

Lemma cached_lemma w fuel size align cached s' q : reachable_tidy A E w -> size_ok A size -> align_ok align ->
  camkes_dma_alloc A E fuel (dma w) size align cached = Ok (s', q) -> q <> 0 ->
  forall b, q <= b < q + size -> fcached E b = Some cached.
Proof.
  move=> /(tidy_inv A E HA) [l [I [_ [HF _]]]] Hs Ha H Nq b Hb.
  have [s1 [l1 [F1 [C1 [[? _]//|Q]]]]] := alloc_result w l fuel size align cached s' q I Hs Ha H.
  move: Q => [Q1 [Q2 [[p [Q3 [Q4 [Q5 Q6]]]] _]]].
  have [S1 [S2 S3]] := real_size_ok A HA size Hs.
  have HF1 : forall c b, (1 <= cover_flag c (pcs (mem s1) l1) b)%nat -> fcached E b = Some c.
  { move=> c b'. rewrite C1. exact: HF. }
  rewrite (hom_block E s1 l1 p HF1 Q3); first lia. by rewrite Q4.
Qed.

(** * Completeness for allocations without alignment requirement *)

Definition fits (n size : Z) : Prop := n = size \/ size + SZ A <= n.
Lemma region_fits s a p b size : FL s (a ++ p :: b) -> SZ A <= size -> (AL A | size) -> fits (nsize (mem s p)) size ->
  exists s' q, try_alloc_from_free_region A s size (AL A) (last a 0) p = Ok (s', q) /\ q <> 0.
Proof.
  move=> F Hs Hd Hf. move: (HA) => [H1 [H2 [H3 _]]].
  have Hsz : size <= nsize (mem s p) by case: Hf; lia.
  have [s' [q [H [[Eq Es]|Q]]]] := try_alloc_region_ok A E HA s a p b size (AL A) F Hs Hd ltac:(lia) (Z.divide_refl _) Hsz;
    last by exists s', q; split=> //; case: Q => _ [? _]; lia.
  exfalso. subst q s'. move: H. rewrite /try_alloc_from_free_region.
  have -> : SZ A <=? size = true by apply/Z.leb_le.
  have -> : size mod AL A =? 0 = true by apply/Z.eqb_eq; apply/Z.mod_divide; [lia|].
  have -> : AL A <=? AL A = true by apply/Z.leb_le; lia.
  cbn [assert bind]. have -> : (Z.to_nat (nsize (mem s p)) + 2 = S (Z.to_nat (nsize (mem s p)) + 1))%nat by lia.
  have Hp : In p (a ++ p :: b) by apply/in_or_app; right; left.
  have [_ [W _]] := F. have [W1 [W2 [W3 _]]] := W p Hp.
  have -> : round_down (p + nsize (mem s p) - size) (AL A) = p + nsize (mem s p) - size.
  { rewrite /round_down. have -> : (p + nsize (mem s p) - size) mod AL A = 0; last lia.
    apply/Z.mod_divide; first lia. apply: Z.divide_sub_r => //. exact: Z.divide_add_r. }
  cbn [find_place].
  have -> : (p + nsize (mem s p) - size =? p) || (p + SZ A <=? p + nsize (mem s p) - size) = true.
  { apply/orP. case: Hf => Hf; [left; apply/Z.eqb_eq|right; apply/Z.leb_le]; lia. }
  have -> : p + nsize (mem s p) - (p + nsize (mem s p) - size + size) = 0 by lia. cbn [Z.eqb negb andb bind].
  case: (if p =? _ then _ else _) => [s'|e] //= [] _. lia.
Qed.
Lemma list_complete size cached : SZ A <= size -> (AL A | size) ->
  forall b a s fuel s', FL s (a ++ b) -> 
  try_alloc_from_free_list A fuel s size (AL A) cached (last a 0) (hd 0 b) = Ok (s', 0) ->
  forall x, In x b -> ncached (mem s x) = cached -> ~ fits (nsize (mem s x)) size.
Proof.
  move=> Hs D1. elim=> [//|p b IH] a s [|fuel] s' F //. move: (HA) => [H1 [H2 [H3 _]]].
  cbn [hd try_alloc_from_free_list].
  have [Cn [W _]] := F.
  have Hp : p <> 0. { apply: (chain_nonzero _ _ _ Cn). apply/in_or_app. right. by left. }
  have -> : p =? 0 = false by apply/Z.eqb_neq.
  have Nx : nnext (mem s p) = hd 0 b.
  { move/chain_app: Cn => [z [_ [Ez [_ C2]]]]. by case: (b) C2 => [|y k] //= []. }
  have F' : FL s ((a ++ [p]) ++ b) by rewrite -app_assoc.
  have {}IH := IH (a ++ [p]) s fuel s' F'. rewrite last_last in IH. rewrite Nx.
  case T: ((nsize (mem s p) <? size) || negb (Bool.eqb (ncached (mem s p)) cached)).
  - move=> H x [Ex|Hx]; last exact: IH. subst x. move=> Ec. rewrite Ec Bool.eqb_reflx orb_false_r in T. move/Z.ltb_lt: T. rewrite /fits. lia.
  - move/orb_false_iff: T => [/Z.ltb_ge T1 /negbFE /eqb_prop T2].
    have [s1 [q [R1 R2]]] := try_alloc_region_ok A E HA s a p b size (AL A) F Hs D1 ltac:(lia) (Z.divide_refl _) T1.
    rewrite R1. cbn [bind]. case: (Z.eqb_spec q 0) => [Eq|Nq]; last by move=> [_ ?].
    case: R2 => [[_ Es]|[_ [? _]]]; last lia. subst s1 q. rewrite Nx => H x [Ex|Hx]; last exact: IH. subst x.
    move=> _ Hf. have [s2 [q2 [R3 R4]]] := region_fits s a p b size F Hs D1 Hf. rewrite R1 in R3. congruence.
Qed.
Lemma complete_lemma w fuel size align cached s' : reachable A E w -> size_ok A size -> 0 <= align <= AL A ->
  camkes_dma_alloc A E fuel (dma w) size align cached = Ok (s', 0) ->
  forall fl, free_list s' fl -> forall p n, In (p, n, cached) fl -> n <> real_size A size /\ n < real_size A size + SZ A.
Proof.
  move=> /(reachable_inv A E HA) [l I] Hs Ha H fl Hfl p n Hin. have [F _] := I. move: (HA) => [H1 [H2 _]].
  have [S1 [S2 S3]] := real_size_ok A HA size Hs.
  have Hd : forall s l, FL s l -> head s = hd 0 l by move=> s0 l0 [C _]; exact: (chain_hd (mem s0)).
  have Bp : (if (if align =? 0 then 1 else align) <? AL A then AL A else if align =? 0 then 1 else align) = AL A.
  { case: (Z.eqb_spec align 0) => ?; [case: (Z.ltb_spec 1 (AL A)); lia|case: (Z.ltb_spec align (AL A)); lia]. }
  have Main : forall s l fuel, FL s l -> try_alloc_from_free_list A fuel s (real_size A size) (AL A) cached 0 (head s) = Ok (s', 0) ->
    n <> real_size A size /\ n < real_size A size + SZ A.
  { move=> s0 l0 f0 F0 T0. rewrite (Hd _ _ F0) in T0.
    have Es : s' = s0.
    { have [s2 [q2 [T1 T2]]] := try_alloc_list_ok A E HA (real_size A size) (AL A) cached S1 S3 ltac:(lia) (Z.divide_refl _) l0 [] s0 (f0 + S (List.length l0))%nat F0 ltac:(lia).
      cbn [last] in T1. rewrite (list_mono A _ _ _ f0 _ _ _ _ _ _ T0) in T1; first lia. move: T1 => [? ?]. subst s2 q2.
      case: T2 => [[_ ?] //|[_ [? _]]]. lia. }
    subst s'. rewrite (FL_unique _ _ _ F0 Hfl) in Hin. move/in_map_iff: Hin => [x [[Ex En Ec] Hx]]. subst p.
    have := list_complete (real_size A size) cached S1 S3 l0 [] s0 f0 s0 F0 T0 x Hx Ec. rewrite En /fits. lia. }
  move: H. rewrite /camkes_dma_alloc. case: (Z.eqb_spec (head (dma w)) 0) => Hh.
  { move=> [Es]. subst s'. rewrite (FL_unique _ _ _ F Hfl) in Hin. have := Hd _ _ F. rewrite Hh. have [Cn _] := F.
    case: (l) Hin Cn => [|x k] //= _ [Ex [Nx _]]. congruence. }
  rewrite Bp. case T: (try_alloc_from_free_list _ _ _ _ _ _ _ _) => [[s1 q]|e] //. cbn [bind].
  case C: ((q =? 0) && (SZ A <? real_size A size)).
  - case D: (defrag E fuel s1) => [s2|e] //. cbn [bind]. move=> T2.
    move/andP: C => [/Z.eqb_eq Eq _]. subst q.
    have Es : s1 = dma w.
    { rewrite (Hd _ _ F) in T.
      have [s3 [q3 [T1 T3]]] := try_alloc_list_ok A E HA (real_size A size) (AL A) cached S1 S3 ltac:(lia) (Z.divide_refl _) l [] (dma w) (fuel + S (List.length l))%nat F ltac:(lia).
      cbn [last] in T1. rewrite (list_mono A _ _ _ fuel _ _ _ _ _ _ T) in T1; first lia. move: T1 => [? ?]. subst s3 q3.
      case: T3 => [[_ ?] //|[_ [? _]]]. lia. }
    subst s1.
    have [s3 [l3 [D1 [D2 _]]]] := defrag_ok A E HA (fuel + (List.length l * (List.length l + 2) + 1))%nat (dma w) l F Hh ltac:(lia).
    move: D D1. rewrite /defrag. case: (assert _) => [u|e] //. cbn [bind] => D D1.
    rewrite (outer_mono E fuel _ fuel (fuel + (List.length l * (List.length l + 2) + 1))%nat _ _ _ _ _ _ D) in D1; try lia.
    move: D1 => [?]. subst s3. exact: (Main s2 l3 fuel D2 T2).
  - move=> [Es Eq]. subst s1 q. exact: (Main (dma w) l fuel F T).
Qed.
End arch.
