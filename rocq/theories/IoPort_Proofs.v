(** Proofs about access to IO ports. *)
From Coq Require Import ssreflect ssrbool PeanoNat NArith List Bool Lia.
From Verif Require Import Prelude IoPort_Model IoPort_Spec.
Import ListNotations.
Open Scope N_scope.

Lemma regions_nth attrs i s e : nth_error attrs i = Some (s, e) ->
  nth_error (regions attrs) i = Some (Region (u16 s) (u16 e) i i).
Proof.
  rewrite /regions => HN.
  have G : forall m (l : list (N * N)) j, nth_error l j = Some (s, e) ->
    nth_error (map (fun '(i, (s, e)) => Region (u16 s) (u16 e) i i) (combine (seq m (List.length l)) l)) j
    = Some (Region (u16 s) (u16 e) (m + j)%nat (m + j)%nat).
  { move=> m l. elim: l m => [|[a b] l IH] m [|j] //=.
    - move=> [-> ->]. by rewrite Nat.add_0_r.
    - move=> X. by rewrite (IH (S m) j X) Nat.add_succ_r. }
  exact: (G 0%nat attrs i HN).
Qed.
Lemma regions_In attrs r : In r (regions attrs) -> exists i s e, nth_error attrs i = Some (s, e) /\ r = Region (u16 s) (u16 e) i i.
Proof.
  move=> H. have [i N] := In_nth_error _ _ H.
  case A: (nth_error attrs i) => [[s e]|].
  - exists i, s, e. split=> //. rewrite (regions_nth _ _ _ _ A) in N. by case: N.
  - exfalso. move/nth_error_None: A. have : (i < List.length (regions attrs))%nat by apply/nth_error_Some; rewrite N.
    rewrite /regions map_length combine_length seq_length Nat.min_id. lia.
Qed.
Lemma u16_small x : x < 65536 -> u16 x = x.
Proof. exact: N.mod_small. Qed.
Lemma sensible_nth attrs i s e : sensible attrs -> nth_error attrs i = Some (s, e) -> s <= e < 65536.
Proof. move=> /Forall_forall S1 A. exact: (S1 (s, e) (nth_error_In _ _ A)). Qed.

Lemma find_own attrs i s e port : sensible attrs -> disjoint attrs -> nth_error attrs i = Some (s, e) -> s <= port <= e ->
  find_io_port_region (regions attrs) port = Some (Region s e i i).
Proof.
  move=> SN DJ A P. have [L1 L2] := sensible_nth _ _ _ _ SN A.
  have OWN : In (Region s e i i) (regions attrs).
  { apply: (nth_error_In _ i). rewrite (regions_nth _ _ _ _ A) !u16_small //. lia. }
  rewrite /find_io_port_region. case F: (find _ _) => [r|].
  - have [Ir /andP [/N.leb_le R1 /N.leb_le R2]] := find_some _ _ F. have [j [s' [e' [B E]]]] := regions_In _ _ Ir.
    subst r. cbn in R1, R2. have [M1 M2] := sensible_nth _ _ _ _ SN B.
    have Es : u16 s' = s' by apply: u16_small; lia. have Ee : u16 e' = e' by apply: u16_small; lia.
    rewrite Es in R1 |- *. rewrite Ee in R2 |- *.
    case: (PeanoNat.Nat.eq_dec i j) => [X|NE]; first by subst j; rewrite A in B; case: B => -> ->.
    exfalso. case: (DJ i j s e s' e' A B NE); lia.
  - exfalso. have := find_none _ _ F _ OWN. cbn. move/andP. apply. split; apply/N.leb_le; lia.
Qed.

Lemma truncate_limit z v : v < limit z -> truncate z v = v.
Proof. case: z => H; exact: N.mod_small. Qed.
Lemma truncate_twice z v : truncate z (truncate z v) = truncate z v.
Proof. case: z; exact: N.mod_mod. Qed.
Lemma bytesP z : bytes z = width z.
Proof. by case: z. Qed.
Lemma allowedP attrs i s e port z : nth_error attrs i = Some (s, e) -> s <= port ->
  allowed attrs i port z = (port + width z <=? e + 1).
Proof.
  move=> A P. rewrite /allowed /cap_range A bytesP. have -> : (s <=? port) = true by exact/N.leb_le. done.
Qed.

Section Access.
  Variables (V : device) (attrs : list (N * N)) (handler : nat -> answer) (junk : N).
  Hypotheses (SN : sensible attrs) (DJ : disjoint attrs).
  Variables (i : nat) (s e : N).
  Hypothesis A : nth_error attrs i = Some (s, e).

  Lemma in_outside z off d : e < s + off -> in_offset V attrs handler junk i z off d = Stopped d [].
  Proof.
    move=> L. rewrite /in_offset A /in_range. have -> : (s + off <=? e) = false by apply/N.leb_gt.
    by rewrite andb_false_r.
  Qed.
  Lemma out_outside z off v d : e < s + off -> out_offset V attrs handler i z off v d = Stopped d [].
  Proof.
    move=> L. rewrite /out_offset A /in_range. have -> : (s + off <=? e) = false by apply/N.leb_gt.
    by rewrite andb_false_r.
  Qed.
  Lemma range_true off : s + off <= e -> in_range s e (s + off) = true.
  Proof. move=> L. rewrite /in_range. apply/andP. split; apply/N.leb_le; lia. Qed.
  Lemma find_here off : s + off <= e -> find_io_port_region (regions attrs) (u16 (s + off)) = Some (Region s e i i).
  Proof.
    move=> L. have [L1 L2] := sensible_nth _ _ _ _ SN A. rewrite u16_small; first lia.
    apply: find_own => //. lia.
  Qed.
  Lemma port_here off : s + off <= e -> u16 (s + off) = s + off.
  Proof. move=> L. have [L1 L2] := sensible_nth _ _ _ _ SN A. rewrite u16_small //. lia. Qed.

  Lemma in_inside z off d v d' : s + off + width z <= e + 1 ->
    dev_in V (s + off) z d = (v, d') -> v < limit z ->
    in_offset V attrs handler junk i z off d = Returned v d' [].
  Proof.
    move=> L D B. have L0 : s + off <= e by case: (z) L => /=; lia.
    rewrite /in_offset A (range_true _ L0) /arch_in (find_here _ L0) (port_here _ L0) /=.
    rewrite (allowedP _ _ _ _ _ _ A); first lia. have -> : (s + off + width z <=? e + 1) = true by exact/N.leb_le.
    by rewrite D !truncate_limit.
  Qed.
  Lemma out_inside z off v d : s + off + width z <= e + 1 -> v < limit z ->
    out_offset V attrs handler i z off v d = Returned 0 (dev_out V (s + off) z v d) [].
  Proof.
    move=> L B. have L0 : s + off <= e by case: (z) L => /=; lia.
    rewrite /out_offset A (range_true _ L0) /arch_out (find_here _ L0) (port_here _ L0) /=.
    rewrite (allowedP _ _ _ _ _ _ A); first lia. have -> : (s + off + width z <=? e + 1) = true by exact/N.leb_le.
    by rewrite !truncate_limit.
  Qed.
  Lemma in_over z off d : s + off <= e -> e + 1 < s + off + width z -> junk < limit z ->
    in_offset V attrs handler junk i z off d = refused handler i junk d.
  Proof.
    move=> L0 L B.
    rewrite /in_offset A (range_true _ L0) /arch_in (find_here _ L0) (port_here _ L0) /=.
    rewrite (allowedP _ _ _ _ _ _ A); first lia. have -> : (s + off + width z <=? e + 1) = false by exact/N.leb_gt.
    rewrite /syscall_error_handler /refused /=. by case: (handler i); rewrite ?truncate_limit.
  Qed.
  Lemma out_over z off v d : s + off <= e -> e + 1 < s + off + width z ->
    out_offset V attrs handler i z off v d = refused handler i 0 d.
  Proof.
    move=> L0 L.
    rewrite /out_offset A (range_true _ L0) /arch_out (find_here _ L0) (port_here _ L0) /=.
    rewrite (allowedP _ _ _ _ _ _ A); first lia. have -> : (s + off + width z <=? e + 1) = false by exact/N.leb_gt.
    rewrite /syscall_error_handler /refused /=. by case: (handler i).
  Qed.
End Access.

(** Any settings *)
Lemma allowed_inv attrs c port z : allowed attrs c port z = true ->
  exists s e, nth_error attrs c = Some (s, e) /\ s <= port /\ port + width z <= e + 1.
Proof.
  rewrite /allowed /cap_range bytesP. case A: (nth_error attrs c) => [[s e]|] // /andP [/N.leb_le ? /N.leb_le ?].
  by exists s, e.
Qed.
Lemma in_contained V attrs handler junk i z off d :
  after (in_offset V attrs handler junk i z off d) = d \/
  exists j s e port v, nth_error attrs j = Some (s, e) /\ s <= port /\ port + width z <= e + 1 /\
    dev_in V port z d = (v, after (in_offset V attrs handler junk i z off d)).
Proof.
  rewrite /in_offset. case A: (nth_error attrs i) => [[s e]|]; last by left.
  case: (in_range s e (s + off)); last by left. rewrite /arch_in.
  case: (find_io_port_region _ _) => [r|]; last by left.
  case AL: (allowed _ _ _ _).
  - right. have [s' [e' [B [L1 L2]]]] := allowed_inv _ _ _ _ AL. case D: (dev_in V _ z d) => [v d'] /=.
    by exists (r_cap r), s', e', (u16 (s + off)), v.
  - case: (syscall_error_handler handler r) => [[]|]; by left.
Qed.
Lemma out_contained V attrs handler i z off v d :
  after (out_offset V attrs handler i z off v d) = d \/
  exists j s e port x, nth_error attrs j = Some (s, e) /\ s <= port /\ port + width z <= e + 1 /\ x < limit z /\
    after (out_offset V attrs handler i z off v d) = dev_out V port z x d.
Proof.
  rewrite /out_offset. case A: (nth_error attrs i) => [[s e]|]; last by left.
  case: (in_range s e (s + off)); last by left. rewrite /arch_out.
  case: (find_io_port_region _ _) => [r|]; last by left.
  case AL: (allowed _ _ _ _).
  - right. have [s' [e' [B [L1 L2]]]] := allowed_inv _ _ _ _ AL.
    exists (r_cap r), s', e', (u16 (s + off)), (truncate z (truncate z v)). split=> //. split=> //. split=> //. split=> //.
    case: (z); exact: N.mod_lt.
  - case: (syscall_error_handler handler r) => [[]|]; by left.
Qed.
