(** Proofs: reception of packets. *)
From Coq Require Import ssreflect String Ascii List NArith ZArith Lia Bool.
From Verif Require Import Gdb_Model Gdb_Spec Gdb_Proofs.
Import ListNotations.
Open Scope N_scope.

(** ** Splitting at the last or the first occurrence *)
Lemma first_unique (d : N) a b a' b' : a ++ d :: b = a' ++ d :: b' -> ~ In d a -> ~ In d a' -> a = a' /\ b = b'.
Proof.
  revert a'; induction a as [|x a IH] => a' E NI NI'; destruct a' as [|x' a']; cbn in E.
  - by injection E as ->.
  - injection E as E1 E2; subst x'; by destruct NI'; left.
  - injection E as E1 E2; subst x; by destruct NI; left.
  - injection E as E1 E2; subst x'.
    destruct (IH a' E2) as [-> ->]; [firstorder|firstorder|done].
Qed.
Lemma last_unique (d : N) a b a' b' : a ++ d :: b = a' ++ d :: b' -> ~ In d b -> ~ In d b' -> a = a' /\ b = b'.
Proof.
  move=> E N1 N2; apply (f_equal (@rev N)) in E.
  rewrite !rev_app_distr /= -!app_assoc /= in E.
  apply first_unique in E; [|by rewrite -in_rev..].
  destruct E as [E1 E2].
  apply (f_equal (@rev N)) in E1; apply (f_equal (@rev N)) in E2; by rewrite !rev_involutive in E1 E2.
Qed.
Lemma has_hash (l : list N) : ~ In (ch "#") l \/ exists p q, l = p ++ ch "#" :: q /\ ~ In (ch "#") p.
Proof.
  induction l as [|c l IH]; [left; intros []|].
  destruct (N.eq_dec c (ch "#")) as [->|NE]; [right; exists [], l; split; [reflexivity|intros []]|].
  destruct IH as [IH|[p [q [-> IH]]]].
  - left; by move=> [E|E].
  - right; exists (c :: p), q; split; [done|]; by move=> [E|E].
Qed.

(** ** The contents of the buffer *)
Lemma set_nth_end l k c : set_nth (List.length l) c (l ++ repeat 0 (S k)) = l ++ c :: repeat 0 k.
Proof. induction l as [|x l IH]; [reflexivity|]; cbn [List.length List.app set_nth]; by rewrite IH. Qed.
Lemma zero_first_all l k : zero_first (List.length l) (l ++ repeat 0 k) = repeat 0 (List.length l + k).
Proof. induction l as [|x l IH]; [reflexivity|]; cbn [List.length List.app zero_first Nat.add repeat]; by rewrite IH. Qed.

Definition SIZE : nat := N.to_nat BUFSIZ.
Definition holds (l : list N) (b : buffer) : Prop :=
  (List.length l <= SIZE)%nat /\ data b = l ++ repeat 0 (SIZE - List.length l) /\ length b = N.of_nat (List.length l).

Lemma push_holds l b c : holds l b -> holds (firstn SIZE (l ++ [c])) (push_buffer c b) /\
  checksum_count (push_buffer c b) = checksum_count b /\ checksum_index (push_buffer c b) = checksum_index b /\
  command_wait (push_buffer c b) = command_wait b.
Proof.
  move=> [L [D N]]; unfold push_buffer; rewrite N.
  destruct (N.eqb_spec (N.of_nat (List.length l)) BUFSIZ) as [E|E].
  - have E': List.length l = SIZE by unfold SIZE; lia.
    rewrite firstn_app firstn_all2; [lia|].
    rewrite E' Nat.sub_diag /= app_nil_r; split; [by split|done].
  - have E': (List.length l < SIZE)%nat by unfold SIZE in *; lia.
    rewrite firstn_all2; [rewrite app_length /=; lia|].
    split; [|done]; unfold holds; cbn [data length].
    rewrite app_length Nat2N.id D; cbn [List.length]; split; [lia|split; [|lia]].
    replace (SIZE - List.length l)%nat with (S (SIZE - (List.length l + 1))) by lia.
    by rewrite set_nth_end -app_assoc.
Qed.
Lemma clear_holds l b : holds l b -> holds [] (clear_buffer b) /\
  checksum_count (clear_buffer b) = 0 /\ checksum_index (clear_buffer b) = 0 /\ command_wait (clear_buffer b) = command_wait b.
Proof.
  move=> [L [D N]]; split; [|done]; unfold holds, clear_buffer; cbn [data length List.length List.app].
  rewrite N Nat2N.id D zero_first_all; split; [lia|split; [|done]].
  f_equal; lia.
Qed.
Lemma firstn_snoc (l : list N) c : firstn SIZE (firstn SIZE l ++ [c]) = firstn SIZE (l ++ [c]).
Proof.
  generalize SIZE => n.
  destruct (Nat.le_gt_cases n (List.length l)) as [G|G].
  - rewrite !firstn_app firstn_firstn Nat.min_id firstn_length Nat.min_l // Nat.sub_diag.
    by replace (n - List.length l)%nat with 0%nat by lia.
  - by rewrite (firstn_all2 l); [lia|].
Qed.

(** ** What is known of the buffer after a stream *)
Definition inv (s : list N) (b : buffer) : Prop :=
  if command_wait b then
    exists before t, s = before ++ ch "$" :: t /\ ~ In (ch "$") t /\ holds (firstn SIZE (ch "$" :: t)) b /\
      ((~ In (ch "#") t /\ checksum_index b = 0 /\ checksum_count b = 0) \/
       (exists p q, t = p ++ ch "#" :: q /\ ~ In (ch "#") p /\ (List.length q < 2)%nat /\
          checksum_index b = N.of_nat (Nat.min SIZE (S (List.length p))) /\ checksum_count b = N.of_nat (List.length q)))
  else
    (exists l, holds l b) /\
    forall before t, s = before ++ ch "$" :: t -> ~ In (ch "$") t ->
      exists p q, t = p ++ ch "#" :: q /\ ~ In (ch "#") p /\ (2 <= List.length q)%nat.

Lemma inv_start : inv [] start.
Proof.
  unfold inv; cbn [command_wait start]; split; [exists []; split; [apply Nat.le_0_l|split; reflexivity]|].
  by move=> [|? ?] t E.
Qed.

Lemma snoc_cases (s before t : list N) c : s ++ [c] = before ++ ch "$" :: t -> c <> ch "$" ->
  exists t', t = t' ++ [c] /\ s = before ++ ch "$" :: t'.
Proof.
  move=> E NE; destruct t as [|x t] using rev_ind.
  - apply app_inj_tail in E; by destruct E.
  - clear IHt. change (before ++ ch "$" :: t ++ [x]) with (before ++ (ch "$" :: t) ++ [x]) in E.
    rewrite app_assoc in E; apply app_inj_tail in E; destruct E as [-> ->]; by exists t.
Qed.
Lemma In_snoc (x c : N) l : ~ In x l -> c <> x -> ~ In x (l ++ [c]).
Proof. move=> N NE H; apply in_app_or in H; by destruct H as [H|[H|[]]]. Qed.

Lemma step s b c : inv s b ->
  if fst (handle_char c b) then
    (exists p x, ends_with_packet (s ++ [c]) p x c /\
       holds (firstn SIZE (ch "$" :: p ++ [ch "#"; x; c])) (snd (handle_char c b)) /\
       checksum_index (snd (handle_char c b)) = N.of_nat (Nat.min SIZE (S (List.length p)))) /\
    inv (s ++ [c]) (after_packet (snd (handle_char c b)))
  else (forall p x y, ~ ends_with_packet (s ++ [c]) p x y) /\ inv (s ++ [c]) (snd (handle_char c b)).
Proof.
  move=> I.
  have H: exists l, holds l b.
  { unfold inv in I; destruct (command_wait b); [|by destruct I].
    destruct I as (before & t & _ & _ & H & _); eexists; exact H. }
  unfold handle_char.
  destruct (N.eqb_spec c (ch "$")) as [->|NE].
  - destruct H as [l H]; destruct (clear_holds _ _ H) as (H1 & C1 & C2 & C3).
    set b1 := mk_buffer _ _ _ _ _.
    have Hb1: holds [] b1 by exact H1.
    destruct (push_holds _ _ (ch "$") Hb1) as (H2 & D1 & D2 & D3).
    cbn [fst snd]; rewrite D1 D3 C1; cbn [N.eqb andb].
    split.
    + move=> p x y P0; destruct P0 as [[before E] (_ & _ & _ & NY)].
      rewrite app_assoc in E; change [ch "#"; x; y] with ([ch "#"; x] ++ [y]) in E; rewrite !app_assoc in E.
      apply app_inj_tail in E; destruct E as [_ E]; congruence.
    + unfold inv; rewrite D3; exists s, []; split; [done|]; split; [auto|]; split; [exact H2|].
      left; rewrite D1 D2; by split; [auto|].
  - (* the packet that would end here *)
    have P: forall p x y before t, s = before ++ ch "$" :: t -> ~ In (ch "$") t ->
              ends_with_packet (s ++ [c]) p x y -> t = p ++ [ch "#"; x] /\ y = c.
    { move=> p x y before t -> NT P0; destruct P0 as [[before' E] (N1 & N2 & N3 & N4)].
      change [ch "#"; x; y] with ([ch "#"; x] ++ [y]) in E; rewrite !app_assoc in E.
      apply app_inj_tail in E; destruct E as [E ->]; split; [|done].
      rewrite -!app_assoc in E; cbn [List.app] in E.
      apply last_unique in E; [by destruct E|done|].
      move=> H'; apply in_app_or in H'; destruct H' as [H'|[H'|[H'|[]]]]; by try discriminate. }
    (* only the counters change before the character is stored *)
    set b1 := (if negb (checksum_index b =? 0) then _ else _).
    have SB: data b1 = data b /\ length b1 = length b /\ command_wait b1 = command_wait b.
    { unfold b1; destruct (negb _); [done|]; by destruct (c =? _). }
    destruct SB as (B1 & B2 & B3).
    have HB: forall l, holds l b -> holds l b1.
    { move=> l [X1 [X2 X3]]; split; [done|]; by rewrite B1 B2. }
    cbn [fst snd].
    unfold inv in I; destruct (command_wait b) eqn:W.
    + destruct I as (before & t & ES & NT & HL & I).
      destruct (push_holds _ _ c (HB _ HL)) as (H2 & D1 & D2 & D3).
      rewrite firstn_snoc in H2; cbn [List.app] in H2.
      rewrite D1 D3 B3 andb_true_r.
      have NT': ~ In (ch "$") (t ++ [c]) by apply In_snoc.
      have ES': s ++ [c] = before ++ ch "$" :: t ++ [c] by rewrite ES -app_assoc.
      destruct I as [(NH & X0 & C0)|(p & q & ET & NP & LQ & XI & CQ)].
      * have CB: checksum_count b1 = 0.
        { unfold b1; rewrite X0; cbn; by destruct (c =? _). }
        rewrite CB; cbn [N.eqb].
        have NP: forall p x y, ~ ends_with_packet (s ++ [c]) p x y.
        { move=> p x y E; destruct (P _ _ _ _ _ ES NT E) as [E' _]; apply NH; rewrite E'.
          apply in_or_app; right; by left. }
        split; [done|].
        unfold inv; rewrite D3 B3; exists before, (t ++ [c]); do 3 (split; [done|]).
        destruct (N.eqb_spec c (ch "#")) as [->|NC].
        -- right; exists t, []; do 3 (split; [by [|cbn; lia]|]).
           rewrite D2 D1 CB; split; [|done].
           unfold b1; rewrite X0; cbn.
           destruct HL as (_ & _ & ->); f_equal; by rewrite firstn_length.
        -- left; split; [by apply In_snoc|]; rewrite D2 D1 CB; split; [|done].
           unfold b1; rewrite X0; cbn; destruct (N.eqb_spec c (ch "#")); [done|exact X0].
      * have XN: checksum_index b =? 0 = false.
        { apply N.eqb_neq; rewrite XI; unfold SIZE, BUFSIZ; lia. }
        have CB: checksum_count b1 = N.of_nat (List.length (q ++ [c])).
        { unfold b1; rewrite XN; cbn; rewrite CQ app_length /=; lia. }
        have IB: checksum_index b1 = checksum_index b by unfold b1; rewrite XN.
        have ET': t ++ [c] = p ++ ch "#" :: q ++ [c] by rewrite ET -app_assoc.
        rewrite CB; destruct (N.eqb_spec (N.of_nat (List.length (q ++ [c]))) 2) as [L2|L2].
        -- rewrite app_length /= in L2.
           destruct q as [|x [|? ?]]; [cbn in L2; lia| |cbn in L2; lia].
           split.
           ++ exists p, x; split; [|split].
              ** split; [exists before; by rewrite ES' ET'|].
                 rewrite ET in NT; split; [move=> H'; apply NT; apply in_or_app; by left|].
                 split; [done|]; split; [|done].
                 move=> E; apply NT; apply in_or_app; right; right; by left.
              ** by rewrite ET' in H2.
              ** by rewrite D2 IB XI.
           ++ destruct (clear_holds _ _ H2) as (H3 & _).
              unfold inv; cbn [command_wait after_packet]; split; [eexists; exact H3|].
              move=> before' t' E NT2; rewrite ES' in E; apply last_unique in E; [|done|done].
              destruct E as [_ <-]; rewrite ET'; exists p, ([x] ++ [c]); split; [done|]; split; [done|cbn; lia].
        -- split.
           ++ move=> p' x y E; destruct (P _ _ _ _ _ ES NT E) as [E' _].
              rewrite ET in E'; change [ch "#"; x] with (ch "#" :: [x]) in E'.
              apply first_unique in E'; [|done|by destruct E as (_ & _ & E & _)].
              destruct E' as [_ ->]; apply L2; reflexivity.
           ++ unfold inv; rewrite D3 B3; exists before, (t ++ [c]); do 3 (split; [done|]).
              right; exists p, (q ++ [c]); do 2 (split; [done|]).
              rewrite D2 IB D1 CB; split; [|done].
              rewrite app_length /= in L2 |- *; lia.
    + destruct I as [_ I]; destruct H as [l H].
      destruct (push_holds _ _ c (HB _ H)) as (H2 & D1 & D2 & D3).
      rewrite D3 B3 andb_false_r.
      have I': forall before t, s ++ [c] = before ++ ch "$" :: t -> ~ In (ch "$") t ->
        exists p q, t = p ++ ch "#" :: q /\ ~ In (ch "#") p /\ (2 <= List.length q)%nat.
      { move=> before t E NT; apply snoc_cases in E; [|done]; destruct E as (t' & -> & E).
        destruct (I before t' E) as (p & q & -> & NP & L); [move=> H'; apply NT; apply in_or_app; by left|].
        exists p, (q ++ [c]); rewrite -app_assoc; split; [done|]; split; [done|]; rewrite app_length; lia. }
      split; [|unfold inv; rewrite D3 B3; split; [eexists; exact H2|done]].
      move=> p x y E; have E0 := E; destruct E as [[before E] (N1 & N2 & N3 & N4)].
      destruct (I' before (p ++ [ch "#"; x; y])) as (p' & q & E' & NP & L); [done| |].
      { move=> H'; apply in_app_or in H'; destruct H' as [H'|[H'|[H'|[H'|[]]]]]; by try discriminate. }
      have E1: s = before ++ ch "$" :: p ++ [ch "#"; x].
      { change [ch "#"; x; y] with ([ch "#"; x] ++ [y]) in E; rewrite !app_assoc in E.
        apply app_inj_tail in E; destruct E as [-> _]; by rewrite -!app_assoc. }
      destruct (I _ _ E1) as (p2 & q2 & E2 & NP2 & L2).
      { move=> H'; apply in_app_or in H'; destruct H' as [H'|[H'|[H'|[]]]]; by try discriminate. }
      change [ch "#"; x] with (ch "#" :: [x]) in E2.
      apply first_unique in E2; [|done|done]; destruct E2 as [_ <-]; cbn in L2; lia.
Qed.

(** ** Handling a packet *)
Lemma strncpy_all p r : ~ In 0 p -> strncpy (List.length p) (p ++ r) = p.
Proof.
  induction p as [|c p IH] => NI; [reflexivity|]; cbn [List.length List.app strncpy].
  destruct (N.eqb_spec c 0) as [->|_]; [destruct NI; by left|].
  rewrite IH; [|done]; move=> H; apply NI; by right.
Qed.

Lemma handle_packet b p x y hx hy w :
  holds (firstn SIZE (ch "$" :: p ++ [ch "#"; x; y])) b -> checksum_index b = N.of_nat (Nat.min SIZE (S (List.length p))) ->
  (List.length p + 5 <= 512)%nat -> ~ In 0 p -> hex_value x hx -> hex_value y hy ->
  handle_gdb b w = if sum p mod 256 =? 16 * hx + hy then handle_command p (put ack w) else Done (put nack w).
Proof.
  move=> H X L NZ HX HY.
  have LS: SIZE = 512%nat by reflexivity.
  have FL: firstn SIZE (ch "$" :: p ++ [ch "#"; x; y]) = ch "$" :: p ++ [ch "#"; x; y].
  { apply firstn_all2; cbn [List.length]; rewrite app_length; cbn [List.length]; lia. }
  rewrite FL in H; destruct H as (_ & D & _).
  have LEN: List.length (ch "$" :: p ++ [ch "#"; x; y]) = (List.length p + 4)%nat.
  { cbn [List.length]; rewrite app_length; cbn [List.length]; lia. }
  rewrite LEN in D.
  have [k K]: exists k, (SIZE - (List.length p + 4) = S k)%nat by exists (507 - List.length p)%nat; lia.
  rewrite K in D; cbn [repeat] in D.
  rewrite Nat.min_r in X; [lia|].
  unfold handle_gdb; rewrite D X Nat2N.id.
  replace (S (List.length p) - 1)%nat with (List.length p) by lia.
  have -> : skipn 1 ((ch "$" :: p ++ [ch "#"; x; y]) ++ 0 :: repeat 0 k) = p ++ ([ch "#"; x; y] ++ 0 :: repeat 0 k).
  { cbn; by rewrite -app_assoc. }
  rewrite strncpy_all //.
  have -> : skipn (S (List.length p) + 1) ((ch "$" :: p ++ [ch "#"; x; y]) ++ 0 :: repeat 0 k) = [x; y] ++ 0 :: repeat 0 k.
  { replace (S (List.length p) + 1)%nat with (List.length (ch "$" :: p ++ [ch "#"])) by (cbn [List.length]; rewrite app_length; cbn [List.length]; lia).
    have -> : (ch "$" :: p ++ [ch "#"; x; y]) ++ 0 :: repeat 0 k = (ch "$" :: p ++ [ch "#"]) ++ ([x; y] ++ 0 :: repeat 0 k).
    { cbn; f_equal; by rewrite -!app_assoc. }
    rewrite skipn_app skipn_all Nat.sub_diag; reflexivity. }
  have HT: hex_text [x; y] (16 * hx + hy).
  { split; [discriminate|]; exists [hx; hy]; split; [constructor; [exact HX|constructor; [exact HY|constructor]]|].
    unfold number; cbn [fold_left]; lia. }
  unfold strtol_mem; rewrite (magnitude_hex _ _ 0 (repeat 0 k) HT) //; cbn [andthen fst snd].
  have L1 := hex_value_lt _ _ HX; have L2 := hex_value_lt _ _ HY.
  rewrite Z.min_l; [lia|]; rewrite Z.mod_small; [lia|].
  rewrite N2Z.id checksum_sum; by destruct (_ =? _).
Qed.

Lemma receive_inv s b w c r : inv s b -> receive c (b, w) = Done r -> inv (s ++ [c]) (fst r).
Proof.
  move=> I; have := step s b c I; unfold receive; cbn [fst snd].
  destruct (handle_char c b) as [got b1]; cbn [fst snd]; destruct got.
  - move=> [_ J]; destruct (handle_gdb b1 w); [|discriminate]; cbn [andthen] => E; by injection E as <-.
  - move=> [_ J] E; by injection E as <-.
Qed.
Lemma receive_all_inv l s b w r : inv s b -> receive_all l (b, w) = Done r -> inv (s ++ l) (fst r).
Proof.
  revert s b w; induction l as [|c l IH] => s b w I; cbn [receive_all].
  - move=> E; injection E as <-; by rewrite app_nil_r.
  - destruct (receive c (b, w)) as [[b1 w1]|f] eqn:E; [|discriminate]; cbn [andthen] => E1.
    apply (receive_inv s) in E; [|done]; cbn [fst] in E.
    have -> : s ++ c :: l = (s ++ [c]) ++ l by rewrite -app_assoc.
    by apply (IH _ b1 w1).
Qed.

Lemma packet_handled s c w0 b w p x y hx hy :
  receive_all s (start, w0) = Done (b, w) -> ends_with_packet (s ++ [c]) p x y ->
  hex_value x hx -> hex_value y hy -> (List.length p + 5 <= 512)%nat -> ~ In 0 p ->
  exists b', receive c (b, w) =
    if sum p mod 256 =? 16 * hx + hy
    then match handle_command p (put ack w) with Done w' => Done (b', w') | Crash f => Crash f end
    else Done (b', put nack w).
Proof.
  move=> R E HX HY L NZ.
  have I: inv s b by exact (receive_all_inv s [] start w0 (b, w) inv_start R).
  have := step s b c I; unfold receive; cbn [fst snd].
  destruct (handle_char c b) as [got b1]; cbn [fst snd]; destruct got; [|by move=> [N _]; destruct (N _ _ _ E)].
  move=> [[p' [x' [E' [H X]]]] _]; exists (after_packet b1).
  have [Ep [Ex Ey]]: p' = p /\ x' = x /\ c = y.
  { destruct E as [[before E] (N1 & N2 & N3 & N4)]; destruct E' as [[before' E'] (N1' & N2' & N3' & N4')].
    rewrite E in E'; cbn [List.app] in E'.
    have A: ~ In (ch "$") (p ++ [ch "#"; x; y]).
    { move=> H'; apply in_app_or in H'; destruct H' as [H'|[H'|[H'|[H'|[]]]]]; by try discriminate. }
    have A': ~ In (ch "$") (p' ++ [ch "#"; x'; c]).
    { move=> H'; apply in_app_or in H'; destruct H' as [H'|[H'|[H'|[H'|[]]]]]; by try discriminate. }
    apply last_unique in E'; [|done|done]; destruct E' as [_ E'].
    change [ch "#"; x; y] with (ch "#" :: [x; y]) in E'; change [ch "#"; x'; c] with (ch "#" :: [x'; c]) in E'.
    apply first_unique in E'; [|done|done]; destruct E' as [-> E']; by injection E' as -> ->. }
  subst p' x' c.
  rewrite (handle_packet b1 p x y hx hy w H X L NZ HX HY).
  destruct (_ =? _); [by destruct (handle_command _ _)|reflexivity].
Qed.
Lemma no_packet s c w0 b w :
  receive_all s (start, w0) = Done (b, w) -> (forall p x y, ~ ends_with_packet (s ++ [c]) p x y) ->
  exists b', receive c (b, w) = Done (b', w).
Proof.
  move=> R NP.
  have I: inv s b by exact (receive_all_inv s [] start w0 (b, w) inv_start R).
  have := step s b c I; unfold receive; cbn [fst snd].
  destruct (handle_char c b) as [got b1]; cbn [fst snd]; destruct got; [|move=> _; by exists b1].
  move=> [[p' [x' [E' _]]] _]; by destruct (NP _ _ _ E').
Qed.

Lemma right_checksum s c w0 b w p x y hx hy :
  receive_all s (start, w0) = Done (b, w) -> ends_with_packet (s ++ [c]) p x y ->
  hex_value x hx -> hex_value y hy -> (List.length p + 5 <= 512)%nat -> ~ In 0 p -> sum p mod 256 = 16 * hx + hy ->
  exists b', receive c (b, w) = match handle_command p (put ack w) with Done w' => Done (b', w') | Crash f => Crash f end.
Proof.
  move=> R E X Y L Z C; destruct (packet_handled _ _ _ _ _ _ _ _ _ _ R E X Y L Z) as [b' H]; exists b'; rewrite H C.
  by rewrite N.eqb_refl.
Qed.
Lemma wrong_checksum s c w0 b w p x y hx hy :
  receive_all s (start, w0) = Done (b, w) -> ends_with_packet (s ++ [c]) p x y ->
  hex_value x hx -> hex_value y hy -> (List.length p + 5 <= 512)%nat -> ~ In 0 p -> sum p mod 256 <> 16 * hx + hy ->
  exists b', receive c (b, w) = Done (b', put nack w).
Proof.
  move=> R E X Y L Z C; destruct (packet_handled _ _ _ _ _ _ _ _ _ _ R E X Y L Z) as [b' H]; exists b'; rewrite H.
  by destruct (N.eqb_spec (sum p mod 256) (16 * hx + hy)).
Qed.
