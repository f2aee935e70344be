(** Proofs about the fault picture. *)
From Coq Require Import String List ListDec Bool ZArith Lia Sorted Permutation ssreflect.
From Verif Require Import Prelude FaultMap_Model FaultMap_Spec.
Import ListNotations.
Open Scope Z_scope.

Lemma entries_terminated rs rest map : terminated rs rest map -> entries map = rs.
Proof.
  intros [s [-> [[Hs He] Hf]]]. induction Hf as [|r rs Hr Hf IH]; cbn.
  - by rewrite Hs He.
  - destruct (Z.eqb_spec (r_start r) 0), (Z.eqb_spec (r_end r) 0); cbn; try (by rewrite IH).
    by case: Hr.
Qed.

Definition below (limit : Z) (rs : list region) := filter (fun r => r_end r <=? limit) rs.

(** The search returns a region of greatest end. *)
Lemma uppermost_ok limit rs : Forall upright rs -> forall cur,
  match cur with Some c => r_end c <= limit | None => True end ->
  exists o, uppermost limit cur rs = Ok o /\
    match o with
    | None => cur = None /\ below limit rs = []
    | Some c => (cur = Some c \/ In c (below limit rs)) /\
                (match cur with Some c0 => r_end c0 <= r_end c | None => True end) /\
                (forall r, In r (below limit rs) -> r_end r <= r_end c)
    end.
Proof.
  induction 1 as [|r rs Hr Hf IH]; intros cur Hc; cbn.
  - exists cur. split; [done|]. destruct cur; [|done]. split; [by left|]. split; [lia|done].
  - unfold upright in Hr. rewrite (proj2 (Z.ltb_ge _ _) Hr).
    destruct (Z.leb_spec (r_end r) limit) as [Hl|Hl]; cbn [andb].
    + destruct cur as [c0|].
      * destruct (Z.ltb_spec (r_end c0) (r_end r)).
        -- destruct (IH (Some r)) as [o [-> Ho]]; [done|]. exists o; split; [done|].
           destruct o as [c|]; [|by destruct Ho].
           destruct Ho as [Hin [Hge Hall]]. split; [|split; [lia|]].
           ++ right. cbn. destruct Hin as [E|]; [left; congruence|by right].
           ++ intros r' [<-|]; [done|by apply Hall].
        -- destruct (IH (Some c0)) as [o [-> Ho]]; [done|]. exists o; split; [done|].
           destruct o as [c|]; [|by destruct Ho].
           destruct Ho as [Hin [Hge Hall]]. split; [|split; [lia|]].
           ++ destruct Hin; [by left|right; by right].
           ++ intros r' [<-|]; [lia|by apply Hall].
      * destruct (IH (Some r)) as [o [-> Ho]]; [done|]. exists o; split; [done|].
        destruct o as [c|]; [|by destruct Ho].
        destruct Ho as [Hin [Hge Hall]]. split; [|split; [done|]].
        -- right. cbn. destruct Hin as [E|]; [left; congruence|by right].
        -- intros r' [<-|]; [done|by apply Hall].
    + destruct (IH cur Hc) as [o [-> Ho]]. exists o; split; [done|done].
Qed.

Lemma uppermost_inverted limit rs r : In r rs -> ~ upright r ->
  forall cur, uppermost limit cur rs = Err AssertionError.
Proof.
  induction rs as [|x rs IH]; [done|]. intros [->|Hin] Hr cur; cbn.
  - unfold upright in Hr. destruct (Z.ltb_spec (r_end r) (r_start r)); [done|lia].
  - destruct (r_end x <? r_start x); [done|]. by apply IH.
Qed.

Lemma below_in limit rs r : In r (below limit rs) <-> In r rs /\ r_end r <= limit.
Proof. unfold below. rewrite filter_In. by rewrite Z.leb_le. Qed.

Lemma below_below a b rs : a <= b -> below a (below b rs) = below a rs.
Proof.
  intros Hab. unfold below. induction rs as [|r rs IH]; [done|]. cbn.
  destruct (Z.leb_spec (r_end r) b) as [H|H]; cbn; rewrite IH; [done|].
  destruct (Z.leb_spec (r_end r) a); [lia|done].
Qed.
Lemma below_all a rs : (forall r, In r rs -> r_end r <= a) -> below a rs = rs.
Proof.
  unfold below. induction rs as [|r rs IH]; [done|]. intros H. cbn.
  rewrite (proj2 (Z.leb_le _ _)); [by apply H; left|]. rewrite IH; [|done].
  intros; apply H; by right.
Qed.
(** Taking away the uppermost of regions with different ends *)
Lemma below_pred rs c : In c rs -> NoDup (map r_end rs) -> (forall r, In r rs -> r_end r <= r_end c) ->
  Permutation (c :: below (r_end c - 1) rs) rs.
Proof.
  induction rs as [|r rs IH]; [done|]. intros Hin Hnd Hall. inversion Hnd as [|? ? Hni Hnd']; subst.
  destruct Hin as [->|Hin].
  - apply perm_skip. unfold below. cbn. destruct (Z.leb_spec (r_end c) (r_end c - 1)) as [?|_]; [lia|].
    change (Permutation (below (r_end c - 1) rs) rs). rewrite below_all; [|done].
    intros r Hr. assert (r_end r <> r_end c).
    { intros E. apply Hni. rewrite -E. by apply in_map. }
    specialize (Hall r (or_intror Hr)). lia.
  - unfold below. cbn. rewrite (proj2 (Z.leb_le _ _)).
    + assert (r_end r <> r_end c).
      { intros E. apply Hni. rewrite E. by apply in_map. }
      specialize (Hall r (or_introl eq_refl)). lia.
    + rewrite perm_swap. apply perm_skip. apply IH; [done|done|]. intros; apply Hall; by right.
Qed.

Lemma below_NoDup a rs : NoDup (map r_end rs) -> NoDup (map r_end (below a rs)).
Proof.
  unfold below. induction rs as [|r rs IH]; [done|]. cbn. intros H. inversion H as [|? ? Hn Hd]; subst.
  destruct (r_end r <=? a); [|by apply IH]. cbn. constructor; [|by apply IH].
  intros Hin. apply Hn. apply in_map_iff in Hin as [x [E Hx]]. apply filter_In in Hx as [Hx _].
  apply in_map_iff. by exists x.
Qed.

(** How the variables of the loop show what stands above *)
Inductive position (w limit last : Z) : option Z -> Prop :=
| pos_first : limit = 2 ^ w - 1 -> last = 0 -> position w limit last None
| pos_next : limit < 2 ^ w - 1 -> 0 <= last < 2 ^ w -> position w limit last (Some last).

Lemma mark_ok address c :
  marked address c (if (r_start c <=? address) && (address <=? r_end c) then [FaultAt address] else []).
Proof.
  destruct (Z.leb_spec (r_start c) address), (Z.leb_spec address (r_end c)); cbn; constructor; unfold within; lia.
Qed.

Lemma show_ok w address rs : 0 < w ->
  Forall upright rs -> Forall (fun r => 0 <= r_start r /\ 0 < r_end r < 2 ^ w - 1) rs ->
  NoDup (map r_end rs) ->
  forall n limit last above, n = List.length (below limit rs) -> position w limit last above ->
  exists order ls, show w address rs n limit last = Ok ls /\ Permutation order (below limit rs) /\
    StronglySorted higher order /\ picture address above order ls.
Proof.
  intros Hw Hup Hb Hnd. induction n as [|n IH]; intros limit last above Hn Hpos.
  - exists [], []. cbn. symmetry in Hn. apply length_zero_iff_nil in Hn. rewrite Hn.
    split; [done|]. split; [done|]. split; constructor.
  - cbn [show]. destruct (uppermost_ok limit rs Hup None Logic.I) as [o [-> Ho]]. cbn [bind].
    destruct o as [c|]; [|destruct Ho as [_ E]; by rewrite E in Hn].
    destruct Ho as [[Hx0|Hin] [_ Hall]]; [done|].
    destruct (proj1 (below_in _ _ _) Hin) as [Hc Hlim].
    pose proof (proj1 (Forall_forall _ _) Hb c Hc) as [Hcs Hce].
    pose proof (proj1 (Forall_forall _ _) Hup c Hc) as Hcu. unfold upright in Hcu.
    pose proof (below_pred (below limit rs) c Hin (below_NoDup _ _ Hnd) Hall) as Hp.
    rewrite below_below in Hp; [lia|].
    assert (Hl : n = List.length (below (r_end c - 1) rs)).
    { apply Permutation_length in Hp. cbn in Hp. lia. }
    assert (Hm : (r_end c - 1) mod 2 ^ w = r_end c - 1) by (apply Z.mod_small; lia).
    rewrite Hm.
    destruct (IH (r_end c - 1) (r_start c) (Some (r_start c)) Hl) as [order [ls [-> [Hpo [Hso Hpic]]]]].
    { constructor; lia. }
    cbn [bind]. exists (c :: order).
    eexists. split; [reflexivity|]. split; [by rewrite Hpo|]. split.
    + constructor; [done|]. apply Forall_forall. intros r Hr. unfold higher.
      apply (Permutation_in _ Hpo) in Hr. apply below_in in Hr. lia.
    + cbn [app]. constructor; [|apply mark_ok|done].
      destruct Hpos as [El La|Hlt Hla].
      * subst last. replace ((0 - 1) mod 2 ^ w) with (2 ^ w - 1).
        2:{ replace (0 - 1) with (2 ^ w - 1 + (-1) * 2 ^ w) by lia. rewrite Z.mod_add; [lia|].
            rewrite Z.mod_small; lia. }
        destruct (Z.eqb_spec (r_end c) (2 ^ w - 1)); [lia|]. rewrite (proj2 (Z.eqb_eq _ _) El). constructor.
      * destruct (Z.eqb_spec limit (2 ^ w - 1)) as [?|_]; [lia|].
        destruct (Z.eqb_spec (r_end c) ((last - 1) mod 2 ^ w)) as [E|E].
        -- destruct (Z.eq_dec last 0) as [->|Hnz].
           ++ exfalso. replace (0 - 1) with (2 ^ w - 1 + (-1) * 2 ^ w) in E by lia.
              rewrite Z.mod_add in E; [lia|]. rewrite Z.mod_small in E; lia.
           ++ rewrite Z.mod_small in E; [lia|]. replace last with (r_end c + 1) by lia. constructor.
        -- constructor. intros ->. apply E. rewrite Z.mod_small; lia.
Qed.

Lemma picture_ok w rs rest map address :
  0 < w -> terminated rs rest map -> word_regions w rs -> Forall upright rs ->
  NoDup (List.map r_end rs) -> (forall r, In r rs -> r_end r <> 2 ^ w - 1) ->
  exists order ls, show_fault_location w map address = Ok ls /\ Permutation order rs /\
    StronglySorted higher order /\ picture address None order ls.
Proof.
  intros Hw Ht Hwr Hup Hnd Htop. pose proof (entries_terminated _ _ _ Ht) as He.
  unfold show_fault_location. rewrite He.
  assert (Hall : below (2 ^ w - 1) rs = rs).
  { apply below_all. intros r Hr. pose proof (proj1 (Forall_forall _ _) Hwr r Hr). cbn in *. lia. }
  assert (Hb : Forall (fun r => 0 <= r_start r /\ 0 < r_end r < 2 ^ w - 1) rs).
  { apply Forall_forall. intros r Hr. pose proof (proj1 (Forall_forall _ _) Hwr r Hr) as Hx. cbn in Hx.
    pose proof (proj1 (Forall_forall _ _) Hup r Hr) as Hu. unfold upright in Hu. specialize (Htop r Hr).
    destruct Ht as [s [_ [_ Hns]]]. pose proof (proj1 (Forall_forall _ _) Hns r Hr) as Hs.
    unfold sentinel in Hs. lia. }
  destruct (show_ok w address rs Hw Hup Hb Hnd (List.length rs) (2 ^ w - 1) 0 None) as [o [ls H]].
  - by rewrite Hall.
  - by constructor.
  - rewrite Hall in H. by exists o, ls.
Qed.

(** What any picture says about the regions and the fault *)
Lemma picture_marked address above order ls : picture address above order ls ->
  forall a, In (FaultAt a) ls <-> a = address /\ Exists (within address) order.
Proof.
  induction 1 as [|above r rs t m ls Ht Hm Hp IH]; intros a.
  - split; [done|]. intros [_ H]. inversion H.
  - rewrite in_app_iff. cbn [In]. rewrite in_app_iff. cbn [In]. rewrite IH. rewrite Exists_cons. split.
    + intros [H|[H|[H|[H|H]]]]; [|done| |done|].
      * inversion Ht; subst; cbn in H; intuition congruence.
      * inversion Hm; subst; cbn in H; [|done]. destruct H as [E|[]]. injection E as ->. by split; [|left].
      * destruct H as [-> H]. by split; [|right].
    + intros [-> [H|H]].
      * right; right; left. inversion Hm; subst; [by left|done].
      * by right; right; right; right.
Qed.

Lemma inverted_err w rs rest map address r : terminated rs rest map -> In r rs -> ~ upright r ->
  show_fault_location w map address = Err AssertionError.
Proof.
  intros Ht Hin Hr. unfold show_fault_location. rewrite (entries_terminated _ _ _ Ht).
  destruct rs as [|x rs]; [done|]. cbn [List.length show]. by rewrite (uppermost_inverted _ _ r).
Qed.

(** Regions that end at the same address are not all printed. *)
Lemma show_few w address rs : 0 < w -> Forall upright rs ->
  Forall (fun r => 0 <= r_start r /\ 0 < r_end r < 2 ^ w) rs ->
  forall n limit last ls, show w address rs n limit last = Ok ls ->
  exists ends, NoDup ends /\ List.length ends = n /\ (forall e, In e ends -> In e (map r_end (below limit rs))).
Proof.
  intros Hw Hup Hb. induction n as [|n IH]; intros limit last ls H.
  - exists []. split; [constructor|]. split; done.
  - cbn [show] in H. destruct (uppermost_ok limit rs Hup None Logic.I) as [o [Eo Ho]]. rewrite Eo in H. cbn [bind] in H.
    destruct o as [c|]; [|done]. destruct Ho as [[Hx0|Hin] [_ Hall]]; [done|].
    destruct (proj1 (below_in _ _ _) Hin) as [Hc Hlim].
    pose proof (proj1 (Forall_forall _ _) Hb c Hc) as [Hcs Hce].
    rewrite Z.mod_small in H; [lia|].
    destruct (show w address rs n (r_end c - 1) (r_start c)) as [ls'|] eqn:Es; [|done].
    destruct (IH _ _ _ Es) as [ends [Hnd [Hlen Hends]]].
    exists (r_end c :: ends). split; [constructor; [|done]|split; [by cbn; f_equal|]].
    + intros Hi. apply Hends in Hi. apply in_map_iff in Hi as [r [Er Hr]]. apply below_in in Hr. lia.
    + intros e [<-|He]; [by apply in_map|]. apply Hends in He. apply in_map_iff in He as [r [<- Hr]].
      apply in_map. apply below_in in Hr. apply below_in. split; [tauto|lia].
Qed.

Lemma same_end_err w rs rest map address : 0 < w ->
  terminated rs rest map -> word_regions w rs -> Forall upright rs -> ~ NoDup (List.map r_end rs) ->
  forall ls, show_fault_location w map address <> Ok ls.
Proof.
  intros Hw Ht Hwr Hup Hnd ls H. apply Hnd. unfold show_fault_location in H.
  rewrite (entries_terminated _ _ _ Ht) in H.
  assert (Hb : Forall (fun r => 0 <= r_start r /\ 0 < r_end r < 2 ^ w) rs).
  { apply Forall_forall. intros r Hr. pose proof (proj1 (Forall_forall _ _) Hwr r Hr) as Hx. cbn in Hx.
    pose proof (proj1 (Forall_forall _ _) Hup r Hr) as Hu. unfold upright in Hu.
    destruct Ht as [s [_ [_ Hns]]]. pose proof (proj1 (Forall_forall _ _) Hns r Hr) as Hs.
    unfold sentinel in Hs. lia. }
  destruct (show_few w address rs Hw Hup Hb _ _ _ _ H) as [ends [He [Hl Hin]]].
  apply (NoDup_incl_NoDup He); [by rewrite map_length Hl|].
  intros e Hi. apply Hin in Hi. apply in_map_iff in Hi as [r [<- Hr]]. apply in_map.
  by destruct (proj1 (below_in _ _ _) Hr).
Qed.

Lemma names_app a b : names (a ++ b) = names a ++ names b.
Proof. induction a as [|[| | |] a IH]; cbn; rewrite ?IH; done. Qed.

Lemma show_located w address rs : 0 < w -> Forall upright rs ->
  Forall (fun r => 0 <= r_start r /\ 0 < r_end r < 2 ^ w) rs -> NoDup (map r_end rs) ->
  forall n limit last ls, n = List.length (below limit rs) -> show w address rs n limit last = Ok ls ->
  Permutation (names ls) (map r_name (below limit rs)) /\
  forall a, In (FaultAt a) ls <-> a = address /\ Exists (within address) (below limit rs).
Proof.
  intros Hw Hup Hb Hnd. induction n as [|n IH]; intros limit last ls Hn H.
  - cbn in H. injection H as <-. symmetry in Hn. apply length_zero_iff_nil in Hn. rewrite Hn.
    split; [constructor|]. intros a. split; [done|]. intros [_ Hx]. inversion Hx.
  - cbn [show] in H. destruct (uppermost_ok limit rs Hup None Logic.I) as [o [Eo Ho]]. rewrite Eo in H. cbn [bind] in H.
    destruct o as [c|]; [|done]. destruct Ho as [[Hx0|Hin] [_ Hall]]; [done|].
    destruct (proj1 (below_in _ _ _) Hin) as [Hc Hlim].
    pose proof (proj1 (Forall_forall _ _) Hb c Hc) as [Hcs Hce].
    assert (Hm : (r_end c - 1) mod 2 ^ w = r_end c - 1) by (apply Z.mod_small; lia).
    rewrite Hm in H.
    destruct (show w address rs n (r_end c - 1) (r_start c)) as [ls'|] eqn:Es; [|done].
    cbn [bind] in H. injection H as <-.
    pose proof (below_pred (below limit rs) c Hin (below_NoDup _ _ Hnd) Hall) as Hp.
    rewrite below_below in Hp; [lia|].
    destruct (IH (r_end c - 1) _ _ ltac:(apply Permutation_length in Hp; cbn in Hp; lia) Es) as [Hn' Hf'].
    split.
    + rewrite names_app. cbn [names]. rewrite names_app. cbn [names].
      assert (names (if r_end c =? (last - 1) mod 2 ^ w then [] else
              (if limit =? 2 ^ w - 1 then [] else [Undescribed]) ++ [Bound (r_end c)]) = []) as ->.
      { destruct (r_end c =? (last - 1) mod 2 ^ w), (limit =? 2 ^ w - 1); done. }
      assert (names (if (r_start c <=? address) && (address <=? r_end c) then [FaultAt address] else []) = []) as ->.
      { by destruct (r_start c <=? address), (address <=? r_end c). }
      cbn [app]. rewrite -Hp. cbn. by apply perm_skip.
    + intros a. rewrite in_app_iff. cbn [In app]. rewrite in_app_iff. cbn [In]. rewrite Hf'.
      assert (Hex : Exists (within address) (below limit rs) <->
                    within address c \/ Exists (within address) (below (r_end c - 1) rs)).
      { rewrite -Exists_cons !Exists_exists. split; intros [x [Hx1 Hx2]]; exists x; split; try done.
        - by apply (Permutation_in _ (Permutation_sym Hp)).
        - by apply (Permutation_in _ Hp). }
      rewrite Hex. unfold within.
      destruct (Z.leb_spec (r_start c) address), (Z.leb_spec address (r_end c)); cbn [andb In].
      all: split; [intros [Hi|[Hi|[Hi|[Hi|Hi]]]]|intros [-> Hi]].
      all: try done.
      all: try (destruct (r_end c =? (last - 1) mod 2 ^ w), (limit =? 2 ^ w - 1); cbn in Hi; intuition congruence).
      all: try (intuition congruence).
      all: try (destruct Hi as [Hi|Hi]; [lia|]; intuition).
      all: tauto.
Qed.

Lemma located_ok w rs rest map address ls : 0 < w ->
  terminated rs rest map -> word_regions w rs -> show_fault_location w map address = Ok ls ->
  Permutation (names ls) (List.map r_name rs) /\
  forall a, In (FaultAt a) ls <-> a = address /\ Exists (within address) rs.
Proof.
  intros Hw Ht Hwr H.
  assert (Hup : Forall upright rs).
  { apply Forall_forall. intros r Hr. unfold upright. destruct (Z_le_gt_dec (r_start r) (r_end r)); [done|].
    exfalso. rewrite (inverted_err w rs rest map address r Ht Hr) in H; [unfold upright; lia|done]. }
  assert (Hnd : NoDup (List.map r_end rs)).
  { destruct (ListDec.NoDup_dec Z.eq_dec (List.map r_end rs)) as [Hd|Hd]; [done|].
    exfalso. by apply (same_end_err w rs rest map address Hw Ht Hwr Hup Hd ls). }
  assert (Hb : Forall (fun r => 0 <= r_start r /\ 0 < r_end r < 2 ^ w) rs).
  { apply Forall_forall. intros r Hr. pose proof (proj1 (Forall_forall _ _) Hwr r Hr) as Hx. cbn in Hx.
    pose proof (proj1 (Forall_forall _ _) Hup r Hr) as Hu. unfold upright in Hu.
    destruct Ht as [s [_ [_ Hns]]]. pose proof (proj1 (Forall_forall _ _) Hns r Hr) as Hs.
    unfold sentinel in Hs. lia. }
  unfold show_fault_location in H. rewrite (entries_terminated _ _ _ Ht) in H.
  assert (Hall : below (2 ^ w - 1) rs = rs).
  { apply below_all. intros r Hr. pose proof (proj1 (Forall_forall _ _) Hwr r Hr). cbn in *. lia. }
  pose proof (show_located w address rs Hw Hup Hb Hnd (List.length rs) (2 ^ w - 1) 0 ls) as Hs.
  rewrite Hall in Hs. by apply Hs.
Qed.

Lemma fault_address w mr map rep : show_fault w 5 mr map = Ok rep ->
  exists m, rep = MemoryFault (mr 2%nat =? 1) (mr 1%nat) (mr 0%nat) (mr 3%nat) m /\
    match map with
    | None => m = None
    | Some mp => exists ls, m = Some ls /\ show_fault_location w mp (mr 1%nat) = Ok ls
    end.
Proof.
  unfold show_fault. cbn. destruct map as [mp|]; cbn.
  - destruct (show_fault_location w mp (mr 1%nat)) as [ls|]; [|done]. cbn. intros H; injection H as <-.
    exists (Some ls). split; [done|]. by exists ls.
  - intros H; injection H as <-. by exists None.
Qed.

Lemma i32_id n : c_int n -> i32 n = n.
Proof.
  unfold c_int, i32, u32. move=> H. destruct (Z.ltb_spec (n mod 2 ^ 32) (2 ^ 31)) as [L|L];
    have E := Z.div_mod n (2 ^ 32) ltac:(done);
    have B := Z.mod_pos_bound n (2 ^ 32) ltac:(done); nia.
Qed.
Lemma u32_id n : count n -> u32 n = n.
Proof. move=> H. by apply Z.mod_small. Qed.
Lemma flag_id b : (flag b =? 1) = b.
Proof. by case: b. Qed.
Lemma report_ok w f mr map rep : carries mr (snd (message f)) -> small f ->
  show_fault w (fst (message f)) mr map = Ok rep -> reports f rep.
Proof.
  move=> C S. unfold show_fault.
  have E i x : nth_error (snd (message f)) i = Some x -> mr i = x := C i x.
  clear C. destruct f as [pc slot r l|rs|pc sp fl n c|pc a fe fsr].
  - have E0 := E 0%nat _ eq_refl. have E1 := E 1%nat _ eq_refl. have E2 := E 2%nat _ eq_refl.
    destruct l as [|b|b d|b g d];
      have E3 := E 3%nat _ eq_refl; cbn [fst message]; rewrite E0 E1 E2 E3 flag_id /=.
    + by case.
    + rewrite (E 4%nat _ eq_refl) u32_id //. by case.
    + case: S => S1 S2. rewrite (E 4%nat _ eq_refl) (E 5%nat _ eq_refl) !u32_id //. by case.
    + case: S => S1 S2. rewrite (E 4%nat _ eq_refl) (E 5%nat _ eq_refl) (E 6%nat _ eq_refl) !u32_id //. by case.
  - by case.
  - case: S => S1 S2. cbn [fst message].
    rewrite (E 0%nat _ eq_refl) (E 1%nat _ eq_refl) (E 2%nat _ eq_refl) (E 3%nat _ eq_refl) (E 4%nat _ eq_refl)
      /= !i32_id //. by case.
  - cbn [fst message].
    rewrite (E 0%nat _ eq_refl) (E 1%nat _ eq_refl) (E 2%nat _ eq_refl) (E 3%nat _ eq_refl) flag_id /=.
    destruct map as [m|] => /=; [case: show_fault_location => [ls|e] //=|]; case=> <-; by eexists.
Qed.
Lemma unknown_ok w lab mr map : c_int lab -> (forall f, fst (message f) <> lab) ->
  show_fault w lab mr map = Ok UnknownMessage.
Proof.
  move=> H N. unfold show_fault. rewrite i32_id //.
  have A1 := N (CapFault 0 0 true NoRoot). have A2 := N (UnknownSyscall []).
  have A3 := N (UserException 0 0 0 0 0). have A4 := N (VMFault 0 0 true 0). cbn in A1, A2, A3, A4.
  do 4 (match goal with |- context [?a =? ?b] => destruct (Z.eqb_spec a b); [congruence|] end). done.
Qed.
