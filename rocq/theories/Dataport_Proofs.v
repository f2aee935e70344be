From Coq Require Import List ZArith Bool Lia.
From Verif Require Import Prelude Dataport_Model Dataport_Spec.
Import ListNotations.
Open Scope Z_scope.

Lemma wrap_word_small w x : 0 <= x < 2 ^ w -> wrap_word w x = x.
Proof. intros. apply Z.mod_small. assumption. Qed.

Lemma pow64 : 2 ^ 64 = 2 * 2 ^ 63.
Proof. reflexivity. Qed.

Lemma to_off_of w x : word_size w -> 0 <= x < 2 ^ w -> of_off w (to_off w x) = x.
Proof.
  intros [-> | ->] H; unfold to_off, of_off; simpl (_ =? _); cbn [andb].
  - apply Z.mod_small. exact H.
  - destruct (2 ^ 63 <=? x) eqn:E; [|apply Z.mod_small; exact H].
    replace (x - 2 ^ 64) with (x + (-1) * 2 ^ 64) by lia. rewrite Z_mod_plus_full. apply Z.mod_small. exact H.
Qed.

(** ** Wrapping *)
Lemma wrap_port_iff w d ptr : word_size w -> placed w d -> range_checked w d -> 0 <= ptr < 2 ^ w ->
  (inside d ptr -> wrap_port w d ptr = Some (mk_dptr (d_id d) (to_off w (ptr - d_base d)))) /\
  (~ inside d ptr -> wrap_port w d ptr = None).
Proof.
  intros W (B & S & F) RC P. unfold wrap_port, inside. destruct (d_kind d) as [|number] eqn:K.
  - rewrite (wrap_word_small w (d_base d + d_size d)) by lia. split; intros H.
    + destruct (Z.ltb_spec ptr (d_base d)); [lia|]. destruct (Z.leb_spec (d_base d + d_size d) ptr); [lia|].
      simpl. rewrite wrap_word_small by lia. reflexivity.
    + destruct (Z.ltb_spec ptr (d_base d)); [reflexivity|].
      destruct (Z.leb_spec (d_base d + d_size d) ptr); [reflexivity|lia].
  - cbv zeta. unfold off_below.
    assert (O : forall x, 0 <= x < 2 ^ w -> x < d_size d \/ x >= d_size d ->
      (if (w =? 64) && negb number then to_off w x mod 2 ^ 64 <? d_size d else to_off w x <? d_size d) = (x <? d_size d)).
    { intros x X _. destruct W as [-> | ->].
      - reflexivity.
      - assert (NB : number = false) by (destruct number; [|reflexivity]; exfalso; apply RC; auto).
        subst number. simpl (_ =? _). cbn [andb negb].
        change (to_off 64 x mod 2 ^ 64) with (of_off 64 (to_off 64 x)).
        rewrite to_off_of; [reflexivity|right; reflexivity|exact X]. }
    destruct (Z.le_gt_cases (d_base d) ptr) as [L|L].
    + rewrite (wrap_word_small w (ptr - d_base d)) by lia. rewrite O by lia.
      destruct (Z.ltb_spec (ptr - d_base d) (d_size d)); split; intros H0; try reflexivity; lia.
    + assert (E : wrap_word w (ptr - d_base d) = ptr - d_base d + 2 ^ w).
      { unfold wrap_word. rewrite <- (Z_mod_plus_full (ptr - d_base d) 1). rewrite Z.mul_1_l. apply Z.mod_small. lia. }
      rewrite E, O by lia. split; intros H; [lia|].
      destruct (Z.ltb_spec (ptr - d_base d + 2 ^ w) (d_size d)); [lia|reflexivity].
Qed.

Lemma connected_tl d ds e : connected ds e -> connected (d :: ds) e.
Proof. intros [I L]. split; [right; exact I|exact L]. Qed.

Lemma wrap_inside w ds ptr d : word_size w -> layout w ds -> (forall e, connected ds e -> range_checked w e) ->
  connected ds d -> inside d ptr ->
  wrap_ptr w ds ptr = mk_dptr (d_id d) (to_off w (ptr - d_base d)).
Proof.
  intros W [PL DJ] RC C I.
  assert (P : 0 <= ptr < 2 ^ w) by (destruct (PL d C) as [(B & S & F) _]; unfold inside in I; lia).
  induction ds as [|a ds IH]; [destruct C as [[] _]|].
  simpl. destruct (d_linked a) eqn:LA.
  - assert (CA : connected (a :: ds) a) by (split; [left; reflexivity|exact LA]).
    destruct (wrap_port_iff w a ptr W (proj1 (PL a CA)) (RC a CA) P) as [H1 H2].
    assert (DEC : inside a ptr \/ ~ inside a ptr) by (unfold inside; lia).
    destruct DEC as [IA|NA].
    + rewrite (H1 IA). destruct (DJ a d ptr CA C IA I) as [-> ->]. reflexivity.
    + rewrite (H2 NA). apply IH.
      * intros e CE. apply PL, connected_tl, CE.
      * intros e f x CE CF. apply DJ; apply connected_tl; assumption.
      * intros e CE. apply RC, connected_tl, CE.
      * destruct C as [[->|IN] L]; [contradiction|split; assumption].
  - apply IH.
    * intros e CE. apply PL, connected_tl, CE.
    * intros e f x CE CF. apply DJ; apply connected_tl; assumption.
    * intros e CE. apply RC, connected_tl, CE.
    * destruct C as [[->|IN] L]; [congruence|split; assumption].
Qed.
Lemma wrap_outside w ds ptr : word_size w -> layout w ds -> (forall e, connected ds e -> range_checked w e) ->
  0 <= ptr < 2 ^ w -> (forall d, connected ds d -> ~ inside d ptr) -> x_id (wrap_ptr w ds ptr) = -1.
Proof.
  intros W [PL DJ] RC P. induction ds as [|a ds IH]; intros NI; [reflexivity|]. simpl.
  assert (G : x_id (wrap_ptr w ds ptr) = -1).
  { apply IH.
    - intros e CE. apply PL, connected_tl, CE.
    - intros e f x CE CF. apply DJ; apply connected_tl; assumption.
    - intros e CE. apply RC, connected_tl, CE.
    - intros e CE. apply NI, connected_tl, CE. }
  destruct (d_linked a) eqn:LA; [|exact G].
  assert (CA : connected (a :: ds) a) by (split; [left; reflexivity|exact LA]).
  destruct (wrap_port_iff w a ptr W (proj1 (PL a CA)) (RC a CA) P) as [_ H2]. rewrite H2; [exact G|]. apply NI, CA.
Qed.

(** ** Unwrapping *)
Lemma unwrap_found w es p e : connected es e -> one_end es e -> x_id p = d_id e ->
  wrap_word w (d_base e + of_off w (x_off p)) <> 0 ->
  unwrap_ptr w es p = wrap_word w (d_base e + of_off w (x_off p)).
Proof.
  intros C O X NZ. induction es as [|a es IH]; [destruct C as [[] _]|]. simpl.
  destruct (d_linked a) eqn:LA.
  - unfold unwrap_port. destruct (Z.eqb_spec (x_id p) (d_id a)) as [E|E].
    + assert (B : d_base a = d_base e) by (apply O; [split; [left; reflexivity|exact LA]|congruence]).
      rewrite B. destruct (Z.eqb_spec (wrap_word w (d_base e + of_off w (x_off p))) 0); [contradiction|]. reflexivity.
    + simpl. apply IH.
      * destruct C as [[->|I] L]; [congruence|split; assumption].
      * intros e' CE. apply O, connected_tl, CE.
  - apply IH.
    + destruct C as [[->|I] L]; [congruence|split; assumption].
    + intros e' CE. apply O, connected_tl, CE.
Qed.
Lemma unwrap_unknown w es p : (forall e, connected es e -> d_id e <> x_id p) -> unwrap_ptr w es p = 0.
Proof.
  induction es as [|a es IH]; intros H; [reflexivity|]. simpl.
  assert (G : unwrap_ptr w es p = 0) by (apply IH; intros e C; apply H, connected_tl, C).
  destruct (d_linked a) eqn:LA; [|exact G].
  assert (N : d_id a <> x_id p) by (apply H; split; [left; reflexivity|exact LA]).
  unfold unwrap_port. destruct (Z.eqb_spec (x_id p) (d_id a)); [congruence|]. exact G.
Qed.

Lemma round_trip w ds es ptr d e : word_size w -> layout w ds -> (forall d, connected ds d -> range_checked w d) ->
  connected ds d -> inside d ptr -> connected es e -> one_end es e -> placed w e ->
  d_id e = d_id d -> d_size d <= d_size e ->
  unwrap_ptr w es (wrap_ptr w ds ptr) = d_base e + (ptr - d_base d) /\
  inside e (d_base e + (ptr - d_base d)).
Proof.
  intros W L RC C I CE O (B & S & F) ID SZ.
  assert (PD := proj1 (proj1 L d C)). destruct PD as (BD & SD & FD).
  rewrite (wrap_inside w ds ptr d W L RC C I). unfold inside in *.
  assert (E : of_off w (to_off w (ptr - d_base d)) = ptr - d_base d) by (apply to_off_of; [exact W|lia]).
  assert (G : wrap_word w (d_base e + of_off w (to_off w (ptr - d_base d))) = d_base e + (ptr - d_base d)).
  { rewrite E. apply wrap_word_small. lia. }
  split; [|lia]. rewrite (unwrap_found w es _ e CE O); [exact G|simpl; congruence|]. cbn [x_off]. rewrite G. lia.
Qed.

(** ** Physical addresses *)
Lemma translate_iff w base lo hi paddr size : 0 < base -> 0 <= lo -> 0 <= paddr -> 0 < size ->
  paddr + size < 2 ^ w -> base + (hi - lo) < 2 ^ w ->
  (lo <= paddr /\ paddr + size <= hi -> translate_paddr w base lo hi paddr size = base + (paddr - lo)) /\
  (~ (lo <= paddr /\ paddr + size <= hi) -> translate_paddr w base lo hi paddr size = 0).
Proof.
  intros B L P S F G. unfold translate_paddr. rewrite (wrap_word_small w (paddr + size)) by lia.
  destruct (Z.leb_spec lo paddr), (Z.leb_spec (paddr + size) hi); cbn [andb]; split; intros H'; try reflexivity; try lia.
  apply wrap_word_small. lia.
Qed.

(** ** Cache maintenance *)
Lemma round_up_next cur page : 0 < page -> 0 <= cur ->
  (cur + 1 + page - 1) / page * page = (cur / page + 1) * page.
Proof.
  intros P C. replace (cur + 1 + page - 1) with (cur + 1 * page) by lia. rewrite Z.div_add by lia. reflexivity.
Qed.

Definition call_of (page cur fin : Z) (f : frame) : cacheop :=
  let top := Z.min ((cur / page + 1) * page) fin in mk_cacheop (f_cap f) (cur mod page) ((top - 1) mod page).

Lemma flush_loop_spec page fin : 0 < page -> forall frames cur acc, 0 <= cur ->
  (* frames are consecutive, the first containing cur *)
  forall start, (forall n f, nth_error frames n = Some f -> f_vaddr f = start + (cur / page + Z.of_nat n) * page) ->
  fin <= (cur / page + Z.of_nat (List.length frames)) * page \/ fin <= cur ->
  exists calls, flush_loop page cur fin frames acc = Done (acc ++ calls) /\
    (forall c, In c calls -> exists f, In f frames /\ c_cap c = f_cap f /\ 0 <= c_start c <= c_end c /\ c_end c < page) /\
    exists used, Forall2 (fun c f => c_cap c = f_cap f) calls used /\ (exists rest, frames = used ++ rest) /\
    forall b, (exists n c f, nth_error calls n = Some c /\ nth_error used n = Some f /\ covers_to f (c_start c) (c_end c) b)
      <-> start + cur <= b < start + fin.
Proof.
  intros P frames. induction frames as [|f frames IH]; intros cur acc C start V F.
  - simpl in F. simpl.
    assert (E : fin <=? cur = true).
    { apply Z.leb_le. destruct F as [F|F]; [|exact F]. pose proof (Z.mul_div_le cur page P). lia. }
    rewrite E. exists []. rewrite app_nil_r. split; [reflexivity|]. split; [intros c []|].
    exists []. split; [constructor|]. split; [exists []; reflexivity|].
    apply Z.leb_le in E. intros b. split; [intros (n & c & f & H & _); destruct n; discriminate|lia].
  - cbn [flush_loop]. destruct (fin <=? cur) eqn:E.
    { apply Z.leb_le in E. exists []. rewrite app_nil_r. split; [reflexivity|]. split; [intros c []|].
      exists []. split; [constructor|]. split; [exists (f :: frames); reflexivity|].
      intros b. split; [intros (n & c & g & H & _); destruct n; discriminate|lia]. }
    apply Z.leb_gt in E. rewrite round_up_next by assumption.
    set (nxt := (cur / page + 1) * page). set (top := Z.min nxt fin).
    pose proof (Z.div_mod cur page ltac:(lia)) as DM. pose proof (Z.mod_pos_bound cur page P) as MB.
    assert (NX : nxt = page * (cur / page) + page) by (unfold nxt; lia).
    assert (T1 : cur < top) by (unfold top; lia).
    assert (T2 : top <= nxt) by (unfold top; lia).
    assert (TM : (top - 1) mod page = top - 1 - page * (cur / page)).
    { symmetry. apply Z.mod_unique with (q := cur / page); lia. }
    destruct F as [F|F]; [|lia].
    destruct (Z.le_gt_cases fin nxt) as [L|L].
    + (* last frame *)
      assert (TF : top = fin) by (unfold top; lia).
      assert (REST : flush_loop page top fin frames (acc ++ [mk_cacheop (f_cap f) (cur mod page) ((top - 1) mod page)])
                = Done (acc ++ [mk_cacheop (f_cap f) (cur mod page) ((top - 1) mod page)])).
      { rewrite TF. destruct frames; cbn [flush_loop]; rewrite Z.leb_refl; reflexivity. }
      rewrite REST. eexists. split; [reflexivity|]. split.
      { intros c [<-|[]]. exists f. cbn. rewrite TM. split; [left; reflexivity|]. split; [reflexivity|]. lia. }
      exists [f]. split; [repeat constructor|]. split; [exists frames; reflexivity|].
      intros b. pose proof (V O f eq_refl) as VF. rewrite Z.add_0_r in VF. unfold covers_to. split.
      * intros (n & c & g & H1 & H2 & H3). destruct n as [|n]; [|destruct n; discriminate].
        simpl in H1, H2. injection H1 as <-. injection H2 as <-. cbn in H3. rewrite TM in H3. lia.
      * intros H. exists O. do 2 eexists. split; [reflexivity|]. split; [reflexivity|]. cbn. rewrite TM. lia.
    + assert (TN : top = nxt) by (unfold top; lia).
      assert (DT : top / page = cur / page + 1) by (rewrite TN; unfold nxt; apply Z.div_mul; lia).
      destruct (IH top (acc ++ [mk_cacheop (f_cap f) (cur mod page) ((top - 1) mod page)]) ltac:(lia) start) as (calls & H1 & H2 & used & H3 & H4 & H5).
      { intros n g Hn. rewrite DT. rewrite (V (S n) g Hn). lia. }
      { rewrite DT. left. simpl List.length in F. lia. }
      exists (mk_cacheop (f_cap f) (cur mod page) ((top - 1) mod page) :: calls).
      rewrite H1, <- app_assoc. split; [reflexivity|]. split.
      { intros c [<-|I]. - exists f. cbn. rewrite TM. split; [left; reflexivity|]. split; [reflexivity|]. lia.
        - destruct (H2 c I) as (g & IG & R). exists g. split; [right; exact IG|exact R]. }
      exists (f :: used). split; [constructor; [reflexivity|exact H3]|]. split.
      { destruct H4 as [rest ->]. exists rest. reflexivity. }
      intros b. pose proof (V O f eq_refl) as VF. rewrite Z.add_0_r in VF. unfold covers_to in *. split.
      * intros (n & c & g & G1 & G2 & G3). destruct n as [|n].
        -- simpl in G1, G2. injection G1 as <-. injection G2 as <-. cbn in G3. rewrite TM in G3. lia.
        -- simpl in G1, G2. assert (X : start + top <= b < start + fin) by (apply H5; eauto 6). lia.
      * intros H. destruct (Z.lt_ge_cases b (start + top)) as [X|X].
        -- exists O. do 2 eexists. split; [reflexivity|]. split; [reflexivity|]. cbn. rewrite TM. lia.
        -- assert (Y : start + top <= b < start + fin) by lia. apply H5 in Y.
           destruct Y as (n & c & g & G1 & G2 & G3). exists (S n), c, g. auto.
Qed.

Lemma nth_skipn {A} n m (l : list A) : nth_error (skipn n l) m = nth_error l (n + m).
Proof. revert l. induction n as [|n IH]; intros l; [reflexivity|]. destruct l; [destruct m; reflexivity|]. apply IH. Qed.

Lemma find_region_first start pre fs : (forall f, In f pre -> f_vaddr f <> start) ->
  (exists f rest, fs = f :: rest /\ f_vaddr f = start) -> find_region start (pre ++ fs) = Some fs.
Proof.
  intros N (f & rest & -> & V). induction pre as [|a pre IH]; simpl.
  - rewrite V, Z.eqb_refl. reflexivity.
  - destruct (Z.eqb_spec (f_vaddr a) start) as [E|E]; [exfalso; apply (N a); [left; reflexivity|exact E]|].
    apply IH. intros g I. apply N. right. exact I.
Qed.

Lemma flush_spec pre fs post page start dsize off size :
  laid_out fs page start dsize -> (forall f, In f pre -> f_vaddr f <> start) ->
  0 <= off -> 0 <= size -> off < dsize -> off + size <= dsize ->
  exists calls used k, flush_cache (pre ++ fs ++ post) off size start dsize = Done calls /\
    Forall2 (fun c f => c_cap c = f_cap f) calls used /\
    (exists rest, skipn k fs = used ++ rest) /\
    (forall c, In c calls -> 0 <= c_start c <= c_end c /\ c_end c < page) /\
    forall b, (exists n c f, nth_error calls n = Some c /\ nth_error used n = Some f /\ covers_to f (c_start c) (c_end c) b)
      <-> start + off <= b < start + off + size.
Proof.
  intros (P & V & D) N NN S LT LE.
  unfold flush_cache.
  assert (R : (dsize <=? off) || (dsize <? size) || (dsize - size <? off) = false).
  { destruct (Z.leb_spec dsize off); [lia|]. destruct (Z.ltb_spec dsize size); [lia|].
    destruct (Z.ltb_spec (dsize - size) off); [lia|reflexivity]. }
  rewrite R.
  destruct fs as [|f0 fs]; [simpl in D; lia|].
  destruct (V 0%nat f0 eq_refl) as [V1 V2]. simpl in V2. rewrite Z.add_0_r in V2.
  rewrite (find_region_first start pre ((f0 :: fs) ++ post)); [|exact N|].
  2:{ exists f0, (fs ++ post). split; [reflexivity|exact V2]. }
  simpl app. cbv iota. rewrite V1. set (k := Z.to_nat (off / page)).
  assert (DP : 0 <= off / page) by (apply Z.div_pos; lia).
  assert (KL : (k < List.length (f0 :: fs))%nat).
  { apply Nat2Z.inj_lt. unfold k. rewrite Z2Nat.id by exact DP.
    apply Z.div_lt_upper_bound; lia. }
  change (f0 :: fs ++ post) with ((f0 :: fs) ++ post).
  rewrite skipn_app. replace (k - List.length (f0 :: fs))%nat with 0%nat by lia. cbn [skipn].
  (* the loop does not look beyond the frames of the dataport *)
  assert (EXT : forall frames cur acc calls, flush_loop page cur (off + size) frames acc = Done calls ->
     flush_loop page cur (off + size) (frames ++ post) acc = Done calls).
  { induction frames as [|g frames IH]; intros cur acc calls H.
    - simpl in H. destruct post as [|q post]; simpl; destruct (off + size <=? cur); try discriminate; exact H.
    - simpl in *. destruct (off + size <=? cur); [exact H|]. apply IH. exact H. }
  destruct (flush_loop_spec page (off + size) P (skipn k (f0 :: fs)) off [] NN start) as (calls & H1 & H2 & used & H3 & H4 & H5).
  { intros n f Hn. rewrite nth_skipn in Hn. destruct (V _ _ Hn) as [_ ->]. rewrite Nat2Z.inj_add. unfold k.
    rewrite Z2Nat.id by exact DP. reflexivity. }
  { left. rewrite skipn_length, Nat2Z.inj_sub by lia. unfold k. rewrite Z2Nat.id by exact DP. lia. }
  exists calls, used, k. split; [apply EXT; exact H1|]. split; [exact H3|]. split; [exact H4|]. split.
  - intros c I. destruct (H2 c I) as (g & _ & _ & A & B). lia.
  - intros b. rewrite <- Z.add_assoc. apply H5.
Qed.
Lemma flush_refused frames off size start dsize : 0 <= off -> 0 <= size -> 0 <= dsize ->
  (off >= dsize \/ off + size > dsize) -> flush_cache frames off size start dsize = Refused.
Proof.
  intros NN S D H. unfold flush_cache.
  destruct (Z.leb_spec dsize off); [reflexivity|]. destruct (Z.ltb_spec dsize size); [reflexivity|].
  destruct (Z.ltb_spec (dsize - size) off); [reflexivity|lia].
Qed.

Lemma same_cap fs f g : NoDup (map f_cap fs) -> In f fs -> In g fs -> f_cap f = f_cap g -> f = g.
Proof.
  induction fs as [|a fs IH]; intros ND F G E; [destruct F|]. inversion ND as [|x l NI ND' EQ]; subst.
  destruct F as [->|F], G as [->|G]; auto.
  - exfalso. apply NI. rewrite E. apply in_map, G.
  - exfalso. apply NI. rewrite <- E. apply in_map, F.
Qed.
Lemma F2_nth {A B} (R : A -> B -> Prop) l1 l2 : Forall2 R l1 l2 -> forall n a, nth_error l1 n = Some a -> exists b, nth_error l2 n = Some b /\ R a b.
Proof.
  induction 1 as [|x y l1 l2 H F IH]; intros n a E; [destruct n; discriminate|].
  destruct n as [|n]; simpl in *; [injection E as <-; eauto|eauto].
Qed.
Lemma in_skipn {A} k (l : list A) a : In a (skipn k l) -> In a l.
Proof. rewrite <- (firstn_skipn k l) at 2. rewrite in_app_iff. auto. Qed.

Lemma flush_bytes pre fs post page start dsize off size :
  laid_out fs page start dsize -> NoDup (map f_cap fs) -> (forall f, In f pre -> f_vaddr f <> start) ->
  0 <= off -> 0 <= size -> off < dsize -> off + size <= dsize ->
  exists calls, flush_cache (pre ++ fs ++ post) off size start dsize = Done calls /\
    (forall c, In c calls -> (exists f, In f fs /\ c_cap c = f_cap f) /\ 0 <= c_start c <= c_end c /\ c_end c < page) /\
    forall b, (exists c f, In c calls /\ In f fs /\ c_cap c = f_cap f /\ covers_to f (c_start c) (c_end c) b)
      <-> start + off <= b < start + off + size.
Proof.
  intros L ND N H1 H2 H3 H4.
  destruct (flush_spec pre fs post page start dsize off size L N H1 H2 H3 H4) as (calls & used & k & E & F2 & [rest U] & R & B).
  assert (UI : forall f, In f used -> In f fs).
  { intros f I. apply (in_skipn k). rewrite U. apply in_app_iff. auto. }
  assert (CF : forall n c, nth_error calls n = Some c -> exists f, nth_error used n = Some f /\ c_cap c = f_cap f).
  { intros n c Hn. destruct (F2_nth _ _ _ F2 n c Hn) as (f & A & Q). eauto. }
  exists calls. split; [exact E|]. split.
  - intros c I. split; [|apply R, I]. destruct (In_nth_error _ _ I) as [n Hn]. destruct (CF n c Hn) as (f & A & Q).
    exists f. split; [apply UI; eapply nth_error_In; exact A|exact Q].
  - intros b. rewrite <- B. split.
    + intros (c & f & I & IF & Q & C). destruct (In_nth_error _ _ I) as [n Hn]. destruct (CF n c Hn) as (g & A & Q').
      assert (f = g).
      { apply (same_cap fs); auto; [|congruence]. apply UI. eapply nth_error_In; exact A. }
      subst g. exists n, c, f. auto.
    + intros (n & c & f & A1 & A2 & C). exists c, f. destruct (CF n c A1) as (g & A & Q).
      assert (g = f) by congruence. subst g.
      split; [eapply nth_error_In; exact A1|]. split; [apply UI; eapply nth_error_In; exact A2|]. auto.
Qed.
Lemma flush_unknown frames off size start dsize : (forall f, In f frames -> f_vaddr f <> start) ->
  0 <= off -> 0 <= size -> off < dsize -> off + size <= dsize ->
  flush_cache frames off size start dsize = Done [].
Proof.
  intros N O S LT LE. unfold flush_cache.
  destruct (Z.leb_spec dsize off); [lia|]. destruct (Z.ltb_spec dsize size); [lia|].
  destruct (Z.ltb_spec (dsize - size) off); [lia|]. simpl.
  assert (G : find_region start frames = None).
  { clear - N. induction frames as [|f frames IH]; [reflexivity|]. simpl.
    destruct (Z.eqb_spec (f_vaddr f) start) as [E|E]; [exfalso; apply (N f); [left; reflexivity|exact E]|].
    apply IH. intros g I. apply N. right. exact I. }
  rewrite G. reflexivity.
Qed.
