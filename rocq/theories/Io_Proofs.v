(** Device memory: proofs. *)
From Coq Require Import String List Bool ZArith Sorted Lia.
From Verif Require Import Io_Model Io_Spec.
Import ListNotations.
Open Scope Z_scope.

Lemma wrap_small w x : 0 <= x < 2 ^ w -> wrap w x = x.
Proof. intros H. unfold wrap. now apply Z.mod_small. Qed.

Lemma wrap_sub w x c paddr : 0 <= w -> 0 <= x < 2 ^ w -> 0 <= c -> 0 <= paddr -> paddr + c < 2 ^ w ->
  (paddr =? wrap w (x - c)) = (paddr + c =? x).
Proof.
  intros Hw Hx Hc Hp Hpc. unfold wrap.
  assert (P : 0 < 2 ^ w) by (apply Z.pow_pos_nonneg; lia).
  destruct (Z.eqb_spec (paddr + c) x) as [E|E].
  - apply Z.eqb_eq. replace (x - c) with paddr by lia. rewrite Z.mod_small; lia.
  - apply Z.eqb_neq. intros E'. apply E.
    destruct (Z.le_gt_cases c x) as [L|L].
    + rewrite Z.mod_small in E' by lia. lia.
    + rewrite <- (Z.mod_unique (x - c) (2 ^ w) (-1) (x - c + 2 ^ w)) in E' by lia. lia.
Qed.

(** Soundness: the invariant of the loop. *)
Definition inv (all : list frame) (w paddr base counter : Z) (counting : bool) (prev : option frame) : Prop :=
  if counting then
    exists f, prev = Some f /\ 0 <= counter /\ f_paddr f + f_size f = paddr + counter /\
      f_vaddr f + f_size f = base + counter /\
      forall d, 0 <= d < counter -> maps all (paddr + d) (base + d)
  else base = 0 /\ counter = 0.
Definition link (prev : option frame) (frames : list frame) : Prop :=
  match prev with None => adjacent frames | Some f => adjacent (f :: frames) end.
Lemma link_next prev f frames : link prev (f :: frames) -> adjacent (f :: frames).
Proof. destruct prev as [g|]; cbn [link]; [|easy]. cbn [adjacent]. tauto. Qed.

Lemma search_sound all w paddr size : 0 <= w -> 0 <= paddr < 2 ^ w -> Forall (valid w) all ->
  forall frames counting base counter prev,
  (forall f, In f frames -> In f all) -> (forall f, prev = Some f -> In f all) ->
  link prev frames -> inv all w paddr base counter counting prev ->
  search w paddr size counting base counter frames <> 0 ->
  forall d, 0 <= d < size -> maps all (paddr + d) (search w paddr size counting base counter frames + d).
Proof.
  intros Hw Hp V. rewrite Forall_forall in V.
  induction frames as [|f frames IH]; intros counting base counter prev Sub Hprev L I.
  - cbn [search]. congruence.
  - assert (Vf : valid w f) by (apply V, Sub; now left).
    destruct Vf as (V1 & V2 & V3 & V4 & V5).
    assert (Sub' : forall g, In g frames -> In g all) by (intros g Hg; apply Sub; now right).
    assert (Lf : link (Some f) frames) by exact (link_next _ _ _ L).
    assert (Hf : forall g, Some f = Some g -> In g all) by (intros g [= <-]; apply Sub; now left).
    cbn [search]. destruct counting.
    + destruct I as (g & -> & Hc & G1 & G2 & G3).
      assert (Vg : valid w g) by (apply V, Hprev; reflexivity). destruct Vg as (W1 & W2 & W3 & W4 & W5).
      rewrite (wrap_sub w (f_paddr f) counter paddr) by lia.
      destruct (Z.eqb_spec (paddr + counter) (f_paddr f)) as [E|E].
      * assert (A : f_vaddr g + f_size g = f_vaddr f) by (cbn [link adjacent] in L; apply L; lia).
        rewrite wrap_small by lia.
        assert (I' : inv all w paddr base (counter + f_size f) true (Some f)).
        { exists f. repeat split; try lia. intros d Hd.
          destruct (Z.lt_ge_cases d counter) as [Lt|Ge]; [apply G3; lia|].
          exists f, (d - counter). repeat split; try lia. apply Sub; now left. }
        destruct (Z.leb_spec size (counter + f_size f)) as [Le|Gt].
        -- intros _ d Hd. destruct I' as (g' & _ & _ & _ & _ & G). apply G. lia.
        -- apply (IH true base (counter + f_size f) (Some f)); assumption.
      * destruct (Z.leb_spec size 0) as [Le|Gt]; [congruence|].
        apply (IH false 0 0 (Some f)); try assumption. now split.
    + destruct I as (-> & ->).
      rewrite (wrap_small w (f_paddr f + f_size f)) by lia.
      destruct ((f_paddr f <=? paddr) && (paddr <? f_paddr f + f_size f)) eqn:E.
      * apply andb_prop in E as (E1 & E2). apply Z.leb_le in E1. apply Z.ltb_lt in E2.
        rewrite (wrap_small w (f_vaddr f + (paddr - f_paddr f))) by lia.
        rewrite wrap_small by lia.
        set (base := f_vaddr f + (paddr - f_paddr f)). set (counter := 0 + (f_vaddr f + f_size f - base)).
        assert (I' : inv all w paddr base counter true (Some f)).
        { exists f. unfold counter, base. repeat split; try lia. intros d Hd.
          exists f, (paddr - f_paddr f + d). repeat split; try lia. apply Sub; now left. }
        destruct (Z.leb_spec size counter) as [Le|Gt].
        -- intros _ d Hd. destruct I' as (g' & _ & _ & _ & _ & G). apply G. lia.
        -- apply (IH true base counter (Some f)); assumption.
      * destruct (Z.leb_spec size 0) as [Le|Gt]; [congruence|].
        apply (IH false 0 0 (Some f)); try assumption. now split.
Qed.

Lemma io_map_sound w frames paddr size d : 0 <= w -> 0 <= paddr < 2 ^ w ->
  Forall (valid w) frames -> adjacent frames ->
  camkes_io_map w frames paddr size <> 0 -> 0 <= d < size ->
  maps frames (paddr + d) (camkes_io_map w frames paddr size + d).
Proof.
  intros Hw Hp V A. unfold camkes_io_map. destruct (_ && _); [congruence|]. intros N Hd.
  refine (search_sound frames w paddr size Hw Hp V frames false 0 0 None _ _ _ _ N d Hd);
    [easy|discriminate|exact A|now split].
Qed.

(** Completeness. *)
Lemma search_run w paddr size post : 0 <= w -> 0 <= paddr -> forall run base counter,
  Forall (valid w) run -> contiguous run -> base <> 0 -> 0 <= counter < size ->
  (match run with f :: _ => f_paddr f = paddr + counter | [] => False end) ->
  size <= counter + fold_right (fun f n => f_size f + n) 0 run ->
  search w paddr size true base counter (run ++ post) = base.
Proof.
  intros Hw Hp. induction run as [|f run IH]; intros base counter V C B Hc F Hs; [easy|].
  apply Forall_cons_iff in V as ((V1 & V2 & V3 & V4 & V5) & V). cbn [search app].
  rewrite (wrap_sub w (f_paddr f) counter paddr) by lia.
  rewrite F, Z.eqb_refl. rewrite wrap_small by lia.
  destruct (Z.leb_spec size (counter + f_size f)) as [Le|Gt]; [reflexivity|].
  cbn [fold_right] in Hs. destruct run as [|g run]; [cbn [fold_right] in Hs; lia|].
  destruct C as (C1 & C2). apply IH; try assumption; lia.
Qed.

Lemma search_pre w paddr size rest : 0 <= w -> 0 < size -> forall pre,
  Forall (valid w) pre -> Forall (fun f => ~ contains f paddr) pre ->
  search w paddr size false 0 0 (pre ++ rest) = search w paddr size false 0 0 rest.
Proof.
  intros Hw Hs. induction pre as [|f pre IH]; intros V N; [reflexivity|].
  apply Forall_cons_iff in V as ((V1 & V2 & V3 & V4 & V5) & V). apply Forall_cons_iff in N as (N1 & N).
  cbn [search app]. rewrite (wrap_small w (f_paddr f + f_size f)) by lia.
  destruct ((f_paddr f <=? paddr) && (paddr <? f_paddr f + f_size f)) eqn:E.
  - apply andb_prop in E as (E1 & E2). apply Z.leb_le in E1. apply Z.ltb_lt in E2. now destruct N1.
  - destruct (Z.leb_spec size 0); [lia|]. now apply IH.
Qed.

Lemma io_map_complete w pre run post paddr size : 0 <= w -> 0 < size ->
  (paddr mod 4096 = 0 \/ size mod 4096 = 0) -> Forall (valid w) (pre ++ run ++ post) ->
  Forall (fun f => ~ contains f paddr) pre -> covers run paddr size ->
  camkes_io_map w (pre ++ run ++ post) paddr size <> 0.
Proof.
  intros Hw Hs Al V N (f & rest & -> & Cf & C & Hc). unfold camkes_io_map.
  replace (negb (paddr mod 4096 =? 0) && negb (size mod 4096 =? 0)) with false
    by (destruct Al as [-> | ->]; [reflexivity|now rewrite andb_false_r]).
  apply Forall_app in V as (V1 & V2). apply Forall_app in V2 as (V2 & _).
  rewrite search_pre by assumption.
  apply Forall_cons_iff in V2 as ((X1 & X2 & X3 & X4 & X5) & V2). destruct Cf as (Cf1 & Cf2).
  cbn [search app]. rewrite (wrap_small w (f_paddr f + f_size f)) by lia.
  replace (f_paddr f <=? paddr) with true by (symmetry; apply Z.leb_le; lia).
  replace (paddr <? f_paddr f + f_size f) with true by (symmetry; apply Z.ltb_lt; lia). cbn [andb].
  rewrite (wrap_small w (f_vaddr f + (paddr - f_paddr f))) by lia. rewrite wrap_small by lia.
  destruct (Z.leb_spec size (0 + (f_vaddr f + f_size f - (f_vaddr f + (paddr - f_paddr f))))) as [Le|Gt]; [lia|].
  cbn [fold_right] in Hc. destruct rest as [|g rest]; [cbn [fold_right] in Hc; lia|]. destruct C as (C1 & C2).
  rewrite search_run; try assumption; lia.
Qed.

(** Tracking *)
Definition occ (p : Z) (l : list Z) : nat := List.length (filter (fun q => q =? p) l).
Lemma ll_remove_occ p l :
  match ll_remove p l with
  | Some l' => occ p l = S (occ p l') /\ forall q, q <> p -> occ q l' = occ q l
  | None => occ p l = O
  end.
Proof.
  induction l as [|q l IH]; cbn [ll_remove]; [reflexivity|].
  destruct (Z.eqb_spec q p) as [->|E].
  - split; [unfold occ; cbn [filter]; rewrite Z.eqb_refl; reflexivity|].
    intros q Hq. unfold occ; cbn [filter]. destruct (Z.eqb_spec p q); [congruence|reflexivity].
  - destruct (ll_remove p l) as [l'|]; cbn [option_map].
    + destruct IH as (I1 & I2). split.
      * unfold occ in *; cbn [filter]. destruct (Z.eqb_spec q p); [congruence|exact I1].
      * intros r Hr. specialize (I2 r Hr). unfold occ in *; cbn [filter]. destruct (q =? r); cbn [List.length]; congruence.
    + unfold occ in *; cbn [filter]. destruct (Z.eqb_spec q p); [congruence|exact IH].
Qed.

Lemma track_occ o l p :
  occ p (snd (track o l)) = outstanding p [o] (occ p l) /\
  (fst (track o l) = true <-> exists q, o = UnmapOp q /\ occ q l = O).
Proof.
  destruct o as [q m|q]; cbn [track].
  - split; [|split; [discriminate|intros (r & E & _); discriminate]].
    destruct m; cbn [outstanding snd]; [|rewrite andb_false_r; reflexivity].
    rewrite andb_true_r. destruct (Z.eqb_spec q 0) as [->|E]; cbn [negb]; [rewrite andb_false_r; reflexivity|].
    rewrite andb_true_r. unfold occ; cbn [filter]. now destruct (q =? p).
  - pose proof (ll_remove_occ q l) as R. destruct (ll_remove q l) as [l'|]; cbn [fst snd outstanding].
    + destruct R as (R1 & R2). split.
      * destruct (Z.eqb_spec q p) as [->|E]; [rewrite R1; reflexivity|]. apply R2. congruence.
      * split; [discriminate|]. intros (r & [= <-] & E). congruence.
    + split.
      * destruct (Z.eqb_spec q p) as [->|E]; [now rewrite R|reflexivity].
      * split; [|reflexivity]. intros _. now exists q.
Qed.

Lemma outstanding_step p o os n : outstanding p (o :: os) n = outstanding p os (outstanding p [o] n).
Proof. destruct o as [q [|]|q]; reflexivity. Qed.

Lemma track_all_spec os : forall l i,
  nth_error (fst (track_all os l)) i = Some true <->
  exists p, nth_error os i = Some (UnmapOp p) /\ outstanding p (firstn i os) (occ p l) = O.
Proof.
  induction os as [|o os IH]; intros l i.
  - cbn. destruct i; cbn; split; (discriminate || intros (p & E & _); discriminate).
  - cbn [track_all]. pose proof (fun p => track_occ o l p) as T. destruct (track o l) as [b l'].
    specialize (IH l'). destruct (track_all os l') as [bs l'']. cbn [fst snd] in *.
    destruct i as [|i]; cbn [nth_error firstn].
    + destruct (T 0) as (_ & T2). split.
      * intros [= ->]. destruct (proj1 T2 eq_refl) as (q & -> & E). exists q. now split.
      * intros (q & [= ->] & E). f_equal. apply T2. now exists q.
    + rewrite IH. split; intros (p & E1 & E2); exists p; (split; [assumption|]);
        [rewrite outstanding_step, <- (proj1 (T p))|rewrite outstanding_step, <- (proj1 (T p)) in E2]; assumption.
Qed.
