(** Proofs about the DMA allocator: defragmentation. *)
From Coq Require Import ZArith List Bool Lia ssreflect ssrbool.
From Verif Require Import Prelude Dma_Model Dma_Spec Dma_Proofs.
Import ListNotations.
Open Scope Z_scope.

Section arch.
Variable A : arch.
Variable E : env.
Hypothesis HA : arch_ok A.
Notation FL := (FL A E).
Notation wfn := (wfn A E).
Notation sim := (sim E).

Definition adj (m : Z -> node) (q p : Z) : Prop :=
  q + nsize (m q) = p /\ phys E q + nsize (m q) = phys E p /\ ncached (m q) = ncached (m p).
Definition pw (m : Z -> node) (l : list Z) : Prop := forall x y, In x l -> In y l -> ~ adj m x y.

Lemma adj_ext m m' q p : nsize (m' q) = nsize (m q) -> (forall x, ncached (m' x) = ncached (m x)) -> adj m' q p -> adj m q p.
Proof. rewrite /adj => -> H. by rewrite !H. Qed.
Lemma sim_adj s s' q p : sim s s' -> adj (mem s') q p <-> adj (mem s) q p.
Proof.
  move=> [_ H]. rewrite /adj. have [E1 [E2 _]] := H q. have [E3 _] := H p. rewrite E1 E2 E3. tauto.
Qed.
Lemma adj_irrefl s l x : FL s l -> In x l -> ~ adj (mem s) x x.
Proof. move=> [_ [W _]] Hx [H _]. have [_ [_ [_ [Hs _]]]] := W x Hx. move: HA => [_ [? _]]. lia. Qed.

Lemma cover_flag_upd c m m' x l b : In x l -> NoDup l -> (forall y, y <> x -> m' y = m y) ->
  (cover_flag c (pcs m' l) b + ind (covers (piece_at m x) b && Bool.eqb (ncached (m x)) c) =
   cover_flag c (pcs m l) b + ind (covers (piece_at m' x) b && Bool.eqb (ncached (m' x)) c))%nat.
Proof.
  elim: l => [//|z l IH] Hx ND H. move/NoDup_cons_iff: ND => [N1 N2].
  rewrite !pcs_cons !cover_flag_cons. case: Hx => [Ez|Hx].
  - subst z. have -> : pcs m' l = pcs m l.
    { apply: pcs_ext => y Hy. rewrite H //. move=> ?; subst y. exact: N1. }
    rewrite -!/(piece_at _ x). cbn [flag snd piece_at]. lia.
  - have {}IH := IH Hx N2 H. rewrite (H z); first by move=> ?; subst z. lia.
Qed.
Lemma cover_flag_mid c m a b p y : cover_flag c (pcs m (a ++ p :: b)) y =
  (ind (covers (piece_at m p) y && Bool.eqb (ncached (m p)) c) + cover_flag c (pcs m (a ++ b)) y)%nat.
Proof. rewrite !pcs_app pcs_cons !cover_flag_app cover_flag_cons. cbn [flag snd]. rewrite -/(piece_at m p). lia. Qed.

(** [x] swallows its successor [y]. *)
Definition merged (s : st) (pr x y : Z) : st := remove_node (set_size s x (nsize (mem s x) + nsize (mem s y))) pr y.

Lemma merged_fields s pr x y z : x <> y ->
  ncached (mem (merged s pr x y) z) = ncached (mem s z) /\ nupper (mem (merged s pr x y) z) = nupper (mem s z) /\
  nsize (mem (merged s pr x y) z) = (if z =? x then nsize (mem s x) + nsize (mem s y) else nsize (mem s z)) /\
  (z <> pr -> nnext (mem (merged s pr x y) z) = nnext (mem s z)).
Proof.
  move=> N. rewrite /merged. have [-> [-> [-> Hn]]] := remove_fields (set_size s x (nsize (mem s x) + nsize (mem s y))) pr y z.
  rewrite mem_set_size. split; [|split; [|split]].
  - by destruct (Z.eqb_spec z x); [subst z|].
  - by destruct (Z.eqb_spec z x); [subst z|].
  - by destruct (Z.eqb_spec z x); [subst z|].
  - move=> Hz. rewrite (Hn Hz) mem_set_size. by destruct (Z.eqb_spec z x); [subst z|].
Qed.

Lemma merged_ok s a y b x : FL s (a ++ y :: b) -> In x (a ++ b) -> adj (mem s) x y ->
  FL (merged s (last a 0) x y) (a ++ b) /\
  (forall z c, cover_flag c (pcs (mem (merged s (last a 0) x y)) (a ++ b)) z = cover_flag c (pcs (mem s) (a ++ y :: b)) z).
Proof.
  move=> F Hx [A1 [A2 A3]]. have ND := FL_nodup A E HA _ _ F. have [ND1 NI] := NoDup_mid _ _ _ ND.
  have Nxy : x <> y by move=> ?; subst x.
  have Hsub : forall z, In z (a ++ b) -> In z (a ++ y :: b).
  { move=> z H0. destruct (in_app_or _ _ _ H0) as [H|H]; apply/in_or_app; [by left | by right; right]. }
  have Hy : In y (a ++ y :: b) by apply/in_or_app; right; left.
  move: (F) => [C [W V]].
  have Wx := W x (Hsub x Hx). have Wy := W y Hy.
  move: (HA) => [_ [HS _]].
  have MF := fun z => merged_fields s (last a 0) x y z Nxy.
  remember (merged s (last a 0) x y) as s' eqn:Es'.
  have CV : forall z c, cover_flag c (pcs (mem s') (a ++ b)) z = cover_flag c (pcs (mem s) (a ++ y :: b)) z.
  { move=> z c. rewrite cover_flag_mid.
    pose m1 := fun w => if w =? x then mk_node (ncached (mem s x)) (nsize (mem s x) + nsize (mem s y)) 0 0 else mem s w.
    have -> : pcs (mem s') (a ++ b) = pcs m1 (a ++ b).
    { apply: pcs_ext => w _. have [E1 [_ [E3 _]]] := MF w. rewrite E1 E3 /m1. by case: (Z.eqb_spec w x) => [->|]. }
    have U := cover_flag_upd c (mem s) m1 x (a ++ b) z Hx ND1.
    have {}U := U ltac:(move=> w Hw; rewrite /m1; by have -> : w =? x = false by apply/Z.eqb_neq).
    have P1 : piece_at m1 x = (x, nsize (mem s x) + nsize (mem s y), ncached (mem s x)) by rewrite /piece_at /m1 Z.eqb_refl.
    have P2 : ncached (m1 x) = ncached (mem s x) by rewrite /m1 Z.eqb_refl.
    rewrite P1 P2 in U.
    have [_ [_ [_ [Sx _]]]] := Wx. have [_ [_ [_ [Sy _]]]] := Wy.
    have SP := covers_split x (nsize (mem s x)) (nsize (mem s y)) (ncached (mem s x)) (ncached (mem s x)) (ncached (mem s y)) z ltac:(lia) ltac:(lia).
    rewrite A1 in SP. move: U SP. rewrite /piece_at -A3.
    case: (Bool.eqb (ncached (mem s x)) c); rewrite ?andb_true_r ?andb_false_r; [lia|]. cbn [ind]. lia. }
  split=> //. split; [|split].
  - rewrite Es'. apply: remove_chain => //. cbn [head set_size set_mem]. apply: chain_ext C => w _.
    rewrite mem_set_size. by case: (Z.eqb_spec w x) => [->|].
  - move=> w Hw. have [_ [E2 [E3 _]]] := MF w. have Ww := W w (Hsub w Hw).
    case: (Z.eqb_spec w x) E3 => [Ew|Nw] E3; last by rewrite /Dma_Proofs.wfn E2 E3.
    subst w. move: Wx Wy => [X1 [X2 [X3 [X4 [X5 [X6 X7]]]]]] [Y1 [Y2 [Y3 [Y4 [Y5 [Y6 Y7]]]]]].
    rewrite /Dma_Proofs.wfn E2 E3. split; first lia. split=> //. split; first exact: Z.divide_add_r. split; first lia. split=> //. split.
    + move=> k Hk. case: (Z.lt_ge_cases k (nsize (mem s x))) => K; first by apply: X6; lia.
      have -> : x + k = y + (k - nsize (mem s x)) by lia. rewrite Y6; first lia. lia.
    + move=> z Hz. case: (Z.lt_ge_cases z y) => K; [apply: X7; lia | apply: Y7; lia].
  - move=> z. rewrite cover_flags !CV -cover_flags. exact: V.
Qed.

Definition OInv (s : st) (pre cur : list Z) (pprev : Z) : Prop :=
  pw (mem s) pre /\
  (pprev = last pre 0 \/
   pprev <> 0 /\ ~ In pprev (pre ++ cur) /\ cur <> [] /\ nnext (mem s pprev) = hd 0 cur /\
   (forall q, In q pre -> ~ adj (mem s) q (hd 0 cur))).

Lemma chain_next m a x l' l : chain m a (l ++ x :: l') -> nnext (m x) = hd 0 l'.
Proof. move=> /chain_app [z [_ [_ [_ C]]]]. by case: l' C => [|y k] //= []. Qed.
Lemma chain_hd m a l : chain m a l -> a = hd 0 l.
Proof. case: l => [|x l] //= []. done. Qed.

Lemma defrag_inner_ok p post : forall rest done s fuel pprev,
  FL s ((done ++ rest) ++ p :: post) -> (List.length rest < fuel)%nat -> OInv s (done ++ rest) (p :: post) pprev ->
  (forall q, In q done -> ~ adj (mem s) q p /\ ~ adj (mem s) p q) ->
  exists s' r, defrag_inner E fuel s pprev p p (p + nsize (mem s p)) (phys E p) (phys E p + nsize (mem s p)) (ncached (mem s p))
                 (last done 0) (hd p rest) = Ok (s', r) /\
    match r with
    | None => sim s s' /\ pw (mem s) ((done ++ rest) ++ [p])
    | Some p' => exists pre' cur', FL s' (pre' ++ cur') /\ (List.length (pre' ++ cur') < List.length ((done ++ rest) ++ p :: post))%nat /\
        (forall z c, cover_flag c (pcs (mem s') (pre' ++ cur')) z = cover_flag c (pcs (mem s) ((done ++ rest) ++ p :: post)) z) /\
        (forall x, ncached (mem s' x) = ncached (mem s x)) /\ nnext (mem s' p') = hd 0 cur' /\ OInv s' pre' cur' p'
    end.
Proof.
  elim=> [|q rest IH] done s [|fuel] pprev F Hf [PW OI] HD; cbn [List.length] in Hf; try lia.
  - rewrite app_nil_r in F OI PW *. cbn [hd defrag_inner]. rewrite Z.eqb_refl. exists s, None. split=> //. split; first exact: sim_refl.
    move=> x y Hx Hy. have Ip : In p (done ++ p :: post) by apply/in_or_app; right; left.
    destruct (in_app_or _ _ _ Hx) as [Hx'|[Hx'|[]]]; destruct (in_app_or _ _ _ Hy) as [Hy'|[Hy'|[]]].
    + exact: PW.
    + subst y. exact: (proj1 (HD x Hx')).
    + subst x. exact: (proj2 (HD y Hy')).
    + subst x y. exact: (adj_irrefl s _ p F Ip).
  - have ND := FL_nodup A E HA _ _ F.
    have Hq : In q (done ++ q :: rest) by apply/in_or_app; right; left.
    have Hql : In q ((done ++ q :: rest) ++ p :: post) by apply/in_or_app; left.
    have Hpl : In p ((done ++ q :: rest) ++ p :: post) by apply/in_or_app; right; left.
    have Nqp : q <> p. { move=> ?; subst q. apply: (NoDup_app_disj _ _ p ND Hq). by left. }
    cbn [hd defrag_inner]. have -> : q =? p = false by apply/Z.eqb_neq.
    have [Cn [W V]] := F.
    have [s1 [-> Sm]] := extract_ok A E HA s q (W q Hql).
    cbn [bind].
    have F1 := sim_FL A E _ _ _ Sm F. move: (Sm) => [Sh Sf].
    have [Q1 [Q2 [Q3 _]]] := Sf q. have [P1 [P2 [P3 _]]] := Sf p.
    rewrite Q1 Q2.
    have NZ := chain_nonzero _ _ _ Cn.
    have PP : pprev <> 0.
    { case: OI => [->|[? _]] //. apply: NZ. apply/in_or_app. left. apply: last_In. by case: (done). }
    have -> : pprev =? 0 = false by apply/Z.eqb_neq.
    cbn [negb assert bind].
    have PWs : forall k, (forall x, In x k -> In x (done ++ q :: rest)) -> pw (mem s1) k.
    { move=> k Hk x y Hx Hy /(sim_adj s s1 x y Sm). apply: PW; exact: Hk. }
    have [_ [_ [_ [Zp _]]]] := W p Hpl. have [_ [_ [_ [Zq _]]]] := W q Hql. move: (HA) => [_ [HS _]].
    have pc : forall x y : Z, (x =? y) = true <-> x = y by exact: Z.eqb_eq.
    case C1: ((p =? q + nsize (mem s q)) && (phys E p =? phys E q + nsize (mem s q)) && Bool.eqb (ncached (mem s p)) (ncached (mem s q))).
    { (* [q] swallows [p] *)
      move/andP: C1 => [/andP [/Z.eqb_eq T1 /Z.eqb_eq T2] /eqb_prop T3].
      have AD : adj (mem s1) q p by apply/(sim_adj s s1 q p Sm); split; [lia|split; [lia|congruence]].
      have EP : pprev = last (done ++ q :: rest) 0.
      { case: OI => // [[_ [_ [_ [_ H]]]]]. exfalso. apply: (H q Hq). by apply/(sim_adj s s1 q p Sm). }
      rewrite /grow_node P2. have -> : 0 <? nsize (mem s p) = true by apply/Z.ltb_lt; lia. cbn [assert bind].
      have EM : remove_node (set_size s1 q (nsize (mem s1 q) + nsize (mem s p))) pprev p = merged s1 (last (done ++ q :: rest) 0) q p.
      { by rewrite /merged P2 EP. }
      rewrite EM.
      have Hq' : In q ((done ++ q :: rest) ++ post) by apply/in_or_app; left.
      have [F2 CV] := merged_ok s1 (done ++ q :: rest) p post q F1 Hq' AD.
      have MF := fun z => merged_fields s1 (last (done ++ q :: rest) 0) q p z Nqp.
      remember (merged s1 (last (done ++ q :: rest) 0) q p) as s2 eqn:Es2.
      do 2 eexists. split; first reflexivity. cbv beta iota.
      have CV' : forall z c, cover_flag c (pcs (mem s2) ((done ++ q :: rest) ++ post)) z = cover_flag c (pcs (mem s) ((done ++ q :: rest) ++ p :: post)) z.
      { move=> z c. by rewrite CV (sim_pcs E s s1). }
      have NC : forall x, ncached (mem s2 x) = ncached (mem s x).
      { move=> x. have [-> _] := MF x. by have [-> _] := Sf x. }
      have LL : (List.length ((done ++ q :: rest) ++ post) < List.length ((done ++ q :: rest) ++ p :: post))%nat.
      { rewrite !app_length /=. lia. }
      have [C2 _] := F2.
      destruct (list_eq_dec Z.eq_dec done []) as [Ed|Nd].
      - subst done. cbn [last Z.eqb]. cbn [app] in *.
        have Hh := chain_hd _ _ _ C2. cbn [hd] in Hh. rewrite Hh.
        exists [q], (rest ++ post). cbn [app]. split=> //. split=> //. split=> //. split=> //. split.
        + apply: (chain_next _ _ _ _ [] C2).
        + split; last by left. move=> x y [<-|[]] [<-|[]]. exact: (adj_irrefl s2 _ q F2 Hq').
      - have Nl : last done 0 <> 0. { apply: NZ. apply/in_or_app. left. apply/in_or_app. left. exact: last_In. }
        have -> : last done 0 =? 0 = false by apply/Z.eqb_neq.
        exists done, (q :: rest ++ post). rewrite -app_assoc in F2 CV' LL C2. cbn [app] in F2, CV', LL, C2. split=> //. split=> //. split=> //. split=> //. split.
        + have [d' [e Ed]] := exists_last Nd. subst done. rewrite last_last. rewrite -app_assoc in C2. exact: (chain_next _ _ _ _ d' C2).
        + split; last by left. move=> x y Hx Hy AD'.
          apply: (PWs done _ x y Hx Hy); first by move=> w Hw; apply/in_or_app; left.
          apply: (adj_ext _ _ x y _ _ AD').
          * have [_ [_ [-> _]]] := MF x. have -> // : x =? q = false.
            apply/Z.eqb_neq => ?; subst x. rewrite -app_assoc in ND. apply: (NoDup_app_disj _ _ q ND Hx). by left.
          * move=> z. by have [-> _] := MF z. }
    case C2: ((p + nsize (mem s p) =? q) && (phys E p + nsize (mem s p) =? phys E q) && Bool.eqb (ncached (mem s p)) (ncached (mem s q))).
    { (* [p] swallows [q] *)
      move/andP: C2 => [/andP [/Z.eqb_eq T1 /Z.eqb_eq T2] /eqb_prop T3].
      have AD : adj (mem s1) p q by apply/(sim_adj s s1 p q Sm); split; [lia|split; [lia|congruence]].
      have Npq : p <> q by congruence.
      rewrite /grow_node. have -> : 0 <? nsize (mem s q) = true by apply/Z.ltb_lt; lia. cbn [assert bind].
      have EM : remove_node (set_size s1 p (nsize (mem s1 p) + nsize (mem s q))) (last done 0) q = merged s1 (last done 0) p q.
      { by rewrite /merged Q2. }
      rewrite EM.
      have EL : forall k, (done ++ q :: rest) ++ k = done ++ q :: (rest ++ k) by move=> k; rewrite -app_assoc.
      have Hp' : In p (done ++ (rest ++ p :: post)).
      { apply/in_or_app. right. apply/in_or_app. right. by left. }
      have F1' := F1. rewrite EL in F1'.
      have [F2 CV] := merged_ok s1 done q (rest ++ p :: post) p F1' Hp' AD.
      have MF := fun z => merged_fields s1 (last done 0) p q z Npq.
      have RD := remove_fields (set_size s1 p (nsize (mem s1 p) + nsize (mem s1 q))) (last done 0) q.
      remember (merged s1 (last done 0) p q) as s2 eqn:Es2.
      do 2 eexists. split; first reflexivity. cbv beta iota.
      exists (done ++ rest), (p :: post). rewrite -app_assoc. split=> //. split.
      { rewrite !app_length /=; lia. }
      split. { move=> z c. by rewrite CV EL (sim_pcs E s s1). }
      split. { move=> x. have [-> _] := MF x. by have [-> _] := Sf x. }
      have NAD : forall x, x <> p -> ~ adj (mem s) x p -> ~ adj (mem s2) x p.
      { move=> x Hx H H'. apply: H. apply/(sim_adj s s1 x p Sm). apply: (adj_ext _ _ x p _ _ H').
        - have [_ [_ [-> _]]] := MF x. by have -> : x =? p = false by apply/Z.eqb_neq.
        - move=> z. by have [-> _] := MF z. }
      have Np : forall x, In x (done ++ rest) -> x <> p.
      { move=> x Hx ?; subst x. apply: (NoDup_app_disj _ _ p ND); last by left.
        destruct (in_app_or _ _ _ Hx); apply/in_or_app; [by left|by right; right]. }
      have PW2 : pw (mem s2) (done ++ rest).
      { move=> x y Hx Hy AD'. apply: (PWs (done ++ rest) _ x y Hx Hy).
        - move=> w Hw. destruct (in_app_or _ _ _ Hw); apply/in_or_app; [by left|by right; right].
        - apply: (adj_ext _ _ x y _ _ AD').
          * have [_ [_ [-> _]]] := MF x. have -> // : x =? p = false. apply/Z.eqb_neq. exact: Np.
          * move=> z. by have [-> _] := MF z. }
      have [C3 _] := F2.
      case: OI => [EP|[S1 [S2 [S3 [S4 S5]]]]].
      - destruct (list_eq_dec Z.eq_dec rest []) as [Er|Nr].
        + subst rest. have Eq : pprev = q by rewrite EP last_last. clear EP. subst pprev.
          have NQ : nnext (mem s2 q) = p.
          { have [_ [_ [_ H]]] := MF q. rewrite H.
            - have ND' := ND. rewrite EL in ND'. case: (done) ND' => [|d0 dd] ND' Eq; first by move: PP; rewrite {1}Eq.
              apply: (NoDup_app_disj _ _ q ND'); last by left. rewrite Eq. exact: last_In.
            - rewrite Q3. rewrite EL in Cn. have := chain_next _ _ _ _ done Cn. done. }
          split=> //. split=> //. right. split=> //. split.
          { rewrite app_nil_r. rewrite EL in ND. exact: (proj2 (NoDup_mid _ _ _ ND)). }
          split=> //. split=> //. move=> x Hx. rewrite app_nil_r in Hx. cbn [hd]. apply: NAD.
          * apply: Np. by rewrite app_nil_r.
          * exact: (proj1 (HD x Hx)).
        + have EL' : last (done ++ q :: rest) 0 = last rest 0.
          { have [r' [e Er]] := exists_last Nr. subst rest. by rewrite app_comm_cons app_assoc !last_last. }
          have EL2 : last (done ++ rest) 0 = last rest 0.
          { have [r' [e Er]] := exists_last Nr. subst rest. by rewrite app_assoc !last_last. }
          split.
          * rewrite EP EL'. have [r' [e Er]] := exists_last Nr. subst rest. rewrite last_last.
            rewrite -!app_assoc in C3. cbn [app] in C3. rewrite app_assoc in C3. exact: (chain_next _ _ _ _ (done ++ r') C3).
          * split=> //. left. by rewrite EP EL' EL2.
      - have Nl : pprev <> last done 0.
        { move=> El. case: (list_eq_dec Z.eq_dec done []) => [Ed|Nd]; first by subst done.
          apply: S2. rewrite El. apply/in_or_app. left. apply/in_or_app. left. exact: last_In. }
        have NQ : nnext (mem s2 pprev) = p.
        { have [_ [_ [_ H]]] := MF pprev. rewrite (H Nl). have [_ [_ [-> _]]] := Sf pprev. exact: S4. }
        split=> //. split=> //. right. split=> //. split.
        { move=> H. apply: S2. destruct (in_app_or _ _ _ H) as [H'|H'].
          - apply/in_or_app. left. destruct (in_app_or _ _ _ H'); apply/in_or_app; [by left|by right; right].
          - apply/in_or_app. by right. }
        split=> //. split=> //. move=> x Hx. cbn [hd]. apply: NAD; first exact: Np.
        apply: S5. destruct (in_app_or _ _ _ Hx); apply/in_or_app; [by left|by right; right]. }
    (* neither *)
    have EL : (done ++ [q]) ++ rest = done ++ q :: rest by rewrite -app_assoc.
    have Nx : nnext (mem s1 q) = hd p rest.
    { rewrite Q3. rewrite -app_assoc in Cn. have := chain_next _ _ _ _ done Cn. by case: (rest). }
    rewrite Nx.
    have {}IH := IH (done ++ [q]) s1 fuel pprev. rewrite EL last_last P1 P2 in IH.
    have [s2 [r [H1 H2]]] : exists s' r, defrag_inner E fuel s1 pprev p p (p + nsize (mem s p)) (phys E p) (phys E p + nsize (mem s p)) (ncached (mem s p)) q (hd p rest) = Ok (s', r) /\
       match r with
    | None => sim s1 s' /\ pw (mem s1) ((done ++ q :: rest) ++ [p])
    | Some p' => exists pre' cur', FL s' (pre' ++ cur') /\ (List.length (pre' ++ cur') < List.length ((done ++ q :: rest) ++ p :: post))%nat /\
        (forall z c, cover_flag c (pcs (mem s') (pre' ++ cur')) z = cover_flag c (pcs (mem s1) ((done ++ q :: rest) ++ p :: post)) z) /\
        (forall x, ncached (mem s' x) = ncached (mem s1 x)) /\ nnext (mem s' p') = hd 0 cur' /\ OInv s' pre' cur' p'
    end.
    { apply: IH => //; first lia.
      - split; first exact: PWs. case: OI => [H|[S1 [S2 [S3 [S4 S5]]]]]; [by left|right].
        split=> //. split=> //. split=> //. split.
        + have [_ [_ [-> _]]] := Sf pprev. done.
        + move=> x Hx /(sim_adj s s1 x _ Sm). exact: S5.
      - move=> x Hx. destruct (in_app_or _ _ _ Hx) as [H|[H|[]]].
        + have [D1 D2] := HD x H. split=> /(sim_adj s s1 _ _ Sm) //.
        + subst x. split=> /(sim_adj s s1 _ _ Sm) [T1 [T2 T3]].
          * move: C1. rewrite T1 T2 T3 !Z.eqb_refl Bool.eqb_reflx. done.
          * move: C2. rewrite T1 T2 T3 !Z.eqb_refl Bool.eqb_reflx. done. }
    exists s2, r. split=> //. case: (r) H2 => [p'|].
    + move=> [pre' [cur' [G1 [G2 [G3 [G4 G5]]]]]]. exists pre', cur'. split=> //. split=> //. split.
      * move=> z c. by rewrite G3 (sim_pcs E s s1).
      * split=> //. move=> x. rewrite G4. by have [-> _] := Sf x.
    + move=> [G1 G2]. split; first exact: sim_trans Sm G1.
      move=> x y Hx Hy AD. apply: (G2 x y Hx Hy). by apply/(sim_adj s s1 x y Sm).
Qed.
End arch.
