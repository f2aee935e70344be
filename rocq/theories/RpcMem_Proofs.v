(** Lemmas for [RpcMem_Props]: freeing, and unmarshalling one parameter. *)
From Coq Require Import List NArith Bool Arith Lia ssreflect.
From Verif Require Import Prelude Marshal_Model Marshal_Spec RpcMem_Model
  RpcMem_Spec.
Import ListNotations.
Open Scope N_scope.
Open Scope list_scope.

Lemma F2i A B (P Q : A -> B -> Prop) l r :
  (forall a b, P a b -> Q a b) -> Forall2 P l r -> Forall2 Q l r.
Proof. move=> H. elim=> // a b l' r' Pab _ IH. constructor; auto. Qed.
Lemma upd_eq f b v : upd f b v b = v.
Proof. by rewrite /upd Nat.eqb_refl. Qed.
Lemma upd_ne f b v x : x <> b -> upd f b v x = f x.
Proof. by move=> H; rewrite /upd (proj2 (Nat.eqb_neq _ _) H). Qed.

Lemma hfree_live m b : m_live m b <> None ->
  exists m', hfree (Blk b) m = Some m' /\ released m [b] m' /\
             m_next m' = m_next m.
Proof.
  rewrite /hfree. case E: (m_live m b) => [v|] // _.
  eexists; split; [reflexivity|split; [|reflexivity]] => x /=. split.
  - move=> [<-|[]]. by rewrite upd_eq.
  - move=> H. rewrite upd_ne //. by move=> X; apply: H; left.
Qed.

Lemma released_trans m bs m1 cs m2 :
  released m bs m1 -> released m1 cs m2 -> released m (bs ++ cs) m2.
Proof.
  move=> R1 R2 b. split.
  - move=> I0. have I := in_app_or _ _ _ I0.
    case: (in_dec Nat.eq_dec b cs) => C.
    + exact (proj1 (R2 b) C).
    + rewrite (proj2 (R2 b) C). case: I => [I|I] //. exact (proj1 (R1 b) I).
  - move=> N. rewrite (proj2 (R2 b)); last exact: (proj2 (R1 b) (fun X => N (in_or_app _ _ _ (or_introl X)))).
    by move=> X; apply: N; apply: in_or_app; right.
Qed.
Lemma released_nil m : released m [] m.
Proof. by move=> b; split. Qed.
Lemma released_eq m bs cs m' : (forall b, In b bs <-> In b cs) ->
  released m bs m' -> released m cs m'.
Proof.
  move=> E R b. split; move=> H.
  - apply: (proj1 (R b)). exact: (proj2 (E b) H).
  - apply: (proj2 (R b)) => X. exact: (H (proj1 (E b) X)).
Qed.
Lemma released_sane m bs m' : sane m -> released m bs m' ->
  m_next m' = m_next m -> sane m'.
Proof.
  move=> S R E b. rewrite E => L. case: (in_dec Nat.eq_dec b bs) => C.
  - exact: (proj1 (R b) C).
  - by rewrite (proj2 (R b) C); apply: S.
Qed.

Lemma nth_skipn A (l : list A) j x r : skipn j l = x :: r ->
  nth_error l j = Some x /\ skipn (S j) l = r.
Proof.
  elim: l j => [|a l IH] [|j] //=.
  - by move=> [-> ->].
  - move=> H. exact: (IH _ H).
Qed.

Lemma free_elems_ok b ps qs : forall j m,
  m_live m b = Some (BPtrs ps) -> skipn j ps = map Blk qs ->
  NoDup (b :: qs) -> (forall q, In q qs -> m_live m q <> None) ->
  exists m', free_elems (Blk b) j (length qs) m = Some m' /\
    released m qs m' /\ m_next m' = m_next m.
Proof.
  elim: qs => [|q qs IH] j m L S N V.
  - exists m. split; [done|split; [exact: released_nil|done]].
  - case: (nth_skipn _ _ _ _ _ S) => Hn Hs.
    move: N => /NoDup_cons_iff [Nb /NoDup_cons_iff [Nq N]].
    case: (hfree_live m q); first by apply: V; left.
    move=> m1 [E1 [R1 X1]].
    cbn [length free_elems]. rewrite L Hn E1.
    case: (IH (Datatypes.S j) m1) => //.
    + rewrite (proj2 (R1 b)) //. move=> [X|[]]. by apply: Nb; left.
    + constructor => // X. by apply: Nb; right.
    + move=> x I. rewrite (proj2 (R1 x)); first by move=> [X|[]]; subst x.
      by apply: V; right.
    + move=> m2 [E2 [R2 X2]]. exists m2. split => //. split; last by rewrite X2.
      exact: (released_trans _ [q] _ qs _ R1 R2).
Qed.

Lemma owns_live m t c bs b : owns m t c bs -> In b bs -> m_live m b <> None.
Proof.
  move=> O. case: O => //=.
  - by move=> c' x s _ E [<-|[]]; rewrite E.
  - by move=> k c' n x ds _ _ E [<-|[]]; rewrite E.
  - move=> c' x qs _ _ E V [<-|I]; first by rewrite E.
    by case: (V _ I) => s ->.
Qed.
Lemma owns_below m t c bs b : sane m -> owns m t c bs -> In b bs ->
  (b < m_next m)%nat.
Proof.
  move=> S O I. case: (le_lt_dec (m_next m) b) => // L.
  by case: (owns_live _ _ _ _ _ O I); apply: S.
Qed.
Lemma owns_frame m m' t c bs : owns m t c bs ->
  (forall b, In b bs -> m_live m' b = m_live m b) -> owns m' t c bs.
Proof.
  move=> O. case: O.
  - move=> k c' _. exact: owns_scalar.
  - move=> c' b s P L F. apply: (owns_string _ _ _ s P). by rewrite F; [left|].
  - move=> k c' n b s Z P L F. apply: (owns_array _ _ _ n _ s Z P).
    by rewrite F; [left|].
  - move=> k c' Z P _. exact: owns_no_array.
  - move=> c' b qs Z P L V F. apply: (owns_strings _ _ _ _ Z P).
    + by rewrite F; [left|].
    + move=> q I. case: (V _ I) => s E. exists s. by rewrite F; [right|].
  - move=> c' Z P _. exact: owns_no_strings.
Qed.

Lemma free_param_ok m t c bs : owns m t c bs -> NoDup bs ->
  exists m', free_param t c m = Some m' /\ released m bs m' /\
             m_next m' = m_next m.
Proof.
  move=> O. case: O.
  - move=> k c' _. exists m. split; [done|split; [exact: released_nil|done]].
  - move=> c' b s P L _. rewrite /= P. apply: hfree_live. by rewrite L.
  - move=> k c' n b s Z P L _. rewrite /free_param P. apply: hfree_live.
    by rewrite L.
  - move=> k c' Z P _. rewrite /free_param P. exists m. split; [done|split; [exact: released_nil|done]].
  - move=> c' b qs Z P L V N. rewrite /free_param Z P Nat2N.id.
    case: (free_elems_ok b (map Blk qs) qs 0 m) => //.
    + by move=> q I; case: (V _ I) => s ->.
    + move=> m1 [E1 [R1 X1]]. rewrite E1.
      case: (hfree_live m1 b).
      * rewrite (proj2 (R1 b)); first by move: N => /NoDup_cons_iff [].
        by rewrite L.
      * move=> m2 [E2 [R2 X2]]. exists m2. split => //. split; last by rewrite X2.
        apply: (released_eq _ (qs ++ [b])); last exact: released_trans R1 R2.
        move=> x. rewrite in_app_iff /=. tauto.
  - move=> c' Z P _. rewrite /free_param Z P /=. exists m. split; [done|split; [exact: released_nil|done]].
Qed.

Lemma nodup_app A (l r : list A) : NoDup (l ++ r) <->
  NoDup l /\ NoDup r /\ (forall x, In x l -> ~ In x r).
Proof.
  split.
  - elim: l => [|a l IH] /=.
    + move=> N. split; [constructor|split => //].
    + move=> /NoDup_cons_iff [Ha N]. case: (IH N) => [N1 [N2 D]].
      split; [|split] => //.
      * constructor => // I. apply: Ha. by apply: in_or_app; left.
      * move=> x [<-|I]; last exact: D. move=> R. apply: Ha.
        by apply: in_or_app; right.
  - move=> [N1 [N2 D]]. elim: l N1 D => [|a l IH] //= /NoDup_cons_iff [Ha N1] D.
    constructor.
    + move=> /in_app_iff [I|I] //. apply: (D a _ I). by left.
    + apply: IH => // x I. apply: D. by right.
Qed.

Lemma free_slots_ok ss : forall m bss, Forall2 (slot_owns m) ss bss ->
  NoDup (concat bss) ->
  exists m', free_slots ss m = Some m' /\ released m (concat bss) m' /\
             m_next m' = m_next m.
Proof.
  elim: ss => [|s ss IH] m bss F.
  - inversion F; subst. exists m. split; [done|split; [exact: released_nil|done]].
  - inversion F as [|? bs ? bss' O F' ]; subst.
    rewrite [concat _]/= => /nodup_app [N1 [N2 D]].
    case: (free_param_ok _ _ _ _ O N1) => m1 [E1 [R1 X1]].
    cbn [free_slots]. rewrite E1.
    case: (IH m1 bss') => //.
    + have: Forall2 (fun s bs => slot_owns m s bs /\ forall b, In b bs -> In b (concat bss')) ss bss'.
      { clear -F'. elim: F' => // s0 bs0 ss0 bss0 O F IH.
        constructor; first by split => // b I; apply: in_or_app; left.
        apply: (F2i _ _ _ _ _ _ _ IH) => s' b' [? I]. split => // b J.
        apply: in_or_app. right. exact: I. }
      apply: F2i => s' b' [O' I].
      apply: (owns_frame _ _ _ _ _ O') => b Ib. apply: (proj2 (R1 b)) => J.
      exact: (D _ J (I _ Ib)).
    + move=> m2 [E2 [R2 X2]]. exists m2. split => //. split; last by rewrite X2.
      exact: released_trans R1 R2.
Qed.

(** The strings of an array. *)
Definition filled (m : mem) (b : nat) (qs : list nat)
    (ss : list (list N)) : Prop :=
  m_live m b = Some (BPtrs (map Blk qs)) /\
  Forall2 (fun q s => m_live m q = Some (BBytes s)) qs ss.

Lemma filled_live m b qs ss q : filled m b qs ss -> In q qs ->
  exists s, m_live m q = Some (BBytes s).
Proof.
  move=> [_ F]. elim: F => [//|q' s' qs' ss' E _ IH] /= [<-|I].
  - by exists s'.
  - exact: IH.
Qed.

Definition outcome {A} (r : res A) (m0 m' : mem) (ok : A -> Prop) : Prop :=
  match r with
  | Ok o => ok o
  | Err e => (reported e -> unchanged m0 m') /\
             (forall x, (x < m_next m0)%nat -> m_live m' x = m_live m0 x)
  end.

Lemma u_strings_ok W mal buf size cap count b m0 : sane m0 ->
  forall fuel i off m qs ss,
  (b >= m_next m0)%nat -> (b < m_next m)%nat ->
  sane m -> (m_next m0 <= m_next m)%nat ->
  filled m b qs ss -> N.of_nat (length qs) = i -> NoDup (b :: qs) ->
  (forall q, In q qs -> (m_next m0 <= q)%nat) ->
  (forall x, ~ In x (b :: qs) -> m_live m x = m_live m0 x) ->
  i <= count ->
  exists r m', u_strings fuel W mal buf size cap i count off b m = Some (r, m')
    /\ sane m' /\ (m_next m <= m_next m')%nat
    /\ outcome r m0 m' (fun o => exists qs' ss',
         filled m' b qs' (ss ++ ss') /\ N.of_nat (length qs') = count /\
         NoDup (b :: qs') /\
         (forall q, In q qs' -> (m_next m0 <= q)%nat) /\
         (forall x, ~ In x (b :: qs') -> m_live m' x = m_live m0 x) /\
         (forall mal0, (forall k n, mal k n = mal0 n) ->
            unmarshal_strings fuel W mal0 buf size cap i count off
            = Ok (ss', o)))
    /\ (forall e, r = Err e -> forall mal0, (forall k n, mal k n = mal0 n) ->
          unmarshal_strings fuel W mal0 buf size cap i count off = Err e).
Proof.
  move=> S0. elim=> [|fuel IH] i off m qs ss Hb Hb' S L F Li Nd Q U C.
  - cbn [u_strings unmarshal_strings]. case: (N.ltb_spec i count) => [H|H].
    + exists (Err OutOfFuel), m. split => //. split => //. split; first lia.
      split; last by move=> e [<-].
      split; first by move=> [|].
      move=> x X. apply: U. move=> [E|I]; first lia.
      by move: (Q _ I); lia.
    + exists (Ok off), m. split => //. split => //. split; first lia.
      split => //. exists qs, []. rewrite app_nil_r.
      repeat split => //; try (by case: F); lia.
  - cbn [u_strings unmarshal_strings]. case: (N.ltb_spec i count) => [H|H];
      last first.
    + exists (Ok off), m. split => //. split => //. split; first lia.
      split => //. exists qs, []. rewrite app_nil_r.
      repeat split => //; try (by case: F); lia.
    + have Out : forall x, (x < m_next m0)%nat -> m_live m x = m_live m0 x.
      { move=> x X. apply: U => - [E|I]; first lia. by move: (Q _ I); lia. }
      have Up : forall e m1, sane m1 -> (m_next m <= m_next m1)%nat ->
          (forall x, m_live m1 x = m_live m x) -> reported e ->
          exists m', match free_elems (Blk b) 0 (N.to_nat i) m1 with
            | Some m2 => match hfree (Blk b) m2 with
                         | Some m3 => Some (@Err BinNums.N e, m3) | None => None end
            | None => None end = Some (Err e, m') /\ sane m' /\
            (m_next m <= m_next m')%nat /\ unchanged m0 m'.
      { move=> e m1 S1 L1 E1 _.
        have -> : N.to_nat i = length qs by lia.
        case: (free_elems_ok b (map Blk qs) qs 0 m1) => //.
        - by rewrite E1; case: F.
        - move=> q I. rewrite E1. by case: (filled_live _ _ _ _ _ F I) => s ->.
        - move=> m2 [E2 [R2 X2]]. rewrite E2.
          case: (hfree_live m2 b).
          + rewrite (proj2 (R2 b)); first by move: Nd => /NoDup_cons_iff [].
            by rewrite E1; case: F => ->.
          + move=> m3 [E3 [R3 X3]]. rewrite E3. exists m3. split => //.
            have R : released m1 (qs ++ [b]) m3 by exact: released_trans R2 R3.
            split; first by apply: (released_sane _ _ _ S1 R); rewrite X3 X2.
            split; first by rewrite X3 X2.
            move=> x. case: (in_dec Nat.eq_dec x (qs ++ [b])) => J.
            * rewrite (proj1 (R x) J). symmetry. apply: S0.
              move: J => /in_app_iff [J|[<-|[]]]; [exact: Q|lia].
            * rewrite (proj2 (R x) J) E1. apply: U => - [E|I].
              -- apply: J. apply: in_or_app. by right; left.
              -- apply: J. apply: in_or_app. by left. }
      case Sn: (strnlen _ _) => [n|e]; last first.
      { exists (Err e), m. do 3 (split => //). split; last first.
        { move=> e' [<-] mal0 _. by rewrite /bind. }
        split; last exact: Out.
        (* strnlen only fails by reading outside *)
        move=> Re. exfalso. move: Sn Re. move: (u32 _) => k.
        move: (at_off buf off) => l. clear. move=> Sn Re.
        elim: l k Sn => [|a l IH] k /=; first by case: (k =? 0) => // [[E]]; subst e; case: Re.
        case: (k =? 0) => //. case: (a =? 0) => //.
        case X: (strnlen l (k - 1)) => [y|y] //= [E]. apply: (IH (k - 1)).
        by rewrite X E. }
      cbn [bind].
      case Ro: (recv_over size off (usz W (n + 1))).
      { case: (Up ValueError m S (Nat.le_refl _) (fun _ => eq_refl) (or_introl eq_refl)) => m' [E [S' [L' X]]].
        exists (Err ValueError), m'. split => //. do 2 (split => //).
        split; last by move=> e [<-].
        by split. }
      case Sc: (cstr _) => [s|e]; last first.
      { exists (Err e), m. do 3 (split => //). split; last by move=> e' [<-].
        split; last exact: Out.
        move=> Re. exfalso. move: Sc Re.
        move: (at_off buf off) => l. clear. move=> Sc Re.
        elim: l Sc => [|a l IH] /=; first by move=> [E]; subst e; case: Re.
        case: (a =? 0) => //.
        case X: (cstr l) => [y|y] //= [E]. apply: IH. by rewrite X E. }
      cbn [bind].
      case Cap: (cap <? (i + 1) * W).
      { exists (Err IndexError), m. do 3 (split => //).
        split; last by move=> e' [<-].
        split; last exact: Out. by case. }
      rewrite /malloc. case Ma: (mal (m_next m) (nlen s + 1)); last first.
      { case: (Up OtherException (Mem (Datatypes.S (m_next m)) (m_live m))).
        - move=> x X. apply: S. move: X => /=. lia.
        - move=> /=. lia.
        - done.
        - by right.
        - move=> m' [E [S' [L' X]]].
          exists (Err OtherException), m'. split => //. do 2 (split => //).
          split; first by split => // x _; exact: X.
          move=> e [<-] mal0 M. by rewrite -(M (m_next m)) Ma. }
      set q := m_next m.
      set m1 := Mem _ _.
      have Lb : m_live m1 b = Some (BPtrs (map Blk qs)).
      { rewrite /m1 /= upd_ne; first by rewrite /q; lia. by case: F. }
      rewrite /store Lb. set m2 := Mem _ _.
      have Nq : ~ In q (b :: qs).
      { move=> [E|I]; first by rewrite /q in E; lia.
        case: (filled_live _ _ _ _ _ F I) => s'. by rewrite (S q (Nat.le_refl _)). }
      have V2 : forall x, ~ In x (q :: b :: nil) -> m_live m2 x = m_live m x.
      { move=> x X. rewrite /m2 /= upd_ne; first by move=> E; apply: X; right; left.
        rewrite upd_ne //. by move=> E; apply: X; left. }
      have V2q : m_live m2 q = Some (BBytes s).
      { rewrite /m2 /= upd_ne; first by move=> E; apply: Nq; left. by rewrite upd_eq. }
      case: (IH (i + 1) (u32 (off + (n + 1))) m2 (qs ++ [q]) (ss ++ [s])).
      * exact: Hb.
      * rewrite /m2 /m1 /=. lia.
      * move=> x. rewrite /m2 /m1 /= => X. rewrite upd_ne; first lia.
        rewrite upd_ne; first by rewrite /q; lia. apply: S. lia.
      * rewrite /m2 /m1 /=. lia.
      * split; first by rewrite /m2 /= upd_eq map_app.
        apply: Forall2_app; last by constructor.
        case: F => _ F. have: Forall2 (fun q s => m_live m q = Some (BBytes s) /\ In q qs) qs ss.
        { clear -F. elim: F => // x y l r E F IH. constructor; first by split => //; left.
          apply: (F2i _ _ _ _ _ _ _ IH) => ? ? [? ?]. split => //. by right. }
        apply: F2i => x y [E I]. rewrite V2 //.
        move=> [X|[X|[]]]; subst x.
        -- by apply: Nq; right.
        -- by move: Nd => /NoDup_cons_iff [].
      * rewrite app_length /=. lia.
      * move: Nd => /NoDup_cons_iff [Nb Nd]. constructor.
        -- move=> /in_app_iff [//|[E|[]]]. by apply: Nq; left.
        -- apply/nodup_app. split => //. split; first by constructor; [case|constructor].
          move=> x I [E|[]]. subst x. by apply: Nq; right.
      * move=> x /in_app_iff [I|[<-|[]]]; first exact: Q. rewrite /q. lia.
      * move=> x X. rewrite V2.
        -- move=> [E|[E|[]]]; apply: X; subst x; last by left.
          right. apply: in_or_app. by right; left.
        -- apply: U => - [E|I]; apply: X; first by left.
          right. apply: in_or_app. by left.
      * lia.
      * move=> r [m' [E [S' [L' [O Er]]]]]. exists r, m'.
        split => //. split => //.
        split; first by move: L'; rewrite /m2 /m1 /=; lia.
        split.
        -- move: O. rewrite /outcome. case: (r) => [o|e] //.
          move=> [qs' [ss' [F' [Lq [N' [Q' [U' M']]]]]]].
          exists qs', (s :: ss'). rewrite -app_assoc in F'.
          do 5 (split => //). move=> mal0 M.
          by rewrite -(M (m_next m)) Ma (M' _ M).
        -- move=> e Ee mal0 M. by rewrite -(M (m_next m)) Ma (Er e Ee _ M).
Qed.
