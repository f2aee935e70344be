(** Lemmas for [RpcMem_Props]: unmarshalling a list of parameters. *)
From Coq Require Import List NArith Bool Arith Lia ssreflect.
From Verif Require Import Prelude Marshal_Model Marshal_Spec RpcMem_Model
  RpcMem_Spec RpcMem_Proofs.
Import ListNotations.
Open Scope N_scope.
Open Scope list_scope.

Lemma read_strings_filled m qs ss :
  Forall2 (fun q s => m_live m q = Some (BBytes s)) qs ss ->
  read_strings m (map Blk qs) = Some ss.
Proof. elim=> //= q s qs' ss' -> _ ->. done. Qed.

Definition constant (mal : nat -> N -> bool) (mal0 : N -> bool) : Prop :=
  forall k n, mal k n = mal0 n.

Lemma malloc_cases mal n v m :
  (mal (m_next m) n = true /\
   malloc mal n v m = (Blk (m_next m),
     Mem (S (m_next m)) (upd (m_live m) (m_next m) (Some v)))) \/
  (mal (m_next m) n = false /\
   malloc mal n v m = (Null, Mem (S (m_next m)) (m_live m))).
Proof.
  rewrite /malloc. case: (mal (m_next m) n); by [left|right].
Qed.
Lemma sane_more m : sane m -> sane (Mem (S (m_next m)) (m_live m)).
Proof. move=> H b /= L. apply: H. lia. Qed.
Lemma sane_alloc m v : sane m ->
  sane (Mem (S (m_next m)) (upd (m_live m) (m_next m) (Some v))).
Proof. move=> H b /= L. rewrite upd_ne; first lia. apply: H. lia. Qed.

Lemma u_param_ok W mal buf size off t c m : sane m ->
  exists r c' m', u_param W mal buf size off t c m = Some (r, c', m') /\
    sane m' /\ (m_next m <= m_next m')%nat /\
    outcome r m m' (fun o => exists bs v,
      owns m' t c' bs /\ NoDup bs /\
      (forall b, In b bs -> (m_next m <= b)%nat) /\
      (forall x, ~ In x bs -> m_live m' x = m_live m x) /\
      read_param m' t c' = Some v /\
      (forall mal0, constant mal mal0 ->
         unmarshal_param W mal0 buf size off t = Ok (v, o))) /\
    (forall e, r = Err e -> forall mal0, constant mal mal0 ->
       unmarshal_param W mal0 buf size off t = Err e).
Proof.
  move=> S. case: t => [k||k|]; rewrite /u_param /unmarshal_param.
  - case E: (unmarshal_scalar buf size off k) => [[bs o]|e].
    + eexists _, _, m. split; first reflexivity. split; first done.
      split; first lia. split; last done.
      exists [], (RScalar bs). split; first exact: owns_scalar.
      split; first constructor. by repeat split.
    + eexists _, _, m. split; first reflexivity. split; first done.
      split; first lia. split; first by split.
      move=> e' [<-] mal0 _. done.
  - rewrite /unmarshal_string.
    case: (strnlen _ _) => [n|e]; last first.
    { eexists _, _, m. split; first reflexivity. split; first done.
      split; first lia. split; first by split. by move=> e' [<-]. }
    cbn [bind]. case: (recv_over _ _ _).
    { eexists _, _, m. split; first reflexivity. split; first done.
      split; first lia. split; first by split. by move=> e' [<-]. }
    case: (cstr _) => [s|e]; last first.
    { eexists _, _, m. split; first reflexivity. split; first done.
      split; first lia. split; first by split. by move=> e' [<-]. }
    cbn [bind].
    case: (malloc_cases mal (nlen s + 1) (BBytes s) m) => [[Ma ->]|[Ma ->]].
    + eexists _, _, _. split; first reflexivity. split; first exact: sane_alloc.
      split; first by move=> /=; lia. split; last done.
      exists [m_next m], (RString s).
      split; first by apply: (owns_string _ _ _ s) => //=; rewrite upd_eq.
      split; first by constructor; [case|constructor].
      split; first by move=> b [<-|[]]; lia.
      split; first by move=> x X /=; rewrite upd_ne // => E; apply: X; left.
      split; first by rewrite /= upd_eq.
      move=> mal0 M. by rewrite -(M (m_next m)) Ma.
    + eexists _, _, _. split; first reflexivity. split; first exact: sane_more.
      split; first by move=> /=; lia. split; first by split.
      move=> e' [<-] mal0 M. by rewrite -(M (m_next m)) Ma.
  - rewrite /unmarshal_array.
    case: (recv_over _ _ _).
    { eexists _, _, m. split; first reflexivity. split; first done.
      split; first lia. split; first by split. by move=> e' [<-]. }
    case: (mread _ _ _) => [bs|e]; last first.
    { eexists _, _, m. split; first reflexivity. split; first done.
      split; first lia. split; first by split. by move=> e' [<-]. }
    cbn [bind].
    case: (malloc_cases mal (usz W (k * unle bs)) (BBytes []) m)
      => [[Ma ->]|[Ma ->]]; last first.
    { eexists _, _, _. split; first reflexivity. split; first exact: sane_more.
      split; first by move=> /=; lia. split; first by split.
      move=> e' [<-] mal0 M. by rewrite -(M (m_next m)) Ma. }
    set m1 := Mem _ _. have S1 : sane m1 by exact: sane_alloc.
    case: (recv_over _ _ _).
    { case: (hfree_live m1 (m_next m)); first by rewrite /= upd_eq.
      move=> m2 [-> [R X]]. eexists _, _, m2. split; first reflexivity.
      split; first exact: (released_sane _ _ _ S1 R).
      split; first by rewrite X /=; lia. split; last first.
      { move=> e' [<-] mal0 M. by rewrite -(M (m_next m)) Ma. }
      have U : unchanged m m2.
      { move=> x. case: (Nat.eq_dec x (m_next m)) => E.
        - subst x. rewrite (proj1 (R _)); first by left. by rewrite S.
        - rewrite (proj2 (R _)); first by move=> [F|[]]; congruence.
          by rewrite /m1 /= upd_ne. }
      by split. }
    case Mr: (mread _ _ _) => [block|e]; last first.
    { eexists _, _, m1. split; first reflexivity. split; first done.
      split; first by move=> /=; lia. split; last first.
      { move=> e' [<-] mal0 M. by rewrite -(M (m_next m)) Ma. }
      split.
      - move: Mr. rewrite /mread. case: (_ <=? _) => // [[<-]]. by case.
      - move=> x X. rewrite /m1 /= upd_ne //. lia. }
    eexists _, _, _. split; first reflexivity.
    split.
    { move=> b /= L. rewrite upd_ne; first lia. rewrite upd_ne; first lia.
      apply: S. lia. }
    split; first by move=> /=; lia. split; last done.
    exists [m_next m], (RArray (unle bs) block).
    split; first by apply: (owns_array _ _ _ (unle bs) _ block) => //=; rewrite upd_eq.
    split; first by constructor; [case|constructor].
    split; first by move=> b [<-|[]]; lia.
    split.
    { move=> x X /=. have E : x <> m_next m by move=> E; apply: X; left.
      by rewrite upd_ne // upd_ne. }
    split; first by rewrite /= upd_eq.
    move=> mal0 M. by rewrite -(M (m_next m)) Ma.
  - rewrite /unmarshal_string_array.
    case: (recv_over _ _ _).
    { eexists _, _, m. split; first reflexivity. split; first done.
      split; first lia. split; first by split. by move=> e' [<-]. }
    case: (mread _ _ _) => [bs|e]; last first.
    { eexists _, _, m. split; first reflexivity. split; first done.
      split; first lia. split; first by split. by move=> e' [<-]. }
    cbn [bind].
    case: (malloc_cases mal (usz W (W * unle bs)) (BPtrs []) m)
      => [[Ma ->]|[Ma ->]]; last first.
    { eexists _, _, _. split; first reflexivity. split; first exact: sane_more.
      split; first by move=> /=; lia. split; first by split.
      move=> e' [<-] mal0 M. by rewrite -(M (m_next m)) Ma. }
    set m1 := Mem _ _.
    case: (u_strings_ok W mal buf size (usz W (W * unle bs)) (unle bs)
             (m_next m) m S (Datatypes.S (length buf)) 0 (u32 (off + W)) m1
             [] []).
    + lia.
    + rewrite /m1 /=. lia.
    + exact: sane_alloc.
    + rewrite /m1 /=. lia.
    + split; first by rewrite /m1 /= upd_eq. constructor.
    + done.
    + constructor; [by case|constructor].
    + done.
    + move=> x X. rewrite /m1 /= upd_ne // => E. by apply: X; left.
    + lia.
    + move=> r [m2 [-> [S2 [L2 [O Er]]]]].
      eexists _, _, m2. split; first reflexivity. split; first done.
      split; first by move: L2; rewrite /m1 /=; lia.
      split.
      * move: O. rewrite /outcome. case: (r) => [o|e] //.
        move=> [qs [ss [F [Lq [Nd [Q [U M']]]]]]].
        exists (m_next m :: qs), (RStrArray (unle bs) ss).
        split.
        { apply: owns_strings; rewrite ?Lq //; first by case: F.
          move=> q I. exact: (filled_live _ _ _ _ _ F I). }
        split; first done.
        split; first by move=> b [<-|I]; [lia|exact: Q].
        split; first exact: U.
        split.
        { cbn [read_param c_sz c_ptr]. case: F => -> F2.
          have -> : (unle bs <=? nlen (map Blk qs)) = true.
          { apply/N.leb_le. rewrite /nlen map_length. lia. }
          rewrite firstn_all2; first by rewrite map_length; lia.
          by rewrite (read_strings_filled _ _ _ F2). }
        move=> mal0 M. by rewrite -(M (m_next m)) Ma (M' _ M).
      * move=> e E mal0 M. by rewrite -(M (m_next m)) Ma (Er _ E _ M).
Qed.

(** A variable in order can be read, and reading depends on its blocks only. *)
Lemma owns_read m t c bs : owns m t c bs -> exists v, read_param m t c = Some v.
Proof.
  case.
  - move=> k c'. by eexists.
  - move=> c' b s P L. rewrite /= P L. by eexists.
  - move=> k c' n b s Z P L. rewrite /= Z P L. by eexists.
  - move=> k c' Z P. rewrite /= Z P. by eexists.
  - move=> c' b qs Z P L V. cbn [read_param]. rewrite Z P L.
    have -> : (N.of_nat (length qs) <=? nlen (map Blk qs)) = true.
    { apply/N.leb_le. rewrite /nlen map_length. lia. }
    rewrite firstn_all2; first by rewrite map_length; lia.
    have [ss ->] : exists ss, read_strings m (map Blk qs) = Some ss.
    { clear -V. elim: qs V => [|q qs IH] V; first by exists [].
      case: IH; first by move=> x I; apply: V; right.
      move=> ss E. case: (V q); first by left. move=> s L.
      exists (s :: ss). by rewrite /= L E. }
    by eexists.
  - move=> c' Z P. rewrite /= Z P. by eexists.
Qed.
Lemma read_frame m m' t c bs : owns m t c bs ->
  (forall b, In b bs -> m_live m' b = m_live m b) ->
  read_param m' t c = read_param m t c.
Proof.
  case.
  - done.
  - move=> c' b s P L F. by rewrite /= P F; [left|].
  - move=> k c' n b s Z P L F. by rewrite /= Z P F; [left|].
  - move=> k c' Z P F. by rewrite /= Z P.
  - move=> c' b qs Z P L V F. cbn [read_param]. rewrite Z P F; first by left.
    rewrite L. rewrite firstn_all2; first by rewrite map_length; lia.
    have -> : read_strings m' (map Blk qs) = read_strings m (map Blk qs).
    { have F' : forall q, In q qs -> m_live m' q = m_live m q.
      { move=> q I. apply: F. by right. }
      clear -F'. elim: qs F' => [|q qs IH] F //=.
      rewrite F; first by left. rewrite IH //. move=> x I. apply: F. by right. }
    done.
  - move=> c' Z P F. by rewrite /= Z P.
Qed.

Lemma F2_frame m m' ss bss : Forall2 (slot_owns m) ss bss ->
  (forall b, In b (concat bss) -> m_live m' b = m_live m b) ->
  Forall2 (slot_owns m') ss bss.
Proof.
  elim=> // s bs ss' bss' O F IH H. constructor.
  - apply: (owns_frame _ _ _ _ _ O) => b I. apply: H. by apply: in_or_app; left.
  - apply: IH => b I. apply: H. by apply: in_or_app; right.
Qed.
Lemma F2_below m ss bss b : sane m -> Forall2 (slot_owns m) ss bss ->
  In b (concat bss) -> (b < m_next m)%nat.
Proof.
  move=> S. elim=> // s bs ss' bss' O F IH /in_app_iff [I|I].
  - exact: (owns_below _ _ _ _ _ S O I).
  - exact: IH.
Qed.
Lemma F2_read m ss bss : Forall2 (slot_owns m) ss bss ->
  exists vs, read_slots m ss = Some vs.
Proof.
  elim=> [|s bs ss' bss' O F [vs E]]; first by exists [].
  case: (owns_read _ _ _ _ O) => v Ev. exists (v :: vs).
  by rewrite /= Ev E.
Qed.

Definition before (old : slot -> bool) (m : mem) (s : slot) (o : list nat)
  : Prop := if old s then slot_owns m s o else o = [].

Lemma before_frame old m m' ss olds : Forall2 (before old m) ss olds ->
  (forall b, In b (concat olds) -> m_live m' b = m_live m b) ->
  Forall2 (before old m') ss olds.
Proof.
  elim=> // s o ss' olds' O F IH H. constructor.
  - move: O. rewrite /before. case: (old s) => // O.
    apply: (owns_frame _ _ _ _ _ O) => b I. apply: H. by apply: in_or_app; left.
  - apply: IH => b I. apply: H. by apply: in_or_app; right.
Qed.
Lemma before_below old m ss olds b : sane m -> Forall2 (before old m) ss olds ->
  In b (concat olds) -> (b < m_next m)%nat.
Proof.
  move=> S. elim=> // s bs ss' bss' O F IH /in_app_iff [I|I]; last exact: IH.
  move: O. rewrite /before. case: (old s) => O; last by subst bs.
  exact: (owns_below _ _ _ _ _ S O I).
Qed.

Definition shape (s : slot) : dir * ptype := (s_dir s, s_type s).

(** What has been given up: everything after a success, up to the parameter
    that failed otherwise. *)
Definition gone {A} (r : res A) (k : nat) (olds : list (list nat))
  : list nat :=
  match r with
  | Ok _ => concat olds
  | Err _ => concat (firstn (S k) olds)
  end.
Definition known {A} (r : res A) : Prop :=
  match r with Ok _ => True | Err e => reported e end.

Lemma gone_cons A (r : res A) k o olds :
  gone r (S k) (o :: olds) = o ++ gone r k olds.
Proof. by case: r. Qed.
Lemma in_firstn A (l : list A) k x : In x (firstn k l) -> In x l.
Proof.
  elim: l k => [|a l IH] [|k] //= [->|I]; [by left|right; exact: IH I].
Qed.
Lemma in_concat_firstn A (l : list (list A)) k x :
  In x (concat (firstn k l)) -> In x (concat l).
Proof.
  move=> /in_concat [y [I J]]. apply/in_concat. exists y. split => //.
  exact: in_firstn I.
Qed.
Lemma in_gone A (r : res A) k olds x : In x (gone r k olds) -> In x (concat olds).
Proof. case: r => [a|e] //=. exact: (in_concat_firstn _ olds (S k)). Qed.

Lemma u_loop_ok pick old W mal buf size :
  (forall d t c c', pick (Slot d t c) = pick (Slot d t c')) ->
  forall ss off m olds, sane m ->
  Forall2 (before old m) (filter pick ss) olds -> NoDup (concat olds) ->
  exists r ss' k m',
    u_loop pick old W mal buf size off ss m = Some (r, ss', k, m') /\
    sane m' /\ (m_next m <= m_next m')%nat /\
    map shape ss' = map shape ss /\
    filter (fun s => negb (pick s)) ss' = filter (fun s => negb (pick s)) ss /\
    exists news,
      Forall2 (slot_owns m') (firstn k (filter pick ss')) news /\
      NoDup (concat news) /\
      (forall b, In b (concat news) -> (m_next m <= b)%nat) /\
      (forall x, (x < m_next m)%nat -> ~ In x (concat olds) ->
         m_live m' x = m_live m x) /\
      (known r -> forall x, ~ In x (concat news) ->
         (In x (gone r k olds) -> m_live m' x = None) /\
         (~ In x (gone r k olds) -> m_live m' x = m_live m x)) /\
      (forall o, r = Ok o -> k = length (filter pick ss') /\
         exists vs, read_slots m' (filter pick ss') = Some vs /\
         forall mal0, constant mal mal0 ->
           unmarshal_params W mal0 buf size off (map s_type (filter pick ss))
           = Ok (vs, o)) /\
      (forall e, r = Err e -> (k < length (filter pick ss))%nat /\
         skipn (S k) (filter pick ss') = skipn (S k) (filter pick ss) /\
         forall mal0, constant mal mal0 ->
           unmarshal_params W mal0 buf size off (map s_type (filter pick ss))
           = Err e).
Proof.
  move=> Pk. elim=> [|s ss IH] off m olds S F N.
  - cbn [filter] in *. inversion F; subst. cbn [u_loop].
    exists (Ok off), [], 0%nat, m. split; first done. split; first done.
    split; first lia. split; first done. split; first done.
    exists []. split; first constructor. split; first constructor.
    split; first done. split; first done. split; first done.
    split; last done. move=> o [<-]. split; first done. by exists [].
  - cbn [filter u_loop]. cbn [filter] in F. case P: (pick s) F => F; last first.
    + case: (IH off m olds S F N) => r [ss' [k [m' [E [S' [L [Sh [Fi [news H]]]]]]]]].
      rewrite E. exists r, (s :: ss'), k, m'. split; first done.
      split; first done. split; first done.
      split; first by rewrite /= Sh.
      split; first by rewrite /= P /= Fi.
      exists news. cbn [filter]. by rewrite P.
    + inversion F as [|? o1 ? olds' O F' ]; subst. clear F.
      rewrite [concat _]/= in N. move: (N) => /nodup_app [N1 [N2 D]].
      have [m0 [E0 [R0 X0]]] : exists m0,
          (if old s then free_param (s_type s) (s_cell s) m else Some m)
          = Some m0 /\ released m o1 m0 /\ m_next m0 = m_next m.
      { move: O. rewrite /before. case: (old s) => O.
        - exact: free_param_ok O N1.
        - subst o1. exists m. by split; [|split; [exact: released_nil|]]. }
      rewrite E0.
      have S0 : sane m0 := released_sane _ _ _ S R0 X0.
      have Bo : forall b, In b o1 -> (b < m_next m)%nat.
      { move=> b I. move: O. rewrite /before. case: (old s) => O; last by subst o1.
        exact: (owns_below _ _ _ _ _ S O I). }
      have Br : forall b, In b (concat olds') -> (b < m_next m)%nat.
      { move=> b. exact: before_below S F'. }
      case: (u_param_ok W mal buf size off (s_type s) (s_cell s) m0 S0)
        => r1 [c1 [m1 [E1 [S1 [L1 [O1 Er1]]]]]].
      rewrite E1. rewrite X0 in L1.
      have P' : pick (Slot (s_dir s) (s_type s) c1) = true.
      { rewrite -P. case: (s) => d t c. exact: Pk. }
      case: r1 E1 O1 Er1 => [off1|e1] E1 O1 Er1; last first.
      { exists (Err e1), (Slot (s_dir s) (s_type s) c1 :: ss), 0%nat, m1.
        case: O1 => [Re Lo].
        split; first done. split; first done. split; first done.
        split; first done.
        split; first by rewrite /= P'.
        exists []. split; first constructor. split; first constructor.
        split; first done.
        split.
        { move=> x X J. rewrite Lo; first by rewrite X0.
          apply: (proj2 (R0 x)) => I. apply: J. by apply: in_or_app; left. }
        split.
        { move=> K x _. rewrite (Re K x).
          rewrite /gone firstn_cons firstn_O /= app_nil_r. exact: R0. }
        split; first done.
        move=> e [<-]. split; first by move=> /=; lia.
        split; first by rewrite /= P'.
        move=> mal0 M. cbn [map unmarshal_params].
        by rewrite (Er1 _ eq_refl _ M). }
      case: O1 => [bs [v [Ow [Nb [Fr [U [Rd Mv]]]]]]].
      have U' : forall x, (x < m_next m)%nat -> ~ In x o1 -> m_live m1 x = m_live m x.
      { move=> x X J. rewrite U; first by move=> I; move: (Fr _ I); rewrite X0; lia.
        exact: (proj2 (R0 x)). }
      have F1 : Forall2 (before old m1) (filter pick ss) olds'.
      { apply: (before_frame _ _ _ _ _ F') => b I. apply: U'; first exact: Br.
        move=> J. exact: (D _ J I). }
      case: (IH off1 m1 olds' S1 F1 N2) => r [ss' [k [m2 [E [S2 [L2 [Sh [Fi [news [Fn [Nn [Nf [Lo [Kn [Ok' Er']]]]]]]]]]]]]]].
      rewrite E. eexists r, (_ :: ss'), (Datatypes.S k), m2.
      split; first reflexivity. split; first done. split; first lia.
      split; first by rewrite /= Sh.
      split; first by rewrite /= P' /= Fi.
      have Bs : forall b, In b bs -> m_live m2 b = m_live m1 b.
      { move=> b I. apply: Lo.
        - exact: (owns_below _ _ _ _ _ S1 Ow I).
        - move=> J. move: (Br _ J) (Fr _ I). rewrite X0. lia. }
      exists (bs :: news).
      cbn [filter]. rewrite P' firstn_cons.
      split; first by constructor => //; apply: (owns_frame _ _ _ _ _ Ow).
      split.
      { apply/nodup_app. split => //. split => // x I J.
        move: (owns_below _ _ _ _ _ S1 Ow I) (Nf _ J). lia. }
      split.
      { move=> b /in_app_iff [I|I].
        - move: (Fr _ I). by rewrite X0.
        - move: (Nf _ I). lia. }
      split.
      { move=> x X J. rewrite Lo; [lia| |].
        - move=> I. apply: J. by apply: in_or_app; right.
        - apply: U' => // I. apply: J. by apply: in_or_app; left. }
      split.
      { move=> K x J.
        have J1 : ~ In x (concat news)
          by move=> I; apply: J; apply: in_or_app; right.
        have Jb : ~ In x bs by move=> I; apply: J; apply: in_or_app; left.
        case: (Kn K x J1) => [G1 G2]. rewrite gone_cons.
        case: (in_dec Nat.eq_dec x (gone r k olds')) => G.
        - split; first by move=> _; exact: G1.
          move=> X. exfalso. apply: X. by apply: in_or_app; right.
        - rewrite (G2 G) (U _ Jb). split.
          + move=> /in_app_iff [I|] //. exact: (proj1 (R0 x) I).
          + move=> X. apply: (proj2 (R0 x)) => I. apply: X.
            by apply: in_or_app; left. }
      split.
      { move=> o Eo. case: (Ok' _ Eo) => [-> [vs [Rv Mp]]]. split; first done.
        exists (v :: vs). split.
        - cbn [read_slots s_type s_cell]. by rewrite (read_frame _ _ _ _ _ Ow Bs) Rd Rv.
        - move=> mal0 M. cbn [map unmarshal_params].
          by rewrite (Mv _ M) [bind _ _]/= (Mp _ M). }
      { move=> e Ee. case: (Er' _ Ee) => [Lk [Sk Mp]].
        split; first by move=> /=; lia.
        split; first exact: Sk.
        move=> mal0 M. cbn [map unmarshal_params].
        by rewrite (Mv _ M) [bind _ _]/= (Mp _ M). }
Qed.
