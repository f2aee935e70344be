(** Proofs about resolution with forward references: the second pass and the whole. *)
From Coq Require Import ssreflect ssrbool List String Bool PeanoNat Permutation Lia.
From Verif Require Import Prelude Scope_Model Scope_Spec Scope_Proofs Forward_Model Forward_Spec Forward_Proofs Forward_Proofs2.
Import ListNotations.
Open Scope string_scope. Open Scope list_scope.

(** ** Slots after several steps *)
Lemma slot_once (R : heap -> heap -> Prop) (J : nat -> nat -> nat -> heap -> nat -> Prop) h0 h :
  (forall a b, R a b -> exists p i k r, nth_error (kids a p) i = Some k /\ is_reff a k = true /\ is_obj a r /\
     b = set_kid a p i r /\ J p i k a r) ->
  star R h0 h -> forall p i k, nth_error (kids h0 p) i = Some k ->
  nth_error (kids h p) i = Some k \/
  exists r h', nth_error (kids h p) i = Some r /\ is_reff h0 k = true /\ is_obj h0 r /\ star R h0 h' /\ star R h' h /\
    J p i k h' r.
Proof.
  move=> HR. have EV : forall a b, R a b -> evo a b.
  { move=> a b X. have [p [i [k [r [S1 [K [O [-> _]]]]]]]] := HR _ _ X. exact: set_kid_evo S1 K O. }
  move=> ST. elim: ST => {h0 h} [h|a b c S1 IH R1] p i k N; first by left.
  have [q [j [k' [r [N' [K [O [E J1]]]]]]]] := HR _ _ R1. have EA := star_evo _ _ _ EV S1.
  case: (IH p i k N) => [N2|[r2 [h' [N2 [K2 [O2 [S2 [S3 J2]]]]]]]].
  - rewrite E set_kid_kids. case: (Nat.eqb_spec p q) => [X|_]; last by left. subst q. rewrite nth_replace.
    case: (Nat.eqb_spec j i) => [X|_]; last by left. subst j. rewrite N2 in N'. case: N' => X. subst k'.
    right. exists r, b. rewrite N2. rewrite -E. rewrite (evo_reff EA) in K. split=> //. split=> //.
    split; first by apply/(evo_obj EA). split=> //. split=> //. apply: star_step (star_refl _ _) R1.
  - right. exists r2, h'. split; last by split=> //; split=> //; split=> //; split=> //; exact: star_step S3 R1.
    rewrite E set_kid_kids. case: (Nat.eqb_spec p q) => [X|_] //. subst q. rewrite nth_replace.
    case: (Nat.eqb_spec j i) => [X|_] //. subst j. exfalso. rewrite N2 in N'. case: N' => X. subst k'.
    move: K. rewrite (evo_reff EA). by rewrite (obj_nonref _ _ O2).
Qed.

Definition J1 (h0 : heap) (p i k : nat) (h : heap) (r : nat) : Prop :=
  exists l s t, ancestry h0 (p :: l) /\ nth_error h k = Some (Reff s t) /\
    hd_error (mean h s t (visible h0 (p :: l))) = Some r.
Lemma step1_slot h0 h : star (step1 h0) h0 h -> forall p i k, nth_error (kids h0 p) i = Some k ->
  nth_error (kids h p) i = Some k \/
  exists r h', nth_error (kids h p) i = Some r /\ is_reff h0 k = true /\ is_obj h0 r /\
    star (step1 h0) h0 h' /\ star (step1 h0) h' h /\ J1 h0 p i k h' r.
Proof.
  apply: slot_once => a b S. case: S => {a b} h1 p l i k s t r AN _ N1 C M. exists p, i, k, r. split=> //.
  split; first exact: cell_reff C. split; first by have [_ [_ O]] := mean_In _ _ _ _ _ (hd_In _ _ _ M).
  split=> //. by exists l, s, t.
Qed.

(** ** The second pass *)
Inductive step2 (L : list nat) : heap -> heap -> Prop :=
| s2 h p i k s t r : class_of h p = "ConnectionEnd" -> nth_error (kids h p) i = Some k ->
    nth_error h k = Some (Reff s t) -> hd_error (mean h s t L) = Some r -> step2 L h (set_kid h p i r).
Lemma step2_evo L a b : step2 L a b -> evo a b.
Proof.
  case=> h p i k s t r _ S1 N M. apply: (set_kid_evo _ _ _ _ k) => //; first exact: cell_reff N.
  by have [_ [_ O]] := mean_In _ _ _ _ _ (hd_In _ _ _ M).
Qed.
Definition J2 (L : list nat) (p i k : nat) (h : heap) (r : nat) : Prop :=
  exists s t, class_of h p = "ConnectionEnd" /\ nth_error h k = Some (Reff s t) /\ hd_error (mean h s t L) = Some r.
Lemma step2_slot L h1 h : star (step2 L) h1 h -> forall p i k, nth_error (kids h1 p) i = Some k ->
  nth_error (kids h p) i = Some k \/
  exists r h', nth_error (kids h p) i = Some r /\ is_reff h1 k = true /\ is_obj h1 r /\
    star (step2 L) h1 h' /\ star (step2 L) h' h /\ J2 L p i k h' r.
Proof.
  apply: slot_once => a b S. case: S => {a b} h2 p i k s t r CE N1 C M. exists p, i, k, r. split=> //.
  split; first exact: cell_reff C. split; first by have [_ [_ O]] := mean_In _ _ _ _ _ (hd_In _ _ _ M).
  split=> //. by exists s, t.
Qed.
Lemma star2_kids L h1 h x : star (step2 L) h1 h -> class_of h1 x <> "ConnectionEnd" -> kids h x = kids h1 x.
Proof.
  elim=> {h1 h} [//|a b c S IH S2] N. have E := star_evo _ _ _ (step2_evo L) S.
  case: S2 IH E => h p i k s t r CE _ _ _ IH E. rewrite set_kid_kids. case: (Nat.eqb_spec x p) => [X|_]; last exact: IH.
  subst x. by rewrite (evo_class E) in CE.
Qed.

Definition late_exn (h : heap) (e : exn) : Prop :=
  e = ParseError \/ e = AssertionError /\ exists k s t, nth_error h k = Some (Reff s t) /\ forall n, s <> [n].

Definition stuck (L : list nat) (h1 : heap) (e : nat) : Prop := exists k s t h2,
  star (step2 L) h1 h2 /\ In k (kids h1 e) /\ nth_error h1 k = Some (Reff s t) /\
  (mean h2 s t L = [] \/ ~ exists m n, s = [m; n] /\ forall x, In x L -> has_name h2 m x = true -> clean h2 x).
Definition settled (h1 : heap) (e : nat) (h : heap) : Prop := forall r, In r (kids h e) -> is_reff h1 r = false.

Lemma second_end_spec s L h1 h e : star (step2 L) h1 h -> frep h1 s L -> class_of h1 e = "ConnectionEnd" ->
  match second_end s h e with
  | Ok h' => star (step2 L) h1 h' /\ star (step2 L) h h' /\ settled h1 e h'
  | Err x => late_exn h1 x /\ stuck L h1 e
  end.
Proof.
  move=> S0 F CE. rewrite /second_end.
  set n := List.length (kids h e).
  have LN : n = List.length (kids h1 e) by rewrite /n (evo_slots_length (star_evo _ _ _ (step2_evo L) S0)).
  match goal with |- match foldM ?f _ _ with _ => _ end => set g := f end.
  set P := fun i h' => star (step2 L) h1 h' /\ star (step2 L) h h' /\
    forall j r, j < i -> nth_error (kids h' e) j = Some r -> is_reff h1 r = false.
  have P0 : P 0 h by split=> //; split; [exact: star_refl|move=> j r; lia].
  have := foldM_seq _ g P (fun x => late_exn h1 x /\ stuck L h1 e) n 0 h P0.
  suff ST : forall i st, 0 <= i < 0 + n -> P i st ->
    match g st i with Ok st' => P (S i) st' | Err x => late_exn h1 x /\ stuck L h1 e end.
  { move=> /(_ ST). case: (foldM _ _ _) => [h'|x] // [A [B C]]. split=> //. split=> // r Ir.
    have [j N] := In_nth_error _ _ Ir. apply: (C j) => //. apply: (Nat.lt_le_trans _ (List.length (kids h' e))).
    - apply/nth_error_Some. by rewrite N.
    - by rewrite (evo_slots_length (star_evo _ _ _ (step2_evo L) A)) LN. }
  move=> i h2 [_ LI] [S2 [S3 DN]]. rewrite /g. have E := star_evo _ _ _ (step2_evo L) S2.
  case N: (nth_error (kids h2 e) i) => [k|].
  - have KEEP : is_reff h2 k = false -> P (S i) h2.
    { move=> NR. split=> //. split=> // j r Lj Nj. case: (Nat.eq_dec j i) => [X|NX].
      - subst j. rewrite N in Nj. case: Nj => <-. by rewrite -(evo_reff E).
      - apply: (DN j) => //. lia. }
    case C: (nth_error h2 k) => [[? ? ?|st t]|]; try by (apply: KEEP; rewrite /is_reff C).
    have F2 : Forall2 (frep h2) [s] [L] by constructor; [exact: evo_frep E _ _ F|constructor].
    have C1 : nth_error h1 k = Some (Reff st t) by apply/(evo_cell_reff E).
    have IK : In k (kids h1 e).
    { have [k0 [N0 R0]] := evo_slot_back E _ _ _ N.
      case: R0 => [X|[_ O]]; first by subst k0; exact: nth_error_In N0.
      exfalso. have := obj_nonref _ _ O. by rewrite (cell_reff _ _ _ _ C1). }
    case ST: st => [|a st'].
    { cbn [flookup]. rewrite /fgfirst /=. split.
      - right. split=> //. exists k, st, t. split=> // n2. by rewrite ST.
      - exists k, st, t, h2. split=> //. split=> //. split=> //. left. by rewrite ST. }
    have NE : st <> [] by rewrite ST. rewrite -ST.
    have P1 := flookup_spec h2 t st [s] [L] NE F2. cbn [List.concat] in P1. rewrite app_nil_r in P1.
    have := fgfirst_spec _ _ P1. case: (fgfirst _) => [o|x] /=.
    + case: o => [r|] M.
      * have STEP : step2 L h2 (set_kid h2 e i r).
        { apply: (s2 L h2 e i k st t r) => //. by rewrite (evo_class E). }
        split; first exact: star_step S2 STEP. split; first exact: star_step S3 STEP.
        move=> j r' Lj. rewrite set_kid_kids Nat.eqb_refl nth_replace. case: (Nat.eqb_spec i j) => [X|NX].
        -- rewrite N => [[<-]]. have [_ [_ O]] := mean_In _ _ _ _ _ (hd_In _ _ _ M).
           rewrite -(evo_reff E). exact: obj_nonref O.
        -- apply: DN. lia.
      * split; first by left. exists k, st, t, h2. split=> //. split=> //. split=> //. left.
        by case: (mean _ _ _ _) M.
    + move=> X. have [Q1 Q2] := flookup_err _ _ _ _ _ X. split.
      * case: Q1 => ->; [by left|right]. split=> //. by exists k, st, t.
      * exists k, st, t, h2. split=> //. split=> //. split=> //. right. move=> [m [n2 [Es CL]]].
        move: X. rewrite Es (flookup_clean h2 m n2 t [s] [L] F2) //. move=> y. cbn [List.concat]. rewrite app_nil_r. exact: CL.
  - exfalso. move/nth_error_None: N. rewrite (evo_slots_length E) -LN. lia.
Qed.

Lemma foldM_each A S (f : S -> A -> res S) (P : S -> Prop) (T : S -> S -> Prop) (Q : A -> S -> Prop) (E : exn -> Prop) l :
  (forall a s s', Q a s -> T s s' -> P s -> P s' -> Q a s') -> (forall s, T s s) -> (forall a b c, T a b -> T b c -> T a c) ->
  forall s, P s ->
  (forall s a, In a l -> P s -> match f s a with Ok s' => P s' /\ T s s' /\ Q a s' | Err e => E e end) ->
  match foldM f l s with Ok s' => P s' /\ T s s' /\ (forall a, In a l -> Q a s') | Err e => E e end.
Proof.
  move=> HQ HR HT. elim: l => [|a l IH] s P0 H //=. have := H s a (or_introl eq_refl) P0.
  case: (f s a) => [s'|e] //= [P1 [T1 Q1]].
  have := IH s' P1 (fun s b Hb => H s b (or_intror Hb)). case: (foldM f l s') => [s2|e] // [P2 [T2 Q2]].
  split=> //. split; first exact: HT T1 T2. move=> b [<-|Hb]; [exact: HQ Q1 T2 P1 P2|exact: Q2].
Qed.

Lemma ends_class h a e : In e (ends_of h a) -> class_of h e = "ConnectionEnd".
Proof.
  rewrite /ends_of. case: (composition h a) => [c|] //. move=> /in_flat_map [x [_ H]].
  move: H => /filter_In [_ H]. exact/String.eqb_eq.
Qed.
Lemma settled_stable L h1 e h h' : evo h1 h -> star (step2 L) h h' -> settled h1 e h -> settled h1 e h'.
Proof.
  move=> E1 S Q r Ir. have E := star_evo _ _ _ (step2_evo L) S. have [j N] := In_nth_error _ _ Ir.
  have [k [Nk SR]] := evo_slot_back E _ _ _ N. case: SR => [X|[_ O]].
  - subst r. apply: Q. exact: nth_error_In Nk.
  - rewrite -(evo_reff E1). exact: obj_nonref O.
Qed.
Lemma second_pass_spec h1 : (forall p k, In k (kids h1 p) -> k < List.length h1) ->
  match second_pass h1 with
  | Ok h => star (step2 (assembly_declared h1)) h1 h /\ distinct_names h1 (assembly_declared h1) /\
            forall a e, In a (kids h1 0) -> class_of h1 a = "Assembly" -> In e (ends_of h1 a) -> settled h1 e h
  | Err x => late_exn h1 x /\ (~ distinct_names h1 (assembly_declared h1) \/
       exists a e, In a (kids h1 0) /\ class_of h1 a = "Assembly" /\ In e (ends_of h1 a) /\ stuck (assembly_declared h1) h1 e)
  end.
Proof.
  move=> V. rewrite /second_pass. have := assembly_scope_spec h1 V. case: (assembly_scope h1) => [s|e]; cbn [bind].
  - move=> [D F]. set L := assembly_declared h1 in F D *.
    have := foldM_each _ _ (second_end s) (star (step2 L) h1) (star (step2 L)) (settled h1)
      (fun x => late_exn h1 x /\ exists a e, In a (kids h1 0) /\ class_of h1 a = "Assembly" /\ In e (ends_of h1 a) /\ stuck L h1 e)
      (flat_map (ends_of h1) (assemblies h1)) _ (star_refl _) (star_trans _) h1 (star_refl _ _).
    have ST : forall a s0 s', settled h1 a s0 -> star (step2 L) s0 s' -> star (step2 L) h1 s0 -> star (step2 L) h1 s' -> settled h1 a s'.
    { move=> a s0 s' Q S S0 _. exact: settled_stable (star_evo _ _ _ (step2_evo L) S0) S Q. }
    move=> /(_ ST). have EACH : forall h2 e, In e (flat_map (ends_of h1) (assemblies h1)) -> star (step2 L) h1 h2 ->
      match second_end s h2 e with
      | Ok h' => star (step2 L) h1 h' /\ star (step2 L) h2 h' /\ settled h1 e h'
      | Err x => late_exn h1 x /\ exists a e, In a (kids h1 0) /\ class_of h1 a = "Assembly" /\ In e (ends_of h1 a) /\ stuck L h1 e
      end.
    { move=> h2 e /in_flat_map [a [Ha He]] S2.
      have := second_end_spec s _ h1 h2 e S2 F (ends_class _ _ _ He). case: (second_end s h2 e) => // x [Q K].
      split=> //. exists a, e. move: Ha => /filter_In [Ha1 /String.eqb_eq Ha2]. by []. }
    move=> /(_ EACH). case: (foldM _ _ _) => [h|x].
    + move=> [A [_ B]]. split=> //. split=> // a e Ia CA He. apply: B. apply/in_flat_map. exists a. split=> //.
      apply/filter_In. split=> //. exact/String.eqb_eq.
    + move=> [Q K]. split=> //. by right.
  - move=> [-> N]. split; [by left|by left].
Qed.

(** ** Cycles, and references left *)
Lemma foldM_unit (g : nat -> res unit) l :
  match foldM (fun _ k => g k) l tt with
  | Ok _ => forall k, In k l -> g k = Ok tt
  | Err e => exists k, In k l /\ g k = Err e
  end.
Proof.
  elim: l => [|a l IH] //=. case G: (g a) => [[]|e] /=; last by exists a; split; [left|].
  move: IH. case: (foldM _ _ _) => [_|e] H; first by move=> k [<-|Hk]; [|apply: H].
  move: H => [k [Hk E]]. exists k. by split; [right|].
Qed.
Lemma acyclic_path fuel h : forall path i, check_acyclic fuel h path i = Ok tt ->
  forall x, x = i \/ below h i x -> ~ In x path.
Proof.
  elim: fuel => [|fuel IH] path i //=. case M: (memb i path) => //.
  have := foldM_unit (fun k => check_acyclic fuel h (path ++ [i]) k) (kids h i).
  case: (foldM _ _ _) => [_|e] // H _ x [->|B]; first by move/memb_nIn: M.
  have K : forall k x, In k (kids h i) -> x = k \/ below h k x -> ~ In x path.
  { move=> k y Ik Hy Iy. apply: (IH (path ++ [i]) k (H k Ik) y Hy). apply/in_app_iff. by left. }
  inversion B; subst; [apply: (K x)|apply: (K k)] => //; [by left|by right].
Qed.
Lemma acyclic_ok fuel h : forall path i, check_acyclic fuel h path i = Ok tt ->
  forall x, x = i \/ below h i x -> ~ below h x x.
Proof.
  elim: fuel => [|fuel IH] path i //=. case M: (memb i path) => //.
  have := foldM_unit (fun k => check_acyclic fuel h (path ++ [i]) k) (kids h i).
  case: (foldM _ _ _) => [_|e] // H _ x [->|B].
  - move=> B. have X : forall k, In k (kids h i) -> i = k \/ below h k i -> False.
    { move=> k Ik Hy. apply: (acyclic_path fuel h (path ++ [i]) k (H k Ik) i Hy). apply/in_app_iff. by right; left. }
    inversion B; subst; [apply: (X i)|apply: (X k)] => //; [by left|by right].
  - inversion B; subst; [apply: (IH (path ++ [i]) x)|apply: (IH (path ++ [i]) k)] => //; try exact: H; [by left|by right].
Qed.

Lemma NoDup_bound (l : list nat) n : NoDup l -> (forall x, In x l -> x < n) -> List.length l <= n.
Proof.
  move=> D H. have := NoDup_incl_length D (l' := seq 0 n). rewrite seq_length. apply=> x Hx.
  apply/in_seq. have := H x Hx. lia.
Qed.
Lemma NoDup_snoc (l : list nat) x : NoDup l -> ~ In x l -> NoDup (l ++ [x]).
Proof.
  move=> D N. apply: (Permutation_NoDup (l := x :: l)); first exact: Permutation_cons_append.
  by constructor.
Qed.
Lemma below_snoc' h p q x : below h p q -> In x (kids h q) -> below h p x.
Proof.
  move=> B I. elim: B I => {p q} [p k I|p k y I _ IH] X.
  - apply: (below_trans _ _ _ _ I). exact: below_kid.
  - apply: (below_trans _ _ _ _ I). exact: IH.
Qed.
Lemma acyclic_err fuel h : (forall p k, In k (kids h p) -> k < List.length h) -> forall path i e,
  NoDup path -> (forall x, In x path -> below h x i) -> (forall x, In x path -> x < List.length h) ->
  i < List.length h -> List.length h < fuel + List.length path ->
  check_acyclic fuel h path i = Err e -> e = ParseError /\ exists x, (x = i \/ below h i x) /\ below h x x.
Proof.
  move=> V. elim: fuel => [|fuel IH] path i e D B L Li F.
  - exfalso. have := NoDup_bound path _ D L. move: F => /=. lia.
  - cbn [check_acyclic]. case M: (memb i path).
    + move=> [<-]. split=> //. exists i. split; first by left. apply: B. exact/memb_In.
    + have := foldM_unit (fun k => check_acyclic fuel h (path ++ [i]) k) (kids h i).
      case: (foldM _ _ _) => [_|e2] // [k [Ik E]] [<-].
      move/memb_nIn: M => M.
      have [-> [x [Hx Bx]]] : e2 = ParseError /\ exists x, (x = k \/ below h k x) /\ below h x x.
      { apply: (IH (path ++ [i]) k) E => //.
        - exact: NoDup_snoc.
        - move=> x /in_app_iff [Hx|[<-|//]]; [by apply: below_snoc' Ik; apply: B|exact: below_kid].
        - move=> x /in_app_iff [Hx|[<-|//]] //. exact: L.
        - exact: V Ik.
        - rewrite app_length /=. lia. }
      split=> //. exists x. split=> //. right. case: Hx => [->|Hx]; [exact: below_kid|exact: below_trans Ik Hx].
Qed.

Lemma resolved_ok fuel h : forall i, check_resolved fuel h i = Ok tt -> forall x, below h i x -> is_reff h x = false.
Proof.
  elim: fuel => [|fuel IH] i //=.
  match goal with |- context [foldM (fun _ k => @?G k) _ _] => have := foldM_unit G (kids h i) end.
  case: (foldM _ _ _) => [_|e] // H _ x B.
  have K : forall k, In k (kids h i) -> check_resolved fuel h k = Ok tt /\ is_reff h k = false.
  { move=> k Ik. have := H k Ik. case: (check_resolved fuel h k) => [[]|e] //=. by case: (is_reff h k). }
  inversion B as [? ? I1|? k ? I1 B1]; subst; have [A C] := K _ I1 => //. exact: IH A _ B1.
Qed.
Lemma resolved_err fuel h : forall path i e, check_acyclic fuel h path i = Ok tt -> check_resolved fuel h i = Err e ->
  e = ParseError /\ exists x, below h i x /\ is_reff h x = true.
Proof.
  elim: fuel => [|fuel IH] path i e //=. case: (memb i path) => //.
  have := foldM_unit (fun k => check_acyclic fuel h (path ++ [i]) k) (kids h i).
  case: (foldM _ _ _) => [_|?] // H _.
  match goal with |- context [foldM (fun _ k => @?G k) _ _] => have := foldM_unit G (kids h i) end.
  case: (foldM _ _ _) => [_|e2] // [k [Ik]]. case C: (check_resolved fuel h k) => [u|e3] /=.
  - destruct (is_reff h k) eqn:R => // [[<-]] [<-]. split=> //. exists k. split=> //. exact: below_kid.
  - move=> [<-] [<-]. have [-> [x [B Rx]]] := IH _ _ _ (H k Ik) C. split=> //. exists x. split=> //. exact: below_trans B.
Qed.
