(** Proofs about reference resolution. *)
From Coq Require Import ssreflect ssrbool List String Ascii Bool Arith ZArith Lia.
From Verif Require Import Prelude AttrRef_Model Flatten_Spec AttrRef_Spec.
Import ListNotations.
Open Scope string_scope.
Open Scope list_scope.
Local Open Scope nat_scope.

(** * rsplit *)
Lemma rsplit_None s : rsplit s = None <-> dot_free s = true.
Proof.
  elim: s => [|c s IH] //=. case R: (rsplit s) IH => [[x y]|] IH.
  - split=> //. move/andP => [_ D]. by case: IH => _ /(_ D).
  - have -> : dot_free s = true by apply/IH.
    rewrite andb_true_r. by case: Ascii.eqb.
Qed.
Lemma rsplit_Some s i a : rsplit s = Some (i, a) <-> names s i a.
Proof.
  rewrite /names. elim: s i a => [|c s IH] i a /=.
  - split=> // -[E _]. by case: i E.
  - case R: (rsplit s) => [[x y]|].
    + split.
      * case=> <- <-. case/IH: R => -> D. by [].
      * move=> [E D]. case: i E => [|c' i] /= [-> E].
        -- exfalso. have N : rsplit s = None by apply/rsplit_None; rewrite E.
           by rewrite N in R.
        -- have: rsplit s = Some (i, a) by apply/IH. rewrite R => -[-> ->]. done.
    + case: (Ascii.eqb_spec c "."%char) => [->|NE].
      * split.
        -- case=> <- <-. split=> //. exact/rsplit_None.
        -- move=> [E D]. case: i E => [|c' i] /= E; inversion E as [E2]; subst.
           ++ by [].
           ++ have: rsplit (i ++ String "." a) = Some (i, a) by apply/IH. by rewrite R.
      * split=> // -[E D]. case: i E => [|c' i] /= [E2 E]; first by rewrite E2 in NE.
        have: rsplit s = Some (i, a) by apply/IH. by rewrite R.
Qed.
Lemma names_det r i a i' a' : names r i a -> names r i' a' -> i = i' /\ a = a'.
Proof. move/rsplit_Some => E /rsplit_Some. rewrite E. by case. Qed.

(** * positions *)
Lemma positions_In f n l k :
  In k (positions f n l) <-> exists m s, k = n + m /\ nth_error l m = Some s /\ f s = true.
Proof.
  elim: l n => [|x l IH] n /=.
  - split=> // -[m [s [_ [H _]]]]. by case: m H.
  - have Q: In k (positions f (S n) l) <-> exists m s, k = n + S m /\ nth_error l m = Some s /\ f s = true.
    { rewrite IH. split=> -[m [s [E H]]]; exists m, s; split=> //; lia. }
    case F: (f x) => /=; rewrite Q; split.
    + case=> [<-|[m [s [E H]]]].
      * exists 0, x. split; first lia. by split.
      * exists (S m), s. by split.
    + move=> [[|m] [s [E [H Fs]]]].
      * left. lia.
      * right. by exists m, s.
    + move=> [m [s [E H]]]. by exists (S m), s.
    + move=> [[|m] [s [E [H Fs]]]].
      * case: H => ?; subst. congruence.
      * by exists m, s.
Qed.
Lemma positions_lb f n l k : In k (positions f n l) -> n <= k.
Proof. move/positions_In => [m [s [-> _]]]. lia. Qed.
Lemma positions_NoDup f n l : NoDup (positions f n l).
Proof.
  elim: l n => [|x l IH] n /=; first by constructor.
  case: (f x) => //. constructor=> // /positions_lb. lia.
Qed.
Definition ia (s : setting) := (s_inst s, s_attr s).
Lemma referents_ext st st' i a : map ia st = map ia st' -> referents st i a = referents st' i a.
Proof.
  rewrite /referents. elim: st st' 0 => [|s st IH] [|s' st'] n //= [E1 E2 E3].
  rewrite /matches E1 E2. by rewrite (IH st').
Qed.
Lemma referents_In st i a k : In k (referents st i a) <-> sets st k i a.
Proof.
  rewrite /referents positions_In /sets /matches. split.
  - move=> [m [s [-> [H /andP [/String.eqb_eq E1 /String.eqb_eq E2]]]]]. by exists s.
  - move=> [s [H [<- <-]]]. exists k, s. by rewrite !String.eqb_refl.
Qed.
Lemma referents_one st i a k : referents st i a = [k] <->
  sets st k i a /\ forall k', sets st k' i a -> k' = k.
Proof.
  have ND : NoDup (referents st i a) by apply: positions_NoDup.
  have I := referents_In st i a. split.
  - move=> E. rewrite E in I. split; first by apply/I; left.
    move=> k' /I [] //.
  - move=> [/I Ik U]. case: (referents st i a) ND I Ik U => [|x [|y l]] ND I Ik U //.
    + by case: Ik => [->|].
    + have Ex: x = k by apply: U; apply/I; left.
      have Ey: y = k by apply: U; apply/I; right; left.
      subst. inversion ND as [|? ? N]; subst. case: N. by left.
Qed.
Lemma referents_none st i a : referents st i a = [] <-> forall k, ~ sets st k i a.
Proof.
  have I := referents_In st i a. split.
  - move=> E k /I. by rewrite E.
  - case: (referents st i a) I => [|x l] // I N. case: (N x). apply/I. by left.
Qed.

(** * set_val *)
Lemma set_val_length st j v : List.length (set_val st j v) = List.length st.
Proof. elim: st j => [|s st IH] [|j] //=. by rewrite IH. Qed.
Lemma set_val_ia st j v : map ia (set_val st j v) = map ia st.
Proof. elim: st j => [|s st IH] [|j] //=. by rewrite IH. Qed.
Lemma set_val_same st j v s : nth_error st j = Some s ->
  nth_error (set_val st j v) j = Some (with_value s v).
Proof. elim: st j => [|s' st IH] [|j] //=; [by case=> ->|exact: IH]. Qed.
Lemma set_val_other st j v m : m <> j -> nth_error (set_val st j v) m = nth_error st m.
Proof. elim: st j m => [|s' st IH] [|j] [|m] //= N; apply: IH; lia. Qed.

(** * lookups *)
Lemma key_eqb_eq a b : key_eqb a b = true <-> a = b.
Proof.
  case: a b => [x|x] [y|y] /=; split=> //.
  - by move/String.eqb_eq => ->.
  - case=> ->. exact/String.eqb_eq.
  - by move/Z.eqb_eq => ->.
  - case=> ->. exact/Z.eqb_eq.
Qed.
Lemma first_entry_cons K V (l : list (K * V)) k0 v0 k v : first_entry ((k0, v0) :: l) k v <->
  (k0 = k /\ v0 = v) \/ (k0 <> k /\ first_entry l k v).
Proof.
  split.
  - move=> [[|[k1 v1] pre] [post [/= E NI]]]; case: E.
    + move=> -> -> _. by left.
    + move=> -> -> ->. right. split; first by move=> X; apply: NI; left.
      exists pre, post. split=> // X. apply: NI. by right.
  - move=> [[-> ->]|[N [pre [post [-> NI]]]]]; first by exists [], l; split=> // -[].
    exists ((k0, v0) :: pre), post. split=> //= -[//|]. exact: NI.
Qed.
Lemma first_entry_nil K V (k : K) (v : V) : ~ first_entry [] k v.
Proof. move=> [[|? ?] [? [E _]]]; discriminate. Qed.
Lemma dict_findP l k v : dict_find l k = Some v <-> first_entry l k v.
Proof.
  elim: l => [|[k0 v0] l IH] /=; first by split=> // X; case: (first_entry_nil _ _ _ _ X).
  rewrite first_entry_cons. case E: (key_eqb k0 k).
  - move/key_eqb_eq: E => ->. split; [by case=> ->; left|by move=> [[_ ->]|[X _]] //; case: X].
  - have N: k0 <> k by move=> /key_eqb_eq; rewrite E.
    rewrite IH. split; [by right|by move=> [[X _]|[_ X]] //; case: N].
Qed.
Lemma find_firstP V (l : list (string * V)) k v :
  match find (fun x => String.eqb (fst x) k) l with Some x => snd x = v | None => False end <-> first_entry l k v.
Proof.
  elim: l => [|[k0 v0] l IH] /=; first by split=> // X; case: (first_entry_nil _ _ _ _ X).
  rewrite first_entry_cons. case: (String.eqb_spec k0 k) => [->|N] /=.
  - split; [by left|by move=> [[_ ->]|[X _]] //; case: X].
  - rewrite IH. split; [by right|by move=> [[X _]|[_ X]] //; case: N].
Qed.
Lemma default_ofP insts i a d : default_of insts i a d <-> get_default insts i a = Some d.
Proof.
  rewrite /default_of /get_default. split.
  - move=> [attrs [/find_firstP H1 /find_firstP H2]].
    case: (find _ insts) H1 => [[n at_]|] //= ?; subst at_. by case: (find _ attrs) H2.
  - case F1: (find _ insts) => [[n at_]|] //=. case F2: (find _ at_) => [[m o]|] //= ?; subst o.
    exists at_. split; apply/find_firstP; [by rewrite F1|by rewrite F2].
Qed.
Lemma no_defaultP insts i a : no_default insts i a <-> get_default insts i a = None.
Proof.
  rewrite /no_default. split.
  - case G: (get_default insts i a) => [d|] // H. by case: (H d); apply/default_ofP.
  - move=> G d /default_ofP. by rewrite G.
Qed.
Lemma follow_lookup v ks w : follow v ks = Ok w <-> lookup v ks w.
Proof.
  rewrite /follow. elim: ks v => [|k ks IH] v /=.
  - split; [by case=> ->; constructor|by move=> H; inversion H].
  - split.
    + move=> /bind_Ok [x [H /IH L]]. case: v H => [s|l|l] //=.
      * case: k => // z. set n := Z.of_nat _. set z' := (if (z <? 0)%Z then (z + n)%Z else z).
        case B: ((0 <=? z') && (z' <? n))%Z => //. case N: (nth_error _ _) => [y|] // [?]; subst y.
        move/andP: B => [/Z.leb_le B1 /Z.ltb_lt B2].
        have [Z0|Z0] : (z < 0 \/ 0 <= z)%Z by lia.
        -- have E: z' = (z + n)%Z by rewrite /z'; case: (Z.ltb_spec z 0) => //; lia.
           have -> : z = (- Z.of_nat (S (Z.to_nat (- z - 1))))%Z by lia.
           apply: lk_list_neg L. rewrite -N.
           have Q: forall (l : list value) m, m < List.length l ->
             nth_error (rev l) m = nth_error l (List.length l - 1 - m).
           { move=> l0 m Hm. rewrite (nth_error_nth' (rev l0) (Atom "")); first by rewrite rev_length.
             rewrite rev_nth // (nth_error_nth' l0 (Atom "")); first lia.
             do 2 f_equal. lia. }
           rewrite Q; first by rewrite /n in B2; lia. f_equal. rewrite /n in B1 B2 E. lia.
        -- have E: z' = z by rewrite /z'; case: (Z.ltb_spec z 0) => //; lia.
           rewrite E in N B1 B2. have -> : z = Z.of_nat (Z.to_nat z) by lia.
           exact: lk_list N L.
      * case D: (dict_find l k) => [y|] // [?]; subst y. move/dict_findP: D => D. exact: lk_dict D L.
    + move=> H. inversion H as [|l k' x ? ? D L|l n x ? ? D L|l n x ? ? D L]; subst; cbn [index].
      * move/dict_findP: D => D. rewrite D /=. exact/IH.
      * have Q: n < List.length l by apply/nth_error_Some; rewrite D.
        have ->: (Z.of_nat n <? 0)%Z = false by apply/Z.ltb_ge; lia.
        have -> : ((0 <=? Z.of_nat n) && (Z.of_nat n <? Z.of_nat (List.length l)))%Z = true.
        { apply/andP. split; [apply/Z.leb_le|apply/Z.ltb_lt]; lia. }
        rewrite Nat2Z.id D /=. exact/IH.
      * have Q: n < List.length (rev l) by apply/nth_error_Some; rewrite D.
        rewrite rev_length in Q.
        have ->: (- Z.of_nat (S n) <? 0)%Z = true by apply/Z.ltb_lt; lia.
        set z := (- Z.of_nat (S n) + _)%Z. cbv zeta.
        have -> : ((0 <=? z) && (z <? Z.of_nat (List.length l)))%Z = true.
        { apply/andP. rewrite /z. split; [apply/Z.leb_le|apply/Z.ltb_lt]; lia. }
        have -> : nth_error l (Z.to_nat z) = Some x.
        { rewrite -D (nth_error_nth' (rev l) (Atom "")); first by rewrite rev_length.
          rewrite rev_nth // (nth_error_nth' l (Atom "")); first by rewrite /z; lia.
          do 2 f_equal. rewrite /z. lia. }
        rewrite /=. exact/IH.
Qed.

Lemma NoDup_snoc A (l : list A) x : NoDup l -> ~ In x l -> NoDup (l ++ [x]).
Proof.
  elim: l => [|a l IH] /= ND NI; first by repeat constructor.
  inversion ND as [|? ? N1 N2]; subst. constructor.
  - move=> /in_app_iff [//|[E|[]]]. apply: NI. by left.
  - apply: IH => // I. apply: NI. by right.
Qed.

Section Resolve.
Variable insts : instances.
Variable S0 : list setting.

(** The value the code computes; through a chain it may or may not apply the
    lookup, depending on whether the target happened to be resolved before. *)
Inductive leads : nat -> value -> Prop :=
| ld_conc j s v : nth_error S0 j = Some s -> s_val s = Conc v -> leads j v
| ld_plain j k v s r lk : refers S0 j k -> leads k v -> nth_error S0 j = Some s ->
    s_val s = Ref r lk -> lk = None \/ is_reference S0 k \/ is_dict v = false -> leads j v
| ld_lookup j k w v s r ks : refers S0 j k -> leads k w -> nth_error S0 j = Some s ->
    s_val s = Ref r (Some ks) -> is_dict w = true -> follow w ks = Ok v -> leads j v
| ld_default j i a d : dangles S0 j i a -> get_default insts i a = Some d -> leads j d
| ld_own j s i a d : dangles S0 j i a -> get_default insts i a = None ->
    nth_error S0 j = Some s -> get_default insts (s_inst s) (s_attr s) = Some d ->
    leads j d.

Definition entry_ok (j : nat) (s0 s : setting) : Prop :=
  s = s0 \/ is_ref s0 = true /\ exists v, s = with_value s0 v /\ leads j v.
Definition Inv (st : list setting) : Prop :=
  map ia st = map ia S0 /\
  forall j s, nth_error st j = Some s -> exists s0, nth_error S0 j = Some s0 /\ entry_ok j s0 s.
Definition mono (st st' : list setting) : Prop :=
  forall m s, nth_error st m = Some s -> is_ref s = false -> nth_error st' m = Some s.

Lemma Inv_init : Inv S0.
Proof. split=> // j s H. exists s. split=> //. by left. Qed.
Lemma Inv_length st : Inv st -> List.length st = List.length S0.
Proof. move=> [E _]. by rewrite -(map_length ia st) E map_length. Qed.
Lemma Inv_entry st j s : Inv st -> nth_error st j = Some s ->
  exists s0, nth_error S0 j = Some s0 /\ ia s0 = ia s /\ entry_ok j s0 s.
Proof.
  move=> [_ I] H. case: (I _ _ H) => s0 [H0 E]. exists s0. do !split=> //.
  by case: E => [->|[_ [v [-> _]]]].
Qed.
Lemma Inv_ref st j s r lk : Inv st -> nth_error st j = Some s -> s_val s = Ref r lk ->
  nth_error S0 j = Some s.
Proof.
  move=> I H E. case: (Inv_entry _ _ _ I H) => s0 [H0 [_ [->|[_ [v [E2 _]]]]]] //.
  by rewrite E2 in E.
Qed.
Lemma Inv_conc st j s v : Inv st -> nth_error st j = Some s -> s_val s = Conc v -> leads j v.
Proof.
  move=> I H E. case: (Inv_entry _ _ _ I H) => s0 [H0 [_ [E0|[_ [w [E2 L]]]]]].
  - subst s0. exact: ld_conc H0 E.
  - rewrite E2 /= in E. by case: E => <-.
Qed.
Lemma Inv_set st j v s r lk : Inv st -> nth_error st j = Some s -> s_val s = Ref r lk ->
  leads j v -> Inv (set_val st j v) /\ mono st (set_val st j v).
Proof.
  move=> I H E L. have H0 := Inv_ref _ _ _ _ _ I H E. split; first split.
  - rewrite set_val_ia. by case: I.
  - move=> m t. case: (Nat.eq_dec m j) => [->|N].
    + rewrite (set_val_same _ _ _ _ H) => -[<-]. exists s. split=> //. right.
      rewrite /is_ref E. split=> //. by exists v.
    + rewrite set_val_other // => Hm. by case: I => _ /(_ _ _ Hm).
  - move=> m t Hm R. rewrite set_val_other //. move=> ?; subst m. rewrite H in Hm.
    case: Hm => ?; subst t. by rewrite /is_ref E in R.
Qed.
Lemma mono_trans a b c : mono a b -> mono b c -> mono a c.
Proof. move=> H1 H2 m s H R. apply: H2 => //. exact: H1. Qed.
Lemma mono_refl a : mono a a.
Proof. by []. Qed.

Lemma refers_of st j s r lk i a k : Inv st -> nth_error st j = Some s -> s_val s = Ref r lk ->
  rsplit r = Some (i, a) -> referents st i a = [k] -> refers S0 j k.
Proof.
  move=> I H E /rsplit_Some N R. have H0 := Inv_ref _ _ _ _ _ I H E.
  rewrite (referents_ext st S0) in R; first by case: I.
  case/referents_one: R => R1 R2. by exists s, r, lk, i, a.
Qed.
Lemma dangles_of st j s r lk i a : Inv st -> nth_error st j = Some s -> s_val s = Ref r lk ->
  rsplit r = Some (i, a) -> referents st i a = [] -> dangles S0 j i a.
Proof.
  move=> I H E /rsplit_Some N R. have H0 := Inv_ref _ _ _ _ _ I H E.
  rewrite (referents_ext st S0) in R; first by case: I.
  move/referents_none: R => R. by exists s, r, lk.
Qed.

Lemma sub_resolve_sound fuel st j depth st' :
  Inv st -> sub_resolve fuel insts st j depth = Ok st' ->
  Inv st' /\ mono st st' /\ exists s v, nth_error st' j = Some s /\ s_val s = Conc v.
Proof.
  elim: fuel st j depth st' => [|fuel IH] st j depth st' I //=.
  case H: (nth_error st j) => [s|] //. case E: (s_val s) => [|r lk] //.
  have DONE: forall st1 v s1, Inv st1 -> mono st st1 -> nth_error st1 j = Some s1 ->
     s_val s1 = Ref r lk -> leads j v ->
     Inv (set_val st1 j v) /\ mono st (set_val st1 j v) /\
     exists s v0, nth_error (set_val st1 j v) j = Some s /\ s_val s = Conc v0.
  { move=> st1 v s1 I1 M1 H1 E1 L. case: (Inv_set _ _ _ _ _ _ I1 H1 E1 L) => I2 M2.
    split=> //. split; first exact: mono_trans M1 M2.
    exists (with_value s1 v), v. split=> //. exact: set_val_same. }
  case: (memb r depth) => //. case R: (rsplit r) => [[i a]|] //.
  case RF: (referents st i a) => [|k [|k2 ks2]] //.
  - have D := dangles_of _ _ _ _ _ _ _ I H E R RF.
    case G: (get_default insts i a) => [d|].
    + case=> <-. apply: (DONE _ _ _ I (mono_refl _) H E). exact: ld_default D G.
    + case G2: (get_default insts _ _) => [d|] // [<-]. apply: (DONE _ _ _ I (mono_refl _) H E).
      exact: ld_own D G (Inv_ref _ _ _ _ _ I H E) G2.
  - have RE := refers_of _ _ _ _ _ _ _ _ I H E R RF.
    have H0 := Inv_ref _ _ _ _ _ I H E.
    case K: (nth_error st k) => [t|] //. case T: (s_val t) => [w|r2 lk2].
    + have LW := Inv_conc _ _ _ _ I K T.
      case: lk E H0 RE DONE => [ks|] E H0 RE DONE.
      * case B: (is_dict w).
        -- move=> /bind_Ok [v [F [<-]]]. apply: (DONE _ _ _ I (mono_refl _) H E).
           exact: ld_lookup RE LW H0 E B F.
        -- case=> <-. apply: (DONE _ _ _ I (mono_refl _) H E). apply: ld_plain RE LW H0 E _. by right; right.
      * case=> <-. apply: (DONE _ _ _ I (mono_refl _) H E). apply: ld_plain RE LW H0 E _. by left.
    + move=> /bind_Ok [st1 [SR]]. case: (IH _ _ _ _ I SR) => I1 [M1 [t1 [v [K1 T1]]]].
      rewrite K1 T1 => -[<-].
      (* setting j itself may only have been changed by a loop, which is an error *)
      have LV := Inv_conc _ _ _ _ I1 K1 T1.
      have L: leads j v.
      { apply: ld_plain RE LV H0 E _. right; left. exists t, r2, lk2. split=> //.
        exact: Inv_ref I K T. }
      have [s1 H1]: exists s1, nth_error st1 j = Some s1.
      { case X: (nth_error st1 j) => [s1|]; first by exists s1.
        exfalso. move/nth_error_None: X. rewrite (Inv_length _ I1) -(Inv_length _ I).
        have: j < List.length st by apply/nth_error_Some; rewrite H. lia. }
      case: (Inv_entry _ _ _ I1 H1) => s0 [H00 [_ EO]]. rewrite H0 in H00. case: H00 => ?; subst s0.
      case: EO => [?|[_ [v1 [Es1 L1]]]].
      * subst s1. exact: (DONE _ _ _ I1 M1 H1 E L).
      * (* overwritten with another led-to value *)
        split; last split.
        -- split; first by rewrite set_val_ia; case: I1.
           move=> m x. case: (Nat.eq_dec m j) => [->|N].
           ++ rewrite (set_val_same _ _ _ _ H1) => -[<-]. exists s. split=> //. right.
              rewrite /is_ref E. split=> //. exists v. by rewrite Es1.
           ++ rewrite set_val_other // => Hm. by case: I1 => _ /(_ _ _ Hm).
        -- move=> m x Hm Rx. rewrite set_val_other; last exact: M1.
           move=> ?; subst m. rewrite H in Hm. case: Hm => ?; subst x. by rewrite /is_ref E in Rx.
        -- exists (with_value s1 v), v. split=> //. exact: set_val_same.
Qed.

(** * Termination *)
Definition refs_of (st : list setting) : list string :=
  flat_map (fun s => match s_val s with Ref r _ => [r] | _ => [] end) st.
Lemma refs_of_length st : List.length (refs_of st) <= List.length st.
Proof. elim: st => [|s st IH] //=. rewrite app_length. case: (s_val s) => [?|? ?] /=; lia. Qed.
Lemma refs_of_In st j s r lk : nth_error st j = Some s -> s_val s = Ref r lk -> In r (refs_of st).
Proof.
  move=> H E. apply/in_flat_map. exists s. split; first exact: nth_error_In H. rewrite E. by left.
Qed.

Lemma sub_resolve_fuel fuel st j depth :
  Inv st -> NoDup depth -> incl depth (refs_of S0) ->
  List.length (refs_of S0) < fuel + List.length depth ->
  sub_resolve fuel insts st j depth <> Err OutOfFuel.
Proof.
  elim: fuel st j depth => [|fuel IH] st j depth I ND INC L.
  - have := NoDup_incl_length ND INC. simpl in L. lia.
  - rewrite /=. case H: (nth_error st j) => [s|] //. case E: (s_val s) => [|r lk] //.
    case M: (memb r depth) => //. case R: (rsplit r) => [[i a]|] //.
    case RF: (referents st i a) => [|k [|k2 ks2]] //.
    + case: get_default => //. by case: get_default.
    + case K: (nth_error st k) => [t|] //. case T: (s_val t) => [w|r2 lk2].
      * case: lk E => [ks|] E //. case: (is_dict w) => //.
        have: forall e, follow w ks = Err e -> e <> OutOfFuel.
        { rewrite /follow. elim: ks w {E T} => [|x ks IHk] w e //=.
          case X: (index w x) => [v|e'] /=; first exact: IHk.
          case=> <-. move: X. rewrite /index. case: w => [?|l|l]; first by case=> <-.
          - case: x => [?|z]; first by case=> <-. case: (_ && _); last by case=> <-.
            case: nth_error => //. by case=> <-.
          - case: dict_find => // -[<-]. by []. }
        case: (follow w ks) => [v|e] //= Q [Ee]. by apply: (Q e).
      * have Rin := refs_of_In _ _ _ _ _ (Inv_ref _ _ _ _ _ I H E) E.
        have Nin : ~ In r depth by move/memb_nIn: M.
        have: sub_resolve fuel insts st k (depth ++ [r]) <> Err OutOfFuel.
        { apply: IH => //.
          - apply: NoDup_snoc => //.
          - move=> x /in_app_iff [/INC //|[<-|[]]] //.
          - rewrite app_length /=. lia. }
        case: sub_resolve => [st1|e] //=.
        move=> _. case: (nth_error st1 k) => [t'|] //. by case: (s_val t').
Qed.

(** * The loop of resolve *)
Lemma resolve_fold_sound fuel js st st' :
  Inv st -> foldM (resolve_one insts fuel) js st = Ok st' ->
  Inv st' /\ mono st st' /\
  forall j, In j js -> exists s v, nth_error st' j = Some s /\ s_val s = Conc v.
Proof.
  elim: js st => [|j js IH] st I /=.
  - case=> <-. do !split=> //; by case: I.
  - move=> /bind_Ok [st1 [H1 H2]].
    have [I1 [M1 C1]]: Inv st1 /\ mono st st1 /\ exists s v, nth_error st1 j = Some s /\ s_val s = Conc v.
    { move: H1. rewrite /resolve_one. case H: (nth_error st j) => [s|] //.
      case R: (is_ref s); first exact: sub_resolve_sound.
      case=> <-. do !split=> //. move: R. rewrite /is_ref. case E: (s_val s) => [v|] // _. by exists s, v. }
    case: (IH _ I1 H2) => I2 [M2 C2]. split=> //. split; first exact: mono_trans M1 M2.
    move=> k [<-|]; last exact: C2. case: C1 => s [v [H E]]. exists s, v. split=> //.
    apply: M2 => //. by rewrite /is_ref E.
Qed.

Lemma resolve_one_fuel st j : Inv st -> resolve_one insts (resolve_fuel S0) st j <> Err OutOfFuel.
Proof.
  move=> I. rewrite /resolve_one. case H: (nth_error st j) => [s|] //. case R: (is_ref s) => //.
  apply: sub_resolve_fuel => //; first by constructor.
  rewrite /resolve_fuel /= Nat.add_0_r. have := refs_of_length S0. lia.
Qed.

Lemma resolve_no_fuel : resolve insts S0 <> Err OutOfFuel.
Proof.
  rewrite /resolve.
  have: forall js st, Inv st -> foldM (resolve_one insts (resolve_fuel S0)) js st <> Err OutOfFuel.
  { elim=> [|j js IH] st I //=. have := resolve_one_fuel st j I.
    case H: (resolve_one _ _ _ _) => [st1|e] /= NF; last by move=> [E]; apply: NF; rewrite E.
    apply: IH. have F: foldM (resolve_one insts (resolve_fuel S0)) [j] st = Ok st1 by rewrite /= H.
    by case: (resolve_fold_sound _ _ _ _ I F). }
  move=> /(_ (positions is_ref 0 S0) S0 Inv_init). by case: foldM.
Qed.

Lemma combine_seq_nth n (l : list setting) j s :
  In (j, s) (combine (seq n (List.length l)) l) -> exists m, j = n + m /\ nth_error l m = Some s.
Proof.
  elim: l n => [|x l IH] n //= [[<- <-]|]; first by exists 0; split=> //; lia.
  move=> /IH [m [-> H]]. exists (S m). split=> //. lia.
Qed.
Lemma positions_combine f n l :
  positions f n l = map fst (filter (fun js => f (snd js)) (combine (seq n (List.length l)) l)).
Proof. elim: l n => [|x l IH] n //=. rewrite IH. by case: (f x). Qed.

Lemma nths_combine st val f :
  (forall j s, nth_error S0 j = Some s -> nth_error st j = Some (with_value s (val j))) ->
  nths st (positions f 0 S0) =
  map (fun js => with_value (snd js) (val (fst js)))
      (filter (fun js => f (snd js)) (combine (seq 0 (List.length S0)) S0)).
Proof.
  move=> H. rewrite positions_combine /nths.
  have: forall js, In js (filter (fun js => f (snd js)) (combine (seq 0 (List.length S0)) S0)) ->
    nth_error st (fst js) = Some (with_value (snd js) (val (fst js))).
  { move=> [j s] /filter_In [/combine_seq_nth [m [-> E]] _]. exact: H. }
  elim: (filter _ _) => [|js l IH] //= Q. rewrite Q; first by left. rewrite /= IH // => x X.
  apply: Q. by right.
Qed.

Lemma resolve_leads out : resolve insts S0 = Ok out ->
  exists val, (forall j, j < List.length S0 -> leads j (val j)) /\ out = resolved_as S0 val.
Proof.
  rewrite /resolve. move=> /bind_Ok [st [F [<-]]].
  case: (resolve_fold_sound _ _ _ _ Inv_init F) => I [_ C].
  pose val j := match nth_error st j with Some (mk_setting _ _ (Conc v)) => v | _ => Atom "" end.
  have H: forall j s, nth_error S0 j = Some s ->
     nth_error st j = Some (with_value s (val j)) /\ leads j (val j).
  { move=> j s H0.
    have [t Ht]: exists t, nth_error st j = Some t.
    { case X: (nth_error st j) => [t|]; first by exists t.
      move/nth_error_None: X. rewrite (Inv_length _ I).
      have: j < List.length S0 by apply/nth_error_Some; rewrite H0. lia. }
    have [v Ev]: exists v, s_val t = Conc v.
    { case R: (is_ref s).
      - case: (C j) => [|t' [v [Ht' E]]]; first by apply/positions_In; exists j, s.
        rewrite Ht in Ht'. case: Ht' => ?; subst. by exists v.
      - case: (Inv_entry _ _ _ I Ht) => s0 [H00 [_ EO]]. rewrite H0 in H00. case: H00 => ?; subst s0.
        case: EO => [?|[]]; last by rewrite R. subst t. move: R. rewrite /is_ref.
        case E: (s_val s) => [v|] // _. by exists v. }
    have V: val j = v.
    { rewrite /val Ht. by case: (t) Ev => ? ? w /= ->. }
    split; last by rewrite V; apply: Inv_conc I Ht Ev.
    rewrite Ht V. f_equal. case: (Inv_entry _ _ _ I Ht) => s0 [H00 [[E1 E2] _]].
    rewrite H0 in H00. case: H00 => ?; subst s0. rewrite /with_value E1 E2 -Ev.
    by case: (t). }
  exists val. split.
  - move=> j L. have: nth_error S0 j <> None by apply/nth_error_Some.
    case X: (nth_error S0 j) => [s|] // _. exact: (proj2 (H _ _ X)).
  - rewrite !(nths_combine st val); try by move=> j s /H [].
    by rewrite /resolved_as map_app.
Qed.

(** * leads and denotes *)
Lemma refers_det j k k' : refers S0 j k -> refers S0 j k' -> k = k'.
Proof.
  move=> [s [r [lk [i [a [H [E [N [K U]]]]]]]]] [s' [r' [lk' [i' [a' [H' [E' [N' [K' U']]]]]]]]].
  rewrite H in H'. case: H' => ?; subst s'. rewrite E in E'. case: E' => ? ?; subst.
  case: (names_det _ _ _ _ _ N N') => ? ?; subst. exact: U'.
Qed.
Lemma refers_ref j k : refers S0 j k -> is_reference S0 j.
Proof. move=> [s [r [lk [i [a [H [E _]]]]]]]. by exists s, r, lk. Qed.
Lemma refers_dangles j k i a : refers S0 j k -> dangles S0 j i a -> False.
Proof.
  move=> [s [r [lk [i' [a' [H [E [N [K U]]]]]]]]] [s' [r' [lk' [H' [E' [N' D]]]]]].
  rewrite H in H'. case: H' => ?; subst s'. rewrite E in E'. case: E' => ? ?; subst.
  case: (names_det _ _ _ _ _ N N') => ? ?; subst. exact: D K.
Qed.
Lemma dangles_det j i a i' a' : dangles S0 j i a -> dangles S0 j i' a' -> i = i' /\ a = a'.
Proof.
  move=> [s [r [lk [H [E [N _]]]]]] [s' [r' [lk' [H' [E' [N' _]]]]]].
  rewrite H in H'. case: H' => ?; subst s'. rewrite E in E'. case: E' => ? ?; subst.
  exact: names_det N N'.
Qed.
Lemma dangles_ref j i a : dangles S0 j i a -> is_reference S0 j.
Proof. move=> [s [r [lk [H [E _]]]]]. by exists s, r, lk. Qed.

Lemma lookup_det v ks w w' : lookup v ks w -> lookup v ks w' -> w = w'.
Proof. move/follow_lookup => E /follow_lookup. rewrite E. by case. Qed.

Lemma denotes_det j v v' : denotes insts S0 j v -> denotes insts S0 j v' -> v = v'.
Proof.
  have CR: forall j s v, nth_error S0 j = Some s -> s_val s = Conc v -> is_reference S0 j -> False.
  { move=> j0 s0 v0 H E [s1 [r [lk [H1 E1]]]]. rewrite H in H1. case: H1 => ?; subst. by rewrite E in E1. }
  move=> D. elim: D v' => [j0 s v0 H E|j0 k w v0 R _ IH L|j0 i a d v0 R G L|j0 s i a d R G H G2] v' D'.
  - inversion D' as [? s' ? H' E'|? k' ? ? R' ? ?|? i' a' d' ? R' ? ?|? s' i' a' d' R' ? ? ?]; subst.
    + rewrite H in H'. case: H' => ?; subst. congruence.
    + case: (CR _ _ _ H E (refers_ref _ _ R')).
    + case: (CR _ _ _ H E (dangles_ref _ _ _ R')).
    + case: (CR _ _ _ H E (dangles_ref _ _ _ R')).
  - inversion D' as [? s' ? H' E'|? k' w' ? R' K' L'|? i' a' d' ? R' ? ?|? s' i' a' d' R' ? ? ?]; subst.
    + case: (CR _ _ _ H' E' (refers_ref _ _ R)).
    + have ? := refers_det _ _ _ R R'; subst k'. have ? := IH _ K'; subst w'. exact: lookup_det L L'.
    + case: (refers_dangles _ _ _ _ R R').
    + case: (refers_dangles _ _ _ _ R R').
  - inversion D' as [? s' ? H' E'|? k' w' ? R' K' L'|? i' a' d' ? R' G' L'|? s' i' a' d' R' G' ? ?]; subst.
    + case: (CR _ _ _ H' E' (dangles_ref _ _ _ R)).
    + case: (refers_dangles _ _ _ _ R' R).
    + case: (dangles_det _ _ _ _ _ R R') => ? ?; subst. move/default_ofP: G => G; move/default_ofP: G' => G'. rewrite G in G'. case: G' => ?; subst. exact: lookup_det L L'.
    + case: (dangles_det _ _ _ _ _ R R') => ? ?; subst. by case: (G' _ G).
  - inversion D' as [? s' ? H' E'|? k' w' ? R' K' L'|? i' a' d' ? R' G' L'|? s' i' a' d' R' G' H' G2']; subst.
    + case: (CR _ _ _ H' E' (dangles_ref _ _ _ R)).
    + case: (refers_dangles _ _ _ _ R' R).
    + case: (dangles_det _ _ _ _ _ R R') => ? ?; subst. by case: (G _ G').
    + rewrite H in H'. case: H' => ?; subst. move/default_ofP: G2 => G2; move/default_ofP: G2' => G2'. congruence.
Qed.

Lemma lookup_of_None j s r : nth_error S0 j = Some s -> s_val s = Ref r None -> lookup_of S0 j = [].
Proof. rewrite /lookup_of => -> ->. by []. Qed.
Lemma lookup_of_Some j s r ks : nth_error S0 j = Some s -> s_val s = Ref r (Some ks) -> lookup_of S0 j = ks.
Proof. rewrite /lookup_of => -> ->. by []. Qed.

Lemma leads_conc j s v w : nth_error S0 j = Some s -> s_val s = Conc v -> leads j w -> w = v.
Proof.
  move=> H E L. have CR: is_reference S0 j -> False.
  { move=> [s1 [r [lk [H1 E1]]]]. rewrite H in H1. case: H1 => ?; subst. by rewrite E in E1. }
  inversion L as [? s' ? H' E'|? ? ? ? ? ? R|? ? ? ? ? ? ? R|? ? ? ? R|? ? ? ? ? R]; subst.
  - rewrite H in H'. case: H' => ?; subst. congruence.
  - by case: CR; apply: refers_ref R.
  - by case: CR; apply: refers_ref R.
  - by case: CR; apply: dangles_ref R.
  - by case: CR; apply: dangles_ref R.
Qed.

Lemma leads_denotes j v : lookups_direct S0 -> leads j v -> denotes insts S0 j v.
Proof.
  move=> LD. elim=> [j0 s v0 H E|j0 k v0 s r lk R L IH H E C|j0 k w v0 s r ks R L IH H E B F|j0 i a d D G|j0 s i a d D G H G2].
  - exact: den_conc H E.
  - case: lk E C => [ks|] E C.
    + case: (LD _ _ _ _ H E) => k' [t [l [R' [Ht Et]]]]. have ? := refers_det _ _ _ R R'. subst k'.
      exfalso. case: C => [//|[[t1 [r1 [lk1 [H1 E1]]]]|C]].
      * rewrite Ht in H1. case: H1 => ?; subst. by rewrite Et in E1.
      * by rewrite (leads_conc _ _ _ _ Ht Et L) in C.
    + apply: den_ref R IH _. rewrite (lookup_of_None _ _ _ H E). exact: lk_nil.
  - apply: den_ref R IH _. rewrite (lookup_of_Some _ _ _ _ H E). exact/follow_lookup.
  - move/default_ofP: G => G. apply: (den_default _ _ _ _ _ _ _ D G). have [s [r [lk [H [E _]]]]] := D. case: lk E => [ks|] E.
    + case: (LD _ _ _ _ H E) => k [t [l [R _]]]. case: (refers_dangles _ _ _ _ R D).
    + rewrite (lookup_of_None _ _ _ H E). exact: lk_nil.
  - move/no_defaultP: G => G; move/default_ofP: G2 => G2. exact: den_own D G H G2.
Qed.

(** * Loops *)
Lemma reaches_app a b c : reaches S0 a b -> reaches S0 b c -> reaches S0 a c.
Proof.
  elim=> [j k R|j k l R _ IH] H; first exact: re_step R H. apply: re_step R _. exact: IH.
Qed.
Lemma not_loops_ind j : (forall k, refers S0 j k -> ~ loops S0 k) -> ~ loops S0 j.
Proof.
  move=> H [L|[m [L1 L2]]].
  - inversion L as [? ? R|? k ? R L']; subst.
    + apply: (H _ R). by left; apply: re_one.
    + apply: (H _ R). left. apply: reaches_app L' _. exact: re_one.
  - inversion L1 as [? ? R|? k ? R L']; subst.
    + apply: (H _ R). by left.
    + apply: (H _ R). right. by exists m.
Qed.
Lemma denotes_no_loop j v : denotes insts S0 j v -> ~ loops S0 j.
Proof.
  elim=> [j0 s v0 H E|j0 k w v0 R _ IH L|j0 i a d v0 R G L|j0 s i a d R G H G2]; apply: not_loops_ind => k' R'.
  - exfalso. case: (refers_ref _ _ R') => s1 [r [lk [H1 E1]]]. rewrite H in H1. case: H1 => ?; subst. by rewrite E in E1.
  - by rewrite -(refers_det _ _ _ R R').
  - by case: (refers_dangles _ _ _ _ R' R).
  - by case: (refers_dangles _ _ _ _ R' R).
Qed.
Lemma leads_no_loop j v : leads j v -> ~ loops S0 j.
Proof.
  elim=> [j0 s v0 H E|j0 k v0 s r lk R L IH H E C|j0 k w v0 s r ks R L IH H E B F|j0 i a d D G|j0 s i a d D G H G2];
    apply: not_loops_ind => k' R'.
  - exfalso. case: (refers_ref _ _ R') => s1 [r [lk [H1 E1]]]. rewrite H in H1. case: H1 => ?; subst. by rewrite E in E1.
  - by rewrite -(refers_det _ _ _ R R').
  - by rewrite -(refers_det _ _ _ R R').
  - by case: (refers_dangles _ _ _ _ R' D).
  - by case: (refers_dangles _ _ _ _ R' D).
Qed.

Lemma loops_is_ref j : loops S0 j -> is_reference S0 j.
Proof.
  have Q: forall k, reaches S0 j k -> is_reference S0 j by move=> k [] j0 *; apply: refers_ref; eassumption.
  by move=> [|[k [? _]]]; eauto.
Qed.
Lemma loop_rejected j out : loops S0 j -> resolve insts S0 <> Ok out.
Proof.
  move=> L /resolve_leads [val [V _]].
  case: (loops_is_ref _ L) => s [r [lk [H E]]].
  have J: j < List.length S0 by apply/nth_error_Some; rewrite H.
  exact: leads_no_loop (V _ J) L.
Qed.

(** * Completeness *)
Definition anc (depth : list string) (j : nat) : Prop :=
  forall r, In r depth -> exists a s lk, nth_error S0 a = Some s /\ s_val s = Ref r lk /\ reaches S0 a j.

Lemma sub_resolve_complete j v : lookups_direct S0 -> denotes insts S0 j v ->
  forall fuel st depth, Inv st -> (exists s, nth_error st j = Some s /\ is_ref s = true) -> anc depth j ->
  (exists st', sub_resolve fuel insts st j depth = Ok st') \/
  sub_resolve fuel insts st j depth = Err OutOfFuel.
Proof.
  move=> LD D. have NL := denotes_no_loop _ _ D.
  elim: D NL => [j0 s v0 H E|j0 k w v0 R DK IH L|j0 i a d v0 R G L|j0 s i a d R G H G2] NL fuel st depth I [s1 [H1 R1]] A.
  - exfalso. move: R1. rewrite /is_ref. case E1: (s_val s1) => [|r lk] // _.
    have := Inv_ref _ _ _ _ _ I H1 E1. rewrite H => -[?]; subst. by rewrite E in E1.
  - case: fuel => [|fuel]; first by right.
    rewrite /= H1. move: R1. rewrite /is_ref. case E1: (s_val s1) => [|r lk] // _.
    have H0 := Inv_ref _ _ _ _ _ I H1 E1.
    have [s' [r' [lk' [i [a [H' [E' [N [K U]]]]]]]]] := R.
    rewrite H0 in H'. case: H' => ?; subst s'. rewrite E1 in E'. case: E' => ? ?; subst r' lk'.
    have ->: memb r depth = false.
    { apply/memb_nIn => X. case: (A _ X) => b [sb [lkb [Hb [Eb RB]]]].
      have RBk: refers S0 b k by exists sb, r, lkb, i, a.
      apply: NL. left. inversion RB as [? ? Q|? m ? Q Q2]; subst.
      - rewrite (refers_det _ _ _ Q RBk). apply: re_one. by rewrite -{1}(refers_det _ _ _ Q RBk).
      - rewrite (refers_det _ _ _ Q RBk) in Q2. exact: re_step R Q2. }
    have -> : rsplit r = Some (i, a) by apply/rsplit_Some.
    have -> : referents st i a = [k].
    { rewrite (referents_ext st S0); first by case: I. by apply/referents_one. }
    have [t Ht]: exists t, nth_error st k = Some t.
    { case X: (nth_error st k) => [t|]; first by exists t.
      case: K => t [Kt _]. move/nth_error_None: X. rewrite (Inv_length _ I).
      have: k < List.length S0 by apply/nth_error_Some; rewrite Kt. lia. }
    rewrite Ht. case Et: (s_val t) => [w1|r2 lk2].
    + case: lk E1 {R} => [ks|] E1; last by left; eexists.
      case: (LD _ _ _ _ H0 E1) => k' [t0 [l [R' [Ht0 Et0]]]].
      have ? : k' = k.
      { apply: refers_det R' _. by exists s1, r, (Some ks), i, a. }
      subst k'.
      have [? ?] : w1 = VDict l /\ w = VDict l.
      { split; first exact: leads_conc Ht0 Et0 (Inv_conc _ _ _ _ I Ht Et).
        apply: denotes_det DK _. exact: den_conc Ht0 Et0. }
      subst. rewrite /=. move: L. rewrite (lookup_of_Some _ _ _ _ H0 E1) => /follow_lookup -> /=.
      left. by eexists.
    + have NLk: ~ loops S0 k.
      { move=> Q. apply: NL. case: Q => [Q|[m [Q1 Q2]]].
        - right. exists k. split=> //. exact: re_one.
        - right. exists m. split=> //. exact: re_step R Q1. }
      have TR: is_ref t = true by rewrite /is_ref Et.
      have AK: anc (depth ++ [r]) k.
      { move=> x /in_app_iff [/A [b [sb [lkb [Hb [Eb RB]]]]]|[<-|[]]].
        - exists b, sb, lkb. do !split=> //. apply: reaches_app RB _. exact: re_one.
        - exists j0, s1, lk. do !split=> //. exact: re_one. }
      case: (IH NLk fuel st (depth ++ [r]) I (ex_intro _ t (conj Ht TR)) AK) => [[st' SR]|->]; last by right.
      case: (sub_resolve_sound _ _ _ _ _ I SR) => _ [_ [t' [x [Ht' Et']]]].
      rewrite SR /= Ht' Et'. left. by eexists.
  - case: fuel => [|fuel]; first by right.
    rewrite /= H1. move: R1. rewrite /is_ref. case E1: (s_val s1) => [|r lk] // _.
    have H0 := Inv_ref _ _ _ _ _ I H1 E1.
    have [s' [r' [lk' [H' [E' [N U]]]]]] := R.
    rewrite H0 in H'. case: H' => ?; subst s'. rewrite E1 in E'. case: E' => ? ?; subst r' lk'.
    have ->: memb r depth = false.
    { apply/memb_nIn => X. case: (A _ X) => b [sb [lkb [Hb [Eb RB]]]].
      have [m Q]: exists m, refers S0 b m by inversion RB; eauto.
      have DB: dangles S0 b i a by exists sb, r, lkb.
      exact: refers_dangles Q DB. }
    have -> : rsplit r = Some (i, a) by apply/rsplit_Some.
    have -> : referents st i a = [].
    { rewrite (referents_ext st S0); first by case: I. by apply/referents_none. }
    move/default_ofP: G => ->. left. by eexists.
  - case: fuel => [|fuel]; first by right.
    rewrite /= H1. move: R1. rewrite /is_ref. case E1: (s_val s1) => [|r lk] // _.
    have H0 := Inv_ref _ _ _ _ _ I H1 E1.
    have [s' [r' [lk' [H' [E' [N U]]]]]] := R.
    rewrite H0 in H'. case: H' => ?; subst s'. rewrite E1 in E'. case: E' => ? ?; subst r' lk'.
    have ->: memb r depth = false.
    { apply/memb_nIn => X. case: (A _ X) => b [sb [lkb [Hb [Eb RB]]]].
      have [m Q]: exists m, refers S0 b m by inversion RB; eauto.
      have DB: dangles S0 b i a by exists sb, r, lkb.
      exact: refers_dangles Q DB. }
    have -> : rsplit r = Some (i, a) by apply/rsplit_Some.
    have -> : referents st i a = [].
    { rewrite (referents_ext st S0); first by case: I. by apply/referents_none. }
    move/no_defaultP: G => ->. rewrite H0 in H. case: H => ->. move/default_ofP: G2 => ->. left. by eexists.
Qed.

Lemma resolve_complete : lookups_direct S0 ->
  (forall j, j < List.length S0 -> exists v, denotes insts S0 j v) ->
  exists out, resolve insts S0 = Ok out.
Proof.
  move=> LD D.
  have: forall js st, Inv st -> (forall j, In j js -> j < List.length S0) ->
    exists st', foldM (resolve_one insts (resolve_fuel S0)) js st = Ok st'.
  { elim=> [|j js IH] st I B /=; first by exists st.
    have J: j < List.length S0 by apply: B; left.
    have [st1 H1]: exists st1, resolve_one insts (resolve_fuel S0) st j = Ok st1.
    { have NF := resolve_one_fuel st j I. move: NF. rewrite /resolve_one.
      case H: (nth_error st j) => [s|]; last first.
      { move/nth_error_None: H. rewrite (Inv_length _ I). lia. }
      case R: (is_ref s); last by exists st.
      case: (D _ J) => v DV NF.
      case: (sub_resolve_complete _ _ LD DV (resolve_fuel S0) st [] I (ex_intro _ s (conj H R)) (fun r F => False_ind _ F)) => //. }
    rewrite H1 /=. apply: IH; last by move=> k K; apply: B; right.
    have F: foldM (resolve_one insts (resolve_fuel S0)) [j] st = Ok st1 by rewrite /= H1.
    by case: (resolve_fold_sound _ _ _ _ I F). }
  move=> /(_ (positions is_ref 0 S0) S0 Inv_init) [|st' F].
  - move=> j /positions_In [m [s [-> [H _]]]]. apply/nth_error_Some. by rewrite H.
  - rewrite /resolve F /=. by eexists.
Qed.

Lemma resolve_correct out : lookups_direct S0 -> resolve insts S0 = Ok out ->
  exists val, (forall j, j < List.length S0 -> denotes insts S0 j (val j)) /\ out = resolved_as S0 val.
Proof.
  move=> LD /resolve_leads [val [V ->]]. exists val. split=> // j J. apply: leads_denotes => //. exact: V.
Qed.

Lemma resolve_general out : resolve insts S0 = Ok out ->
  exists val, (forall j s v, nth_error S0 j = Some s -> s_val s = Conc v -> val j = v) /\ out = resolved_as S0 val.
Proof.
  move=> /resolve_leads [val [V ->]]. exists val. split=> // j s v H E.
  apply: (leads_conc _ _ _ _ H E). apply: V. apply/nth_error_Some. by rewrite H.
Qed.

(** A setting with a lookup whose target is directly a dictionary. *)
Lemma direct_lookup out j k s r ks t l : resolve insts S0 = Ok out ->
  nth_error S0 j = Some s -> s_val s = Ref r (Some ks) -> refers S0 j k ->
  nth_error S0 k = Some t -> s_val t = Conc (VDict l) ->
  exists v, lookup (VDict l) ks v /\ In (with_value s v) out.
Proof.
  move=> /resolve_leads [val [V ->]] H E R Ht Et.
  have J: j < List.length S0 by apply/nth_error_Some; rewrite H.
  exists (val j). split.
  - have L := V _ J. inversion L as [? s' ? H' E'|? k' ? s' ? ? R' L' H' E' C|? k' w' ? s' ? ? R' L' H' E' B F|? ? ? ? D|? ? ? ? ? D]; subst.
    + rewrite H in H'. case: H' => ?; subst. by rewrite E in E'.
    + rewrite H in H'. case: H' => ?; subst s'. rewrite E in E'. case: E' => ? ?; subst.
      have ? := refers_det _ _ _ R R'; subst k'. have EV := leads_conc _ _ _ _ Ht Et L'.
      exfalso. case: C => [//|[[t1 [r1 [lk1 [H1 E1]]]]|C]].
      * rewrite Ht in H1. case: H1 => ?; subst. by rewrite Et in E1.
      * by rewrite EV in C.
    + rewrite H in H'. case: H' => ?; subst s'. rewrite E in E'. case: E' => ? ?; subst.
      have ? := refers_det _ _ _ R R'; subst k'. have ? := leads_conc _ _ _ _ Ht Et L'; subst w'.
      exact/follow_lookup.
    + case: (refers_dangles _ _ _ _ R D).
    + case: (refers_dangles _ _ _ _ R D).
  - rewrite /resolved_as. apply/in_map_iff. exists (j, s). split=> //. apply/in_app_iff. right.
    apply/filter_In. split; last by rewrite /= /holds_ref E.
    have Q: forall (l : list setting) n m s, nth_error l m = Some s -> In (n + m, s) (combine (seq n (List.length l)) l).
    { elim=> [|x l0 IHl] n [|m] s0 //=.
      - case=> ->. left. by rewrite Nat.add_0_r.
      - move=> /(IHl (S n)) X. right. by rewrite Nat.add_succ_r. }
    exact: (Q _ 0 _ _ H).
Qed.

(** * Errors *)
Lemma sub_resolve_errors fuel st j depth e : only_loops insts S0 -> Inv st ->
  (exists s, nth_error st j = Some s /\ is_ref s = true) ->
  sub_resolve fuel insts st j depth = Err e -> e = ParseError \/ e = OutOfFuel.
Proof.
  move=> OL. elim: fuel st j depth => [|fuel IH] st j depth I [s [H R]] /=; first by case; auto.
  rewrite H. move: R. rewrite /is_ref. case E: (s_val s) => [|r lk] // _.
  case: (memb r depth); first by case; auto.
  have H0 := Inv_ref _ _ _ _ _ I H E.
  case: (OL _ _ _ _ H0 E) => -> [[k RE]|[i [a [D G]]]].
  - have [s' [r' [lk' [i [a [H' [E' [N [K U]]]]]]]]] := RE.
    rewrite H0 in H'. case: H' => ?; subst s'. rewrite E in E'. case: E' => ? ?; subst r' lk'.
    have -> : rsplit r = Some (i, a) by apply/rsplit_Some.
    have -> : referents st i a = [k].
    { rewrite (referents_ext st S0); first by case: I. by apply/referents_one. }
    have [t Ht]: exists t, nth_error st k = Some t.
    { case X: (nth_error st k) => [t|]; first by exists t.
      case: K => t [Kt _]. move/nth_error_None: X. rewrite (Inv_length _ I).
      have: k < List.length S0 by apply/nth_error_Some; rewrite Kt. lia. }
    rewrite Ht. case Et: (s_val t) => [w1|r2 lk2] //.
    have TR: is_ref t = true by rewrite /is_ref Et.
    case SR: (sub_resolve _ _ _ _ _) => [st'|e'] /=.
    + case: (sub_resolve_sound _ _ _ _ _ I SR) => _ [_ [t' [x [Ht' Et']]]]. by rewrite Ht' Et'.
    + move=> [?]; subst e'. apply: (IH _ _ _ I (ex_intro _ t (conj Ht TR)) SR).
  - have [s' [r' [lk' [H' [E' [N U]]]]]] := D.
    rewrite H0 in H'. case: H' => ?; subst s'. rewrite E in E'. case: E' => ? ?; subst r' lk'.
    have -> : rsplit r = Some (i, a) by apply/rsplit_Some.
    have -> : referents st i a = [].
    { rewrite (referents_ext st S0); first by case: I. by apply/referents_none. }
    case: G => [[d /default_ofP ->]|[d /default_ofP ->]] //. by case: get_default.
Qed.

Lemma resolve_errors e : only_loops insts S0 -> resolve insts S0 = Err e -> e = ParseError.
Proof.
  move=> OL HE.
  have NF := resolve_no_fuel. rewrite HE in NF.
  suff: e = ParseError \/ e = OutOfFuel by case=> // X; rewrite X in NF.
  move: HE. rewrite /resolve.
  have: forall js st, Inv st -> (forall j, In j js -> j < List.length S0) ->
    forall e, foldM (resolve_one insts (resolve_fuel S0)) js st = Err e -> e = ParseError \/ e = OutOfFuel.
  { elim=> [|j js IH] st I B e' //=.
    have J: j < List.length S0 by apply: B; left.
    case H1: (resolve_one _ _ _ _) => [st1|e1] /=.
    - apply: IH; last by move=> k K; apply: B; right.
      have F: foldM (resolve_one insts (resolve_fuel S0)) [j] st = Ok st1 by rewrite /= H1.
      by case: (resolve_fold_sound _ _ _ _ I F).
    - case=> <-. move: H1. rewrite /resolve_one. case H: (nth_error st j) => [s|]; last first.
      { move/nth_error_None: H. rewrite (Inv_length _ I). lia. }
      case R: (is_ref s) => // SR. apply: sub_resolve_errors SR => //. by exists s. }
  move=> Q. case F: (foldM _ _ _) => [st|e'] //= [<-]. apply: Q F; first exact: Inv_init.
  move=> j /positions_In [m [s [-> [H _]]]]. apply/nth_error_Some. by rewrite H.
Qed.

Lemma loop_parse_error j : only_loops insts S0 -> loops S0 j -> resolve insts S0 = Err ParseError.
Proof.
  move=> OL L. case E: (resolve insts S0) => [out|e]; first by case: (loop_rejected _ _ L E).
  by rewrite (resolve_errors _ OL E).
Qed.

(** A dangling reference without defaults is never survived. *)
Lemma dangling_fails j i a s out : dangles S0 j i a -> no_default insts i a ->
  nth_error S0 j = Some s -> no_default insts (s_inst s) (s_attr s) ->
  resolve insts S0 <> Ok out.
Proof.
  move=> D /no_defaultP G H /no_defaultP G2 /resolve_leads [val [V _]].
  have J: j < List.length S0 by apply/nth_error_Some; rewrite H.
  have [s0 [r [lk [H0 [E _]]]]] := D. rewrite H in H0. case: H0 => ?; subst s0.
  have L := V _ J.
  inversion L as [? s' ? H' E'|? ? ? ? ? ? R|? ? ? ? ? ? ? R|? ? ? ? D' G'|? s' ? ? ? D' ? H' G']; subst.
  - rewrite H in H'. case: H' => ?; subst. by rewrite E in E'.
  - case: (refers_dangles _ _ _ _ R D).
  - case: (refers_dangles _ _ _ _ R D).
  - case: (dangles_det _ _ _ _ _ D D') => ? ?; subst. by rewrite G in G'.
  - rewrite H in H'. case: H' => ?; subst. by rewrite G2 in G'.
Qed.
End Resolve.
