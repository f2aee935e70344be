(** Proofs about equality and hashing of AST objects. *)
From Coq Require Import List Bool String Ascii ZArith Arith Lia Permutation
  ssreflect ssrbool.
From Verif Require Import Prelude AstObj_Model AstObj_Spec.
Import ListNotations.
Open Scope string_scope.
Open Scope list_scope.

(** ** Small facts *)
Lemma cmp_str_0 s t : cmp_str s t = 0%Z <-> s = t.
Proof.
  rewrite /cmp_str. split.
  - case E: (String.compare s t) => // _. exact: String.compare_eq_iff.
  - move=> ->. have : String.compare t t = CompOpp (String.compare t t)
      := String.compare_antisym t t. by case: (String.compare t t).
Qed.
Lemma cmp_z_0 x y : cmp_z x y = 0%Z <-> x = y.
Proof.
  rewrite /cmp_z. case: (Z.compare_spec x y) => H; split=> //; lia.
Qed.

Lemma size_pos v : 1 <= size v.
Proof. case: v => *; cbn [size]; lia. Qed.
Lemma size_seq x l : In x l -> size x <= fold_right (fun x n => size x + n) 0 l.
Proof.
  elim: l => [|y l IH] //= [->|/IH]; lia.
Qed.
Lemma size_dict k x (d : list (string * pv)) :
  In (k, x) d -> size x <= fold_right (fun kv n => size (snd kv) + n) 0 d.
Proof.
  elim: d => [|y d IH] //= [->|/IH] /=; lia.
Qed.

Lemma ignoredE c k : ignored c k <-> In k (no_hash c).
Proof.
  rewrite /ignored /no_hash !in_app_iff.
  have E : memb c map_likes = true <->
    In c ["Component"; "Procedure"; "Composition"; "Configuration"; "Group"].
  { rewrite memb_In. cbn [In map_likes]. tauto. }
  have E' : eqb c "LiftedAST" = true <-> c = "LiftedAST" by apply eqb_eq.
  case: (memb c map_likes) E => E; case: (eqb c "LiftedAST") E' => E';
    cbn [In] in *; intuition; subst; auto.
Qed.
Lemma as_numberE v : as_number v = number v.
Proof. by case: v => // - []. Qed.
Lemma same_num a b z :
  number a = Some z -> number b = Some z -> same a b.
Proof. rewrite -!as_numberE. exact: same_number. Qed.
Lemma visibleP c k (x : pv) : visible c (k, x) = true <-> ~ ignored c k.
Proof.
  rewrite /visible. cbn [fst]. case E: (memb k (no_hash c)); cbn [negb].
  - apply memb_In, ignoredE in E. by split.
  - apply memb_nIn in E. split=> // _ /ignoredE. exact: E.
Qed.

Lemma NoDup_dget {V} (d : list (string * V)) k x :
  NoDup (map fst d) -> In (k, x) d -> dget d k = Some x.
Proof.
  elim: d => [|[k' x'] d IH] //= Hn. inversion Hn as [|? ? Hni Hnd]; subst.
  move=> [[-> ->]|H].
  - by rewrite String.eqb_refl.
  - case: (String.eqb_spec k k') => [E|_]; [|exact: IH].
    case: Hni. rewrite -E. exact: (in_map fst _ _ H).
Qed.

(** ** [peq] decides [same] *)
Lemma seq_ne n :
  (forall a b, peq n a b = Ok false -> pcmp n a b <> Ok 0%Z) ->
  forall l m, seq_eq (peq n) l m = Ok false ->
  seq_cmp (peq n) (pcmp n) l m <> Ok 0%Z.
Proof.
  move=> IH. elim=> [|x l IHl] [|y m] //=.
  case E: (peq n x y) => [[]|e] //= H; [exact: IHl|exact: IH].
Qed.

Lemma peq_cmp n a b : peq n a b = Ok false -> pcmp n a b <> Ok 0%Z.
Proof.
  elim: n a b => [|n IH] a b //.
  case: a => [|z|x|s|t l|f d|c d]; case: b => [|z'|x'|s'|t' l'|f' d'|c' d'];
    cbn [peq pcmp number]; try done;
    try (by move=> _; rewrite /cmp_str; try case: t; try case: t';
            try case: f; try case: f').
  1-4: move=> [/Z.eqb_neq H] [/cmp_z_0 H']; by apply: H.
  - move=> [/String.eqb_neq H] [/cmp_str_0 H']. by apply: H.
  - case: (Bool.eqb t t') => // H. exact: seq_ne.
  - case: (eqb_spec c c') => [_|n'].
    + case: (obj_cmp _ _ _ _ _) => [z|e] //= [/Z.eqb_neq H] [?]. by subst z.
    + move=> [/Z.eqb_neq H] [H']. by apply: H.
Qed.

Lemma peq_same n a b : peq n a b = Ok true -> same a b.
Proof.
  elim: n a b => [|n IH] a b //.
  case: a => [|z|x|s|t l|f d|c d]; case: b => [|z'|x'|s'|t' l'|f' d'|c' d'];
    cbn [peq number]; try done.
  1: by constructor.
  1-4: move=> [/Z.eqb_eq H]; (apply: same_num; [reflexivity|];
    by rewrite /= H).
  - move=> [/String.eqb_eq ->]. by constructor.
  - case: (Bool.eqb_spec t t') => // -> H. constructor.
    elim: l l' H => [|x l IHl] [|y m] //=.
    case E: (peq n x y) => [[]|e] //= H. constructor; [exact: IH|exact: IHl].
  - case: (Nat.eqb_spec (List.length d) (List.length d')) => // Hl H.
    constructor=> // k x. elim: d H {Hl} => [|[k0 x0] d IHd] //= H.
    case E: (dget d' k0) H => [y|] //.
    case Ep: (peq n x0 y) => [[]|e] //= H [[? ?]|Hi]; [|exact: IHd].
    subst. exists y. split=> //. exact: IH.
  - case: (eqb_spec c c') => [<-|n'].
    + case Eo: (obj_cmp _ _ _ _ _) => [z|e] //= [/Z.eqb_eq ?]. subst z.
      constructor=> k x. elim: d Eo => [|[k0 x0] d IHd] Eo Hi Hv; [done|].
      move: Eo. cbn [obj_cmp]. case Evis: (visible c (k0, x0)); cbn [negb].
      * case E: (dget d' k0) => [y|] //.
        case Ep: (peq n x0 y) => [[]|e] //=.
        -- move=> Eo. case: Hi => [[? ?]|Hi]; [|exact: IHd].
           subst. exists y. split=> //. exact: IH.
        -- case: (String.eqb_spec (type_name x0) (type_name y)) => [_|Nt] /=.
           ++ move=> Eo. by case: (peq_cmp _ _ _ Ep).
           ++ move=> [/cmp_str_0 ?] //.
      * move=> Eo. case: Hi => [[? ?]|Hi]; [|exact: IHd].
        subst. by rewrite (proj2 (visibleP c k x) Hv) in Evis.
    + move=> [/Z.eqb_eq /cmp_str_0] /=. move=> [H]. by case: n'.
Qed.

Lemma same_peq n a b : same a b -> size a + size b <= n -> peq n a b = Ok true.
Proof.
  elim: n a b => [|n IH] a b Hs Hn; [have := size_pos a; lia|].
  case: Hs Hn => [|a' b' z Ea Eb|s|t l m H|t u d e Hl H|c d e H] Hn.
  - done.
  - rewrite !as_numberE in Ea Eb. cbn [peq]. case: a' Ea Hn => //; case: b' Eb => // x Ex y Ey _;
      cbn [number] in *; move: Ex Ey => [<-] [->]; by rewrite Z.eqb_refl.
  - cbn [peq]. by rewrite String.eqb_refl.
  - cbn [peq]. rewrite Bool.eqb_reflx.
    cbn [size] in Hn. elim: H Hn => [|x y l' m' Hxy _ IHl] //= Hn.
    rewrite IH //; [lia|]. cbn [bind]. apply: IHl. lia.
  - cbn [peq]. rewrite Hl Nat.eqb_refl. cbn [size] in Hn.
    have He : forall k y, dget e k = Some y ->
      size y <= fold_right (fun kv n => size (snd kv) + n) 0 e.
    { move=> k y Hy. apply dget_In in Hy. exact: (size_dict k). }
    clear Hl. elim: d H Hn => [|[k x] d IHd] H Hn //=.
    have [y [Ey Hy]] := H k x (or_introl eq_refl).
    rewrite Ey IH //; [cbn in Hn; have := He _ _ Ey; lia|].
    cbn [bind]. apply: IHd.
    + move=> k' x' Hi. apply: H. by right.
    + cbn in Hn. lia.
  - cbn [peq]. rewrite eqb_refl. cbn [size] in Hn.
    have He : forall k y, dget e k = Some y ->
      size y <= fold_right (fun kv n => size (snd kv) + n) 0 e.
    { move=> k y Hy. apply dget_In in Hy. exact: (size_dict k). }
    suff -> : obj_cmp (peq n) (pcmp n) c d e = Ok 0%Z by [].
    elim: d H Hn => [|[k x] d IHd] H Hn //=. cbn in Hn.
    have Htail : obj_cmp (peq n) (pcmp n) c d e = Ok 0%Z.
    { apply: IHd; [|lia]. move=> k' x' Hi Hv. apply: H => //. by right. }
    case Ev: (visible c (k, x)) => //=. apply visibleP in Ev.
    have [y [Ey Hy]] := H k x (or_introl eq_refl) Ev.
    rewrite Ey IH //; [have := He _ _ Ey; lia].
Qed.

Lemma equal_same a b : equal a b = Ok true <-> same a b.
Proof.
  split; [exact: peq_same|]. move=> H. exact: same_peq.
Qed.

(** ** Equivalence *)
Section Layout.
Variable layout : string -> list string.
Notation wf := (wf layout).

Lemma same_refl n v : size v <= n -> wf v -> same v v.
Proof.
  elim: n v => [|n IH] v Hn Hw; [have := size_pos v; lia|].
  case: Hw Hn => [|z|b|s|t l Hl|t d Hd Hf|c d Hd Hk Hf] Hn.
  - constructor.
  - by apply: same_num.
  - by apply: same_num.
  - constructor.
  - constructor. cbn [size] in Hn.
    elim: Hl Hn => [|x l' Hx _ IHl] /= Hn; constructor.
    + apply: IH => //. lia.
    + apply: IHl. lia.
  - constructor=> // k x Hi. exists x. split; [exact: NoDup_dget|].
    apply: IH.
    + cbn [size] in Hn. have := size_dict _ _ _ Hi. lia.
    + exact: (proj1 (Forall_forall _ _) Hf _ Hi).
  - constructor=> k x Hi _. exists x. split; [exact: NoDup_dget|].
    apply: IH.
    + cbn [size] in Hn. have := size_dict _ _ _ Hi. lia.
    + exact: (proj1 (Forall_forall _ _) Hf _ Hi).
Qed.

Lemma keys_incl (d e : list (string * pv)) :
  NoDup (map fst d) -> List.length d = List.length e ->
  (forall k x, In (k, x) d -> exists y, dget e k = Some y) ->
  forall k, In k (map fst e) -> In k (map fst d).
Proof.
  move=> Hd Hl H. apply: NoDup_length_incl => //.
  - by rewrite !map_length Hl.
  - move=> k /in_map_iff [[k' x] [<- Hi]].
    have [y Ey] := H _ _ Hi. apply dget_In in Ey. exact: (in_map fst _ _ Ey).
Qed.

Lemma same_sym n a b : size a <= n -> wf a -> wf b -> same a b -> same b a.
Proof.
  elim: n a b => [|n IH] a b Hn Ha Hb Hs; [have := size_pos a; lia|].
  case: Hs Ha Hb Hn => [|a' b' z Ea Eb|s|t l m H|t u d e Hl H|c d e H] Ha Hb Hn.
  - constructor.
  - rewrite !as_numberE in Ea Eb. exact: (same_num _ _ _ Eb Ea).
  - constructor.
  - constructor. cbn [size] in Hn. inversion Ha as [| | | |? ? Fa| |]; subst.
    inversion Hb as [| | | |? ? Fb| |]; subst.
    elim: H Fa Fb Hn {Ha Hb} => [|x y l' m' Hxy _ IHl] Fa Fb Hn; constructor.
    + inversion Fa; subst. inversion Fb; subst. apply: IH => //.
      cbn in Hn. lia.
    + inversion Fa; subst. inversion Fb; subst. apply: IHl => //.
      cbn in Hn. lia.
  - inversion Ha as [| | | | |? ? Na Fa|]; subst.
    inversion Hb as [| | | | |? ? Nb Fb|]; subst.
    constructor=> // k y Hy.
    have Hk : In k (map fst d).
    { apply: (keys_incl d e) => //.
      - move=> k' x' Hi. have [y' [E _]] := H _ _ Hi. by exists y'.
      - exact: (in_map fst _ _ Hy). }
    move: Hk => /in_map_iff [[k' x] [E Hx]]. cbn in E. subst k'.
    exists x. split; [exact: NoDup_dget|].
    have [y' [Ey' Hs]] := H _ _ Hx. rewrite (NoDup_dget _ _ _ Nb Hy) in Ey'.
    move: Ey' => [?]; subst y'. apply: IH => //.
    + cbn [size] in Hn. have := size_dict _ _ _ Hx. lia.
    + exact: (proj1 (Forall_forall _ _) Fa _ Hx).
    + exact: (proj1 (Forall_forall _ _) Fb _ Hy).
  - inversion Ha as [| | | | | |? ? Na Ka Fa]; subst.
    inversion Hb as [| | | | | |? ? Nb Kb Fb]; subst.
    constructor=> // k y Hy Hv.
    have Hk : In k (map fst d).
    { rewrite Ka -Kb. exact: (in_map fst _ _ Hy). }
    move: Hk => /in_map_iff [[k' x] [E Hx]]. cbn in E. subst k'.
    exists x. split; [exact: NoDup_dget|].
    have [y' [Ey' Hs]] := H _ _ Hx Hv. rewrite (NoDup_dget _ _ _ Nb Hy) in Ey'.
    move: Ey' => [?]; subst y'. apply: IH => //.
    + cbn [size] in Hn. have := size_dict _ _ _ Hx. lia.
    + exact: (proj1 (Forall_forall _ _) Fa _ Hx).
    + exact: (proj1 (Forall_forall _ _) Fb _ Hy).
Qed.

Lemma same_num_inv a b z : number a = Some z -> same a b -> number b = Some z.
Proof.
  rewrite -!as_numberE => E H. case: H E => // a' b' z' -> -> //.
Qed.

Lemma same_trans n a b c :
  size a <= n -> same a b -> same b c -> same a c.
Proof.
  elim: n a b c => [|n IH] a b c Hn Hab Hbc; [have := size_pos a; lia|].
  case: Hab Hbc Hn => [|a' b' z Ea Eb|s|t l m H|t u d e Hl H|k d e H] Hbc Hn.
  - exact: Hbc.
  - rewrite !as_numberE in Ea Eb. exact: (same_num _ _ _ Ea (same_num_inv _ _ _ Eb Hbc)).
  - exact: Hbc.
  - inversion Hbc as [|? ? ? E| |? ? m2 H2| |]; subst=> //.
    constructor. cbn [size] in Hn. clear Hbc.
    elim: H m2 H2 Hn => [|x y l' m' Hxy _ IHl] m2 H2 Hn.
    + inversion H2; subst. constructor.
    + inversion H2 as [|? w ? m3 Hyw Hm3]; subst. cbn in Hn. constructor.
      * apply: (IH _ y) => //. lia.
      * apply: IHl => //. lia.
  - inversion Hbc as [|? ? ? E| | |? ? ? e2 Hl2 H2|]; subst=> //.
    constructor; [by rewrite Hl|]. move=> k x Hx.
    have [y [Ey Hy]] := H _ _ Hx.
    apply dget_In in Ey. have [w [Ew Hw]] := H2 _ _ Ey.
    exists w. split=> //. apply: (IH _ y) => //.
    cbn [size] in Hn. have := size_dict _ _ _ Hx. lia.
  - inversion Hbc as [|? ? ? E| | | |? ? e2 H2]; subst=> //.
    constructor=> k' x Hx Hv.
    have [y [Ey Hy]] := H _ _ Hx Hv.
    apply dget_In in Ey. have [w [Ew Hw]] := H2 _ _ Ey Hv.
    exists w. split=> //. apply: (IH _ y) => //.
    cbn [size] in Hn. have := size_dict _ _ _ Hx. lia.
Qed.

Lemma equal_refl v : wf v -> equal v v = Ok true.
Proof. move=> H. apply equal_same. exact: (same_refl (size v)). Qed.
Lemma equal_sym a b :
  wf a -> wf b -> equal a b = Ok true -> equal b a = Ok true.
Proof.
  move=> Ha Hb /equal_same H. apply equal_same.
  exact: (same_sym (size a)).
Qed.
Lemma equal_trans a b c :
  equal a b = Ok true -> equal b c = Ok true -> equal a c = Ok true.
Proof.
  move=> /equal_same H1 /equal_same H2. apply equal_same.
  exact: (same_trans (size a) a b c).
Qed.

(** Objects that differ in ignored fields only. *)
Lemma equal_ignored c d e :
  wf (PObj c d) -> wf (PObj c e) ->
  (forall k x, In (k, x) d -> ~ ignored c k -> In (k, x) e) ->
  equal (PObj c d) (PObj c e) = Ok true.
Proof.
  move=> Hd He H. apply equal_same. constructor=> k x Hx Hv.
  inversion Hd as [| | | | | |? ? Nd Kd Fd]; subst.
  inversion He as [| | | | | |? ? Ne Ke Fe]; subst.
  exists x. split.
  - apply: NoDup_dget => //. exact: H.
  - apply: (same_refl (size x)) => //.
    exact: (proj1 (Forall_forall _ _) Fd _ Hx).
Qed.

(** ** Hashing *)
Lemma leb_trans s t u :
  String.leb s t = true -> String.leb t u = true -> String.leb s u = true.
Proof.
  rewrite /String.leb.
  elim: s t u => [|a s IH] [|b t] [|c u] //=.
  rewrite /Ascii.compare.
  case: (N.compare_spec (N_of_ascii a) (N_of_ascii b)) => H1 //;
  case: (N.compare_spec (N_of_ascii b) (N_of_ascii c)) => H2 //;
  case: (N.compare_spec (N_of_ascii a) (N_of_ascii c)) => H3 //; try lia.
  exact: IH.
Qed.

Lemma insert_comm {V} (x y : string * V) l :
  fst x <> fst y -> insert_key x (insert_key y l) = insert_key y (insert_key x l).
Proof.
  move=> Hne. elim: l => [|z l IH].
  - cbn. case E1: (String.leb (fst x) (fst y));
      case E2: (String.leb (fst y) (fst x)) => //.
    + by have := String.leb_antisym _ _ E1 E2.
    + have := String.leb_total (fst x) (fst y). rewrite E1 E2. by case.
  - cbn [insert_key].
    case E1: (String.leb (fst y) (fst z)); case E2: (String.leb (fst x) (fst z));
      cbn [insert_key]; rewrite ?E1 ?E2.
    + case E3: (String.leb (fst x) (fst y));
        case E4: (String.leb (fst y) (fst x)); rewrite ?E1 ?E2 //.
      * by have := String.leb_antisym _ _ E3 E4.
      * have := String.leb_total (fst x) (fst y). rewrite E3 E4. by case.
    + case E3: (String.leb (fst x) (fst y)) => //.
      by rewrite (leb_trans _ _ _ E3 E1) in E2.
    + case E4: (String.leb (fst y) (fst x)) => //.
      by rewrite (leb_trans _ _ _ E4 E2) in E1.
    + by rewrite IH.
Qed.

Lemma sort_perm {V} (l m : list (string * V)) :
  Permutation l m -> NoDup (map fst l) -> sort_keys l = sort_keys m.
Proof.
  elim=> [|x l' m' Hp IH|x y l'|l1 l2 l3 H12 IH1 H23 IH2] Hn //=.
  - inversion Hn; subst. by rewrite IH.
  - apply: insert_comm. inversion Hn as [|? ? Hni]; subst.
    move=> E. apply: Hni. left. by rewrite E.
  - rewrite IH1 // IH2 //. apply: (Permutation_NoDup (l := map fst l1)) => //.
    exact: Permutation_map.
Qed.

Section HashProofs.
Variable strhash : string -> Z.
Variable hash_none : Z.
Variable hash_int : Z -> Z.
Variable trunc : Z -> Z.
Notation hash := (camkes_hash strhash hash_none hash_int trunc).

Lemma hash_number v z : number v = Some z -> hash v = hash_int z.
Proof. by case: v => // x [<-]. Qed.

Lemma same_hash n a b :
  size a <= n -> wf a -> wf b -> same a b -> hash a = hash b.
Proof.
  elim: n a b => [|n IH] a b Hn Ha Hb Hs; [have := size_pos a; lia|].
  case: Hs Ha Hb Hn => [|a' b' z Ea Eb|s|t l m H|t u d e Hl H|c d e H] Ha Hb Hn.
  - done.
  - rewrite !as_numberE in Ea Eb. by rewrite (hash_number _ _ Ea) (hash_number _ _ Eb).
  - done.
  - cbn [camkes_hash]. f_equal.
    cbn [size] in Hn. inversion Ha as [| | | |? ? Fa| |]; subst.
    inversion Hb as [| | | |? ? Fb| |]; subst.
    elim: H Fa Fb Hn {Ha Hb} => [|x y l' m' Hxy _ IHl] Fa Fb Hn //=.
    inversion Fa; subst. inversion Fb; subst. cbn in Hn. f_equal.
    + apply: IH => //. lia.
    + apply: IHl => //. lia.
  - inversion Ha as [| | | | |? ? Na Fa|]; subst.
    inversion Hb as [| | | | |? ? Nb Fb|]; subst.
    cbn [camkes_hash]. f_equal.
    have Hfst : forall l : list (string * pv),
      map fst (map (fun kv => (fst kv, hash (snd kv))) l) = map fst l.
    { move=> l. by rewrite map_map. }
    apply: sort_perm; [|by rewrite Hfst].
    apply: NoDup_Permutation_bis.
    + apply: (NoDup_map_inv fst). by rewrite Hfst.
    + by rewrite !map_length Hl.
    + move=> kh /in_map_iff [[k x] [<- Hx]]. cbn [fst snd].
      have [y [Ey Hy]] := H _ _ Hx. apply dget_In in Ey.
      apply in_map_iff. exists (k, y). split=> //. cbn [fst snd]. f_equal.
      symmetry. apply: IH => //.
      * cbn [size] in Hn. have := size_dict _ _ _ Hx. lia.
      * exact: (proj1 (Forall_forall _ _) Fa _ Hx).
      * exact: (proj1 (Forall_forall _ _) Fb _ Ey).
  - inversion Ha as [| | | | | |? ? Na Ka Fa]; subst.
    inversion Hb as [| | | | | |? ? Nb Kb Fb]; subst.
    cbn [camkes_hash]. f_equal. f_equal. cbn [size] in Hn.
    have Ek : map fst d = map fst e by rewrite Ka Kb.
    have Hal : forall k x, In (k, x) d -> ~ ignored c k ->
       forall y, In (k, y) e -> hash x = hash y.
    { move=> k x Hx Hv y Hy. have [y' [Ey Hs]] := H _ _ Hx Hv.
      rewrite (NoDup_dget _ _ _ Nb Hy) in Ey. move: Ey => [?]; subst y'.
      apply: IH => //.
      - have := size_dict _ _ _ Hx. lia.
      - exact: (proj1 (Forall_forall _ _) Fa _ Hx).
      - exact: (proj1 (Forall_forall _ _) Fb _ Hy). }
    clear -Ek Hal. elim: d e Ek Hal => [|[k x] d IHd] [|[k' y] e]; try done.
    move=> [<- Ek] Hal. cbn [flat_map fst snd]. f_equal.
    + rewrite /visible. cbn [fst]. case E: (memb k (no_hash c)); [done|].
      apply memb_nIn in E. rewrite -ignoredE in E. cbn [negb].
      by rewrite (Hal k x (or_introl eq_refl) E y (or_introl eq_refl)).
    + apply: IHd => // k2 x2 Hx Hv y2 Hy.
      exact: (Hal k2 x2 (or_intror Hx) Hv y2 (or_intror Hy)).
Qed.

Lemma equal_hash a b : wf a -> wf b -> equal a b = Ok true -> hash a = hash b.
Proof. move=> Ha Hb /equal_same H. exact: (same_hash (size a)). Qed.
End HashProofs.
End Layout.

(** ** When the comparison cannot fail *)

Lemma tame_total n a b :
  tame a -> tame b -> size a + size b <= n ->
  (exists r, peq n a b = Ok r) /\
  (type_name a = type_name b -> a <> PNone -> exists z, pcmp n a b = Ok z) /\
  ((exists c d, a = PObj c d) -> exists z, pcmp n a b = Ok z).
Proof.
  elim: n a b => [|n IH] a b Ha Hb Hn; [have := size_pos a; lia|].
  have Hobj : forall c d c' e, a = PObj c d -> b = PObj c' e ->
    c = c' -> exists z, obj_cmp (peq n) (pcmp n) c d e = Ok z.
  { move=> c d c' e Ea Eb _. subst. inversion Ha as [| | | | |? ? Fa]; subst.
    inversion Hb as [| | | | |? ? Fb]; subst. cbn [size] in Hn.
    clear Ha Hb.
    have Hd : forall k x, In (k, x) d -> In (k, x) d by [].
    move: {1 3}d Hd => d0. elim: d0 => [|[k x] d0 IHd] Hd; cbn [obj_cmp].
    - by eexists.
    - have [zt Et] := IHd (fun k x H => Hd k x (or_intror H)).
      case: (negb _); [by exists zt|].
      case E: (dget e k) => [y|]; [|by eexists].
      apply dget_In in E.
      have Hx := Hd k x (or_introl eq_refl).
      have Hsx := size_dict _ _ _ Hx. have Hsy := size_dict _ _ _ E.
      have Htx : tame x := proj1 (Forall_forall _ _) Fa _ Hx.
      have Hty : tame y := proj1 (Forall_forall _ _) Fb _ E.
      have Hb : size x + size y <= n by lia.
      have [[r Er] [Hc _]] := IH x y Htx Hty Hb.
      rewrite Er. cbn [bind]. case: r Er => Er; [by exists zt|].
      case: (eqb_spec (type_name x) (type_name y)) => [Eq|Ne]; cbn [negb].
      + apply: (Hc Eq) => Ex. subst x. move: Er. clear -Eq Hb.
        case: n Hb => [|n'] Hb //; case: y Eq {Hb} => // [[]|[]] //.
      + by eexists. }
  have Hseq : forall t l u m, a = PSeq t l -> b = PSeq u m ->
    (exists r, seq_eq (peq n) l m = Ok r) /\
    (exists z, seq_cmp (peq n) (pcmp n) l m = Ok z).
  { move=> t l u m Ea Eb. subst. inversion Ha as [| | | |? ? Fa Oa|]; subst.
    inversion Hb as [| | | |? ? Fb Ob|]; subst. cbn [size] in Hn.
    clear Ha Hb Hobj. elim: l m Fa Oa Fb Ob Hn => [|x l IHl] [|y m] Fa Oa Fb Ob Hn;
      cbn [seq_eq seq_cmp]; try by (split; eexists).
    inversion Fa; subst. inversion Fb; subst.
    inversion Oa; subst. inversion Ob; subst. cbn in Hn.
    have Hxy : size x + size y <= n by lia.
    have [[r Er] [_ Hc]] := IH x y ltac:(done) ltac:(done) Hxy.
    rewrite Er. cbn [bind]. case: r {Er}.
    - apply: IHl => //. lia.
    - split; [by eexists|]. exact: Hc. }
  case: a Ha Hn Hobj Hseq => [|z|x|s|t l|f d|c d] Ha Hn Hobj Hseq;
  case: b Hb Hn Hobj Hseq => [|z'|x'|s'|t' l'|f' d'|c' d'] Hb Hn Hobj Hseq;
    cbn [peq pcmp number];
    try (by inversion Ha); try (by inversion Hb);
    try (split; [by eexists|split; [try done; try by eexists|
      try (by move=> [? [? ?]]); try by eexists]]).
  all: try (by case: t {Ha Hn Hobj Hseq}); try (by case: t' {Hb Hn Hobj Hseq}).
  - have [H1 H2] := Hseq _ _ _ _ eq_refl eq_refl.
    split; [|split].
    + case: (Bool.eqb t t'); [done|by eexists].
    + case: t {Ha Hn Hobj Hseq}; case: t' {Hb} => //.
    + by move=> [? [? ?]].
  - have Ho : c = c' -> exists z, obj_cmp (peq n) (pcmp n) c d d' = Ok z.
    { move=> E. exact: (Hobj c d c' d'). }
    case: (eqb_spec c c') => [E|N].
    + have [z Ez] := Ho E. rewrite Ez. cbn [bind].
      split; [by eexists|]. split; by eexists.
    + split; [by eexists|]. split; by eexists.
Qed.

Lemma equal_total a b : tame a -> tame b -> exists r, equal a b = Ok r.
Proof.
  move=> Ha Hb. exact: (proj1 (tame_total _ a b Ha Hb (Nat.le_refl _))).
Qed.

(** ** Counterexamples *)
Lemma compare_dicts_fails : exists layout a b,
  wf layout a /\ wf layout b /\ equal a b = Err TypeError.
Proof.
  exists (fun _ => ["_instance"; "_attribute"; "_value"]).
  exists (PObj "Setting" [("_instance", PStr "c"); ("_attribute", PStr "a");
                          ("_value", PDict false [("k", PInt 1)])]).
  exists (PObj "Setting" [("_instance", PStr "c"); ("_attribute", PStr "a");
                          ("_value", PDict false [("k", PInt 2)])]).
  have Hn : NoDup ["_instance"; "_attribute"; "_value"].
  { repeat (constructor; [cbn; intuition discriminate|]). constructor. }
  split; [|split]; [| |by vm_compute];
    (constructor=> //; repeat (constructor; try by cbn)).
Qed.
