(** Connection merging: the main results. *)
From Coq Require Import ssreflect ssrbool List String Bool Arith Lia Permutation Relation_Operators.
From Verif Require Import Prelude DecStr Merge_Model Merge_Spec Merge_Proofs.
Import ListNotations.
Open Scope string_scope. Open Scope list_scope.

Lemma merged_self c : merged_from [c] c.
Proof.
  split; first by move=> d [<-|//]. split=> e; split=> [H|[d [[<-|//] H]]] //; exists c; split=> //; by left.
Qed.

Lemma merge_linked cs out d : NoDup cs -> merge cs = Ok out -> In d out ->
  exists S, S <> [] /\ incl S cs /\ merged_from S d /\ forall a b, In a S -> In b S -> linked cs a b.
Proof.
  move=> N /apply_groups_inv [news [F [A P]]] /(In_out cs out news N F P) [[Hd _]|Hn].
  - exists [d]. split=> //. split; first by move=> x [<-|//]. split; first by apply: merged_self.
    move=> a b [<-|//] [<-|//]. by constructor.
  - have [g [/filter_In [Hg Bg] B]] := Forall2_In_r' _ _ _ _ _ _ F Hn.
    have [_ [ne [L S']]] := groups_props _ _ Hg. have [_ [M _]] := build_inv _ _ B.
    exists g. split=> //. split; first by move=> x /S' [].  by split.
Qed.

Lemma merged_ends S d k : merged_from S d -> In k (ends_of d) -> exists c, In c S /\ In k (ends_of c).
Proof.
  move=> [_ [To From]]. rewrite /ends_of in_app_iff. case=> /in_map_iff [e [<- He]].
  - move: He => /To [c [Hc He]]. exists c. rewrite in_app_iff. split=> //. left. by apply: in_map.
  - move: He => /From [c [Hc He]]. exists c. rewrite in_app_iff. split=> //. right. by apply: in_map.
Qed.

Lemma merge_no_share cs out d d' : NoDup cs -> merge cs = Ok out -> In d out -> In d' out ->
  share d d' -> d = d'.
Proof.
  move=> N /apply_groups_inv [news [F [A P]]] Hd Hd' /share_ends [k [K K']].
  have OG := one_group cs out news N F P.
  have G : forall x, In x out -> exists S, merged_from S x /\ incl S cs /\
     ((S = [x] /\ forall g, In g (groups (add_connections cs)) -> big g = true -> ~ In x g) \/
      (In S (groups (add_connections cs)) /\ big S = true /\ build S = Ok (Some x))).
  { move=> x /(In_out cs out news N F P) [[Hx Hx']|Hn].
    - exists [x]. split; first by apply: merged_self. split; first by move=> y [<-|//]. by left.
    - have [g [/filter_In [Hg Bg] B]] := Forall2_In_r' _ _ _ _ _ _ F Hn.
      have [_ [_ [_ S']]] := groups_props _ _ Hg. have [_ [M _]] := build_inv _ _ B.
      exists g. split=> //. split; first by move=> y /S' []. by right. }
  have [S [M [I C]]] := G d Hd. have [S' [M' [I' C']]] := G d' Hd'.
  have [c [Hc Kc]] := merged_ends _ _ _ M K. have [c' [Hc' Kc']] := merged_ends _ _ _ M' K'.
  have [g [Hg [G1 G2]]] := groups_together cs c c' k (I _ Hc) (I' _ Hc') Kc Kc'.
  case: (eqb_spec c c') => [E|ne].
  - subst c'. case: C => [[E nC]|[HS [BS B]]]; case: C' => [[E' nC']|[HS' [BS' B']]].
    + subst. case: Hc => [E1|//]. case: Hc' => [E2|//]. by rewrite E1.
    + subst. case: Hc => [Ex|//]. subst c. by case: (nC _ HS' BS' Hc').
    + subst. case: Hc' => [Ex|//]. subst c. by case: (nC' _ HS BS Hc).
    + have E := OG _ _ c HS HS' BS BS' Hc Hc'. subst S'. rewrite B in B'. by case: B'.
  - have Bg := big_two g _ _ G1 G2 ne.
    case: C => [[E nC]|[HS [BS B]]]; first by subst; case: Hc => [Ex|//]; subst c; case: (nC _ Hg Bg G1).
    case: C' => [[E' nC']|[HS' [BS' B']]]; first by subst; case: Hc' => [Ex|//]; subst c'; case: (nC' _ Hg Bg G2).
    have E1 := OG _ _ c HS Hg BS Bg Hc G1. have E2 := OG _ _ c' HS' Hg BS' Bg Hc' G2.
    subst. rewrite B in B'. by case: B'.
Qed.

Lemma merge_keeps cs out c : NoDup cs -> merge cs = Ok out -> In c cs ->
  exists d, In d out /\ m_type d = m_type c /\ incl (m_from c) (m_from d) /\ incl (m_to c) (m_to d).
Proof.
  move=> N /apply_groups_inv [news [F [A P]]] Hc.
  have IO := In_out cs out news N F P.
  case: (in_dec mdec c (List.concat (filter big (groups (add_connections cs))))) => H.
  - move: H => /in_concat [g [Hg Cg]]. have [n [Hn B]] := Forall2_In_l' _ _ _ _ _ _ F Hg.
    have [_ [[Ty [To From]] _]] := build_inv _ _ B. exists n. split; first by apply/IO; right.
    split; first by rewrite (Ty c Cg). split=> e He; [apply/From|apply/To]; by exists c.
  - exists c. split; last by split=> //; split.
    apply/IO. left. split=> // g Hg Bg Cg. apply: H. apply/in_concat.
    exists g. split=> //. by apply/filter_In.
Qed.

Lemma linked_other cs a b : linked cs a b -> a <> b -> exists d, In d cs /\ d <> a /\ share a d.
Proof.
  elim=> [x|x y z [Hx [Hy S']] _ IH] ne //.
  case: (eqb_spec y x) => [E|ne']; last by exists y.
  subst y. exact: IH.
Qed.
Lemma merge_untouched cs out c : NoDup cs -> merge cs = Ok out -> In c cs ->
  (forall d, In d cs -> d <> c -> ~ share c d) -> In c out.
Proof.
  move=> N /apply_groups_inv [news [F [A P]]] Hc Alone. apply/(In_out cs out news N F P).
  left. split=> // g Hg Bg Cg. have [Ng [_ [L S']]] := groups_props _ _ Hg.
  have [b [Hb ne]] : exists b, In b g /\ c <> b.
  { case: (g) Bg Cg Ng => [|x [|y g']] // _ Hx Nx.
    case: (eqb_spec c x) => [->|ne].
    - exists y. split; first by right; left. inversion Nx; subst. move=> E. subst. apply: H1. by left.
    - exists x. split=> //. by left. }
  have [d [Hd [ned Sd]]] := linked_other _ _ _ (L _ _ Cg Hb) ne. exact: (Alone d).
Qed.

Lemma merge_types cs c d : In c cs -> In d cs -> share c d -> m_type c <> m_type d ->
  exists e, merge cs = Err e.
Proof.
  move=> Hc Hd /share_ends [k [Kc Kd]] ne.
  case E: (merge cs) => [out|e]; last by exists e.
  move: E => /apply_groups_inv [news [F [A P]]].
  have [g [Hg [G1 G2]]] := groups_together cs c d k Hc Hd Kc Kd.
  have ncd : c <> d by move=> X; subst.
  have Bg := big_two g _ _ G1 G2 ncd. have [o B] := A _ Hg. have := build_inv _ _ B.
  case: o B => [n|] B; last by rewrite Bg.
  move=> [_ [[Ty _] _]]. by rewrite (Ty _ G1) (Ty _ G2) in ne.
Qed.

(** ** Acceptance when at most one end of each connection is shared *)
Lemma apply_groups_ok gs : forall l,
  (forall g, In g gs -> exists o, build g = Ok o) ->
  NoDup (List.concat (filter big gs)) -> incl (List.concat (filter big gs)) l ->
  exists out, foldM apply_group gs l = Ok out.
Proof.
  elim: gs => [|g gs IH] l B N I; first by exists l.
  cbn [foldM]. have [o Bo] := B g (or_introl eq_refl). rewrite /apply_group Bo. cbn [bind].
  have B' : forall h, In h gs -> exists o, build h = Ok o by move=> h H; apply: B; right.
  have := build_inv _ _ Bo. case: o Bo => [n|] Bo.
  - move=> [Bg _]. simpl in N, I. rewrite Bg in N, I. simpl in N, I.
    have Ng : NoDup g.
    { clear -N. elim: g N => [|x g IH] /= N; first by constructor. inversion N; subst.
      constructor; last by apply: IH. by move=> H; apply: H1; apply/in_app_iff; left. }
    have Nr : NoDup (List.concat (filter big gs)).
    { clear -N. elim: g N => [|x g IH] //= N. inversion N; subst. exact: IH. }
    have D : forall x, In x (List.concat (filter big gs)) -> ~ In x g.
    { clear -N. elim: g N => [|y g IH] /= N x Hx; first by [].
      inversion N; subst. case=> [E|]; last by apply: IH.
      subst. apply: H1. apply/in_app_iff. by right. }
    have [l1 E] := removes_ok g l Ng (fun x Hx => I x (proj2 (in_app_iff _ _ _) (or_introl Hx))).
    rewrite E. cbn [bind]. apply: IH => // x Hx. apply/in_app_iff. left.
    have : In x (g ++ l1).
    { apply (Permutation_in x (removes_perm _ _ _ E)). apply: I. apply/in_app_iff. by right. }
    by move=> /in_app_iff [/(D _ Hx)//|].
  - move=> Bg. cbn [bind]. simpl in N, I. rewrite Bg in N, I. exact: IH.
Qed.

(** Sets with two or more members met so far never overlap each other. *)
Definition seteq (s t : list mconn) := forall x, In x s <-> In x t.
Lemma NoDup_concat (G : list (list mconn)) :
  (forall g, In g G -> NoDup g) -> ForallOrdPairs (fun g h => forall x, In x g -> ~ In x h) G ->
  NoDup (List.concat G).
Proof.
  elim: G => [|g G IH] H O /=; first by constructor. inversion O; subst.
  have D : forall x, In x g -> ~ In x (List.concat G).
  { move=> x Hx /in_concat [h [Hh Hx']]. move: H2 => /Forall_forall H2. exact: (H2 h Hh x). }
  have Ng := H g (or_introl eq_refl).
  have Nr : NoDup (List.concat G) by apply: IH => // h Hh; apply: H; right.
  elim: g Ng D {H H2 O} => [|x g IHg] //= Ng D. inversion Ng; subst. constructor.
  - move=> /in_app_iff [//|]. by apply: D; left.
  - apply: IHg => // y Hy. by apply: D; right.
Qed.

Definition sing_or_key (K : list endkey) (st : endkey -> list mconn) (g : list mconn) : Prop :=
  (exists c, g = [c]) \/ exists k, In k K /\ seteq g (st k).

Section Accept.
Variable st : endkey -> list mconn.
Hypothesis st_nd : forall k, NoDup (st k).
(** Two different sets with two or more members are disjoint. *)
Hypothesis disj : forall k l x, k <> l -> big (st k) = true -> big (st l) = true ->
  In x (st k) -> ~ In x (st l).

Lemma big_seteq g h : NoDup g -> NoDup h -> seteq g h -> big g = true -> big h = true.
Proof.
  move=> Ng Nh E. have L : List.length g = List.length h.
  { apply: Nat.le_antisymm; apply: NoDup_incl_length => // x; by apply E. }
  by case: g h L {E Ng Nh} => [|? [|? ?]] [|? [|? ?]].
Qed.
Lemma big_sing g c : big g = true -> g = [c] -> False.
Proof. by move=> B E; rewrite E in B. Qed.

Definition gok (K : list endkey) (gs : list (list mconn)) : Prop :=
  (forall g, In g gs -> NoDup g /\ sing_or_key K st g) /\
  ForallOrdPairs (fun g h => forall x, In x g -> ~ In x h) (filter big gs).

Lemma sing_or_key_mono K k g : sing_or_key K st g -> sing_or_key (k :: K) st g.
Proof. case=> [H|[l [H1 H2]]]; [by left|right; exists l; split=> //; by right]. Qed.

Lemma not_big_nonempty (g : list mconn) : big g = false -> exists c, g = [c].
Proof. by case: g => [|c [|? ?]] // _; exists c. Qed.

(** A big set already present and a new big set are disjoint. *)
Lemma old_new K k g x : ~ In k K -> NoDup g -> sing_or_key K st g -> big g = true -> big (st k) = true ->
  In x g -> ~ In x (st k).
Proof.
  move=> nK Ng [[c E]|[l [Hl E]]] Bg Bk Hx.
  - by case: (big_sing g c).
  - have Bl := big_seteq g (st l) Ng (st_nd l) E Bg. apply: (disj l k) => //; last by apply/E.
    move=> X. by subst.
Qed.

Lemma merge_in_gok K k gs : ~ In k K -> st k <> [] -> gok K gs -> gok (k :: K) (merge_in (st k) gs).
Proof.
  move=> nK ne. elim: gs => [|g gs IH] [W O].
  - split=> /=.
    + move=> g [<-|//]. split=> //. right. exists k. split; [by left|done].
    + case: (big (st k)); repeat constructor.
  - have [Ng Sg] := W g (or_introl eq_refl).
    have W' : forall h, In h gs -> NoDup h /\ sing_or_key K st h by move=> h H; apply: W; right.
    have Wm : forall h, In h gs -> NoDup h /\ sing_or_key (k :: K) st h.
    { move=> h /W' [? H]. split=> //. exact: sing_or_key_mono. }
    simpl. case M: (smeets (st k) g).
    + move: (M) => /smeets_true [x [X1 X2]].
      case Bk: (big (st k)).
      * (* the old one must be a singleton *)
        have [c Ec] : exists c, g = [c].
        { case Bg: (big g); last by apply: not_big_nonempty.
          by case: (old_new K k g x nK Ng Sg Bg Bk X2). }
        subst g. have Ecx : c = x by case: X2. subst c.
        have E : seteq (sunion [x] (st k)) (st k).
        { move=> y. rewrite In_sunion /=. split=> [[[<-//|//]|//]|]. by right. }
        split.
        -- move=> h [<-|/Wm//]. split; first by apply: NoDup_sunion.
           right. exists k. split; [by left|done].
        -- simpl in O |- *. case: (big (sunion [x] (st k))) => //. constructor=> //.
           apply/Forall_forall => h /filter_In [Hh Bh] y /E Hy Hy'.
           have [Nh Sh] := W' h Hh. exact: (old_new K k h y nK Nh Sh Bh Bk Hy' Hy).
      * (* adding one element already present *)
        have [c Ec] := not_big_nonempty _ Bk. rewrite Ec in X1 *. case: X1 => [Ex|//]. subst c.
        have -> : sunion g [x] = g.
        { rewrite /sunion /= /sadd. have -> : memb x g = true by apply/memb_In. done. }
        split=> // h [<-|/Wm//]. split=> //. exact: sing_or_key_mono.
    + have O' : ForallOrdPairs (fun g h => forall x, In x g -> ~ In x h) (filter big gs).
      { move: O => /=. case: (big g) => // O. by inversion O. }
      have [W2 O2] := IH (conj W' O'). split.
      * move=> h [<-|/W2//]. split=> //. exact: sing_or_key_mono.
      * simpl. case Bg: (big g) => //. constructor=> //.
        apply/Forall_forall => h /filter_In [Hh Bh] y Hy Hy'.
        have nM : ~ In y (st k).
        { move=> Hk. have : smeets (st k) g = true by apply/smeets_true; exists y. by rewrite M. }
        have Old : forall j, In j gs -> big j = true -> ~ In y j.
        { move=> j Hj Bj. move: O => /=. rewrite Bg => O. inversion O; subst.
          move: H1 => /Forall_forall H1. apply: (H1 j) => //. by apply/filter_In. }
        case: (In_merge_in _ _ _ Hh) => [E|[Hj|[j [Hj [Mj E]]]]].
        -- by rewrite E in Hy'.
        -- exact: (Old h).
        -- move: Hy'. rewrite E => /In_sunion [Hy'|//].
           case Bj: (big j); first by apply: (Old j).
           have [c Ec] := not_big_nonempty _ Bj. subst j.
           move: Mj => /smeets_true [z [Z1 Z2]]. apply: nM.
           case: Hy' => [<-|//]. case: Z2 => [->|//]. done.
Qed.
End Accept.

Lemma dget_st cs k s : dget (add_connections cs) k = Some s ->
  NoDup s /\ s <> [] /\ forall c, In c s <-> In c cs /\ In k (ends_of c).
Proof. have [_ [A _]] := add_connections_ok cs. exact: A. Qed.

Lemma In_ends_of c k : In k (ends_of c) <-> has_end c k.
Proof.
  case: k => b e. rewrite /ends_of /has_end in_app_iff !in_map_iff /=. split.
  - by case=> [[e' [[<- <-] H]]|[e' [[<- <-] H]]].
  - case: b => H; [left|right]; by exists e.
Qed.
Definition stof (cs : list mconn) (k : endkey) : list mconn :=
  match dget (add_connections cs) k with Some s => s | None => [] end.
Lemma merge_accepts cs : NoDup cs -> one_shared_end cs ->
  (forall c d, In c cs -> In d cs -> share c d -> m_type c = m_type d) ->
  exists out, merge cs = Ok out.
Proof.
  move=> N One Ty.
  set st := stof cs.
  have Nst : forall k, NoDup (st k).
  { move=> k. rewrite /st /stof. case E: (dget _ k) => [s|]; last by constructor. by have [] := dget_st _ _ _ E. }
  have Ist : forall k c, In c (st k) -> In c cs /\ In k (ends_of c).
  { move=> k c. rewrite /st /stof. case E: (dget _ k) => [s|] //. have [_ [_ X]] := dget_st _ _ _ E. by rewrite X. }
  have other : forall s x, NoDup s -> big s = true -> In x s -> exists y, In y s /\ y <> x.
  { move=> s x Ns. case: s Ns => [|a [|b s]] // Ns _ Hx. case: (eqb_spec a x) => [E|ne].
    - exists b. split; first by right; left. inversion Ns; subst. move=> E. subst. apply: H1. by left.
    - exists a. split=> //. by left. }
  have Dj : forall k l x, k <> l -> big (st k) = true -> big (st l) = true -> In x (st k) -> ~ In x (st l).
  { move=> k l x ne Bk Bl Hk Hl.
    have [y [Hy ney]] := other _ x (Nst k) Bk Hk. have [z [Hz nez]] := other _ x (Nst l) Bl Hl.
    have [? ?] := Ist _ _ Hk. have [? ?] := Ist _ _ Hl. have [? ?] := Ist _ _ Hy. have [? ?] := Ist _ _ Hz.
    apply: ne. by apply: (One x k l y z) => //; apply/In_ends_of. }
  have Gk : gok st (rev (dkeys (add_connections cs))) (groups (add_connections cs)).
  { rewrite /groups. have [Nk [A _]] := add_connections_ok cs.
    have Q : forall k s, In (k, s) (add_connections cs) -> st k = s /\ s <> [].
    { move=> k s H. have E : dget (add_connections cs) k = Some s by apply: In_dget. rewrite /st /stof E. split=> //. by have [_ []] := A _ _ E. }
    have : forall L K gs, (forall k s, In (k, s) L -> st k = s /\ s <> []) -> NoDup (map fst L) ->
       (forall k, In k K -> ~ In k (map fst L)) -> gok st K gs ->
       gok st (rev (map fst L) ++ K) (fold_left (fun multi kv => merge_in (snd kv) multi) L gs).
    { elim=> [|[k s] L IH] K gs HQ HN HK HG //=.
      inversion HN; subst. have [Es ne] := HQ k s (or_introl eq_refl).
      rewrite -app_assoc. apply: IH => //.
      - move=> l t H. by apply: HQ; right.
      - move=> l [<-//|/HK H] H'. apply: H. by right.
      - rewrite -Es in ne *. apply: merge_in_gok => //. move=> H. apply: (HK k H). by left. }
    move=> /(_ (add_connections cs) [] [] Q Nk). rewrite app_nil_r. apply=> //.
    split=> //. by constructor. }
  have [W O] := Gk. apply: apply_groups_ok.
  - move=> g Hg. have [_ [ne [L S']]] := groups_props _ _ Hg. apply: build_ok => // a b Ha Hb.
    have Hl := L a b Ha Hb. elim: Hl => // x y z [Hx [Hy Sxy]] _ <-. exact: Ty.
  - apply: NoDup_concat => // g /filter_In [Hg _]. by have [] := W g Hg.
  - move=> x /in_concat [g [/filter_In [Hg _] Hx]].
    have [_ [_ [_ S']]] := groups_props _ _ Hg. by have [] := S' x Hx.
Qed.
