(** All connections of the parsed system and their names. *)
From Coq Require Import ssreflect ssrbool List String Ascii Bool Arith NArith Lia Permutation.
From Verif Require Import Prelude DecStr Flatten_Model Flatten_Spec Flatten_Proofs Flatten_Proofs2.
From Verif Require Merge_Model Merge_Spec Merge_Proofs Merge_Proofs2 Merge_Proofs3.
From Verif Require Import Whole_Model Whole_Spec Whole_Proofs Whole_Proofs2 Whole_Proofs3 Whole_Proofs4 Whole_Proofs7.
Import ListNotations.
Open Scope string_scope.
Open Scope list_scope.

Lemma Forall2_concat A B (R : A -> B -> Prop) l m : Forall2 (Forall2 R) l m -> Forall2 R (List.concat l) (List.concat m).
Proof. elim=> [|x y l0 m0 H _ IH] /=; [constructor|exact: Forall2_app]. Qed.
Lemma Forall2_NoDup A B (R : A -> B -> Prop) l m : (forall a b b', R a b -> R a b' -> b = b') ->
  Forall2 R l m -> NoDup m -> NoDup l.
Proof.
  move=> H. elim=> [|x y l0 m0 X FA IH] N; first by constructor.
  inversion N as [|? ? NI N']; subst. constructor; last exact: IH. move=> I. apply: NI.
  case: (Forall2_In_l _ _ _ _ _ _ FA I) => y' [J X']. by rewrite (H _ _ _ X X').
Qed.
Lemma Forall2_compose A B C (R : A -> B -> Prop) (Q : B -> C -> Prop) (P : A -> C -> Prop) l m :
  (forall a b c, R a b -> Q b c -> P a c) -> Forall2 R l m -> forall k, Forall2 Q m k -> Forall2 P l k.
Proof.
  move=> H. elim=> [|x y l0 m0 X _ IH] k FA; inversion FA; subst; constructor; [exact: H X _|exact: IH].
Qed.

Section Parts.
Variables (S : list item) (la lc : list (list string)) (S' : list item) (a : block) (rest : list block)
  (ts : list comp) (root : comp) (fl : flat).
Hypothesis G : stages S la lc S' a rest ts root.
Hypothesis W : scoped S.
Hypothesis RE : resolved S.
Hypothesis F : transform root = Ok fl.
Notation cs := (map to_mconn (f_conns fl)).
Notation pre := (pre root fl).
Lemma pre_fun w c c' : pre w c -> pre w c' -> c = c'.
Proof.
  move=> P P'. have PI := pre_In _ _ _ _ _ _ _ _ fl G W.
  apply: (NoDup_map_In _ _ _ _ _ _ (mnames_NoDup _ _ _ _ _ _ _ _ _ G W RE F)); [by case: (PI _ _ P)|by case: (PI _ _ P')|].
  by rewrite (pre_name _ _ _ _ _ _ _ _ _ G W RE F _ _ P) (pre_name _ _ _ _ _ _ _ _ _ G W RE F _ _ P').
Qed.
Lemma merged_self c : Merge_Spec.merged_from [c] c.
Proof.
  split; [by move=> x [<-|[]]|]. split=> e; split; try (by move=> H; exists c; split=> //; left);
    by move=> [x [[<-|[]] ?]].
Qed.
Lemma part_from P d ws : Merge_Spec.makes P d -> (forall x y, In x P -> In y P -> Merge_Spec.linked cs x y) ->
  Forall2 pre ws P -> comes_from S ws d.
Proof.
  move=> MK LK FW.
  have IM := pre_image _ _ _ _ _ _ _ _ _ G W RE F.
  have EN: map Merge_Model.m_name P = map full_name ws.
  { elim: FW => [|w c ws' P' PW _ IH] //=. by rewrite IH (pre_name _ _ _ _ _ _ _ _ _ G W RE F _ _ PW). }
  have [NE [[T [TO FR]] NM]] : P <> [] /\ Merge_Spec.merged_from P d /\
    exists l, Permutation l (map Merge_Model.m_name P) /\ Merge_Spec.sorted l /\ Merge_Model.m_name d = String.concat "." l.
  { case: MK => [->|[L [MF NM]]].
    - split=> //. split; first exact: merged_self. by exists [Merge_Model.m_name d].
    - split=> //. move=> E. rewrite E /= in L. lia. }
  split.
  - move=> E. subst ws. inversion FW. by subst.
  - move=> w I. case: (Forall2_In_l _ _ _ _ _ _ FW I) => c [J PW]. case: (IM _ _ PW) => <- _. exact: T.
  - move=> e. rewrite FR. split.
    + move=> [c [J E]]. case: (Forall2_In_r _ _ _ _ _ _ FW J) => w [I PW].
      case: (IM _ _ PW) => _ [FI _]. move/FI: E => [q [i [H ->]]]. by exists w, q, i.
    + move=> [w [q [i [I [H ->]]]]]. case: (Forall2_In_l _ _ _ _ _ _ FW I) => c [J PW]. exists c. split=> //.
      case: (IM _ _ PW) => _ [FI _]. apply/FI. by exists q, i.
  - move=> e. rewrite TO. split.
    + move=> [c [J E]]. case: (Forall2_In_r _ _ _ _ _ _ FW J) => w [I PW].
      case: (IM _ _ PW) => _ [_ TI]. move/TI: E => [q [i [H ->]]]. by exists w, q, i.
    + move=> [w [q [i [I [H ->]]]]]. case: (Forall2_In_l _ _ _ _ _ _ FW I) => c [J PW]. exists c. split=> //.
      case: (IM _ _ PW) => _ [_ TI]. apply/TI. by exists q, i.
  - move=> w w' I I'. case: (Forall2_In_l _ _ _ _ _ _ FW I) => c [J PW].
    case: (Forall2_In_l _ _ _ _ _ _ FW I') => c' [J' PW'].
    exact: (linked_chained _ _ _ _ _ _ _ _ _ G W RE F _ _ (LK _ _ J J') _ _ PW PW').
  - by rewrite -EN.
Qed.
Variable out : list Merge_Model.mconn.
Hypothesis M : Merge_Model.merge cs = Ok out.
Lemma conn_parts : exists parts, (forall w, written S w <-> In w (List.concat parts)) /\ NoDup (List.concat parts) /\
  Forall2 (comes_from S) parts out.
Proof.
  have NC := mconns_NoDup _ _ _ _ _ _ _ _ _ G W RE F.
  case: (Merge_Proofs3.merge_partition _ _ NC M) => parts [PM FA].
  have OP := of_pre _ _ _ _ _ _ _ _ _ G W RE F. have PI := pre_In _ _ _ _ _ _ _ _ fl G W.
  have [wss FW] : exists wss, Forall2 (Forall2 pre) wss parts.
  { have: forall c, In c (List.concat parts) -> In c cs by move=> c; exact: Permutation_in PM.
    elim: (parts) => [|P ps IH] H; first by exists []; constructor.
    case: IH => [c C|wss FW]; first by apply: H; rewrite /= in_app_iff; right.
    have [ws X] : exists ws, Forall2 pre ws P.
    { have: forall c, In c P -> In c cs by move=> c C; apply: H; rewrite /= in_app_iff; left.
      elim: (P) => [|c P' IH'] H'; first by exists []; constructor.
      case: IH' => [x X|ws X]; first by apply: H'; right. case: (OP c (H' c (or_introl eq_refl))) => w PW.
      exists (w :: ws). by constructor. }
    exists (ws :: wss). by constructor. }
  have FC := Forall2_concat _ _ _ _ _ FW.
  exists wss. split; [|split].
  - move=> w. split.
    + move=> WW. case: (pre_of _ _ _ _ _ _ _ _ _ G W RE F _ WW) => c PW.
      have I: In c (List.concat parts) by apply: (Permutation_in _ (Permutation_sym PM)); case: (PI _ _ PW).
      case: (Forall2_In_r _ _ _ _ _ _ FC I) => w' [J PW'].
      by rewrite (pre_unique _ _ _ _ _ _ _ _ _ G W RE F _ _ _ PW PW').
    + move=> I. case: (Forall2_In_l _ _ _ _ _ _ FC I) => c [_ PW]. by case: (PI _ _ PW).
  - apply: Forall2_NoDup pre_fun FC _. apply: Permutation_NoDup NC. exact: Permutation_sym.
  - apply: Forall2_compose FW _ FA => ws P d FP [MK LK]. exact: part_from MK LK FP.
Qed.
End Parts.

Lemma whole_parts S r : scoped S -> resolved S -> whole S = Ok r ->
  exists parts, (forall w, written S w <-> In w (List.concat parts)) /\ NoDup (List.concat parts) /\
    Forall2 (comes_from S) parts (r_conns r).
Proof.
  move=> W RE /whole_stages [la [lc [S' [a [rest [ts [root [fl [ss [cs [vs [G [F [R [M [C [FR [_ ->]]]]]]]]]]]]]]]]]].
  exact: (conn_parts _ _ _ _ _ _ _ _ _ G W RE F _ M).
Qed.
Lemma whole_distinct S r : whole S = Ok r -> NoDup (map fst (r_insts r) ++ map Merge_Model.m_name (r_conns r)).
Proof.
  rewrite /whole. case C: (collapse 0 S) => [S' n].
  move=> /bind_Ok [a' [A /bind_Ok [ts [T /bind_Ok [root [R /bind_Ok [fl [F H]]]]]]]].
  move: H => /bind_Ok [ss [SS /bind_Ok [cs [CS]]]].
  case D: (distinct _) => //= /bind_Ok [vs [VS /bind_Ok [m [M [<-]]]]] /=. rewrite map_map /=. exact: NoDup_distinct.
Qed.
