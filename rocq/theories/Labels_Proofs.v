From Coq Require Import List String Bool Arith Lia Permutation Relation_Definitions Relation_Operators.
From Coq Require Import ssreflect ssrbool.
From Verif Require Import Prelude Labels_Model Labels_Spec.
Import ListNotations.

Notation reach g := (clos_refl_trans_1n _ (fun x y : string => dget (V:=string) g x = Some y)).
Notation plus g := (clos_trans_1n _ (fun x y : string => dget (V:=string) g x = Some y)).

Lemma reach_trans {A} (R : relation A) x y z :
  clos_refl_trans_1n _ R x y -> clos_refl_trans_1n _ R y z -> clos_refl_trans_1n _ R x z.
Proof. elim=> // a b c S _ IH H. exact: (rt1n_trans _ _ _ _ _ S (IH H)). Qed.
Lemma plus_reach {A} (R : relation A) x y z : R x y -> clos_refl_trans_1n _ R y z -> clos_trans_1n _ R x z.
Proof.
  move=> S H. elim: H x S => [a|a b c S' _ IH] x S; first exact: t1n_step.
  exact: (t1n_trans _ _ _ _ _ S (IH _ S')).
Qed.
Lemma plus_inv {A} (R : relation A) x z : clos_trans_1n _ R x z -> exists y, R x y /\ clos_refl_trans_1n _ R y z.
Proof.
  elim=> {x z} [x y S|x y z S _ [w [S' H]]].
  - exists y. split=> //. constructor.
  - exists y. split=> //. exact: (rt1n_trans _ _ _ _ _ S' H).
Qed.
Lemma reach_plus {A} (R : relation A) x y z : clos_refl_trans_1n _ R x y -> clos_trans_1n _ R y z -> clos_trans_1n _ R x z.
Proof. elim=> // a b c S _ IH H. exact: (t1n_trans _ _ _ _ _ S (IH H)). Qed.
Lemma plus_reach_r {A} (R : relation A) x y z : clos_trans_1n _ R x y -> clos_refl_trans_1n _ R y z -> clos_trans_1n _ R x z.
Proof.
  move=> P H'. have [w [S H]] := plus_inv _ _ _ P. apply: (plus_reach _ _ _ _ S). exact: (reach_trans _ _ _ _ H H').
Qed.
Lemma plus_to_reach {A} (R : relation A) x y : clos_trans_1n _ R x y -> clos_refl_trans_1n _ R x y.
Proof. move=> P. have [w [S H]] := plus_inv _ _ _ P. exact: (rt1n_trans _ _ _ _ _ S H). Qed.

Lemma term_reach g y z : dget g y = None -> reach g y z -> z = y.
Proof. move=> N H. inversion H as [|? ? S]; subst; auto. by rewrite N in S. Qed.
Lemma reach_det g x y z : reach g x y -> dget g y = None -> reach g x z -> reach g z y.
Proof.
  elim=> {x y} [x|x y w S R IH] N H.
  - rewrite (term_reach _ _ _ N H). constructor.
  - inversion H as [|? ? S']; subst; first exact: (rt1n_trans _ _ _ _ _ S R).
    rewrite S in S'. case: S' => ?; subst. exact: IH.
Qed.
Lemma term_unique g x y z : reach g x y -> dget g y = None -> reach g x z -> dget g z = None -> y = z.
Proof. move=> H N H' N'. have R := reach_det _ _ _ _ H N H'. exact: (term_reach _ _ _ N' R). Qed.
Lemma no_cycle g x y : reach g x y -> dget g y = None -> plus g x x -> False.
Proof.
  elim=> {x y} [x|x y w S R IH] N PI; have [v [S' H]] := plus_inv _ _ _ PI; clear PI.
  - by rewrite N in S'.
  - rewrite S in S'. case: S' => ?; subst v. apply: IH => //.
    have P : plus g x y by apply: t1n_step.
    have [u [Su Hu]] := plus_inv _ _ _ (reach_plus _ _ _ _ H P). exact: (plus_reach _ _ _ _ Su Hu).
Qed.

Lemma NoDup_snoc {A} (l : list A) x : NoDup l -> ~ In x l -> NoDup (l ++ [x]).
Proof.
  elim: l => [|y l IH] N H /=; first by constructor=> //; constructor.
  inversion N; subst. constructor.
  - rewrite in_app_iff => -[//|[E|//]]. apply: H. by left.
  - apply: IH => // I. apply: H. by right.
Qed.
Lemma canon_loop_spec fuel g group pre :
  NoDup (pre ++ [group]) -> (forall x, In x pre -> dget g x <> None) ->
  (forall x, In x pre -> reach g x group) -> (List.length g <= fuel + List.length pre)%nat ->
  match canon_loop fuel g group (pre ++ [group]) with
  | Ok y => reach g group y /\ dget g y = None
  | Err e => e = TemplateError /\ exists x, plus g x x /\ reach g group x
  end.
Proof.
  elim: fuel group pre => [|fuel IH] group pre ND K R F; cbn [canon_loop];
    case G: (dget g group) => [nxt|]; try (by split=> //; constructor);
    case M: (memb nxt _).
  all: try (split=> //; exists nxt; split; last by (apply: (rt1n_trans _ _ _ _ _ G); constructor)).
  all: try (move: M => /memb_In; rewrite in_app_iff => -[I|[E|//]];
       [ apply: (reach_plus _ _ _ _ (R _ I)); exact: t1n_step
       | rewrite -{1}E; exact: t1n_step ]).
  all: move: M => /memb_nIn M.
  - exfalso. have I : incl (pre ++ [group]) (dkeys g).
    { move=> x /in_app_iff [/K|[<-|//]]; first by move=> ?; apply/dget_keys. apply/dget_keys. by rewrite G. }
    have := NoDup_incl_length ND I. rewrite app_length /dkeys map_length /=. lia.
  - have := IH nxt (pre ++ [group]). move=> H.
    have {H} := H _ _ _ _.
    have H1 : NoDup ((pre ++ [group]) ++ [nxt]) by apply: NoDup_snoc.
    have H2 : forall x, In x (pre ++ [group]) -> dget g x <> None.
    { move=> x /in_app_iff [/K //|[<-|//]]. by rewrite G. }
    have H3 : forall x, In x (pre ++ [group]) -> reach g x nxt.
    { have S : reach g group nxt by apply: (rt1n_trans _ _ _ _ _ G); constructor.
      move=> x /in_app_iff [/R X|[<-|//]] //. exact: (reach_trans _ _ _ _ X S). }
    have H4 : (List.length g <= fuel + List.length (pre ++ [group]))%nat.
    { rewrite app_length /=. lia. }
    move=> /(_ H1 H2 H3 H4). case: canon_loop => [y|e] [X Y].
    + split=> //. exact: (rt1n_trans _ _ _ _ _ G X).
    + split=> //. case: Y => x [P Q]. exists x. split=> //. exact: (rt1n_trans _ _ _ _ _ G Q).
Qed.
Lemma canon_spec g l :
  match canon g l with
  | Ok y => reach g l y /\ dget g y = None
  | Err e => e = TemplateError /\ exists x, plus g x x /\ reach g l x
  end.
Proof.
  apply: (canon_loop_spec _ g l []) => //.
  - constructor=> //. constructor.
  - rewrite /=. lia.
Qed.
Lemma canon_Ok g l y : canon g l = Ok y <-> reach g l y /\ dget g y = None.
Proof.
  have := canon_spec g l. case: canon => [z|e] [H N]; split.
  - by move=> [<-].
  - move=> [H' N']. f_equal. exact: (term_unique _ _ _ _ H N H' N').
  - by [].
  - move=> [H' N']. case: N => x [P R].
    by case: (no_cycle g x y (reach_det _ _ _ _ H' N' R) N' P).
Qed.
Lemma canon_Err g l e : canon g l = Err e -> e = TemplateError /\ exists x, plus g x x.
Proof. have := canon_spec g l. case: canon => // e' [-> [x [P _]]] [<-]. split=> //. by exists x. Qed.

(** * Without assumptions *)
Lemma foldM_Err {A B} (f : A -> B -> res A) l a e :
  (forall a b e, f a b = Err e -> e = TemplateError) -> foldM f l a = Err e -> e = TemplateError.
Proof.
  move=> H. elim: l a => [|b l IH] a //=. case F: (f a b) => [a'|e'] /=; first exact: IH.
  move=> [<-]. exact: H F.
Qed.
Lemma mapM_Err' {A B} (f : A -> res B) l e : mapM f l = Err e -> exists a, In a l /\ f a = Err e.
Proof.
  elim: l => [|a l IH] //=. case F: (f a) => [b|e'] /=; last first.
  - move=> [<-]. exists a. split=> //. by left.
  - case M: (mapM f l) IH => [bs|e'] IH //= [E]. subst e'. have [x [I Fx]] := IH eq_refl.
    exists x. split=> //. by right.
Qed.
Lemma step_group_Err g c e : step_group g c = Err e -> e = TemplateError.
Proof. rewrite /step_group. case: String.eqb => //. case C: canon => [l|e'] //= [<-]. by case: (canon_Err _ _ _ C). Qed.
Lemma step_label_Err g c e : step_label g c = Err e -> e = TemplateError.
Proof. rewrite /step_label. case: li_label => // l. case C: canon => [l'|e'] //= [<-]. by case: (canon_Err _ _ _ C). Qed.
Lemma step_conn_Err g c e : step_conn g c = Err e -> e = TemplateError.
Proof.
  rewrite /step_conn. case M: mapM => [ls|e'] /=.
  - case: ls {M} => // l ls. by case: forallb.
  - move=> [<-]. have [a [_ C]] := mapM_Err' _ _ _ M. by case: (canon_Err _ _ _ C).
Qed.
Lemma labels_Err is' cs e : integrity_group_labels is' cs = Err e -> e = TemplateError.
Proof.
  rewrite /integrity_group_labels /raw_labels.
  case F1: foldM => [g1|e1] /=; last by move=> [<-]; apply: foldM_Err F1; apply: step_group_Err.
  case F2: foldM => [g2|e2] /=; last by move=> [<-]; apply: foldM_Err F2; apply: step_label_Err.
  case F3: foldM => [g3|e3] /=; last by move=> [<-]; apply: foldM_Err F3; apply: step_conn_Err.
  move=> /mapM_Err' [[k v] [_]] /=. case C: canon => [l|e'] //= [<-]. by case: (canon_Err _ _ _ C).
Qed.

Lemma final_shape' g0 (g m : dict string string) :
  mapM (fun kv => l <- canon g0 (snd kv) ;; Ok (fst kv, l)) g = Ok m ->
  dkeys m = dkeys g /\ forall k l, In (k, l) m -> dget g0 l = None.
Proof.
  move=> /mapM_Ok. elim=> [|[k v] [k' l] xs ys H _ [IH1 IH2]] //.
  move: H => /bind_Ok [y [/canon_Ok [R N] [? ?]]]; subst. split; first by rewrite /= IH1.
  move=> k'' l'' [[? ?]|]; [by subst|by apply: IH2].
Qed.
Lemma final_shape g (m : dict string string) :
  mapM (fun kv => l <- canon g (snd kv) ;; Ok (fst kv, l)) g = Ok m ->
  dkeys m = dkeys g /\ forall k l, In (k, l) m -> dget g l = None.
Proof. exact: final_shape'. Qed.
Lemma labels_canonical is' cs m k l : integrity_group_labels is' cs = Ok m ->
  In (k, l) m -> ~ In l (dkeys m).
Proof.
  rewrite /integrity_group_labels. case: raw_labels => //= g /final_shape [K H] I.
  rewrite K. apply/dget_None. exact: (H _ _ I).
Qed.

(** Labels are representatives of the raw map. *)
Lemma foldM_NoDup {B} (f : dict string string -> B -> res (dict string string)) l a b :
  (forall g x g', f g x = Ok g' -> NoDup (dkeys g) -> NoDup (dkeys g')) ->
  foldM f l a = Ok b -> NoDup (dkeys a) -> NoDup (dkeys b).
Proof.
  move=> H. elim: l a => [|x l IH] a /=; first by move=> [<-].
  move=> /bind_Ok [a' [F G]] N. apply: (IH a') => //. exact: H F N.
Qed.
Lemma raw_NoDup is' cs g : raw_labels is' cs = Ok g -> NoDup (dkeys g).
Proof.
  rewrite /raw_labels => /bind_Ok [g1 [F1 /bind_Ok [g2 [F2 F3]]]].
  apply: (foldM_NoDup _ _ _ _ _ F3).
  { move=> a c a'. rewrite /step_conn => /bind_Ok [[|l ls] [_]]; first by move=> [<-].
    case: forallb => -[<-] //. exact: NoDup_dset. }
  apply: (foldM_NoDup _ _ _ _ _ F2).
  { move=> a c a'. rewrite /step_label. case: li_label => [l|]; last by move=> [<-].
    move=> /bind_Ok [l' [_ [<-]]]. exact: NoDup_dset. }
  apply: (foldM_NoDup _ _ _ _ _ F1); last by constructor.
  move=> a c a'. rewrite /step_group. case: String.eqb; first by move=> [<-].
  move=> /bind_Ok [l' [_ [<-]]]. exact: NoDup_dset.
Qed.
Lemma final_dget' g0 (g m : dict string string) x :
  mapM (fun kv => l <- canon g0 (snd kv) ;; Ok (fst kv, l)) g = Ok m ->
  match dget g x with
  | None => dget m x = None
  | Some v => exists l, dget m x = Some l /\ canon g0 v = Ok l
  end.
Proof.
  move=> /mapM_Ok. elim=> [|[k v] [k' l] xs ys H _ IH] //.
  move: H => /bind_Ok [y [C [? ?]]]; subst. cbn [dget].
  case: eqb_spec => // _. by exists l.
Qed.
Lemma final_dget g (m : dict string string) x :
  mapM (fun kv => l <- canon g (snd kv) ;; Ok (fst kv, l)) g = Ok m ->
  match dget g x with
  | None => dget m x = None
  | Some v => exists l, dget m x = Some l /\ canon g v = Ok l
  end.
Proof. exact: final_dget'. Qed.
Lemma label_reach g m x :
  mapM (fun kv => l <- canon g (snd kv) ;; Ok (fst kv, l)) g = Ok m ->
  reach g x (label m x) /\ dget g (label m x) = None.
Proof.
  move=> H. have := final_dget g m x H. rewrite /label.
  case G: (dget g x) => [v|].
  - move=> [l [-> /canon_Ok [R N]]]. split=> //. exact: (rt1n_trans _ _ _ _ _ G R).
  - move=> ->. split=> //. constructor.
Qed.

(** * With separated names *)
(** Growing maps: [g'] agrees with [g] on the keys of [g]. *)
Definition grows (g g' : dict string string) : Prop :=
  forall x v, dget g x = Some v -> dget g' x = Some v.
Lemma grows_reach g g' x y : grows g g' -> reach g x y -> reach g' x y.
Proof. move=> G. elim=> [a|a b c S _ IH]; [constructor|]. exact: (rt1n_trans _ _ _ _ _ (G _ _ S) IH). Qed.
Lemma grows_dset g k v : dget g k = None -> grows g (dset g k v).
Proof. move=> N x w G. rewrite dget_dset_ne //. move=> E. by subst; rewrite N in G. Qed.
Lemma grows_trans g1 g2 g3 : grows g1 g2 -> grows g2 g3 -> grows g1 g3.
Proof. move=> A B x v /A /B. by []. Qed.

(** What steps 1 and 2 establish; [Q x p]: [x]'s parent [p] has been processed. *)
Definition inv (par Q : string -> string -> Prop) (g : dict string string) : Prop :=
  (forall x v, dget g x = Some v -> exists p, Q x p /\ clos_refl_trans_1n _ par p v) /\
  (forall x p, Q x p -> par x p /\ exists v, dget g x = Some v /\ reach g p v).

Lemma inv_edge par Q g x v : inv par Q g -> dget g x = Some v -> clos_trans_1n _ par x v.
Proof.
  move=> [A B] /A [p [q R]]. have [P _] := B _ _ q. exact: (plus_reach _ _ _ _ P R).
Qed.
Lemma inv_path par Q g x y : inv par Q g -> reach g x y -> clos_refl_trans_1n _ par x y.
Proof.
  move=> I. elim=> [a|a b c S _ IH]; first by constructor.
  apply: (reach_trans _ _ _ _ _ IH). apply: plus_to_reach. exact: (inv_edge _ _ _ _ _ I S).
Qed.
Lemma inv_cycle par Q g x : inv par Q g -> plus g x x -> clos_trans_1n _ par x x.
Proof.
  move=> I PI. have [y [S R]] := plus_inv _ _ _ PI. apply: (plus_reach_r _ _ _ _ (inv_edge _ _ _ _ _ I S)).
  exact: (inv_path _ _ _ _ _ I R).
Qed.
Lemma inv_step par Q g x p l : inv par Q g -> par x p -> dget g x = None ->
  canon g p = Ok l -> inv par (fun a b => Q a b \/ (a = x /\ b = p)) (dset g x l).
Proof.
  move=> I P N /canon_Ok [R T]. have [A B] := I. have GR := grows_dset g x l N. split.
  - move=> a v. rewrite dget_dset. case: eqb_spec => [->|NE].
    + move=> [<-]. exists p. split; first by right. exact: (inv_path _ _ _ _ _ I R).
    + move=> /A [q [H1 H2]]. exists q. split=> //. by left.
  - move=> a b [/B [P' [v [H1 H2]]]|[-> ->]].
    + split=> //. exists v. split; first exact: GR. exact: (grows_reach _ _ _ _ GR H2).
    + split=> //. exists l. rewrite dget_dset_eq. split=> //. exact: (grows_reach _ _ _ _ GR R).
Qed.
Lemma inv_ext par Q Q' g : (forall x p, Q x p <-> Q' x p) -> inv par Q g -> inv par Q' g.
Proof.
  move=> E [A B]. split.
  - move=> x v /A [p [H R]]. exists p. split=> //. by apply/E.
  - move=> x p /E /B. by [].
Qed.

(** A step on instances, abstractly: [f] selects a parent of an instance. *)
Definition step_gen (f : linst -> option string) (g : dict string string) (c : linst) :=
  match f c with
  | None => Ok g
  | Some p => l <- canon g p ;; Ok (dset g (li_name c) l)
  end.
Definition Qf (f : linst -> option string) (l : list linst) (x p : string) : Prop :=
  exists i, In i l /\ li_name i = x /\ f i = Some p.
Lemma fold_gen f (par : string -> string -> Prop) l Q g0 : NoDup (map li_name l) ->
  (forall i p, In i l -> f i = Some p -> par (li_name i) p) ->
  (forall i p q, In i l -> f i = Some p -> ~ Q (li_name i) q) -> inv par Q g0 ->
  match foldM (step_gen f) l g0 with
  | Ok g => inv par (fun x p => Q x p \/ Qf f l x p) g
  | Err e => exists x, clos_trans_1n _ par x x
  end.
Proof.
  elim: l Q g0 => [|i l IH] Q g0 ND P D I /=.
  - apply: inv_ext I => x p. split; first by left. by move=> [//|[j [[]]]].
  - inversion ND as [|? ? N1 N2]; subst.
    have P' : forall j p, In j l -> f j = Some p -> par (li_name j) p by move=> j p Ij; apply: P; right.
    rewrite /step_gen. case F: (f i) => [p|] /=.
    + case C: canon => [l'|e] /=; last first.
      { have [_ [x Px]] := canon_Err _ _ _ C. exists x. exact: (inv_cycle _ _ _ _ I Px). }
      have FREE : dget g0 (li_name i) = None.
      { case G: (dget g0 (li_name i)) => [v|] //. case: I => A _. have [q [Hq _]] := A _ _ G.
        case: (D i p q _ F Hq). by left. }
      have I' := inv_step _ _ _ _ _ _ I (P i p (or_introl eq_refl) F) FREE C.
      have := IH _ _ N2 P' _ I'. rewrite /step_gen.
      case: foldM => [g|e] H.
      * apply: inv_ext (H _) => [x q|j q r Ij Fj].
        -- split.
           ++ move=> [[H0|[-> ->]]|[j [Ij [Nj Fj]]]]; first by left.
              ** right. exists i. split=> //. by left.
              ** right. exists j. split=> //. by right.
           ++ move=> [H0|[j [[Ij|Ij] [Nj Fj]]]]; first by left; left.
              ** subst j. left. right. rewrite F in Fj. by case: Fj.
              ** right. by exists j.
        -- move=> [H0|[E _]].
           ++ apply: (D j q r _ Fj H0). by right.
           ++ apply: N1. rewrite -E. exact: in_map.
      * apply: H => j q r Ij Fj [H0|[E _]].
        ++ apply: (D j q r _ Fj H0). by right.
        ++ apply: N1. rewrite -E. exact: in_map.
    + have := IH Q g0 N2 P' _ I. rewrite /step_gen.
      have D' : forall j p q, In j l -> f j = Some p -> ~ Q (li_name j) q.
      { move=> j p q Ij. apply: D. by right. }
      case: foldM => [g|e] H; last exact: H.
      apply: inv_ext (H D') => x q. split.
      * move=> [H0|[j [Ij [Nj Fj]]]]; first by left. right. exists j. split=> //. by right.
      * move=> [H0|[j [[Ij|Ij] [Nj Fj]]]]; first by left.
        ++ subst j. by rewrite F in Fj.
        ++ right. by exists j.
Qed.

Definition f_group (i : linst) : option string :=
  if String.eqb (li_space i) (li_name i) then None else Some (li_space i).
Lemma step_group_gen g i : step_group g i = step_gen f_group g i.
Proof. by rewrite /step_group /step_gen /f_group; case: String.eqb. Qed.
Lemma step_label_gen g i : step_label g i = step_gen li_label g i.
Proof. by []. Qed.
Lemma foldM_ext {A B} (f g : A -> B -> res A) l a : (forall a b, f a b = g a b) -> foldM f l a = foldM g l a.
Proof. move=> E. elim: l a => [|b l IH] a //=. rewrite E. by case: (g a b) => //=. Qed.

Lemma name_inj (l : list linst) i j : NoDup (map li_name l) -> In i l -> In j l -> li_name i = li_name j -> i = j.
Proof.
  elim: l => [|x l IH] //= N. inversion N as [|? ? N1 N2]; subst. move=> [?|Ii] [?|Ij] E; subst=> //.
  - case: N1. rewrite E. exact: in_map.
  - case: N1. rewrite -E. exact: in_map.
  - exact: IH.
Qed.

Lemma parent_split is' x p : (forall i, In i is' -> li_label i <> None -> li_space i = li_name i) ->
  NoDup (map li_name is') ->
  (Qf f_group is' x p \/ Qf li_label is' x p) <-> parent is' x p.
Proof.
  move=> NB ND. split.
  - move=> [[i [I [E F]]]|[i [I [E F]]]]; exists i; split=> //; split=> //.
    + move: F. rewrite /f_group. case: String.eqb_spec => // NE [<-].
      case L: (li_label i) => [l|] //. case: NE. apply: NB => //. by rewrite L.
    + by rewrite F.
  - move=> [i [I [E]]]. case L: (li_label i) => [l|].
    + move=> ->. right. by exists i.
    + move=> [NE ->]. left. exists i. split=> //. split=> //.
      rewrite /f_group. by case: String.eqb_spec.
Qed.

Lemma steps12 is' : NoDup (map li_name is') ->
  (forall i, In i is' -> li_label i <> None -> li_space i = li_name i) ->
  match (g <- foldM step_group is' [] ;; foldM step_label is' g) with
  | Ok g => inv (parent is') (parent is') g
  | Err e => exists x, clos_trans_1n _ (parent is') x x
  end.
Proof.
  move=> ND NB.
  have PG : forall i p, In i is' -> f_group i = Some p -> parent is' (li_name i) p.
  { move=> i p I F. apply/parent_split => //. left. by exists i. }
  have PL : forall i p, In i is' -> li_label i = Some p -> parent is' (li_name i) p.
  { move=> i p I F. apply/parent_split => //. right. by exists i. }
  have I0 : inv (parent is') (fun _ _ => False) [] by split.
  have := fold_gen f_group (parent is') is' (fun _ _ => False) [] ND PG (fun i p q _ _ (F : False) => F) I0.
  rewrite (foldM_ext step_group (step_gen f_group)); first by move=> a b; exact: step_group_gen.
  case: foldM => [g|e] I //=.
  have := fold_gen li_label (parent is') is' _ g ND PL _ I.
  rewrite (foldM_ext step_label (step_gen li_label)) //.
  have D : forall i p q, In i is' -> li_label i = Some p -> ~ (False \/ Qf f_group is' (li_name i) q).
  { move=> i p q Ii L [//|[j [Ij [E F]]]]. have X := name_inj _ _ _ ND Ij Ii E. subst j.
    move: F. rewrite /f_group. case: String.eqb_spec => // NE _. apply: NE. apply: NB => //. by rewrite L. }
  case: foldM => [g'|e] H; last exact: H.
  apply: inv_ext (H D) => x p. rewrite -parent_split //. tauto.
Qed.

(** Step 3: connections. *)
Definition internal (g : dict string string) (c : lconn) (l : string) : Prop :=
  lc_ends c <> [] /\ forall e, In e (lc_ends c) -> canon g e = Ok l.
Definition agree (cn : string -> Prop) (g0 g : dict string string) : Prop :=
  forall x, ~ cn x -> dget g x = dget g0 x.
Lemma agree_reach cn g0 g x y : agree cn g0 g -> (forall a b, dget g0 a = Some b -> ~ cn b) ->
  ~ cn x -> reach g0 x y <-> reach g x y.
Proof.
  move=> A V NX. split=> H.
  - elim: H NX => [a|a b c S _ IH] NX; first by constructor.
    apply: (rt1n_trans _ _ _ b); first by rewrite A. apply: IH. exact: V S.
  - elim: H NX => [a|a b c S _ IH] NX; first by constructor.
    rewrite A // in S. apply: (rt1n_trans _ _ _ _ _ S). apply: IH. exact: V S.
Qed.
Lemma reach_out cn g0 x y : (forall a b, dget g0 a = Some b -> ~ cn b) -> ~ cn x -> reach g0 x y -> ~ cn y.
Proof. move=> V NX H. elim: H NX => // a b c S _ IH _. apply: IH. exact: V S. Qed.
Lemma agree_canon cn g0 g x y : agree cn g0 g -> (forall a b, dget g0 a = Some b -> ~ cn b) ->
  ~ cn x -> canon g x = Ok y <-> canon g0 x = Ok y.
Proof.
  move=> A V NX. rewrite !canon_Ok. split=> -[R N].
  - have R' := proj2 (agree_reach _ _ _ _ _ A V NX) R. split=> //.
    rewrite -A //. exact: (reach_out _ _ _ _ V NX R').
  - split; first exact: (proj1 (agree_reach _ _ _ _ _ A V NX) R).
    rewrite A //. exact: (reach_out _ _ _ _ V NX R).
Qed.
Lemma agree_cycle cn g0 g x e : agree cn g0 g -> (forall a b, dget g0 a = Some b -> ~ cn b) ->
  ~ cn x -> canon g x = Err e -> exists z, plus g0 z z.
Proof.
  move=> A V NX C. case C0: (canon g0 x) => [y|e0]; last by case: (canon_Err _ _ _ C0).
  move: C0 => /(agree_canon _ _ _ _ _ A V NX) C0. by rewrite C0 in C.
Qed.

Section conns.
Variables (is' : list linst) (cs : list lconn).
Hypothesis SEP : separated is' cs.
Let cn x := In x (map lc_name cs).
Variable g0 : dict string string.
Hypothesis INV : inv (parent is') (parent is') g0.

Lemma parent_out x p : parent is' x p -> ~ cn x /\ ~ cn p.
Proof.
  have [_ [_ [_ [H _]]]] := SEP. move=> [i [I [E P]]]. split=> /in_map_iff [c [Ec Ic]].
  - have [H1 _] := H c i Ic I. by apply: H1; rewrite Ec E.
  - have [_ [H2 H3]] := H c i Ic I. case L: (li_label i) P => [l|].
    + move=> X. subst. by apply: H3.
    + move=> [_ X]. subst. by apply: H2.
Qed.
Lemma V a b : dget g0 a = Some b -> ~ cn b.
Proof.
  move=> G. have [A _] := INV. have [p [P R]] := A _ _ G.
  have [_ NP] := parent_out _ _ P. elim: R NP => // x y z S _ IH _. apply: IH. by case: (parent_out _ _ S).
Qed.
Lemma key_out x v : dget g0 x = Some v -> ~ cn x.
Proof. have [A _] := INV. move=> /A [p [P _]]. by case: (parent_out _ _ P). Qed.
Lemma ends_out c e : In c cs -> In e (lc_ends c) -> ~ cn e.
Proof.
  have [_ [_ [_ [H H']]]] := SEP. move=> Ic Ie X. have := H' c e Ic Ie.
  move: X => /in_map_iff [c' [E Ic']] /in_map_iff [i [E' Ii]].
  have [H1 _] := H c' i Ic' Ii. apply: H1. by rewrite E E'.
Qed.

Definition cinv (done : list lconn) (g : dict string string) : Prop :=
  agree cn g0 g /\
  (forall c, In c done -> forall l, dget g (lc_name c) = Some l <-> internal g0 c l) /\
  (forall x, cn x -> ~ In x (map lc_name done) -> dget g x = None).

Lemma step_conn_inv done g c : cinv done g -> In c cs -> ~ In (lc_name c) (map lc_name done) ->
  match step_conn g c with
  | Ok g' => cinv (c :: done) g'
  | Err _ => exists x, plus g0 x x
  end.
Proof.
  move=> [A [D F]] Ic Nc. rewrite /step_conn.
  have CN : cn (lc_name c) by apply: in_map.
  case M: mapM => [ls|e] /=; last first.
  { have [x [Ix Cx]] := mapM_Err' _ _ _ M. apply: (agree_cycle _ _ _ _ _ A V _ Cx). exact: (ends_out _ _ Ic Ix). }
  have LS : Forall2 (fun e l => canon g0 e = Ok l) (lc_ends c) ls.
  { have NE : forall e, In e (lc_ends c) -> ~ cn e by move=> e Ie; exact: (ends_out _ _ Ic Ie).
    have {}M := proj1 (mapM_Ok _ _ _) M. move: (lc_ends c) M NE => es M. elim: M => [|e l es' ls' C _ IH] NE.
    - constructor.
    - constructor.
      + apply/(agree_canon _ _ _ _ _ A V) => //. apply: NE. by left.
      + apply: IH => x Ix. apply: NE. by right. }
  have SAME : forall g', g' = g -> (forall l, ~ internal g0 c l) -> cinv (c :: done) g'.
  { move=> g' -> NI. split=> //. split.
    - move=> c' [<-|I'] l; last exact: D. split; last by move=> /NI.
      by rewrite F.
    - move=> x Cx Nx. apply: F => // X. apply: Nx. by right. }
  have ALL : forall l, internal g0 c l <-> ls <> [] /\ forall x, In x ls -> x = l.
  { move=> l. rewrite /internal. split.
    - move=> [NE H]. split; first by inversion LS; subst => //; congruence.
      elim: LS H {NE M SAME} => [|e l0 es ls' C _ IH] H x //= [<-|Ix].
      + have := H e (or_introl eq_refl). rewrite C. by case.
      + apply: IH => // e' Ie'. apply: H. by right.
    - move=> [NE H]. split; first by inversion LS; subst => //; congruence.
      elim: LS H {NE M SAME} => [|e l0 es ls' C _ IH] H x //= [<-|Ix].
      + rewrite C. f_equal. apply: H. by left.
      + apply: IH => // e' Ie'. apply: H. by right. }
  case: ls {M} LS ALL => [|l ls] LS ALL.
  { apply: SAME => // l /ALL [H _]. by apply: H. }
  case FA: forallb; last first.
  { apply: SAME => // l' /ALL [_ H].
    have E : forallb (String.eqb l) ls = true; last by rewrite E in FA.
    apply/forallb_forall => x Ix. apply/String.eqb_spec.
    rewrite (H l); last by rewrite (H x) //; right. by left. }
  move: FA => /forallb_forall FA.
  have INT : internal g0 c l.
  { apply/ALL. split=> // x [<-|Ix] //. have := FA x Ix. by move=> /String.eqb_spec ->. }
  split; last split.
  - move=> x Nx. rewrite dget_dset_ne; [by move=> E; apply: Nx; rewrite E|exact: A].
  - move=> c' [<-|I'] l'.
    + rewrite dget_dset_eq. split; first by move=> [<-].
      move=> /ALL [_ H]. f_equal. apply: H. by left.
    + rewrite dget_dset_ne; last exact: D.
      move=> E. apply: Nc. rewrite -E. exact: in_map.
  - move=> x Cx Nx. rewrite dget_dset_ne; first by move=> E; apply: Nx; left.
    apply: F => // X. apply: Nx. by right.
Qed.
Lemma fold_conn l done g : cinv done g -> (forall c, In c l -> In c cs) ->
  NoDup (map lc_name (l ++ done)) ->
  match foldM step_conn l g with
  | Ok g' => cinv (rev l ++ done) g'
  | Err _ => exists x, plus g0 x x
  end.
Proof.
  elim: l done g => [|c l IH] done g I S ND //=.
  inversion ND as [|? ? N1 N2]; subst.
  have Nc : ~ In (lc_name c) (map lc_name done).
  { move=> X. apply: N1. rewrite map_app in_app_iff. by right. }
  have := step_conn_inv done g c I (S c (or_introl eq_refl)) Nc.
  case: step_conn => [g'|e] //= I'. rewrite -app_assoc /=. apply: IH => //.
  - move=> x Ix. apply: S. by right.
  - apply: (Permutation_NoDup _ ND). apply: Permutation_map.
    rewrite /=. exact: Permutation_middle.
Qed.
Lemma fold_conn_all : match foldM step_conn cs g0 with
  | Ok g => agree cn g0 g /\
      forall c, In c cs -> forall l, dget g (lc_name c) = Some l <-> internal g0 c l
  | Err _ => exists x, plus g0 x x
  end.
Proof.
  have := fold_conn cs [] g0. rewrite !app_nil_r.
  have I0 : cinv [] g0.
  { split=> //. split=> // x Cx _. case G: (dget g0 x) => [v|] //. by case: (key_out _ _ G). }
  have ND : NoDup (map lc_name cs) by case: SEP => _ [].
  move=> /(_ I0 (fun c I => I) ND). case: foldM => [g|e] //. move=> [A [D _]]. split=> //.
  move=> c Ic. apply: D. by rewrite -in_rev.
Qed.
End conns.

Lemma labels_main is' cs : separated is' cs ->
  match integrity_group_labels is' cs with
  | Err _ => exists x, clos_trans_1n _ (parent is') x x
  | Ok m => ~ (exists x, clos_trans_1n _ (parent is') x x) /\
      (forall x p, parent is' x p -> label m x = label m p) /\
      (forall x, In x (dkeys m) <-> (exists p, parent is' x p) \/
          exists c l, In c cs /\ lc_name c = x /\ lc_ends c <> [] /\
             forall e, In e (lc_ends c) -> label m e = l) /\
      (forall c l, In c cs -> dget m (lc_name c) = Some l <->
          lc_ends c <> [] /\ forall e, In e (lc_ends c) -> label m e = l)
  end.
Proof.
  move=> SEP. have [ND [NDc [NB [DIS ENDS]]]] := SEP.
  rewrite /integrity_group_labels /raw_labels.
  have := steps12 is' ND NB.
  case: (foldM step_group is' []) => [g1|e] //=. case: (foldM step_label is' g1) => [g0|e] //= INV.
  have := fold_conn_all is' cs SEP g0 INV.
  case: foldM => [g|e] /=; last by move=> [x P]; exists x; apply: inv_cycle INV P.
  move=> [A D]. have VV := V is' cs SEP g0 INV. have KO := key_out is' cs SEP g0 INV.
  case M: mapM => [m|e]; last first.
  { have [[k v] [_ C]] := mapM_Err' _ _ _ M. move: C => /=. case C: canon => [l|e'] //= _.
    have [_ [z Pz]] := canon_Err _ _ _ C.
    (* a cycle of g avoids connection names *)
    have OUT : forall a b, dget g a = Some b -> ~ In b (map lc_name cs).
    { move=> a b G. case: (in_dec string_dec a (map lc_name cs)) => [/in_map_iff [c [Ec Ic]]|Na].
      - rewrite -Ec in G. have [NE H] := proj1 (D c Ic b) G.
        case E: (lc_ends c) NE => [|e0 es] // _. have Ie : In e0 (lc_ends c) by rewrite E; left.
        have /canon_Ok [R _] := H e0 Ie. apply: (reach_out _ _ _ _ VV _ R). exact: (ends_out is' cs SEP c e0).
      - rewrite A // in G. exact: VV G. }
    have NZ : ~ In z (map lc_name cs).
    { have [y [S R]] := plus_inv _ _ _ Pz.
      have H : forall a b, reach g a b -> ~ In a (map lc_name cs) -> ~ In b (map lc_name cs).
      { move=> a b. elim=> // x1 x2 x3 S' _ IH _. apply: IH. exact: OUT S'. }
      apply: (H _ _ R). exact: OUT S. }
    exists z. apply: (inv_cycle _ _ _ _ INV). have [y [S R]] := plus_inv _ _ _ Pz.
    rewrite A // in S. apply: (plus_reach _ _ _ _ S).
    apply/(agree_reach _ _ _ _ _ A VV) => //. exact: VV S. }
  have LR := fun x => label_reach g m x M.
  have [K _] := final_shape g m M.
  have KEY : forall x, In x (dkeys m) <-> exists v, dget g x = Some v.
  { move=> x. rewrite K dget_keys. case: (dget g x) => [v|]; split=> //; [by exists v|by move=> []]. }
  have LAB : forall x, ~ In x (map lc_name cs) -> canon g0 x = Ok (label m x).
  { move=> x Nx. apply/(agree_canon _ _ _ _ _ A VV Nx). apply/canon_Ok. exact: LR. }
  have CONN : forall c l, In c cs -> dget m (lc_name c) = Some l <->
          lc_ends c <> [] /\ forall e, In e (lc_ends c) -> label m e = l.
  { move=> c l Ic. have FD := final_dget g m (lc_name c) M.
    have INT : forall l, internal g0 c l <-> lc_ends c <> [] /\ forall e, In e (lc_ends c) -> label m e = l.
    { move=> l'. rewrite /internal. split=> -[NE H]; split=> // e Ie.
      - have := H e Ie. rewrite LAB; first exact: (ends_out is' cs SEP c e). by case.
      - rewrite LAB; first exact: (ends_out is' cs SEP c e). by rewrite H. }
    rewrite -INT -(D c Ic). case G: (dget g (lc_name c)) FD => [v|]; last by move=> ->.
    move=> [l' [-> C]]. suff -> : l' = v by [].
    have I := proj1 (D c Ic v) G. case: I => NE H.
    case E: (lc_ends c) NE => [|e0 es] // _. have Ie : In e0 (lc_ends c) by rewrite E; left.
    have NO := ends_out is' cs SEP c e0 Ic Ie.
    have /canon_Ok [R N] := H e0 Ie. have NV := reach_out _ _ _ _ VV NO R.
    move: C => /(agree_canon _ _ _ _ _ A VV NV) /canon_Ok [R' _]. exact: (term_reach _ _ _ N R'). }
  split; last split; last split=> //.
  - move=> [x P].
    (* every parent-cycle vertex is a key of g0, but labels are not *)
    have CYC : forall y, clos_trans_1n _ (parent is') y y -> exists v, dget g0 y = Some v /\ clos_trans_1n _ (parent is') v v.
    { move=> y Py. have [p [Sp Rp]] := plus_inv _ _ _ Py.
      have [_ B] := INV. have [_ [v [G R]]] := B _ _ Sp.
      exists v. split=> //.
      (* v reachable from y by unique parents, so on the cycle *)
      have PDET : forall a b b', parent is' a b -> parent is' a b' -> b = b'.
      { move=> a b b' [i [I1 [E1 P1]]] [j [I2 [E2 P2]]].
        have X : i = j by apply: (name_inj is') => //; congruence. subst j.
        case: (li_label i) P1 P2; [by move=> l -> ->|by move=> [_ ->] [_ ->]]. }
      have ROT : forall a b, clos_refl_trans_1n _ (parent is') a b -> clos_trans_1n _ (parent is') a a ->
         clos_trans_1n _ (parent is') b b.
      { move=> a b. elim=> // a1 b1 c1 S _ IH P1. apply: IH.
        have [w [S' R']] := plus_inv _ _ _ P1. have X := PDET _ _ _ S S'. subst w.
        have Q : clos_trans_1n _ (parent is') a1 b1 by apply: t1n_step.
        exact: (reach_plus _ _ _ _ R' Q). }
      apply: (ROT y) => //. apply: plus_to_reach. exact: (inv_edge _ _ _ _ _ INV G). }
    have NX : ~ In x (map lc_name cs).
    { have [p [Sp _]] := plus_inv _ _ _ P. by case: (parent_out is' cs SEP _ _ Sp). }
    have /canon_Ok [R N] := LAB x NX. elim: R N P {NX} => [a|a b c S _ IH] N P.
    + have [v [G _]] := CYC _ P. by rewrite G in N.
    + have [v [G Pv]] := CYC _ P. rewrite S in G. case: G => ?; subst v. exact: IH.
  - move=> x p P. have [NX NP] := parent_out is' cs SEP _ _ P.
    have [_ B] := INV. have [_ [v [G R]]] := B _ _ P.
    have /canon_Ok [R1 N1] := LAB x NX. have /canon_Ok [R2 N2] := LAB p NP.
    have R3 := reach_det _ _ _ _ R2 N2 R.
    apply: (term_unique g0 x) => //. exact: (rt1n_trans _ _ _ _ _ G R3).
  - move=> x. rewrite KEY. split.
    + move=> [v G]. case: (in_dec string_dec x (map lc_name cs)) => [/in_map_iff [c [Ec Ic]]|Nx].
      * right. have FD := final_dget g m x M. rewrite G in FD. move: FD => [l [DM _]].
        exists c, l. split=> //. split=> //. apply/CONN => //. by rewrite Ec.
      * left. rewrite A // in G. have [AA _] := INV. have [p [Pp _]] := AA _ _ G. by exists p.
    + move=> [[p Pp]|[c [l [Ic [Ec H]]]]].
      * have [_ B] := INV. have [_ [v [G R]]] := B _ _ Pp. exists v. rewrite A //.
        by case: (parent_out is' cs SEP _ _ Pp).
      * have /CONN := H. move=> /(_ Ic) DM. have : In x (dkeys m) by apply/dget_keys; rewrite -Ec DM.
        by move=> /KEY.
Qed.

Lemma labels_follow is' cs m x p : separated is' cs -> integrity_group_labels is' cs = Ok m ->
  parent is' x p -> label m x = label m p.
Proof. move=> S E. have := labels_main is' cs S. rewrite E => -[_ [H _]]. exact: H. Qed.
Lemma labels_keys is' cs m x : separated is' cs -> integrity_group_labels is' cs = Ok m ->
  In x (dkeys m) <-> (exists p, parent is' x p) \/
     exists c l, In c cs /\ lc_name c = x /\ lc_ends c <> [] /\
       forall e, In e (lc_ends c) -> label m e = l.
Proof. move=> S E. have := labels_main is' cs S. rewrite E => -[_ [_ [H _]]]. exact: H. Qed.
Lemma labels_conn is' cs m c l : separated is' cs -> integrity_group_labels is' cs = Ok m ->
  In c cs -> dget m (lc_name c) = Some l <->
     lc_ends c <> [] /\ forall e, In e (lc_ends c) -> label m e = l.
Proof. move=> S E. have := labels_main is' cs S. rewrite E => -[_ [_ [_ H]]]. exact: H. Qed.
Lemma labels_cycle is' cs : separated is' cs ->
  (integrity_group_labels is' cs = Err TemplateError <->
   exists x, clos_trans_1n _ (parent is') x x).
Proof.
  move=> S. have := labels_main is' cs S. case E: integrity_group_labels => [m|e].
  - move=> [N _]. split=> //. 
  - move=> H. split=> // _. f_equal. by rewrite (labels_Err _ _ _ E).
Qed.
