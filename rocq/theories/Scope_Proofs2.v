(** Reference resolution. *)
From Coq Require Import ssreflect ssrbool List String Bool Lia.
From Verif Require Import Prelude Scope_Model Scope_Spec Scope_Proofs.
Import ListNotations.
Open Scope string_scope. Open Scope list_scope.

Lemma visit_node p pp loc cls nm kids st : visit p pp (Node loc cls nm kids) st =
  ' (kids', st) <- visit_list cls p kids (open (fst st), snd st) ;;
  ss <- close (fst st) ;;
  ss <- register ss (Node loc cls nm kids') ;;
  if in_assembly cls pp
  then asm <- register (snd st) (Node loc cls nm kids') ;; Ok (Node loc cls nm kids', (ss, asm))
  else Ok (Node loc cls nm kids', (ss, snd st)).
Proof.
  cbn [visit]. match goal with |- bind (?g kids _) _ = _ => set go := g end.
  have E : forall ks s, go ks s = visit_list cls p ks s.
  { elim=> [|k ks IH] s //=. case: (visit cls p k s) => [[k' s']|] //=. by rewrite IH. }
  by rewrite E.
Qed.

Definition sound_at (n : node) : Prop := forall p pp s l ss d sa a n' st',
  rep s l -> Forall2 rep ss d -> rep sa a -> visit p pp n (s :: ss, [sa]) = Ok (n', st') ->
  exists s' sa' a', st' = (s' :: ss, [sa']) /\ Res (l :: d) a p pp n n' a' /\
    rep s' (l ++ if is_ref n then [] else [n']) /\ rep sa' a' /\
    (is_ref n = false -> forall x, In x l -> same_slot x n' = false).

Lemma visit_list_sound kids : Forall sound_at kids -> forall p pp s l ss d sa a kids' st',
  rep s l -> Forall2 rep ss d -> rep sa a -> visit_list p pp kids (s :: ss, [sa]) = Ok (kids', st') ->
  exists s' sa' a' l', st' = (s' :: ss, [sa']) /\ ResL d l a p pp kids kids' a' /\ rep s' l' /\ rep sa' a'.
Proof.
  elim=> [|n ns Hn _ IH] p pp s l ss d sa a kids' st' R F A /=.
  - move=> [<- <-]. exists s, sa, a, l. split=> //. split; [by constructor|done].
  - case V: (visit p pp n _) => [[n' st1]|] //=.
    have [s1 [sa1 [a1 [-> [R1 [S1 [A1 D1]]]]]]] := Hn _ _ _ _ _ _ _ _ _ _ R F A V.
    case V2: (visit_list p pp ns _) => [[ns' st2]|] //= [<- <-].
    have [s2 [sa2 [a2 [l2 [-> [R2 [S2 A2]]]]]]] := IH _ _ _ _ _ _ _ _ _ _ S1 F A1 V2.
    exists s2, sa2, a2, l2. split=> //. split=> //. by apply: ResL_cons R1 D1 R2.
Qed.

Lemma visit_sound n : sound_at n.
Proof.
  elim/node_ind': n => [st t|loc cls nm kids IH] p pp s l ss d sa a n' st' R F A.
  - cbn [visit fst snd]. rewrite /resolve_ref.
    case G: (gfirst _) => [[o|]|] //= [<- <-].
    exists s, sa, a. split=> //. split; last by split; [rewrite app_nil_r|].
    constructor. case: st G => [|x st] G //.
    have GO : gen_ok (gapp (lookup (x :: st) t (s :: ss)) (lookup (x :: st) t [sa]))
      (meanings (x :: st) t (l :: d) ++ meanings (x :: st) t [a]).
    { apply: gen_ok_app; apply: lookup_spec => //; by constructor. }
    have := gfirst_spec _ _ GO. by rewrite G => ->.
  - rewrite visit_node /open. cbn [fst snd].
    case V: (visit_list _ _ _ _) => [[kids' st1]|]; cbn [bind]; last by [].
    have [s1 [sa1 [a1 [l1 [-> [R1 [S1 A1]]]]]]] := visit_list_sound kids IH _ _ _ _ _ _ _ _ _ _ rep_nil
      (Forall2_cons _ _ R F) A V. cbn [fst snd close bind register].
    set n1 := Node loc cls nm kids'.
    have := register1_spec s l n1 R. case: (register1 s n1) => [s2|e]; cbn [bind]; last by [].
    move=> [_ [D2 R2]]. case I: (in_assembly cls pp).
    + have := register1_spec sa1 a1 n1 A1. case: (register1 sa1 n1) => [sa2|e]; cbn [bind]; last by [].
      move=> [_ [D3 R3]] [<- <-].
      exists s2, sa2, (a1 ++ [n1]). split=> //. split=> //.
      have -> : a1 ++ [n1] = a1 ++ asm_decl pp n1 by rewrite /asm_decl /= assembly_wideP I.
      by constructor.
    + move=> [<- <-]. exists s2, sa1, (a1 ++ asm_decl pp n1). split=> //.
      split; first by constructor=> //; rewrite assembly_wideP I. split=> //. by rewrite /asm_decl /= assembly_wideP I app_nil_r.
Qed.

Lemma resolve_sound items out : resolve items = Ok out -> exists asm, ResL [] [] [] "LiftedAST" "" items out asm.
Proof.
  rewrite /resolve. case V: (visit_list _ _ _ _) => [[o st]|] //= [<-].
  have [s' [sa' [a' [l' [_ [R _]]]]]] := visit_list_sound items
    ltac:(by apply/Forall_forall => x _; apply: visit_sound) _ _ _ _ _ _ _ _ _ _ rep_nil (Forall2_nil _) rep_nil V.
  by exists a'.
Qed.

(** ** Consequences of the specification *)
Lemma ref_free_node loc cls nm kids : ref_free (Node loc cls nm kids) <-> Forall ref_free kids.
Proof.
  simpl. elim: kids => [|k kids IH]; first by split.
  rewrite IH. split; [by move=> [? ?]; constructor|by move=> H; inversion H].
Qed.
Lemma ref_free_members n : ref_free n -> Forall ref_free (members_of n).
Proof.
  case: n => [loc cls nm kids|] // /ref_free_node F.
  have G : Forall ref_free (match kids with Node _ _ _ ks :: _ => ks | _ => [] end).
  { case: F => [|x l Hx _] //. by case: x Hx => [? ? ? ks|] // /ref_free_node. }
  rewrite /members_of. by repeat (match goal with
    | |- context [match ?x with _ => _ end] => destruct x end; try exact F; try exact G).
Qed.
Lemma meanings_props ref t d o : (forall l, In l d -> Forall ref_free l) -> In o (meanings ref t d) ->
  ref_free o /\ fits (cls_of o) t = true /\ name_of o = Some (last ref "") /\ ref <> [].
Proof.
  elim: ref d => [|n [|m ref] IH] d W //.
  - move=> /filter_In [/filter_In [/in_concat [l [Hl Ho]] N] I].
    split; first by have := W l Hl; move=> /Forall_forall; apply. split=> //. split=> //.
    move: N. rewrite /named. case: (name_of o) => [x|] // /String.eqb_eq ->. done.
  - move=> /in_flat_map [x [/filter_In [/in_concat [l [Hl Hx]] N] H]].
    have Rx : ref_free x by have := W l Hl; move=> /Forall_forall; apply.
    have [A [B [C D]]] := IH [inside x] ltac:(by move=> l' [<-|//]; rewrite insideP; apply: ref_free_members) H.
    by do 3 (split=> //).
Qed.

Definition cons_at (n : node) : Prop := forall vis asm p pp n' asm',
  (forall l, In l vis -> Forall ref_free l) -> Forall ref_free asm ->
  Res vis asm p pp n n' asm' -> ref_free n' /\ replaced n n' /\ Forall ref_free asm'.
Lemma ResL_cons_props kids : Forall cons_at kids -> forall vis cur asm p pp kids' asm',
  (forall l, In l vis -> Forall ref_free l) -> Forall ref_free cur -> Forall ref_free asm ->
  ResL vis cur asm p pp kids kids' asm' ->
  Forall ref_free kids' /\ Forall2 replaced kids kids' /\ Forall ref_free asm'.
Proof.
  elim=> [|n ns Hn _ IH] vis cur asm p pp kids' asm' W C A H.
  - inversion H; subst. by split.
  - inversion H as [|? ? ? ? ? ? n1 asm1 ? ns1 ? R1 D1 R2]; subst.
    have W' : forall l, In l (cur :: vis) -> Forall ref_free l by move=> l [<-|/W].
    have [F1 [P1 A1]] := Hn _ _ _ _ _ _ W' A R1.
    have C' : Forall ref_free (cur ++ (if is_ref n then [] else [n1])).
    { apply/Forall_app. split=> //. case: (is_ref n) => //. by repeat constructor. }
    have [F2 [P2 A2]] := IH _ _ _ _ _ _ _ W C' A1 R2.
    split; [by constructor|]. split; [by constructor|done].
Qed.
Lemma Res_props n : cons_at n.
Proof.
  elim/node_ind': n => [st t|loc cls nm kids IH] vis asm p pp n' asm' W A H; inversion H; subst.
  - have : In n' (meanings st t vis ++ meanings st t [asm']).
    { match goal with h : hd_error _ = _ |- _ => move: h end. case: (meanings st t vis ++ meanings st t [asm']) => [|x l] //= [->]. by left. }
    move=> /in_app_iff [|] I.
    + have [F [X [Y Z]]] := meanings_props _ _ _ _ W I. split=> //. split=> //. by constructor.
    + have W2 : forall l, In l [asm'] -> Forall ref_free l by move=> l [<-|//].
      have [F [X [Y Z]]] := meanings_props _ _ _ _ W2 I. split=> //. split=> //. by constructor.
  - match goal with h : ResL _ _ _ _ _ _ _ _ |- _ => rename h into HL end.
    have [F [P A']] := ResL_cons_props kids IH _ _ _ _ _ _ _ W (Forall_nil _) A HL.
    have F' : ref_free (Node loc cls nm kids') by apply/ref_free_node.
    split=> //. split; first by constructor. apply/Forall_app. split=> //.
    rewrite /asm_decl. case: (assembly_wide _ _) => //. by repeat constructor.
Qed.
Lemma resolve_props items out : resolve items = Ok out -> Forall ref_free out /\ Forall2 replaced items out.
Proof.
  move=> /resolve_sound [asm H].
  have A : Forall cons_at items by apply/Forall_forall => x _; apply: Res_props.
  have W : forall l, In l ([] : decls) -> Forall ref_free l by [].
  have [F [P _]] := ResL_cons_props items A _ _ _ _ _ _ _ W (Forall_nil _) (Forall_nil _) H. by split.
Qed.

(** ** Completeness *)
Definition good (n : node) := ref_free n /\ tidy n.
Lemma tidy_node loc cls nm kids : tidy (Node loc cls nm kids) ->
  (nm <> None -> distinct (members_of (Node loc cls nm kids))) /\ Forall tidy kids.
Proof.
  rewrite -insideP. move=> [H K]. split=> //. clear H. elim: kids K => [|k kids IH] //= [? ?]. constructor=> //. exact: IH.
Qed.
Lemma good_members n : good n -> Forall good (members_of n).
Proof.
  move=> [R T]. have := ref_free_members _ R. case: n R T => [loc cls nm kids|] // R /tidy_node [_ K] M.
  have G : Forall tidy (match kids with Node _ _ _ ks :: _ => ks | _ => [] end).
  { case: K => [|x l Hx _] //. by case: x Hx => [? ? ? ks|] // /tidy_node []. }
  have TM : Forall tidy (members_of (Node loc cls nm kids)).
  { clear M. rewrite /members_of. by repeat (match goal with
    | |- context [match ?x with _ => _ end] => destruct x end; try exact K; try exact G). }
  apply/Forall_forall => x Hx. move: M TM => /Forall_forall M /Forall_forall TM. split; auto.
Qed.

Lemma register1_ok s l o : rep s l -> is_ref o = false -> (forall x, In x l -> same_slot x o = false) ->
  exists s', register1 s o = Ok s' /\ rep s' (l ++ [o]).
Proof.
  move=> R I D. have := register1_spec s l o R. case: (register1 s o) => [s'|e].
  - move=> [_ [_ H]]. by exists s'.
  - case=> [H|[_ [x [Hx H]]]]; first by rewrite H in I. by rewrite D in H.
Qed.
Lemma ref_free_not_ref n : ref_free n -> is_ref n = false.
Proof. by case: n. Qed.
Lemma within_ok l : forall s cur, rep s cur -> Forall ref_free l -> distinct (cur ++ l) ->
  exists s', foldM register1 l s = Ok s'.
Proof.
  elim: l => [|o l IH] s cur R F D /=; first by eexists.
  inversion F; subst.
  have Do : forall x, In x cur -> same_slot x o = false.
  { clear -D. elim: cur D => [|y cur IH] //= D x [<-|H]; inversion D; subst.
    - move: H1 => /Forall_forall. apply. apply/in_app_iff. right. by left.
    - exact: IH. }
  have [s' [-> R']] := register1_ok s cur o R (ref_free_not_ref _ H1) Do. cbn [bind].
  apply: (IH _ _ R') => //. by rewrite -app_assoc.
Qed.
Lemma lookup_total ref t : forall ss d, Forall2 rep ss d -> ref <> [] -> (forall l, In l d -> Forall good l) ->
  snd (lookup ref t ss) = None.
Proof.
  have G : forall A (f : A -> gen) l, (forall x, In x l -> snd (f x) = None) -> snd (gflat f l) = None.
  { move=> A f l. elim: l => [|x l IH] H //=. rewrite /gapp H /=; first by left. apply: IH => y Hy. apply: H. by right. }
  elim: ref => [|n tail IH] ss d F ne W //. cbn [lookup].
  apply: (G _ _ _ _) => s Hs. apply: (G _ _ _ _) => c Hc.
  have [l [Hl R]] : exists l, In l d /\ rep s l.
  { clear -F Hs. elim: F Hs => [|s' l ss' d' R _ IH] //= [<-|/IH [x [? ?]]]; [by exists l; auto|exists x; auto]. }
  have [E _] := R n. rewrite E in Hc. move: Hc => /filter_In [Hc Nc].
  have Gc : good c by have := W l Hl; move=> /Forall_forall; apply.
  case: tail IH ne => [|m tail] IH _; first by case: (isa _ _).
  have [s' Es] : exists s', within c = Ok s'.
  { have [Rc Tc] := Gc. apply: (within_ok _ _ [] rep_nil); first by apply: ref_free_members.
    case: c Nc Tc {Hc Gc Rc} => [loc cls nm kids|] // Nc /tidy_node [X _]. apply: X.
    by move: Nc; rewrite /named /=; case: nm. }
  rewrite Es. cbn [snd]. apply: (IH _ [members_of c]) => //.
  - constructor=> //. have := within_spec (members_of c) [] [] rep_nil. rewrite -/(within c) Es. done.
  - move=> l' [<-|//]. exact: good_members.
Qed.

Definition complete_at (n : node) : Prop := forall p pp s l ss d sa a n' a',
  rep s l -> Forall2 rep ss d -> rep sa a -> (forall k, In k (l :: d) -> Forall good k) -> Forall good a ->
  Res (l :: d) a p pp n n' a' -> tidy n' -> (is_ref n = false -> forall x, In x l -> same_slot x n' = false) ->
  exists s' sa', visit p pp n (s :: ss, [sa]) = Ok (n', (s' :: ss, [sa'])) /\
    rep s' (l ++ if is_ref n then [] else [n']) /\ rep sa' a' /\ good n' /\ Forall good a'.

Lemma good_ref_free (d : decls) : (forall k, In k d -> Forall good k) -> forall k, In k d -> Forall ref_free k.
Proof. move=> W k Hk. apply: Forall_impl (W k Hk) => x []. done. Qed.

Lemma visit_list_complete kids : Forall complete_at kids -> forall p pp s l ss d sa a kids' a',
  rep s l -> Forall2 rep ss d -> rep sa a -> (forall k, In k (l :: d) -> Forall good k) -> Forall good a ->
  ResL d l a p pp kids kids' a' -> Forall tidy kids' ->
  exists s' sa', visit_list p pp kids (s :: ss, [sa]) = Ok (kids', (s' :: ss, [sa'])) /\ rep sa' a' /\
    Forall good kids' /\ Forall good a'.
Proof.
  elim=> [|n ns Hn _ IH] p pp s l ss d sa a kids' a' R F A W WA H T.
  - inversion H; subst. exists s, sa. by split.
  - inversion H as [|? ? ? ? ? ? n1 a1 ? ns1 ? R1 D1 R2]; subst. inversion T as [|? ? T1 T2]; subst.
    have [s1 [sa1 [V1 [S1 [A1 [G1 WA1]]]]]] := Hn _ _ _ _ _ _ _ _ _ _ R F A W WA R1 T1 D1.
    have W1 : forall k, In k ((l ++ (if is_ref n then [] else [n1])) :: d) -> Forall good k.
    { move=> k [<-|Hk]; last by apply: W; right. apply/Forall_app. split; first by apply: W; left.
      case: (is_ref n) => //. by repeat constructor; case: G1. }
    have [s2 [sa2 [V2 [A2 [G2 WA2]]]]] := IH _ _ _ _ _ _ _ _ _ _ S1 F A1 W1 WA1 R2 T2.
    exists s2, sa2. cbn [visit_list]. rewrite V1. cbn [bind]. rewrite V2. split=> //. split=> //.
    split=> //. by constructor.
Qed.
Lemma visit_complete n : complete_at n.
Proof.
  elim/node_ind': n => [st t|loc cls nm kids IH] p pp s l ss d sa a n' a' R F A W WA H T D;
    inversion H as [? ? ? ? ? ? ? HD|? ? ? ? ? ? ? ? kids' a1 HL HA]; subst.
  - have I : In n' (meanings st t (l :: d) ++ meanings st t [a']).
    { move: HD. case: (meanings st t (l :: d) ++ meanings st t [a']) => [|x m] //= [->]. by left. }
    have ne : st <> [] by move=> E; subst.
    exists s, sa. cbn [visit fst snd]. rewrite /resolve_ref.
    have GO : gen_ok (gapp (lookup st t (s :: ss)) (lookup st t [sa])) (meanings st t (l :: d) ++ meanings st t [a']).
    { apply: gen_ok_app; apply: lookup_spec => //; by constructor. }
    have L1 : snd (lookup st t (s :: ss)) = None by apply: (lookup_total _ _ _ (l :: d)) => //; constructor.
    have L2 : snd (lookup st t [sa]) = None.
    { apply: (lookup_total _ _ _ [a']) => //; [by constructor|by move=> k [<-|//]]. }
    have := gfirst_spec _ _ GO. rewrite HD. case E: (gfirst _) => [o|e].
    + move=> ->. split=> //. cbn [is_ref]. rewrite app_nil_r. split=> //. split=> //.
      have RF : ref_free n'.
      { move: I => /in_app_iff [|] I.
        - by have [] := meanings_props _ _ _ _ (good_ref_free _ W) I.
        - have W2 : forall k, In k [a'] -> Forall good k by move=> k [<-|//].
          by have [] := meanings_props _ _ _ _ (good_ref_free _ W2) I. }
      by split.
    + move: E. rewrite /gfirst /gapp L1 /= L2. by case: (fst (lookup st t (s :: ss)) ++ fst (lookup st t [sa])).
  - have [K0 TK] := tidy_node _ _ _ _ T.
    have [s1 [sa1 [V [A1 [G1 WA1]]]]] := visit_list_complete kids IH _ _ [] [] (s :: ss) (l :: d) sa a kids' a1
      rep_nil (Forall2_cons _ _ R F) A ltac:(by move=> k [<-|/W]) WA HL TK.
    rewrite visit_node /open. cbn [fst snd]. rewrite V. cbn [bind fst snd close register].
    set n1 := Node loc cls nm kids'.
    have [s2 [E2 R2]] := register1_ok s l n1 R eq_refl (D eq_refl).
    rewrite E2. cbn [bind].
    have Gn : good n1.
    { split=> //. apply/ref_free_node. by apply: Forall_impl G1 => x []. }
    case I: (in_assembly cls pp).
    + have [sa2 [E3 R3]] := register1_ok sa1 a1 n1 A1 eq_refl (HA ltac:(by rewrite assembly_wideP)).
      rewrite E3. cbn [bind]. exists s2, sa2. rewrite /asm_decl /= assembly_wideP I. split=> //. split=> //. split=> //. split=> //.
      apply/Forall_app. split=> //. by constructor.
    + exists s2, sa1. rewrite /asm_decl /= assembly_wideP I app_nil_r. by split.
Qed.
Lemma resolve_complete items out asm : ResL [] [] [] "LiftedAST" "" items out asm -> Forall tidy out ->
  resolve items = Ok out.
Proof.
  move=> H T. have A : Forall complete_at items by apply/Forall_forall => x _; apply: visit_complete.
  have W : forall k, In k ([[]] : decls) -> Forall good k by move=> k [<-|//].
  have [s' [sa' [V _]]] := visit_list_complete items A _ _ [] [] [] [] [] [] _ _ rep_nil (Forall2_nil _) rep_nil
    W (Forall_nil _) H T.
  by rewrite /resolve V.
Qed.

(** ** Statements of the property file *)
Lemma history_iff os : (exists ss, foldM step os [] = Ok ss) <-> (exists d, spec_run [] os d).
Proof.
  have := run_spec os [] [] ltac:(constructor). case: (foldM step os []) => [ss|e].
  - move=> [d [S F]]. split=> _; by [exists d|exists ss].
  - move=> H. split=> [[ss]|/H] //.
Qed.
Lemma history_lookup' os ss d n t : foldM step os [] = Ok ss -> spec_run [] os d ->
  gfirst (lookup [n] t ss) = Ok (hd_error (meanings [n] t d)).
Proof.
  move=> H R. have [d' [R' L]] := history_lookup os ss n t H. by rewrite (spec_run_det _ _ _ _ R R').
Qed.
Lemma hd_filter A (f : A -> bool) l x : hd_error (filter f l) = Some x ->
  exists a b, l = a ++ x :: b /\ f x = true /\ forall y, In y a -> f y = false.
Proof.
  elim: l => [|y l IH] //=. case F: (f y) => /=.
  - move=> [<-]. by exists [], l.
  - move=> /IH [a [b [-> [H1 H2]]]]. exists (y :: a), b. split=> //. split=> // z [<-|/H2] //.
Qed.
Lemma concat_split A (d : list (list A)) a x b : List.concat d = a ++ x :: b ->
  exists inner l outer, d = inner ++ l :: outer /\ In x l /\ forall y s, In s inner -> In y s -> In y a.
Proof.
  elim: d a => [|l d IH] a /=; first by case: a.
  case: (Compare_dec.le_lt_dec (List.length l) (List.length a)) => L E.
  - have [a' Ea] : exists a', a = l ++ a'.
    { clear -L E. elim: l a L E => [|y l IH] a L E; first by exists a.
      case: a L E => [|z a] /=; first lia. move=> L [-> E]. have [a' ->] := IH a ltac:(lia) E. by exists a'. }
    subst a. rewrite -app_assoc in E. have E' := app_inv_head _ _ _ E.
    have [inner [l' [outer [-> [H1 H2]]]]] := IH _ E'.
    exists (l :: inner), l', outer. split=> //. split=> // y s [<-|Hs] Hy; apply/in_app_iff; [by left|right].
    exact: (H2 y s).
  - exists [], l, d. split=> //. split=> //. clear -L E.
    elim: l a L E => [|y l IH] a /=; first lia. case: a => [|z a] /= L; first by move=> [->]; left.
    move=> [-> E]. right. apply: (IH a) => //. lia.
Qed.
Lemma innermost os ss d n t o : foldM step os [] = Ok ss -> spec_run [] os d ->
  gfirst (lookup [n] t ss) = Ok (Some o) ->
  exists inner l outer, d = inner ++ l :: outer /\ In o l /\ name_of o = Some n /\ fits (cls_of o) t = true /\
    forall s x, In s inner -> In x s -> name_of x = Some n -> fits (cls_of x) t = false.
Proof.
  move=> H R. rewrite (history_lookup' _ _ _ _ _ H R) /=. move=> [E].
  have E2 : hd_error (filter (fun x => named n x && fits (cls_of x) t) (List.concat d)) = Some o.
  { rewrite -E. congr hd_error. elim: (List.concat d) => [|x l IH] //=. case: (named n x) => //=. by rewrite IH. }
  have [a [b [Ec [/andP [N I] Na]]]] := hd_filter _ _ _ _ E2.
  have [inner [l [outer [Ed [Ho Hi]]]]] := concat_split _ _ _ _ _ Ec.
  exists inner, l, outer. split=> //. split=> //. split.
  { move: N. rewrite /named. case: (name_of o) => [m|] // /String.eqb_eq ->. done. }
  split=> // s x Hs Hx Nx. have := Na x (Hi x s Hs Hx). rewrite /named Nx String.eqb_refl /=. done.
Qed.
Lemma not_found os ss d n t : foldM step os [] = Ok ss -> spec_run [] os d ->
  (gfirst (lookup [n] t ss) = Ok None <->
   forall l x, In l d -> In x l -> name_of x = Some n -> fits (cls_of x) t = false).
Proof.
  move=> H R. rewrite (history_lookup' _ _ _ _ _ H R) /=. split.
  - move=> [E] l x Hl Hx N. case I: (fits _ _) => //.
    have : In x (filter (fun o => fits (cls_of o) t) (filter (named n) (List.concat d))).
    { apply/filter_In. split=> //. apply/filter_In. split; first by apply/in_concat; exists l.
      by rewrite /named N String.eqb_refl. }
    by move: E; case: (filter _ _).
  - move=> W. case E: (filter _ _) => [|x l] //=.
    have : In x (filter (fun o => fits (cls_of o) t) (filter (named n) (List.concat d))) by rewrite E; left.
    move=> /filter_In [/filter_In [/in_concat [k [Hk Hx]] N] I].
    rewrite (W k x Hk Hx) in I => //. move: N. rewrite /named. case: (name_of x) => [m|] // /String.eqb_eq ->. done.
Qed.
Lemma duplicate_rejected os ss l d o x : foldM step os [] = Ok ss -> spec_run [] os (l :: d) ->
  is_ref o = false -> In x l -> same_slot x o = true -> register ss o = Err ParseError.
Proof.
  move=> H R I Hx S. have := run_spec os [] [] ltac:(constructor). rewrite H. move=> [d' [R' F]].
  have E := spec_run_det _ _ _ _ R R'. subst d'. inversion F as [|s ? ss' ? Rs Fs]; subst.
  cbn [register]. have := register1_spec s l o Rs. case: (register1 s o) => [s'|e] /=.
  - move=> [_ [D _]]. by rewrite (D x Hx) in S.
  - case=> [X|[-> _]] //. by rewrite X in I.
Qed.
Lemma qualified os ss d r t o : foldM step os [] = Ok ss -> spec_run [] os d -> r <> [] ->
  gfirst (lookup r t ss) = Ok o -> o = hd_error (meanings r t d).
Proof.
  move=> H R ne G. have := run_spec os [] [] ltac:(constructor). rewrite H. move=> [d' [R' F]].
  have E := spec_run_det _ _ _ _ R R'. subst d'.
  have := gfirst_spec _ _ (lookup_spec r t ss d F ne). by rewrite G.
Qed.
