(** Proofs about scopes and reference resolution. *)
From Coq Require Import ssreflect ssrbool List String Bool Lia.
From Verif Require Import Prelude Scope_Model Scope_Spec.
Import ListNotations.
Open Scope string_scope. Open Scope list_scope.

(** Induction on trees *)
Lemma node_ind' (P : node -> Prop) :
  (forall s t, P (Ref s t)) ->
  (forall loc cls nm kids, Forall P kids -> P (Node loc cls nm kids)) -> forall n, P n.
Proof.
  move=> HR HN. fix IH 1. case=> [loc cls nm kids|s t]; last by apply: HR.
  apply: HN. elim: kids => [|k kids IHk]; constructor=> //.
Qed.

(** ** The specification's notions against the implementation's *)
Lemma memb_cons a b (l : list string) : memb a (b :: l) = String.eqb a b || memb a l.
Proof. by []. Qed.
Lemma scope_typeP a b : clash a b = eqb (scope_type a) (scope_type b).
Proof.
  rewrite /scope_type !memb_cons /clash /group_or_instance /=. rewrite !orb_false_r.
  case: (String.eqb_spec a b) => [->|N] /=; first by case: (_ || _) => //=; rewrite String.eqb_refl.
  case: (String.eqb a "Group" || _) => /=; case: (String.eqb b "Group" || _) => //=.
  symmetry. exact/String.eqb_neq.
Qed.
Lemma isaP cls t : fits cls t = isa cls t.
Proof. case: t => //=. by rewrite !orb_assoc orb_false_r. Qed.
Lemma insideP o : inside o = members_of o.
Proof.
  case: o => [loc cls nm kids|s t] //. rewrite /inside. cbn [cls_of children].
  case: (String.eqb_spec cls "Instance") => [->|N]; first by case: kids => [|[? ? ? ?|? ?] ?].
  rewrite /members_of. by repeat (match goal with |- context [match ?x with _ => _ end] => destruct x end; try done).
Qed.
Lemma assembly_wideP cls pp : assembly_wide cls pp = in_assembly cls pp.
Proof.
  rewrite /assembly_wide /in_assembly !memb_cons /= /group_or_instance orb_false_r andb_comm. congr (_ && _).
  by rewrite (orb_comm (String.eqb cls "Group")) orb_assoc.
Qed.

(** ** One scope against the list of its declarations *)
Definition slots (s : scope) (n : string) : list (option string) :=
  match dget s n with Some e => map fst e | None => [] end.
Definition rep (s : scope) (l : list node) : Prop :=
  forall n, entries s n = filter (named n) l /\
            slots s n = map (fun o => scope_type (cls_of o)) (filter (named n) l).

Lemma rep_nil : rep [] [].
Proof. by move=> n. Qed.

Lemma dset_fresh K V (E : Eqb K) (d : dict K V) k v : dget d k = None -> dset d k v = d ++ [(k, v)].
Proof.
  elim: d => [|[k' v'] d IH] //=. case: (eqb_spec k k') => // ne H. by rewrite IH.
Qed.
Lemma dget_mapfst K V (E : Eqb K) (d : dict K V) k : dget d k = None <-> ~ In k (map fst d).
Proof.
  rewrite -/(dkeys d) dget_keys. case: (dget d k) => [v|]; split=> //; try by move=> H; case: H.
  by move=> _ H; case: H.
Qed.

Lemma same_slot_named x o n : name_of o = Some n ->
  same_slot x o = named n x && eqb (scope_type (cls_of x)) (scope_type (cls_of o)).
Proof. rewrite /same_slot /named => ->. rewrite scope_typeP. by case: (name_of x). Qed.

Lemma register1_spec s l o : rep s l ->
  match register1 s o with
  | Ok s' => is_ref o = false /\ (forall x, In x l -> same_slot x o = false) /\ rep s' (l ++ [o])
  | Err e => is_ref o = true \/ (e = ParseError /\ exists x, In x l /\ same_slot x o = true)
  end.
Proof.
  move=> R. case: o => [loc cls nm kids|st t]; last by left.
  rewrite /register1. case: nm => [nm|].
  - set o := Node _ _ _ _. set e := match dget s nm with Some e => e | None => [] end.
    have [Ee Es] := R nm. rewrite /entries in Ee. rewrite /slots in Es.
    have Ee' : map snd e = filter (named nm) l by rewrite -Ee /e; case: (dget s nm).
    have Es' : map fst e = map (fun o => scope_type (cls_of o)) (filter (named nm) l)
      by rewrite -Es /e; case: (dget s nm).
    case D: (dget e (scope_type cls)) => [x|].
    + right. split=> //.
      have : In (scope_type cls) (map fst e).
      { apply/in_map_iff. exists (scope_type cls, x). split=> //. exact: dget_In. }
      rewrite Es' => /in_map_iff [y [Ey /filter_In [Hy Ny]]]. exists y. split=> //.
      rewrite (same_slot_named y o nm) // Ny. apply/andP. split=> //. by case: eqb_spec.
    + split=> //. split.
      * move=> x Hx. rewrite (same_slot_named x o nm) //.
        case Nx: (named nm x) => //. rewrite andb_true_l. case: eqb_spec => // Ex. exfalso.
        move: D => /dget_mapfst. apply. rewrite Es'. apply/in_map_iff. exists x. split=> //.
        by apply/filter_In.
      * move=> n. rewrite filter_app. rewrite /entries /slots dget_dset.
        have NO : named n o = eqb n nm.
        { rewrite /named /=. exact: String.eqb_sym. }
        cbn [filter]. rewrite NO. case: (eqb_spec n nm) => [->|ne].
        -- rewrite (dset_fresh _ _ _ _ _ _ D) !map_app /= Ee' Es'. done.
        -- rewrite app_nil_r. exact: R.
  - split=> //. split; first by move=> x _; rewrite /same_slot /=; case: (name_of x).
    move=> n. rewrite filter_app /= app_nil_r. exact: R.
Qed.

(** ** Histories *)
Lemma step_spec ss d o : Forall2 rep ss d ->
  match step ss o with
  | Ok ss' => exists d', spec_step d o d' /\ Forall2 rep ss' d'
  | Err _ => ~ exists d', spec_step d o d'
  end.
Proof.
  move=> F. case: o => [||o] /=.
  - eexists. split; [by constructor|constructor=> //; exact: rep_nil].
  - case: F => [|s l ss' d' R F] /=; first by move=> [d' H]; inversion H.
    eexists. split; [by constructor|done].
  - case: F => [|s l ss' d' R F] /=; first by move=> [d' H]; inversion H.
    have := register1_spec s l o R. case: (register1 s o) => [s'|e] /=.
    + move=> [H1 [H2 H3]]. eexists. split; first by constructor. by constructor.
    + move=> H [d2 X]. inversion X as [| |? ? ? NR NS]; subst.
      case: H => [H|[_ [x [Hx Sx]]]]; first by rewrite H in NR.
      by rewrite (NS x Hx) in Sx.
Qed.

Lemma spec_step_det d o d1 d2 : spec_step d o d1 -> spec_step d o d2 -> d1 = d2.
Proof. by case=> [a|l a|l a x Hx Hs] H; inversion H; subst. Qed.

Lemma run_spec os : forall ss d, Forall2 rep ss d ->
  match foldM step os ss with
  | Ok ss' => exists d', spec_run d os d' /\ Forall2 rep ss' d'
  | Err _ => ~ exists d', spec_run d os d'
  end.
Proof.
  elim: os => [|o os IH] ss d F /=; first by exists d; split; [constructor|].
  have := step_spec ss d o F. case: (step ss o) => [ss1|e] /=.
  - move=> [d1 [S1 F1]]. have := IH ss1 d1 F1. case: (foldM step os ss1) => [ss2|e2].
    + move=> [d2 [S2 F2]]. exists d2. split=> //. by apply: sr_cons S1 S2.
    + move=> H [d2 X]. inversion X as [|? ? ? ? ? X1 X2]; subst. apply: H. exists d2.
      by rewrite (spec_step_det _ _ _ _ S1 X1).
  - move=> H [d2 X]. inversion X as [|? ? ? ? ? X1 X2]; subst. apply: H. by exists d1.
Qed.

Lemma foldM_app A B (f : B -> A -> res B) l l' b : foldM f (l ++ l') b = bind (foldM f l b) (foldM f l').
Proof. elim: l b => [|x l IH] b //=. case: (f b x) => //=. Qed.

Lemma balanced_run os : balanced os -> forall s ss r, foldM step os (s :: ss) = Ok r ->
  exists s', r = s' :: ss.
Proof.
  elim=> {os} [|o os B IH|os os' B IH B' IH'] s ss r /=.
  - move=> [<-]. by exists s.
  - case: (register1 s o) => [s1|] //=. exact: IH.
  - rewrite /open foldM_app. case E: (foldM step os ([] :: s :: ss)) => [r1|] //=.
    have [s1 ->] := IH _ _ _ E. move=> /=. exact: IH'.
Qed.
Lemma close_restores os ss r : balanced os -> foldM step (Open :: os ++ [Close]) ss = Ok r -> r = ss.
Proof.
  move=> B /=. rewrite /open foldM_app. case E: (foldM step os ([] :: ss)) => [r1|] //=.
  have [s1 ->] := balanced_run _ B _ _ _ E. by move=> /= [].
Qed.

(** ** Lookup *)
Definition gen_ok (g : gen) (l : list node) : Prop :=
  exists rest, l = fst g ++ rest /\ (snd g = None -> rest = []).
Lemma gen_ok_app a b la lb : gen_ok a la -> gen_ok b lb -> gen_ok (gapp a b) (la ++ lb).
Proof.
  move=> [ra [Ea Na]] [rb [Eb Nb]]. rewrite /gapp. case S: (snd a) => [e|].
  - exists (ra ++ lb). split; [by rewrite Ea app_assoc|by rewrite S].
  - rewrite (Na S) in Ea. exists rb. split; [by rewrite Ea Eb app_nil_r /= app_assoc|done].
Qed.
Lemma gen_ok_flat A (f : A -> gen) (h : A -> list node) l : (forall x, In x l -> gen_ok (f x) (h x)) ->
  gen_ok (gflat f l) (flat_map h l).
Proof.
  elim: l => [|x l IH] H /=; first by exists [].
  apply: gen_ok_app; [by apply: H; left|apply: IH => y Hy; by apply: H; right].
Qed.
Lemma gen_ok_nil e : gen_ok ([], Some e) [].
Proof. by exists []. Qed.
Lemma gen_ok_any e l : gen_ok ([], Some e) l.
Proof. by exists l. Qed.

Lemma within_spec l : forall s cur, rep s cur ->
  match foldM register1 l s with
  | Ok s' => rep s' (cur ++ l)
  | Err _ => True
  end.
Proof.
  elim: l => [|o l IH] s cur R /=; first by rewrite app_nil_r.
  have := register1_spec s cur o R. case: (register1 s o) => [s'|e] //= [_ [_ R']].
  have := IH _ _ R'. by rewrite -app_assoc.
Qed.

Lemma meanings_isa ref t d o : In o (meanings ref t d) -> isa (cls_of o) t = true.
Proof.
  elim: ref d => [|n [|m ref] IH] d //.
  - rewrite -isaP. by move=> /filter_In [].
  - move=> /in_flat_map [x [_ H]]. exact: (IH _ H).
Qed.
Lemma filter_all A (f : A -> bool) l : (forall x, In x l -> f x = true) -> filter f l = l.
Proof.
  elim: l => [|x l IH] H //=. rewrite (H x (or_introl eq_refl)) IH // => y Hy. apply: H. by right.
Qed.
Lemma flat_map_concat A B (f : A -> list B) (l : list (list A)) :
  flat_map f (List.concat l) = flat_map (flat_map f) l.
Proof. elim: l => [|x l IH] //=. by rewrite flat_map_app IH. Qed.
Lemma filter_flat A (f : A -> bool) l : filter f l = flat_map (fun x => if f x then [x] else []) l.
Proof. elim: l => [|x l IH] //=. rewrite -IH. by case: (f x). Qed.
Lemma filter_concat A (f : A -> bool) l : filter f (List.concat l) = List.concat (map (filter f) l).
Proof. elim: l => [|x l IH] //=. by rewrite filter_app IH. Qed.

Lemma meanings_flat n tail t d : tail <> [] ->
  meanings (n :: tail) t d = flat_map (fun l => flat_map (fun o => meanings tail t [inside o]) (filter (named n) l)) d.
Proof.
  case: tail => // m tail _. change (meanings (n :: m :: tail) t d) with
    (flat_map (fun o => meanings (m :: tail) t [inside o]) (filter (named n) (List.concat d))).
  rewrite filter_concat flat_map_concat. elim: d => [|l d IH] //=. by rewrite -IH.
Qed.
Lemma meanings_flat1 n t d :
  meanings [n] t d = flat_map (fun l => flat_map (fun o => if fits (cls_of o) t then [o] else []) (filter (named n) l)) d.
Proof.
  rewrite /= filter_flat filter_concat flat_map_concat. elim: d => [|l d IH] //=. by rewrite -IH.
Qed.

Lemma lookup_spec ref t : forall ss d, Forall2 rep ss d -> ref <> [] -> gen_ok (lookup ref t ss) (meanings ref t d).
Proof.
  elim: ref => [|n tail IH] ss d F ne //.
  have [h [Hh E]] : exists h, (forall c, gen_ok (match tail with
        | [] => if isa (cls_of c) t then ([c], None) else ([], None)
        | _ => match within c with
               | Err e => ([], Some e)
               | Ok inner => let g := lookup tail t [inner] in
                             (filter (fun c => isa (cls_of c) t) (fst g), snd g)
               end end) (h c)) /\ meanings (n :: tail) t d = flat_map (fun l => flat_map h (filter (named n) l)) d.
  { case: tail IH ne => [|m tail] IH _.
    - eexists. split; last by apply: meanings_flat1.
      move=> c /=. rewrite isaP. case: (isa (cls_of c) t); by exists [].
    - eexists. split; last by rewrite meanings_flat.
      move=> c. cbv beta zeta. rewrite /within insideP.
      have := within_spec (members_of c) [] [] rep_nil.
      case: (foldM register1 _ []) => [inner|e] R; last by apply: gen_ok_any.
      have [rest [E N]] := IH [inner] [members_of c] ltac:(by constructor) ltac:(done).
      exists rest. cbn [fst snd]. split=> //. rewrite filter_all // => x Hx.
      apply: (meanings_isa (m :: tail) t [members_of c]). rewrite E. apply/in_app_iff. by left. }
  rewrite E. elim: F => [|s l ss' d' R _ IHF]; first by exists [].
  cbn [lookup gflat fold_right flat_map]. apply: gen_ok_app; last by apply: IHF.
  have [-> _] := R n. apply: gen_ok_flat => x _. exact: Hh.
Qed.

Lemma gfirst_spec g l : gen_ok g l ->
  match gfirst g with Ok o => o = hd_error l | Err _ => True end.
Proof.
  move=> [rest [-> N]]. rewrite /gfirst. case: g N => [[|x l'] [e|]] //= N. by rewrite N.
Qed.

Lemma lookup_no_err n t ss : snd (lookup [n] t ss) = None.
Proof.
  have G : forall A (f : A -> gen) l, (forall x, snd (f x) = None) -> snd (gflat f l) = None.
  { move=> A f l H. elim: l => [|x l IH] //=. by rewrite /gapp H /= IH. }
  apply: (G _ _ _ _) => s. apply: (G _ _ _ _) => c. by case: (isa _ _).
Qed.
Lemma lookup1 n t ss d : Forall2 rep ss d -> gfirst (lookup [n] t ss) = Ok (hd_error (meanings [n] t d)).
Proof.
  move=> F. have G := lookup_spec [n] t ss d F ltac:(done).
  have := gfirst_spec _ _ G. rewrite /gfirst. case E: (fst _) => [|x l].
  - rewrite lookup_no_err. by move=> ->.
  - by move=> ->.
Qed.

Lemma history_lookup os ss n t : foldM step os [] = Ok ss ->
  exists d, spec_run [] os d /\ gfirst (lookup [n] t ss) = Ok (hd_error (meanings [n] t d)).
Proof.
  move=> H. have := run_spec os [] [] ltac:(constructor). rewrite H. move=> [d [S F]].
  exists d. split=> //. exact: lookup1.
Qed.
Lemma spec_run_det os : forall d d1 d2, spec_run d os d1 -> spec_run d os d2 -> d1 = d2.
Proof.
  elim: os => [|o os IH] d d1 d2 H1 H2.
  - inversion H1; inversion H2; by subst.
  - inversion H1 as [|? ? ? ? ? X1 X2]; subst. inversion H2 as [|? ? ? ? ? Y1 Y2]; subst.
    have E := spec_step_det _ _ _ _ X1 Y1. subst. exact: (IH _ _ _ X2 Y2).
Qed.
