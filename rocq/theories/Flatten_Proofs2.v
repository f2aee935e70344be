(** Flattening: success on resolved input, and where connection ends lead. *)
From Coq Require Import ssreflect ssrbool List String Ascii Bool Arith Lia Permutation.
From Verif Require Import Prelude Flatten_Model Flatten_Spec Flatten_Proofs.
Import ListNotations.
Open Scope string_scope.
Open Scope list_scope.

Definition refs_in (parent : option string) (root : comp) : Prop :=
  (forall p c x, at_path root p c -> In x (exports_of c) ->
     pre parent p <> [] /\ In (x_inst x) (map iname (insts_of c))) /\
  (forall p c k e, at_path root p c -> In k (conns_of c) ->
     In e (c_from k) \/ In e (c_to k) ->
     match e_inst e with
     | None => pre parent p <> []
     | Some n => In n (map iname (insts_of c))
     end).

Lemma refs_in_sub parent c i :
  refs_in parent c -> In i (insts_of c) -> refs_in (Some (iname i)) (itype i).
Proof.
  move=> [X C] I. split.
  - move=> p d x A Ix. split; first by [].
    exact: (proj2 (X (iname i :: p) d x (at_below _ _ _ _ I A) Ix)).
  - move=> p d k e A Ik Ie. have := C (iname i :: p) d k e (at_below _ _ _ _ I A) Ik Ie.
    by case: (e_inst e).
Qed.

Lemma at_path_last c p d : at_path c p d -> p = [] /\ d = c \/
  exists q i d', p = q ++ [iname i] /\ at_path c q d' /\ In i (insts_of d') /\ d = itype i.
Proof.
  elim=> [c'|c' i q d0 I A IH]; first by left.
  right. case: IH => [[-> ->]|[q' [j [d' [-> [A' [J ->]]]]]]].
  - exists [], i, c'. do !split=> //. exact: at_here.
  - exists (iname i :: q'), j, d'. do !split=> //. exact: at_below.
Qed.

Lemma in_names c parent h p d n :
  infer_all c parent = Ok h -> at_path c p d -> In n (map iname (insts_of d)) ->
  In (dotted (pre parent (p ++ [n]))) (map iname (h_insts h)).
Proof.
  move=> H A /in_map_iff [i [<- I]]. rewrite (insts_char _ _ _ H) map_map.
  apply/in_map_iff. exists (p, i). split; first by rewrite /path_inst /= pre_app.
  apply/all_of_In. by exists d.
Qed.
Lemma in_names_at c parent h p d :
  infer_all c parent = Ok h -> at_path c p d -> p <> [] ->
  In (dotted (pre parent p)) (map iname (h_insts h)).
Proof.
  move=> H A N. case: (at_path_last _ _ _ A) => [[] //|[q [i [d' [-> [A' [I _]]]]]]].
  apply: in_names H A' _. exact: in_map.
Qed.

Lemma alias_refs_ok c n h :
  wf c -> dot_free n -> refs_in (Some n) c -> infer_all c (Some n) = Ok h -> alias_refs n h.
Proof.
  move=> W D R H. have DD: forall m, Some n = Some m -> dot_free m by move=> m [<-].
  case: (alias_char _ _ _ W DD H) => [_ [A _]]. apply/Forall_forall => -[k v] I /=.
  case: (A _ _ I) => p [d [e [P [_ [L [-> ->]]]]]]. split.
  - rewrite /alias_key /=. case: p P {L} => [|m p] P; first by left.
    right. exact: (in_names_at _ _ _ _ _ H P).
  - right. apply: (in_names _ _ _ _ _ _ H P). apply: (proj2 (proj1 R _ _ _ P _)).
    exact: last_export_In L.
Qed.

Lemma infer_total c parent :
  wf c -> (forall n, parent = Some n -> dot_free n) -> refs_in parent c ->
  exists h, infer_all c parent = Ok h.
Proof.
  elim/comp_rect': c parent => l cs es ss ats IH parent W D R.
  have DI: forall i, In i l -> dot_free (iname i).
  { move=> i I. case: (W [] _ (at_here _)) => [_ /Forall_forall F]. exact: F. }
  have KID: forall i, In i l -> exists h, hoists i h.
  { move=> i I. move/Forall_forall: IH => /(_ _ I (Some (iname i)) (wf_sub _ _ W I)).
    apply; [by move=> n [<-]; apply: DI|exact: refs_in_sub R I]. }
  have [hs H]: exists hs, Forall2 hoists l hs.
  { elim: l KID {IH W R DI} => [|i l IH] KID; first by exists [].
    case: (KID i (or_introl eq_refl)) => h Hh.
    case: IH => [j J|hs Hs]; first by apply: KID; right.
    exists (h :: hs). by constructor. }
  exists (result_of parent (Comp l cs es ss ats) hs).
  apply: infer_all_ok => //=.
  - have: forall i h, In i l -> hoists i h -> alias_refs (iname i) h.
    { move=> i h I. apply: alias_refs_ok; [exact: wf_sub W I|exact: DI|exact: refs_in_sub R I]. }
    elim: H {IH W R DI KID} => [|i h l' hs' Hh _ IH2] Q; constructor.
    + apply: Q => //. by left.
    + apply: IH2 => j g J. apply: Q. by right.
  - move=> N. case: (es) R => [|x es'] // R. exfalso.
    case: (proj1 R [] _ x (at_here _)); [by left|by rewrite N].
  - move=> n /in_map_iff [x [<- X]]. exact: (proj2 (proj1 R [] _ x (at_here _) X)).
  - apply/Forall_app; split.
    + apply/Forall_forall => k K.
      have E: forall e, In e (c_from k) \/ In e (c_to k) ->
         end_ref parent (map iname l ++ map iname (flat_map h_insts hs)) e.
      { move=> e I. have := proj2 R [] _ k e (at_here _) K I. rewrite /end_ref.
        case: (e_inst e) => [n|] /=; [|by case: (parent)].
        move=> J. apply/in_app_iff. by left. }
      split; apply/Forall_forall => e I; apply: E; by [left|right].
    + apply/Forall_forall => k /in_flat_map [h [Hh K]].
      case: (Forall2_In_r _ _ _ _ _ _ H Hh) => i [I Hi].
      have RI := refs_in_sub _ _ _ R I.
      rewrite (conns_char _ _ _ Hi) in K. move/in_map_iff: K => [[p k0] [<- /all_of_In [d [P K0]]]].
      have SUB: forall n, In n (map iname (h_insts h)) -> In n (map iname l ++ map iname (flat_map h_insts hs)).
      { move=> n N. apply/in_app_iff. right. rewrite map_flat_map. apply/in_flat_map. by exists h. }
      have E: forall e, In e (c_from k0) \/ In e (c_to k0) ->
         end_ref parent (map iname l ++ map iname (flat_map h_insts hs)) (path_end (Some (iname i)) p e).
      { move=> e Ie. have := proj2 RI p d k0 e P K0 Ie. rewrite /end_ref /path_end /end_path.
        case: (e_inst e) => [n|] /=.
        - move=> J. apply: SUB. exact: (in_names _ _ _ _ _ _ Hi P J).
        - case: p P => [|m p] P _ /=.
          + apply/in_app_iff. left. exact: in_map.
          + apply: SUB. exact: (in_names_at _ _ _ _ _ Hi P). }
      split; apply/Forall_forall => e /in_map_iff [e0 [<- I0]]; apply: E; by [left|right].
Qed.

(** * Chasing aliases *)
(** [dget] with strictly growing values: the loop ends within [length al] steps. *)
Section Chase.
Variable mu : iptr -> nat.
Variable al : aliases.
Hypothesis grows : forall k v, dget al k = Some v -> (mu k < mu v)%nat.

Lemma chase_fuel fuel p :
  (List.length (filter (fun kv => Nat.leb (mu p) (mu (fst kv))) al) <= fuel)%nat ->
  exists q, chase fuel al p = Ok q /\ dget al q = None.
Proof.
  elim: fuel p => [|fuel IH] p H /=.
  - case G: (dget al p) => [v|]; last by exists p.
    exfalso. have I := dget_In _ _ _ G.
    have: In (p, v) (filter (fun kv => Nat.leb (mu p) (mu (fst kv))) al).
    { apply/filter_In. split=> //=. exact/Nat.leb_le. }
    by case: (filter _ _) H => // ? ? /=; lia.
  - case G: (dget al p) => [v|]; last by exists p.
    apply: IH. have M := grows _ _ G. have I := dget_In _ _ _ G.
    have L: forall l : list (iptr * iptr),
      (List.length (filter (fun kv => Nat.leb (mu v) (mu (fst kv))) l) <=
      List.length (filter (fun kv => Nat.leb (mu p) (mu (fst kv))) l))%nat /\
      (In (p, v) l -> (List.length (filter (fun kv => Nat.leb (mu v) (mu (fst kv))) l) <
        List.length (filter (fun kv => Nat.leb (mu p) (mu (fst kv))) l))%nat).
    { elim=> [|kv l [L1 L2]] /=; first by split.
      case E1: (Nat.leb (mu v) (mu (fst kv))).
      - have ->: (Nat.leb (mu p) (mu (fst kv))) = true.
        { apply/Nat.leb_le. move/Nat.leb_le: E1. lia. }
        split=> /=; first by lia. case=> [E|J]; last by move/L2: J; lia.
        subst kv. move/Nat.leb_le: E1 => /=. lia.
      - case E2: (Nat.leb (mu p) (mu (fst kv))) => /=; first by split; lia.
        split=> //. case=> [E|//]. subst kv. move/Nat.leb_nle: E2 => /=. lia. }
    move: (proj2 (L al) I). lia.
Qed.

Lemma chase_total p :
  exists q, chase (List.length al) al p = Ok q /\ dget al q = None.
Proof.
  apply: chase_fuel. elim: (al) => [|kv l IH] //=. case: (Nat.leb _ _) => /=; lia.
Qed.
End Chase.

Inductive chases (al : aliases) : iptr -> iptr -> Prop :=
| ch_end p : dget al p = None -> chases al p p
| ch_step p v q : dget al p = Some v -> chases al v q -> chases al p q.
Lemma chase_chases al fuel p q : chase fuel al p = Ok q -> chases al p q.
Proof.
  elim: fuel p => [|fuel IH] p /=; case G: (dget al p) => [v|] //.
  - case=> <-. exact: ch_end.
  - move=> /IH. exact: ch_step.
  - case=> <-. exact: ch_end.
Qed.
Lemma chases_det al p q q' : chases al p q -> chases al p q' -> q = q'.
Proof.
  move=> H. elim: H q' => [p' G|p' v q0 G _ IH] q' H'; inversion H'; subst=> //.
  - congruence.
  - congruence.
  - apply: IH. congruence.
Qed.

Lemma dotted_snoc_length p n : p <> [] -> (String.length (dotted p) < String.length (dotted (p ++ [n])%list))%nat.
Proof.
  elim: p => [|a p IH] // _. case: p IH => [|b p] IH.
  - rewrite /= !string_length_app /=. lia.
  - have IH' := IH (fun e => ltac:(discriminate e)).
    have ->: (a :: b :: p) ++ [n] = a :: ((b :: p) ++ [n]) by [].
    rewrite (dotted_cons a (b :: p)) // (dotted_cons a ((b :: p) ++ [n])) //.
    rewrite !string_length_app. change (String.length ".") with 1. lia.
Qed.

Section Root.
Variable root : comp.
Hypothesis W : wf root.
Hypothesis R : refs_ok root.

Lemma refs_root : refs_in None root.
Proof. exact: R. Qed.

Variable h : hoisted.
Hypothesis H : infer_all root None = Ok h.
Let al := h_aliases h.

Lemma A_spec : alias_spec None root al.
Proof. exact: alias_char W _ H. Qed.

Lemma al_grows k v : dget al k = Some v -> (String.length (fst k) < String.length (fst v))%nat.
Proof.
  move=> G. have I := dget_In _ _ _ G. case: A_spec => [_ [A1 _]]. case: (A1 _ _ I) => p [d [e [P [N [L [-> ->]]]]]].
  rewrite /alias_key /alias_val /=. exact: dotted_snoc_length.
Qed.

Lemma al_None p d f : at_path root p d -> p <> [] ->
  last_export (exports_of d) f = None -> dget al (dotted p, f) = None.
Proof.
  move=> P N L. case G: (dget al _) => [v|] //. exfalso.
  case: A_spec => [_ [A1 _]]. case: (A1 _ _ (dget_In _ _ _ G)) => p' [d' [e [P' [N' [L' [E _]]]]]].
  simpl in E, L'. have E2 := alias_key_inj None root _ _ _ _ _ W (fun n e => ltac:(discriminate e)) P P' N N' E.
  subst p'. have E3 := at_path_det _ _ _ _ W P P'. subst d'. by rewrite L in L'.
Qed.
Lemma al_Some p d f e : at_path root p d -> p <> [] ->
  last_export (exports_of d) f = Some e ->
  dget al (dotted p, f) = Some (dotted (p ++ [x_inst e]), x_iface e).
Proof.
  move=> P N L. case: A_spec => [ND [_ A2]]. apply: In_dget => //. exact: (A2 _ _ _ _ P N L).
Qed.

Lemma stands_chases d p f : at_path root p d -> p <> [] ->
  exists q g, stands_for root (p, f) (q, g) /\ chases al (dotted p, f) (dotted q, g).
Proof.
  elim/comp_rect': d p f => l cs es ss ats IH p f P N.
  case L: (last_export es f) => [e|].
  - have X := last_export_In _ _ _ L.
    case/in_map_iff: (proj2 (proj1 R _ _ e P X)) => i [E I].
    move/Forall_forall: IH => /(_ _ I (p ++ [iname i]) (x_iface e) (at_path_snoc _ _ _ _ P I)).
    case; first by case: p N {P}.
    move=> q [g [S C]]. exists q, g. rewrite E in S C. split.
    + apply: sf_export P L S.
    + apply: ch_step C. exact: al_Some P N L.
  - exists p, f. split; first exact: sf_real P L.
    apply: ch_end. exact: al_None P N L.
Qed.

Lemma end_target p d k e : at_path root p d -> In k (conns_of d) ->
  In e (c_from k) \/ In e (c_to k) ->
  end_path p e <> [] /\ exists d', at_path root (end_path p e) d'.
Proof.
  move=> P K E. have := proj2 R _ _ _ _ P K E. rewrite /end_path. case: (e_inst e) => [n|].
  - move/in_map_iff => [i [<- I]]. split; first by case: (p).
    exists (itype i). exact: at_path_snoc P I.
  - move=> N. split=> //. by exists d.
Qed.

Lemma final_end_ok p d k e : at_path root p d -> In k (conns_of d) ->
  In e (c_from k) \/ In e (c_to k) ->
  exists e', final_end al (path_end None p e) = Ok e' /\ end_ok root p e e' /\
    exists n, e_inst e' = Some n /\ dget al (n, e_iface e') = None.
Proof.
  move=> P K E. case: (end_target _ _ _ _ P K E) => N [d' P'].
  have ->: path_end None p e = mk_cend (Some (dotted (end_path p e))) (e_iface e).
  { rewrite /path_end /end_path. move: N. rewrite /end_path. case: (e_inst e) => [n|] //=.
    by case: (p). }
  rewrite /final_end /=.
  case: (chase_total (fun k => String.length (fst k)) al al_grows (dotted (end_path p e), e_iface e))
    => [[n' f'] [C G]].
  case: (stands_chases _ _ (e_iface e) P' N) => q [g [S C2]].
  have := chases_det _ _ _ _ (chase_chases _ _ _ _ C) C2. case=> ? ?; subst n' f'.
  rewrite C /=. eexists. split; first reflexivity. split.
  - exists q, g. by split.
  - by exists (dotted q).
Qed.

Definition no_alias (c : conn) : Prop :=
  Forall (fun e => exists n, e_inst e = Some n /\ dget al (n, e_iface e) = None) (c_from c ++ c_to c).

Lemma mapM_exists A B (f : A -> res B) (Q : A -> B -> Prop) l :
  (forall a, In a l -> exists b, f a = Ok b /\ Q a b) ->
  exists m, mapM f l = Ok m /\ Forall2 Q l m.
Proof.
  elim: l => [|a l IH] HH /=; first by exists [].
  case: (HH a (or_introl eq_refl)) => b [-> q] /=.
  case: IH => [a' I|m [-> F]]; first by apply: HH; right.
  exists (b :: m). split=> //. by constructor.
Qed.
Lemma mapM_map A B C (f : B -> res C) (g : A -> B) l : mapM f (map g l) = mapM (fun a => f (g a)) l.
Proof. elim: l => [|a l IH] //=. by rewrite IH. Qed.

Lemma final_conns_ok :
  exists cs, mapM (final_conn al) (h_conns h) = Ok cs /\
    Forall2 (fun pc c' => conn_ok root (fst pc) (snd pc) c' /\ no_alias c') (all_conns root) cs.
Proof.
  rewrite (conns_char _ _ _ H) mapM_map. apply: mapM_exists => -[p k] /all_of_In [d [P K]].
  rewrite /final_conn /=.
  have HE: forall l, (forall e, In e l -> In e (c_from k) \/ In e (c_to k)) ->
    exists m, mapM (final_end al) (map (path_end None p) l) = Ok m /\
      Forall2 (fun e e' => end_ok root p e e' /\
         exists n, e_inst e' = Some n /\ dget al (n, e_iface e') = None) l m.
  { move=> l Hl. rewrite mapM_map. apply: mapM_exists => e I.
    exact: final_end_ok P K (Hl _ I). }
  case: (HE (c_from k)) => [e I|f [-> Ff]]; first by left.
  case: (HE (c_to k)) => [e I|t [-> Ft]]; first by right.
  rewrite /=. eexists. split; first reflexivity. split.
  - do !split=> //=.
    + elim: Ff => [|? ? ? ? [Q _] _ IHF]; by constructor.
    + elim: Ft => [|? ? ? ? [Q _] _ IHF]; by constructor.
  - rewrite /no_alias /=. apply/Forall_app. split.
    + elim: Ff => [|? ? ? ? [_ Q] _ IHF]; by constructor.
    + elim: Ft => [|? ? ? ? [_ Q] _ IHF]; by constructor.
Qed.
End Root.

(** * The final theorems' content *)
Lemma transform_total root : wf root -> refs_ok root -> exists fl, transform root = Ok fl.
Proof.
  move=> W R. have [h H] : exists h, infer_all root None = Ok h by apply: infer_total.
  rewrite /transform H /=. case: (final_conns_ok root W R h H) => cs [-> _] /=. by eexists.
Qed.

Lemma transform_conns root fl : wf root -> refs_ok root -> transform root = Ok fl ->
  Forall2 (fun pc c' => conn_ok root (fst pc) (snd pc) c') (all_conns root) (f_conns fl).
Proof.
  move=> W R. rewrite /transform. move=> /bind_Ok [h [H /bind_Ok [cs [C [<-]]]]] /=.
  case: (final_conns_ok root W R h H) => cs' [C' F]. rewrite C' in C. case: C => <-.
  elim: F => [|? ? ? ? [Q _] _ IHF]; by constructor.
Qed.

Lemma transform_insts root fl : transform root = Ok fl ->
  f_insts fl = map (fun pi => inst_at (fst pi) (snd pi)) (all_insts root).
Proof.
  rewrite /transform. move=> /bind_Ok [h [H /bind_Ok [cs [C [<-]]]]] /=.
  exact: (insts_char _ _ _ H).
Qed.
Lemma transform_settings root fl : transform root = Ok fl ->
  f_settings fl = map (fun ps => setting_at (fst ps) (snd ps)) (all_settings root).
Proof.
  rewrite /transform. move=> /bind_Ok [h [H /bind_Ok [cs [C [<-]]]]] /=.
  exact: (settings_char _ _ _ H).
Qed.

(** The interface a chain of exports ends in is not itself exported. *)
Lemma stands_for_real root p i q j : stands_for root (p, i) (q, j) ->
  exists c, at_path root q c /\ last_export (exports_of c) j = None.
Proof.
  move E: (p, i) => s. move F: (q, j) => t S.
  elim: S p i E q j F => [p0 i0 c A L|p0 i0 c e q0 A L S IH] p i E q j F.
  - case: F => -> ->. by exists c.
  - exact: (IH _ _ eq_refl _ _ F).
Qed.
Lemma stands_for_det root s t t' : wf root -> stands_for root s t -> stands_for root s t' -> t = t'.
Proof.
  move=> W S. elim: S t' => [p0 i0 c A L|p0 i0 c e q0 A L S IH] t' S'; inversion S' as [? ? ? A' L'|? ? ? ? ? A' L' S2]; subst=> //.
  - have E := at_path_det _ _ _ _ W A A'. subst. congruence.
  - have E := at_path_det _ _ _ _ W A A'. subst. congruence.
  - have E := at_path_det _ _ _ _ W A A'. subst. rewrite L in L'. case: L' => ?; subst. exact: IH.
Qed.

(** Unique paths. *)
Lemma NoDup_flat_map_heads (l : list inst) (g : inst -> list path) :
  NoDup (map iname l) -> (forall i, In i l -> NoDup (g i)) ->
  NoDup (flat_map (fun i => map (cons (iname i)) (g i)) l).
Proof.
  elim: l => [|i l IH] /= N G; first by constructor.
  inversion N as [|? ? NI N']; subst. apply: NoDup_app_intro.
  - apply: FinFun.Injective_map_NoDup; first by move=> x y [].
    apply: G. by left.
  - apply: IH => // j J. apply: G. by right.
  - move=> x /in_map_iff [p [<- _]] /in_flat_map [j [J /in_map_iff [q [[E _] _]]]].
    apply: NI. rewrite -E. exact: in_map.
Qed.

Lemma paths_NoDup c : wf c -> NoDup (map (fun pi => fst pi ++ [iname (snd pi)]) (all_insts c)).
Proof.
  elim/comp_rect': c => l cs es ss ats IH W. have -> : all_insts (Comp l cs es ss ats) = all_of insts_of (Comp l cs es ss ats) by []. rewrite all_of_eq map_app map_map /=.
  have [N _] := W [] _ (at_here _). simpl in N.
  apply: NoDup_app_intro.
  - rewrite -(map_map iname (fun n => [n])). apply: FinFun.Injective_map_NoDup => //.
    by move=> x y [].
  - rewrite map_flat_map.
    rewrite (flat_map_ext _ (fun i => map (cons (iname i)) (map (fun pi => fst pi ++ [iname (snd pi)]) (all_insts (itype i))))).
    { move=> i. by rewrite !map_map. }
    apply: NoDup_flat_map_heads => // i I.
    move/Forall_forall: IH => /(_ _ I). apply. exact: wf_sub W I.
  - move=> x /in_map_iff [i [<- _]] /in_map_iff [[p j] [E]]. simpl in E.
    move=> /in_flat_map [k [_ /in_map_iff [[q k'] [[E2 _] _]]]].
    rewrite -E2 in E. by case: q E E2.
Qed.

Lemma inst_path_dot_free root p i : wf root -> In (p, i) (all_insts root) ->
  Forall (fun s => dot_free s = true) (p ++ [iname i]).
Proof.
  move=> W /all_of_In [d [A I]]. apply/Forall_app. split; first exact: at_path_dot_free W A.
  constructor=> //. case: (W _ _ A) => [_ /Forall_forall F]. exact: F.
Qed.

Lemma flat_names_NoDup root fl : wf root -> transform root = Ok fl -> NoDup (map iname (f_insts fl)).
Proof.
  move=> W /transform_insts ->. rewrite map_map /=.
  have N := paths_NoDup _ W.
  have D: forall pi, In pi (all_insts root) -> Forall (fun s => dot_free s = true) (fst pi ++ [iname (snd pi)]).
  { move=> [p i]. exact: inst_path_dot_free. }
  elim: (all_insts root) N D => [|pi l IH] /= N D; first by constructor.
  inversion N as [|? ? NI N']; subst. constructor.
  - move=> /in_map_iff [pj [E J]]. apply: NI. apply/in_map_iff. exists pj. split=> //.
    apply: dotted_inj E => //.
    + apply: D. by right.
    + apply: D. by left.
    + by case: (fst pj).
    + by case: (fst pi).
  - apply: IH => // x X. apply: D. by right.
Qed.

Lemma snoc_inj A (p q : list A) a b : p ++ [a] = q ++ [b] -> p = q /\ a = b.
Proof. exact: app_inj_tail. Qed.

Lemma flat_as root fl m n a b p i q j :
  wf root -> as_ids root -> transform root = Ok fl ->
  nth_error (all_insts root) m = Some (p, i) -> nth_error (f_insts fl) m = Some a ->
  nth_error (all_insts root) n = Some (q, j) -> nth_error (f_insts fl) n = Some b ->
  (ias a = ias b <-> p = q /\ ias i = ias j).
Proof.
  move=> W S /transform_insts -> Hm Ha Hn Hb.
  rewrite nth_error_map Hm /= in Ha. rewrite nth_error_map Hn /= in Hb.
  case: Ha => <-. case: Hb => <-. rewrite /=.
  have D: forall p i, In (p, i) (all_insts root) -> Forall (fun s => dot_free s = true) (p ++ [ias i]).
  { move=> p0 i0 /all_of_In [d [A I]]. apply/Forall_app. split; first exact: at_path_dot_free W A.
    constructor=> //. exact: S A I. }
  split.
  - move=> E. apply: snoc_inj. apply: dotted_inj E.
    + apply: D. exact: nth_error_In Hm.
    + apply: D. exact: nth_error_In Hn.
    + by case: (p).
    + by case: (q).
  - by move=> [-> ->].
Qed.

Lemma toplevel_end root k e : In k (conns_of root) -> In e (c_from k) \/ In e (c_to k) ->
  e_inst e = None -> forall fl, transform root <> Ok fl.
Proof.
  move=> K I N fl. rewrite /transform. move=> /bind_Ok [h [H _]].
  have := infer_all_inv _ _ _ H. move=> [hs [_ [E [_ F]]]].
  have X: In (path_conn None ([], k)) (h_conns h).
  { rewrite (conns_char _ _ _ H). apply: in_map. apply/all_of_In. exists root. split=> //. exact: at_here. }
  move/Forall_forall: F => /(_ _ X) /Forall_forall F.
  apply: (F (path_end None [] e)).
  - rewrite /path_conn /=. apply/in_app_iff. case: I => I; [left|right]; exact: in_map.
  - by rewrite /path_end N.
Qed.
