(** Proofs about resolution with forward references: scopes, lookups, evolution of the heap. *)
From Coq Require Import ssreflect ssrbool List String Bool PeanoNat Lia.
From Verif Require Import Prelude Scope_Model Scope_Spec Scope_Proofs Forward_Model Forward_Spec.
Import ListNotations.
Open Scope string_scope. Open Scope list_scope.

(** ** Scopes *)
Definition fslots (s : fscope) (n : string) : list (option string) :=
  match dget s n with Some e => map fst e | None => [] end.
Definition frep (h : heap) (s : fscope) (l : list nat) : Prop :=
  forall n, fentries s n = filter (has_name h n) l /\
            fslots s n = map (fun o => scope_type (class_of h o)) (filter (has_name h n) l).
Lemma frep_nil h : frep h [] [].
Proof. by move=> n. Qed.

Lemma clashing_named h x o n : name_at h o = Some n ->
  clashing h x o = has_name h n x && eqb (scope_type (class_of h x)) (scope_type (class_of h o)).
Proof. rewrite /clashing /has_name => ->. rewrite scope_typeP. by case: (name_at h x). Qed.

Definition is_obj (h : heap) (i : nat) : Prop := exists c n ks, nth_error h i = Some (Obj c n ks).
Lemma nonref_obj h i : is_reff h i = false -> i < List.length h -> is_obj h i.
Proof.
  rewrite /is_reff /is_obj. case E: (nth_error h i) => [[c n ks|s t]|] //; first by eauto.
  move/nth_error_None: E. lia.
Qed.
Lemma obj_nonref h i : is_obj h i -> is_reff h i = false.
Proof. by rewrite /is_reff => [[c [n [ks ->]]]]. Qed.
Lemma obj_lt h i : is_obj h i -> i < List.length h.
Proof. move=> [c [n [ks E]]]. apply/nth_error_Some. by rewrite E. Qed.

Lemma fregister_spec h s l o : frep h s l ->
  match fregister h s o with
  | Ok s' => is_obj h o /\ (forall x, In x l -> clashing h x o = false) /\ frep h s' (l ++ [o])
  | Err e => (e = AssertionError /\ ~ is_obj h o) \/ (e = ParseError /\ exists x, In x l /\ clashing h x o = true)
  end.
Proof.
  move=> R. rewrite /fregister. case N: (nth_error h o) => [[cls nm ks|st t]|];
    try by (left; split=> // [[c [n [ks E]]]]; rewrite N in E).
  have OB : is_obj h o by exists cls, nm, ks.
  have CO : class_of h o = cls by rewrite /class_of N.
  have NO : name_at h o = nm by rewrite /name_at N.
  move: NO N OB. case: nm => [nm|] NO N OB.
  - set e := match dget s nm with Some e => e | None => [] end.
    have [Ee Es] := R nm. rewrite /fentries in Ee. rewrite /fslots in Es.
    have Ee' : map snd e = filter (has_name h nm) l by rewrite -Ee /e; case: (dget s nm).
    have Es' : map fst e = map (fun o => scope_type (class_of h o)) (filter (has_name h nm) l)
      by rewrite -Es /e; case: (dget s nm).
    case D: (dget e (scope_type cls)) => [x|].
    + right. split=> //.
      have : In (scope_type cls) (map fst e).
      { apply/in_map_iff. exists (scope_type cls, x). split=> //. exact: dget_In. }
      rewrite Es' => /in_map_iff [y [Ey /filter_In [Hy Ny]]]. exists y. split=> //.
      rewrite (clashing_named h y o nm NO) Ny CO. apply/andP. split=> //. by case: eqb_spec.
    + split=> //. split.
      * move=> x Hx. rewrite (clashing_named h x o nm NO).
        case Nx: (has_name h nm x) => //. rewrite andb_true_l CO. case: eqb_spec => // Ex. exfalso.
        move: D => /dget_mapfst. apply. rewrite Es'. apply/in_map_iff. exists x. split=> //.
        by apply/filter_In.
      * move=> n. rewrite filter_app. rewrite /fentries /fslots dget_dset.
        have NB : has_name h n o = eqb n nm.
        { rewrite /has_name NO. exact: String.eqb_sym. }
        cbn [filter]. rewrite NB. case: (eqb_spec n nm) => [->|ne].
        -- rewrite (dset_fresh _ _ _ _ _ _ D) !map_app /= Ee' Es' CO. done.
        -- rewrite app_nil_r. exact: R.
  - split=> //. split; first by move=> x _; rewrite /clashing NO; case: (name_at h x).
    move=> n. rewrite filter_app /= /has_name NO app_nil_r. exact: R.
Qed.

Lemma fop_app h l o : distinct_names h l -> (forall x, In x l -> clashing h x o = false) -> distinct_names h (l ++ [o]).
Proof.
  rewrite /distinct_names. elim=> [|a l' Ha D IH] /= H; first by repeat constructor.
  constructor; last by apply: IH => x Hx; apply: H; right.
  apply/Forall_forall => x /in_app_iff [Hx|[<-|//]]; [by move/Forall_forall: Ha; apply|by apply: H; left].
Qed.
Lemma fop_app_inv h l1 a l2 : distinct_names h (l1 ++ a :: l2) -> forall x, In x l1 -> clashing h x a = false.
Proof.
  rewrite /distinct_names. elim: l1 => [|b l1 IH] //= D x. inversion D as [|? ? F D']; subst.
  case=> [<-|Hx]; last by apply: IH.
  move/Forall_forall: F; apply. apply/in_app_iff. right. by left.
Qed.

Lemma fregisters_spec h os : forall s l, frep h s l -> distinct_names h l ->
  match foldM (fregister h) os s with
  | Ok s' => Forall (is_obj h) os /\ distinct_names h (l ++ os) /\ frep h s' (l ++ os)
  | Err e => (e = AssertionError /\ ~ Forall (is_obj h) os) \/ (e = ParseError /\ ~ distinct_names h (l ++ os))
  end.
Proof.
  elim: os => [|o os IH] s l R D.
  - by rewrite /= app_nil_r.
  - cbn [foldM]. have := fregister_spec h s l o R. case: (fregister h s o) => [s'|e] /=.
    + move=> [OB [NC R']]. have := IH s' (l ++ [o]) R' (fop_app _ _ _ D NC).
      rewrite -app_assoc. case: (foldM _ _ _) => [s2|e].
      * move=> [F [D2 R2]]. split=> //. by constructor.
      * move=> [[-> NF]|[-> ND]]; [left|right]; split=> //. move=> F. by inversion F.
    + move=> [[-> NO]|[-> [x [Hx Cx]]]]; [left|right]; split=> //; first by move=> F; inversion F.
      move=> D2. by rewrite (fop_app_inv _ _ _ _ D2 x Hx) in Cx.
Qed.

Lemma declared_obj h p : (forall k, In k (kids h p) -> k < List.length h) -> Forall (is_obj h) (declared h p).
Proof.
  move=> H. apply/Forall_forall => x /filter_In [Hx /negb_true_iff N]. apply: nonref_obj => //. exact: H.
Qed.
Lemma enter_spec h ss d i : Forall2 (frep h) ss d -> (forall k, In k (kids h i) -> k < List.length h) ->
  match enter h ss i with
  | Ok ss' => distinct_names h (declared h i) /\ Forall2 (frep h) ss' (declared h i :: d)
  | Err e => e = ParseError /\ ~ distinct_names h (declared h i)
  end.
Proof.
  move=> F V. rewrite /enter.
  have := fregisters_spec h (filter (fun x => negb (is_reff h x)) (kids h i)) [] [] (frep_nil h) (FOP_nil _).
  case: (foldM _ _ _) => [s|e] /=.
  - move=> [_ [D R]]. split=> //. by constructor.
  - move=> [[_ N]|[-> N]] //. case: N. exact: declared_obj.
Qed.
Lemma assembly_scope_spec h : (forall p k, In k (kids h p) -> k < List.length h) ->
  match assembly_scope h with
  | Ok s => distinct_names h (assembly_declared h) /\ frep h s (assembly_declared h)
  | Err e => e = ParseError /\ ~ distinct_names h (assembly_declared h)
  end.
Proof.
  move=> V. rewrite /assembly_scope.
  have E : flat_map (assembly_kids h) (assemblies h) = assembly_declared h.
  { rewrite /assembly_declared /assemblies. apply: flat_map_ext => a. rewrite /assembly_kids /composition.
    by case: (kids h a). }
  rewrite E. have := fregisters_spec h (assembly_declared h) [] [] (frep_nil h) (FOP_nil _).
  case: (foldM _ _ _) => [s|e] /=; first by move=> [_ [D R]].
  move=> [[_ N]|[-> N]] //. case: N. apply/Forall_forall => x /in_flat_map [a [_ Hx]].
  case Ka: (kids h a) Hx => [//|c l] Hx. move: x Hx. apply/Forall_forall. exact: declared_obj (V c).
Qed.

(** ** Lookups *)
Lemma fmembersP h i : fmembers h i = interior h i.
Proof. by []. Qed.

Lemma fgflat_spec A (f : A -> fgen) (g : A -> list nat) l :
  (forall x, In x l -> exists m, g x = fst (f x) ++ m /\ (snd (f x) = None -> m = [])) ->
  exists m, flat_map g l = fst (fgflat f l) ++ m /\ (snd (fgflat f l) = None -> m = []).
Proof.
  elim: l => [|x l IH] H; first by exists [].
  have [m [Em Nm]] := H x (or_introl eq_refl).
  have [m' [Em' Nm']] := IH (fun y Hy => H y (or_intror Hy)).
  cbn [flat_map fgflat fold_right]. rewrite -/(fgflat f l) /fgapp. case S1: (snd (f x)) => [e|].
  - exists (m ++ flat_map g l). rewrite Em app_assoc. split=> //. by rewrite S1.
  - rewrite /= Em Em' (Nm S1) app_nil_r app_assoc. by exists m'.
Qed.

Lemma filter_all A (f : A -> bool) l : (forall x, In x l -> f x = true) -> filter f l = l.
Proof.
  elim: l => //= a l IH H. rewrite (H a) ?(IH) //; try by left.
  move=> x Hx. apply: H. by right.
Qed.

Lemma mean_In h t ref : forall l r, In r (mean h ref t l) ->
  fits (class_of h r) t = true /\ name_at h r = Some (last ref "") /\ is_obj h r.
Proof.
  elim: ref => [|n [|m ref] IH] l r //.
  - cbn [mean]. move=> /filter_In [/filter_In [_ N] F]. split=> //. move: N. rewrite /has_name.
    case E: (name_at h r) => [x|] // /String.eqb_eq Ex. subst x. split=> //.
    move: E. rewrite /name_at /is_obj. case: (nth_error h r) => [[c o ks|? ?]|] //. by eauto.
  - move=> /in_flat_map [i [_ Hr]]. exact: IH _ _ Hr.
Qed.

Lemma flookup_spec h t ref : forall ss d, ref <> [] -> Forall2 (frep h) ss d ->
  exists m, mean h ref t (List.concat d) = fst (flookup h ref t ss) ++ m /\
            (snd (flookup h ref t ss) = None -> m = []).
Proof.
  elim: ref => [|n tail IH] ss d // _ F.
  have ENT : forall n, List.concat (map (fun s => fentries s n) ss) = filter (has_name h n) (List.concat d).
  { move=> k. elim: F => [|s l ss' d' R F IHF] //. cbn [map List.concat]. rewrite filter_app -IHF.
    congr (_ ++ _). by have [-> _] := R k. }
  cbn [flookup].
  set f := fun c : nat => match tail with [] => _ | _ :: _ => _ end.
  set g := fun c : nat => match tail with
    | [] => if fits (class_of h c) t then [c] else [] | _ => mean h tail t (interior h c) end.
  have P : forall c, exists m, g c = fst (f c) ++ m /\ (snd (f c) = None -> m = []).
  { move=> c. rewrite /f /g. case Et: tail => [|n2 tail2].
    - rewrite isaP. case: (isa _ _); by exists [].
    - rewrite -Et. rewrite /fwithin.
      have := fregisters_spec h (fmembers h c) [] [] (frep_nil h) (FOP_nil _).
      case: (foldM _ _ _) => [s|e]; last by move=> _; exists (mean h tail t (interior h c)).
      rewrite app_nil_l => [[_ [_ R]]].
      have NT : tail <> [] by rewrite Et.
      have F1 : Forall2 (frep h) [s] [fmembers h c] by constructor; [exact: R|constructor].
      have [m [Em Nm]] := IH [s] [fmembers h c] NT F1. cbn [List.concat] in Em. rewrite app_nil_r in Em.
      rewrite fmembersP in Em. exists m. split=> //. rewrite Em. congr (_ ++ _). symmetry. apply: filter_all => x Hx.
      rewrite -isaP. have := mean_In h t tail (interior h c) x. rewrite Em. move=> Q. apply Q.
      apply/in_app_iff. by left. }
  have GM : mean h (n :: tail) t (List.concat d) = flat_map (fun s => flat_map g (fentries s n)) ss.
  { have -> : flat_map (fun s => flat_map g (fentries s n)) ss = flat_map g (filter (has_name h n) (List.concat d)).
    { rewrite -ENT. elim: (ss) => //= s l E. by rewrite E flat_map_app. }
    rewrite /g. case: (tail) => [|n2 tail2] //. cbn [mean].
    elim: (filter (has_name h n) (List.concat d)) => //= a l ->. by case: (fits _ _). }
  rewrite GM. apply: fgflat_spec => s _. apply: fgflat_spec => c _. exact: P.
Qed.

Lemma flookup_single h n t ss : snd (flookup h [n] t ss) = None.
Proof.
  cbn [flookup]. elim: ss => [|s ss IH] //. cbn [fgflat fold_right]. rewrite -/(fgflat _ ss) /fgapp.
  have -> : snd (fgflat (fun c => if isa (class_of h c) t then ([c], None) else ([], None)) (fentries s n)) = None.
  { elim: (fentries s n) => [|c l IHl] //. cbn [fgflat fold_right]. rewrite -/(fgflat _ l) /fgapp.
    by case: (isa _ _) => /=. }
  exact: IH.
Qed.
Lemma flookup_err h t ref : forall ss e, snd (flookup h ref t ss) = Some e ->
  (e = ParseError \/ e = AssertionError) /\ forall n, ref <> [n].
Proof.
  elim: ref => [|n tail IH] ss e; first by move=> [<-]; split; [right|].
  cbn [flookup]. elim: ss => [|s ss IHs] //. cbn [fgflat fold_right]. rewrite -/(fgflat _ ss) {1}/fgapp.
  set G := fgflat _ (fentries s n). case SG: (snd G) => [e'|] //.
  rewrite SG => [[<-]]. move: SG. rewrite /G.
  elim: (fentries s n) => [|c l IHl] //. cbn [fgflat fold_right]. rewrite -/(fgflat _ l) {1}/fgapp.
  set X := match tail with [] => _ | _ :: _ => _ end. case SX: (snd X) => [e''|] //.
  rewrite SX => [[<-]]. move: SX. rewrite /X. case Et: tail => [|n2 tail2].
  - by case: (isa _ _).
  - rewrite -Et. rewrite /fwithin. have := fregisters_spec h (fmembers h c) [] [] (frep_nil h) (FOP_nil _).
    case: (foldM _ _ _) => [s2|e2].
    + move=> _ Y. have [Q _] := IH _ _ Y. split=> // m. by rewrite Et.
    + move=> Q [<-]. split; last by move=> m; rewrite Et.
      case: Q => [[-> _]|[-> _]]; [by right|by left].
Qed.

(** The first match of a chain of two lookups *)
Lemma hd_error_app A (a b : list A) : hd_error (a ++ b) = match hd_error a with Some x => Some x | None => hd_error b end.
Proof. by case: a. Qed.
Lemma fgfirst_spec g L : (exists m, L = fst g ++ m /\ (snd g = None -> m = [])) ->
  match fgfirst g with
  | Ok o => hd_error L = o
  | Err e => snd g = Some e
  end.
Proof.
  move=> [m [-> N]]. rewrite /fgfirst. case: (fst g) => [|x l] //=.
  case S1: (snd g) N => [e|] // N. by rewrite (N eq_refl).
Qed.
Lemma fgapp_spec g1 g2 L1 L2 : (exists m, L1 = fst g1 ++ m /\ (snd g1 = None -> m = [])) ->
  (exists m, L2 = fst g2 ++ m /\ (snd g2 = None -> m = [])) ->
  exists m, L1 ++ L2 = fst (fgapp g1 g2) ++ m /\ (snd (fgapp g1 g2) = None -> m = []).
Proof.
  move=> [m1 [-> N1]] [m2 [-> N2]]. rewrite /fgapp. case S1: (snd g1) => [e|].
  - exists (m1 ++ fst g2 ++ m2). rewrite -!app_assoc. split=> //. by rewrite S1.
  - exists m2. rewrite (N1 S1) app_nil_r -app_assoc. by split.
Qed.
Lemma mean_app h t ref a b : ref <> [] -> mean h ref t (a ++ b) = mean h ref t a ++ mean h ref t b.
Proof.
  case: ref => [|n [|m ref]] // _; cbn [mean]; first by rewrite !filter_app.
  by rewrite filter_app flat_map_app.
Qed.

Lemma forward_ref_spec h ss asm d da s t :
  Forall2 (frep h) ss d -> Forall2 (frep h) asm da ->
  match forward_ref h ss asm s t with
  | Ok (Some r) => hd_error (mean h s t (List.concat d ++ List.concat da)) = Some r
  | Ok None => mean h s t (List.concat d ++ List.concat da) = [] /\ deferrable t = true
  | Err e => (e = ParseError \/ e = AssertionError /\ (forall n, s <> [n])) /\
             ((forall n, s <> [n]) \/ mean h s t (List.concat d ++ List.concat da) = [])
  end.
Proof.
  move=> F FA. rewrite /forward_ref. case: s => [|n s].
  { cbn [flookup]. rewrite /fgapp /=. split; [by right|by left]. }
  set ref := n :: s. have NR : ref <> [] by [].
  have P := fgapp_spec _ _ _ _ (flookup_spec h t ref ss d NR F) (flookup_spec h t ref asm da NR FA).
  rewrite -(mean_app h t ref _ _ NR) in P.
  have SN : forall e, snd (fgapp (flookup h ref t ss) (flookup h ref t asm)) = Some e ->
     (e = ParseError \/ e = AssertionError) /\ forall n, ref <> [n].
  { rewrite /fgapp => e. case S1: (snd (flookup h ref t ss)) => [e1|]; cbn [snd].
    - rewrite S1 => [[<-]]. exact: flookup_err S1.
    - move=> X. exact: flookup_err X. }
  have := fgfirst_spec _ _ P. case: (fgfirst _) => [o|e]; cbn [bind].
  - case: o => [r|] //. move=> H.
    have ME : mean h ref t (List.concat d ++ List.concat da) = [] by case: (mean _ _ _ _) H.
    case DT: (deferrable t) => //.
    case S2: (snd (flookup h ref TAny ss)) => [e|].
    + have [Q1 Q2] := flookup_err _ _ _ _ _ S2. split; last by right.
      case: Q1 => ->; [by left|by right].
    + split; [by left|by right].
  - move=> /SN [Q1 Q2]. split; last by left. case: Q1 => ->; [by left|by right].
Qed.

(** Lookups of m.n without errors *)
Definition clean (h : heap) (x : nat) : Prop := Forall (is_obj h) (interior h x) /\ distinct_names h (interior h x).
Lemma fgflat_none A (f : A -> fgen) l : (forall x, In x l -> snd (f x) = None) -> snd (fgflat f l) = None.
Proof.
  elim: l => [|x l IH] H //. cbn [fgflat fold_right]. rewrite -/(fgflat f l) /fgapp (H x (or_introl eq_refl)).
  cbn [snd]. apply: IH => y Hy. apply: H. by right.
Qed.
Lemma flookup_clean h m n t ss d : Forall2 (frep h) ss d ->
  (forall x, In x (List.concat d) -> has_name h m x = true -> clean h x) -> snd (flookup h [m; n] t ss) = None.
Proof.
  move=> F H. have E : flookup h [m; n] t ss = fgflat (fun s => fgflat (fun c =>
    match fwithin h c with
    | Err e => ([], Some e)
    | Ok inner => let g := flookup h [n] t [inner] in (filter (fun c => isa (class_of h c) t) (fst g), snd g)
    end) (fentries s m)) ss by [].
  rewrite E. clear E. apply: fgflat_none => s Is. apply: fgflat_none => c Ic.
  have [CL1 CL2] : clean h c.
  { have : exists l, In l d /\ frep h s l.
    { clear H. elim: F Is => [|s' l ss' d' R F IH] //= [<-|Is]; first by exists l; split; [left|].
      have [l' [I1 R1]] := IH Is. exists l'. by split; [right|]. }
    move=> [l [Il R]]. have [EN _] := R m. rewrite EN in Ic. move: Ic => /filter_In [Ic Nc].
    apply: H => //. apply/in_concat. by exists l. }
  rewrite /fwithin. have := fregisters_spec h (fmembers h c) [] [] (frep_nil h) (FOP_nil _).
  rewrite fmembersP. case: (foldM _ _ _) => [inner|e].
  - move=> _. cbv zeta. cbn [snd]. exact: flookup_single.
  - by move=> [[_ N]|[_ N]]; case: N.
Qed.
Lemma forward_ref_clean h ss asm d da m n t : Forall2 (frep h) ss d -> Forall2 (frep h) asm da -> deferrable t = true ->
  (forall x, In x (List.concat d ++ List.concat da) -> has_name h m x = true -> clean h x) ->
  exists o, forward_ref h ss asm [m; n] t = Ok o.
Proof.
  move=> F FA DT H. rewrite /forward_ref.
  have S1 : snd (flookup h [m; n] t ss) = None.
  { apply: flookup_clean F _ => x Ix. apply: H. apply/in_app_iff. by left. }
  have S2 : snd (flookup h [m; n] t asm) = None.
  { apply: flookup_clean FA _ => x Ix. apply: H. apply/in_app_iff. by right. }
  rewrite /fgapp S1 /fgfirst. cbn [fst snd]. rewrite S2 DT.
  by case: (_ ++ _) => [|x l]; cbn [bind]; eexists.
Qed.
