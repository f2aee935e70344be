From Coq Require Import List String Ascii Bool NArith Permutation ssreflect Lia.
From Verif Require Import Prelude DecStr Isabelle_Model Isabelle_Spec Isabelle_Proofs Refine_Model Arch_Model Arch_Spec Arch_Proofs.
Import ListNotations.
Open Scope string_scope. Open Scope list_scope.

(** * Names *)
Definition has_kind (k s : string) : Prop := exists n, hierarchical n /\ isabelle_adl_ident k n = Ok s.
Lemma kinds_apart k1 k2 s : In k1 named_kinds -> In k2 named_kinds -> has_kind k1 s -> has_kind k2 s -> k1 = k2.
Proof. move=> K1 K2 [a [Ha Ea]] [b [Hb Eb]]. by have [? _] := adl_inj _ _ _ _ _ K1 K2 Ha Hb Ea Eb. Qed.
Lemma kind_prefix k s : has_kind k s -> exists i, s = (k ++ "__" ++ i)%string.
Proof. move=> [n [_]]. rewrite /isabelle_adl_ident. case: isabelle_ident => [i|] //= E. injection E as <-. by exists i. Qed.

Lemma nodup_F2 {A B} (R : A -> string * B -> Prop) l l' : Forall2 R l l' -> NoDup l ->
  (forall x x' y y', In x l -> In x' l -> R x y -> R x' y' -> fst y = fst y' -> x = x') -> NoDup (map fst l').
Proof.
  elim=> [|x y m m' H F IH] N J /=; first by constructor.
  inversion N as [|? ? N1 N2]; subst. constructor.
  - move=> /in_map_iff [y' [E I]]. have [x' [I' R']] := F2_in_r _ _ _ _ F I.
    have ? : x = x' by exact: (J x x' y y' (or_introl eq_refl) (or_intror I') H R' (eq_sym E)). by subst x'.
  - apply: IH => // u u' v v' Iu Iu'. by apply: J; right.
Qed.
Lemma nodup_app {A} (l m : list A) : NoDup l -> NoDup m -> (forall x, In x l -> ~ In x m) -> NoDup (l ++ m).
Proof.
  elim=> [|x l' N1 N2 IH] Nm D //=. constructor.
  - move/in_app_iff => [?|]; first by []. by apply: D; left.
  - apply: IH => // y I. by apply: D; right.
Qed.

Section Names.
Variable a : assembly.
Hypothesis N : named a.
Variable th : list (string * value).
Variable p : parts a th.

Lemma hier n : In n (map fst (as_instances a) ++ map cn_name (as_connections a) ++
    map (fun c => k_name (cn_type c)) (as_connections a) ++ map (fun i => co_name (snd i)) (as_instances a) ++
    map pr_name (all_procs a) ++ all_events a) -> hierarchical n.
Proof. move=> I. by move/Forall_forall: (nm_names _ N) => /(_ _ I). Qed.
Lemma hier_k k : In k (connectors a) -> hierarchical (k_name k).
Proof.
  move=> /uniq_In /in_map_iff [c [<- I]]. apply: hier. rewrite !in_app_iff. right. right. left.
  by apply: (in_map (fun c => k_name (cn_type c))).
Qed.
Lemma hier_p q : In q (procedures a) -> hierarchical (pr_name q).
Proof. move=> /uniq_In I. apply: hier. rewrite !in_app_iff. do 4 right. left. by apply: in_map. Qed.
Lemma hier_e e : In e (events a) -> hierarchical e.
Proof. move=> /uniq_In I. apply: hier. rewrite !in_app_iff. by do 5 right. Qed.
Lemma hier_c c : In c (components a) -> hierarchical (co_name c).
Proof.
  move=> /uniq_In /in_map_iff [i [<- I]]. apply: hier. rewrite !in_app_iff. do 3 right. left.
  by apply: (in_map (fun i => co_name (snd i))).
Qed.
Lemma hier_i i : In i (as_instances a) -> hierarchical (fst i).
Proof. move=> I. apply: hier. rewrite !in_app_iff. left. by apply: in_map. Qed.
Lemma hier_n c : In c (as_connections a) -> hierarchical (cn_name c).
Proof. move=> I. apply: hier. rewrite !in_app_iff. right. left. by apply: in_map. Qed.
Lemma type_d t : In t (dataports a) -> dataport_type t.
Proof. move=> /uniq_In I. by move/Forall_forall: (nm_dataports _ N) => /(_ _ I). Qed.

Lemma def_k k y : connector_def k = Ok y -> isabelle_adl_ident "connector" (k_name k) = Ok (fst y).
Proof. rewrite /connector_def. case: isabelle_adl_ident => [n|] //= E. by injection E as <-. Qed.
Lemma def_p q y : procedure_def q = Ok y -> isabelle_adl_ident "procedure" (pr_name q) = Ok (fst y).
Proof. rewrite /procedure_def. case: isabelle_adl_ident => [n|] //=. case: mapM => [ms|] //= E. by injection E as <-. Qed.
Lemma def_e x y : event_def x = Ok y -> isabelle_adl_ident "event" (snd x) = Ok (fst y).
Proof. rewrite /event_def. case: isabelle_adl_ident => [n|] //= E. by injection E as <-. Qed.
Lemma def_d t y : dataport_def t = Ok y -> isabelle_dataport t = Ok (fst y).
Proof. rewrite /dataport_def. case: isabelle_dataport => [n|] //= E. by injection E as <-. Qed.
Lemma def_c c y : component_def c = Ok y -> isabelle_adl_ident "instance" (co_name c) = Ok (fst y).
Proof. case: y => n v /component_inv [? _]. by []. Qed.
Lemma def_i i y : instance_def i = Ok y -> isabelle_adl_ident "component" (fst i) = Ok (fst y) /\
  exists r, isabelle_adl_ident "instance" (co_name (snd i)) = Ok r /\ snd y = VSame r.
Proof.
  rewrite /instance_def. case: (isabelle_adl_ident "component") => [n|] //=. case: isabelle_adl_ident => [r|] //= E.
  injection E as <-. split=> //. by exists r.
Qed.
Lemma def_n c y : connection_def c = Ok y -> isabelle_adl_ident "connection" (cn_name c) = Ok (fst y) /\
  exists k, isabelle_adl_ident "connector" (k_name (cn_type c)) = Ok k /\ snd y = VConnection k (cn_from c) (cn_to c).
Proof.
  rewrite /connection_def. case: (isabelle_adl_ident "connection") => [n|] //=. case: isabelle_adl_ident => [r|] //= E.
  injection E as <-. split=> //. by exists r.
Qed.

Lemma kind_k y : In y (t_ks _ _ p) -> has_kind "connector" (fst y).
Proof. move=> I. have [k [Ik /def_k D]] := F2_in_r _ _ _ _ (pk _ _ p) I. exists (k_name k). by split; [apply: hier_k|]. Qed.
Lemma kind_p y : In y (t_ps _ _ p) -> has_kind "procedure" (fst y).
Proof. move=> I. have [k [Ik /def_p D]] := F2_in_r _ _ _ _ (pp _ _ p) I. exists (pr_name k). by split; [apply: hier_p|]. Qed.
Lemma in_combine_snd {A B} (l : list A) (m : list B) x : In x (combine l m) -> In (snd x) m.
Proof. case: x => u v. by apply: in_combine_r. Qed.
Lemma kind_e y : In y (t_es _ _ p) -> has_kind "event" (fst y).
Proof.
  move=> I. have [k [/in_combine_snd Ik /def_e D]] := F2_in_r _ _ _ _ (pe _ _ p) I. exists (snd k).
  by split; [apply: hier_e|].
Qed.
Lemma kind_d y : In y (t_ds _ _ p) -> has_kind "dataport" (fst y).
Proof.
  move=> I. have [k [Ik /def_d D]] := F2_in_r _ _ _ _ (pd _ _ p) I. exists (sub_parens k). split=> //.
  apply: identifier_hierarchical. apply: sub_is_identifier. by apply: type_d.
Qed.
Lemma kind_c y : In y (t_cs _ _ p) -> has_kind "instance" (fst y).
Proof. move=> I. have [k [Ik /def_c D]] := F2_in_r _ _ _ _ (pc _ _ p) I. exists (co_name k). by split; [apply: hier_c|]. Qed.
Lemma kind_i y : In y (t_is _ _ p) -> has_kind "component" (fst y).
Proof. move=> I. have [k [Ik /def_i [D _]]] := F2_in_r _ _ _ _ (pi _ _ p) I. exists (fst k). by split; [apply: hier_i|]. Qed.
Lemma kind_n y : In y (t_ns _ _ p) -> has_kind "connection" (fst y).
Proof. move=> I. have [k [Ik /def_n [D _]]] := F2_in_r _ _ _ _ (pn _ _ p) I. exists (cn_name k). by split; [apply: hier_n|]. Qed.

Lemma same_adl k x y i : In k named_kinds -> hierarchical x -> hierarchical y ->
  isabelle_adl_ident k x = Ok i -> isabelle_adl_ident k y = Ok i -> x = y.
Proof. move=> K Hx Hy Ex Ey. by have [_ ?] := adl_inj _ _ _ _ _ K K Hx Hy Ex Ey. Qed.
Ltac kin := rewrite /named_kinds /=; tauto.

Lemma nodup_k : NoDup (map fst (t_ks _ _ p)).
Proof.
  apply: (nodup_F2 _ _ _ (pk _ _ p) (uniq_NoDup _ _)) => x x' y y' I I' /def_k D /def_k D' E. rewrite E in D.
  have H : k_name x = k_name x' by apply: (same_adl "connector") D D'; [kin|apply: hier_k|apply: hier_k].
  by apply: (nm_connectors _ N) => //; apply/uniq_In; eassumption.
Qed.
Lemma nodup_p : NoDup (map fst (t_ps _ _ p)).
Proof.
  apply: (nodup_F2 _ _ _ (pp _ _ p) (uniq_NoDup _ _)) => x x' y y' I I' /def_p D /def_p D' E. rewrite E in D.
  have H : pr_name x = pr_name x' by apply: (same_adl "procedure") D D'; [kin|apply: hier_p|apply: hier_p].
  by apply: (nm_procedures _ N) => //; apply/uniq_In; eassumption.
Qed.
Lemma combine_nodup {A} k (l : list A) : NoDup (combine (seq k (List.length l)) l).
Proof.
  elim: l k => [|x l IH] k /=; constructor=> //. move=> J. have := in_combine_l _ _ _ _ J. rewrite in_seq. lia.
Qed.
Lemma combine_fst_inj {A} (l : list A) x x' : NoDup l ->
  forall k, In x (combine (seq k (List.length l)) l) -> In x' (combine (seq k (List.length l)) l) -> snd x = snd x' -> x = x'.
Proof.
  elim: l => [|z l IH] // Nd. inversion Nd as [|? ? N1 N2]; subst. move=> k /= [<-|I] [<-|I'] E //.
  - exfalso. apply: N1. move/in_combine_snd: I'. by rewrite -E.
  - exfalso. apply: N1. move/in_combine_snd: I. by rewrite E.
  - exact: (IH N2 (S k) I I' E).
Qed.
Lemma nodup_e : NoDup (map fst (t_es _ _ p)).
Proof.
  apply: (nodup_F2 _ _ _ (pe _ _ p) (combine_nodup _ _)) => x x' y y' I I' /def_e D /def_e D' E. rewrite E in D.
  have H : snd x = snd x'.
  { apply: (same_adl "event") D D'; [kin|apply: hier_e|apply: hier_e]; by apply: in_combine_snd; eassumption. }
  by apply: (combine_fst_inj _ _ _ (uniq_NoDup _ _)) H; eassumption.
Qed.
Lemma nodup_d : NoDup (map fst (t_ds _ _ p)).
Proof.
  apply: (nodup_F2 _ _ _ (pd _ _ p) (uniq_NoDup _ _)) => x x' y y' I I' /def_d D /def_d D' E. rewrite E in D.
  case: (dataport_inj _ _ _ (type_d _ I) (type_d _ I') D D') => [//|[n [[E1 E2]|[E1 E2]]]]; exfalso.
  - apply: (nm_buffers _ N n); [rewrite -E1|rewrite -E2]; apply/uniq_In; eassumption.
  - apply: (nm_buffers _ N n); [rewrite -E1|rewrite -E2]; apply/uniq_In; eassumption.
Qed.
Lemma nodup_c : NoDup (map fst (t_cs _ _ p)).
Proof.
  apply: (nodup_F2 _ _ _ (pc _ _ p) (uniq_NoDup _ _)) => x x' y y' I I' /def_c D /def_c D' E. rewrite E in D.
  have H : co_name x = co_name x' by apply: (same_adl "instance") D D'; [kin|apply: hier_c|apply: hier_c].
  by apply: (nm_components _ N) => //; apply/uniq_In; eassumption.
Qed.
Lemma nodup_map_inj {A B} (f : A -> B) l x y : NoDup (map f l) -> In x l -> In y l -> f x = f y -> x = y.
Proof.
  elim: l => [|z l IH] //= Nd. inversion Nd as [|? ? N1 N2]; subst. move=> [<-|I] [<-|I'] E //.
  - exfalso. apply: N1. rewrite E. by apply: in_map.
  - exfalso. apply: N1. rewrite -E. by apply: in_map.
  - by apply: IH E.
Qed.
Lemma nodup_i : NoDup (map fst (t_is _ _ p)).
Proof.
  apply: (nodup_F2 _ _ _ (pi _ _ p) (NoDup_map_inv _ _ (nm_instances _ N))) => x x' y y' I I' /def_i [D _] /def_i [D' _] E.
  rewrite E in D. apply: (nodup_map_inj fst _ _ _ (nm_instances _ N) I I').
  by apply: (same_adl "component") D D'; [kin|apply: hier_i|apply: hier_i].
Qed.
Lemma nodup_n : NoDup (map fst (t_ns _ _ p)).
Proof.
  apply: (nodup_F2 _ _ _ (pn _ _ p) (NoDup_map_inv _ _ (nm_connections _ N))) => x x' y y' I I' /def_n [D _] /def_n [D' _] E.
  rewrite E in D. apply: (nodup_map_inj cn_name _ _ _ (nm_connections _ N) I I').
  by apply: (same_adl "connection") D D'; [kin|apply: hier_n|apply: hier_n].
Qed.

Hypothesis O : own_names a.
Lemma comp_name : fst (t_comp _ _ p) = composition_name a.
Proof. have := pcomp _ _ p. case: t_comp => n v /composition_inv [-> _]. by []. Qed.
Lemma names_of_parts x (l : list (string * value)) k : (forall y, In y l -> has_kind k (fst y)) -> In x (map fst l) -> has_kind k x.
Proof. move=> H /in_map_iff [y [<- I]]. by apply: H. Qed.

Lemma once : NoDup (map fst th).
Proof.
  have Last : forall k x, In k named_kinds -> has_kind k x ->
    ~ In x [composition_name a; configuration_name a; assembly_name a].
  { move=> k x K /kind_prefix [i ->] I. case: O => _ /(_ (k ++ "__" ++ i)%string k i) H. apply: H => //. move: I => /=. tauto. }
  rewrite (pth _ _ p) !map_app. cbn [map fst]. rewrite comp_name.
  have X : forall k1 k2 x, In k1 named_kinds -> In k2 named_kinds -> k1 <> k2 -> has_kind k1 x -> has_kind k2 x -> False.
  { move=> k1 k2 x K1 K2 Ne H1 H2. apply: Ne. by apply: (kinds_apart _ _ x). }
  have S7 : NoDup [composition_name a; configuration_name a; assembly_name a].
  { case: O => O1 _. apply: Permutation_NoDup O1. rewrite perm_swap.
    apply: perm_skip. by apply: perm_swap. }
  repeat (apply: nodup_app; [by auto using nodup_k, nodup_p, nodup_e, nodup_d, nodup_c, nodup_i, nodup_n| |]); first exact: S7.
  all: move=> x I; rewrite ?in_app_iff => J.
  all: repeat (match goal with
    | I : In ?x (map fst (t_ks _ _ _)) |- _ => apply (names_of_parts _ _ _ kind_k) in I
    | I : In ?x (map fst (t_ps _ _ _)) |- _ => apply (names_of_parts _ _ _ kind_p) in I
    | I : In ?x (map fst (t_es _ _ _)) |- _ => apply (names_of_parts _ _ _ kind_e) in I
    | I : In ?x (map fst (t_ds _ _ _)) |- _ => apply (names_of_parts _ _ _ kind_d) in I
    | I : In ?x (map fst (t_cs _ _ _)) |- _ => apply (names_of_parts _ _ _ kind_c) in I
    | I : In ?x (map fst (t_is _ _ _)) |- _ => apply (names_of_parts _ _ _ kind_i) in I
    | I : In ?x (map fst (t_ns _ _ _)) |- _ => apply (names_of_parts _ _ _ kind_n) in I
    | I : has_kind ?k ?x, J : In ?x [composition_name a; _; _] |- _ => apply (Last k x ltac:(kin) I J)
    | I : has_kind ?k ?x, J : has_kind ?m ?x |- _ => apply (X k m x ltac:(kin) ltac:(kin) ltac:(discriminate) I J)
    | J : _ \/ _ |- _ => destruct J as [J|J]
    end).
Qed.
End Names.
