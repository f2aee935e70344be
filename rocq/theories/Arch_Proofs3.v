From Coq Require Import List String Ascii Bool NArith Permutation ssreflect Lia.
From Verif Require Import Prelude DecStr Isabelle_Model Isabelle_Spec Isabelle_Proofs Refine_Model Refine_Proofs Arch_Model Arch_Spec Arch_Proofs Arch_Proofs2.
Import ListNotations.
Open Scope string_scope. Open Scope list_scope.

(** * Types *)
Lemma prim_of_name t q : prim_of t = Some q -> t = prim_name q.
Proof.
  rewrite /prim_of. repeat (case: String.eqb_spec => [->|_]; first by move=> H; injection H as <-). by [].
Qed.
Lemma prim_of_none t : prim_of t = None -> ~ In t primitive_names.
Proof.
  rewrite /prim_of. repeat (case: String.eqb_spec => [//|?]). move=> _ /=. intuition congruence.
Qed.
Lemma prim_of_some q : prim_of (prim_name q) = Some q.
Proof. by case: q. Qed.
Lemma camkes_type_stands t : stands_for (camkes_type t) t false.
Proof.
  rewrite /camkes_type. case E: prim_of => [q|] /=; first by split=> //; apply: prim_of_name.
  split=> //. split=> //. by apply: prim_of_none.
Qed.
Lemma param_type_stands x t : param_type x = Ok t -> stands_for t (pa_type x) (pa_array x).
Proof.
  rewrite /param_type. case: pa_array; last by move=> H; injection H as <-; apply: camkes_type_stands.
  case E: prim_of => [q|] //. move/prim_of_name: E => ->.
  case: q => // H; injection H as <-; by split.
Qed.
Lemma direction_stands s d : direction_of s = Ok d -> In s (direction_words d).
Proof.
  rewrite /direction_of. case: String.eqb_spec => [->|_] /=; first by move=> H; injection H as <-; left.
  case: String.eqb_spec => [->|_] /=; first by move=> H; injection H as <-; right; left.
  case: String.eqb_spec => [->|_] /=; first by move=> H; injection H as <-; left.
  case: String.eqb_spec => [->|_] //= H; injection H as <-; by left.
Qed.
Lemma param_described x y : param_def x = Ok y -> describes_param x y.
Proof.
  rewrite /param_def. case E: param_type => [t|] //=. case D: direction_of => [d|] //= H. injection H as <-.
  split=> //. split; [by apply: param_type_stands|by apply: direction_stands].
Qed.
Lemma method_described x y : method_def x = Ok y -> describes_method x y.
Proof.
  rewrite /method_def. case E: mapM => [ps|] //= H. injection H as <-. split=> //. split.
  - case: me_ret => [t|] //=. by apply: camkes_type_stands.
  - move/mapM_ok: E. apply: F2_impl => ? ? _. by apply: param_described.
Qed.
Lemma procedure_described q n v : procedure_def q = Ok (n, v) -> describes_procedure q v.
Proof.
  rewrite /procedure_def. case: isabelle_adl_ident => [m|] //=. case E: mapM => [ms|] //= H. injection H as _ <-.
  exists ms. split=> //. move/mapM_ok: E. apply: F2_impl => ? ? _. by apply: method_described.
Qed.
Lemma connector_described k n v : connector_def k = Ok (n, v) -> describes_connector k v.
Proof.
  rewrite /connector_def. case: isabelle_adl_ident => [m|] //= H. injection H as _ <-.
  case E: k_spec => [s|] //=. split=> //. split; first by apply: orb_true_iff.
  case: String.eqb_spec => [->|N1] //=. case: String.eqb_spec => [->|N2] //=. case: String.eqb_spec => [->|N3] //=.
  intuition congruence.
Qed.
Lemma exported_same c i : interface_is_exported c i = existsb (String.eqb i) (co_exports c).
Proof.
  rewrite /interface_is_exported. elim: co_exports => [|x l IH] //=. by rewrite IH.
Qed.

(** * The description *)
Lemma F2_map_r {A B C} (R : A -> C -> Prop) (f : B -> C) l l' : Forall2 (fun x y => R x (f y)) l l' -> Forall2 R l (map f l').
Proof. elim=> [|x y m m' H F IH] //=; by constructor. Qed.
Lemma F2_self {A B} (R : A -> B -> Prop) (f : A -> B) l : (forall x, In x l -> R x (f x)) -> Forall2 R l (map f l).
Proof. elim: l => [|x l IH] H /=; constructor; [by apply: H; left|apply: IH => y I; by apply: H; right]. Qed.
Lemma filter_same {A} (f g : A -> bool) l : (forall x, f x = g x) -> filter f l = filter g l.
Proof. move=> H. elim: l => [|x l IH] //=. by rewrite H IH. Qed.

Section Described.
Variables (a : assembly) (th : list (string * value)).
Hypothesis Nm : named a.
Hypothesis On : own_names a.
Hypothesis E : arch_theory a = Ok th.

Lemma described_all : NoDup (events a) /\ describes_assembly th (events a) a (assembly_name a).
Proof.
  split; first exact: uniq_NoDup.
  have [p _] := parts_of _ _ E.
  have Nd : NoDup (dkeys (th : dict string value)) := once _ Nm _ p On.
  have G n v : In (n, v) th -> dget (th : dict string value) n = Some v by move=> I; apply: (In_dget _ _ _ _ Nd I).
  have Gk n v : In (n, v) (t_ks _ _ p) -> dget (th : dict string value) n = Some v.
  { move=> I. apply: G. rewrite (pth _ _ p) !in_app_iff. tauto. }
  have Gp n v : In (n, v) (t_ps _ _ p) -> dget (th : dict string value) n = Some v.
  { move=> I. apply: G. rewrite (pth _ _ p) !in_app_iff. tauto. }
  have Ge n v : In (n, v) (t_es _ _ p) -> dget (th : dict string value) n = Some v.
  { move=> I. apply: G. rewrite (pth _ _ p) !in_app_iff. tauto. }
  have Gd n v : In (n, v) (t_ds _ _ p) -> dget (th : dict string value) n = Some v.
  { move=> I. apply: G. rewrite (pth _ _ p) !in_app_iff. tauto. }
  have Gc n v : In (n, v) (t_cs _ _ p) -> dget (th : dict string value) n = Some v.
  { move=> I. apply: G. rewrite (pth _ _ p) !in_app_iff. tauto. }
  have Gi n v : In (n, v) (t_is _ _ p) -> dget (th : dict string value) n = Some v.
  { move=> I. apply: G. rewrite (pth _ _ p) !in_app_iff. tauto. }
  have Gn n v : In (n, v) (t_ns _ _ p) -> dget (th : dict string value) n = Some v.
  { move=> I. apply: G. rewrite (pth _ _ p) !in_app_iff. tauto. }
  have PC := pcomp _ _ p. case Ec: (t_comp _ _ p) PC => [n v] PC.
  have [En [js [cs [Ev [F1 F2]]]]] := composition_inv _ _ _ PC. subst n v.
  exists (composition_name a), (configuration_name a), js, cs, (arch_group_labels (as_groups a)).
  split; [apply: G; rewrite (pth _ _ p) Ec !in_app_iff /=; tauto|].
  split; [apply: G; rewrite (pth _ _ p) Ec !in_app_iff /=; tauto|].
  split; [apply: G; rewrite (pth _ _ p) Ec !in_app_iff /=; tauto|].
  split; [exact: arch_perm|]. split.
  - apply: F2_impl F1 => - [n t] [m r] I [Ei Em]. cbn [fst snd] in *. split=> //.
    have [[m2 v] [K D]] := F2_in_l _ _ _ _ (pi _ _ p) I. have [Ei2 [r' [Er Ev]]] := def_i _ _ D. cbn [fst snd] in *.
    rewrite Ei in Ei2. injection Ei2 as Ei2. subst m2 v.
    have [v [Kc Dc]] := component_name _ _ p _ _ I Er. cbn [fst snd] in *.
    have [_ [d [Ed [C1 [C2 [H1 [H2 [H3 [H4 [H5 H6]]]]]]]]]] := component_inv _ _ _ Dc. subst v.
    exists r', d. split; [exact: Gi|]. split; [exact: Gc|].
    split=> //. split=> //.
    split. { rewrite /own_uses (filter_same _ (fun x => negb (interface_is_exported t (fst (fst x)))));
      first by move=> x; rewrite exported_same.
      apply: F2_impl H1 => - [[i o] q] [j [b s]] /filter_In [J _] [Eq [Ej Eb]]. cbn [fst snd] in *. split=> //. split=> //.
      have [w [Kp Dp]] := procedure_name _ _ p _ _ (used_type _ _ _ I J) Eq. cbn [snd] in *.
      exists w. split; [exact: Gp|by apply: procedure_described Dp]. }
    split. { rewrite /own_provides (filter_same _ (fun x => negb (interface_is_exported t (fst x))));
      first by move=> x; rewrite exported_same.
      apply: F2_impl H2 => - [i q] [j s] /filter_In [J _] [Eq Ej]. cbn [fst snd] in *. split=> //.
      have [w [Kp Dp]] := procedure_name _ _ p _ _ (provided_type _ _ _ I J) Eq. cbn [snd] in *.
      exists w. split; [exact: Gp|by apply: procedure_described Dp]. }
    split. { apply: F2_impl H3 => - [i q] [j s] J [Eq Ej]. cbn [fst snd] in *. split=> //.
      apply: Gd. exact: (dataport_name _ _ p _ _ (dataport_type_in _ _ _ I J) Eq). }
    split. { apply: F2_impl H4 => - [i q] [j s] J [Eq Ej]. cbn [fst snd] in *. split=> //.
      have [w [Kp Dp]] := event_name _ _ p _ _ (emitted_type _ _ _ I J) Eq. exists w. split=> //. exact: Ge. }
    split. { apply: F2_impl H5 => - [[i o] q] [j [b s]] J [Eq [Ej Eb]]. cbn [fst snd] in *. split=> //. split=> //.
      have [w [Kp Dp]] := event_name _ _ p _ _ (consumed_type _ _ _ I J) Eq. exists w. split=> //. exact: Ge. }
    rewrite H6. apply: F2_self => [[i u]] _. split=> //. exact: camkes_type_stands.
  - apply: F2_impl F2 => n [m r] I [Ei Em]. cbn [fst snd] in *. split=> //.
    have [[m2 v] [K D]] := F2_in_l _ _ _ _ (pn _ _ p) I. have [Ei2 [k [Ek Ev]]] := def_n _ _ D. cbn [fst snd] in *.
    rewrite Ei in Ei2. injection Ei2 as Ei2. subst m2 v.
    have [v [Kk Dk]] := connector_name _ _ p _ _ I Ek.
    exists k, v. split; [exact: Gn|]. split; [exact: Gk|by apply: connector_described Dk].
Qed.
End Described.

(** * Acceptance *)
Lemma adl_ok k n : hierarchical n -> exists i, isabelle_adl_ident k n = Ok i.
Proof. move=> H. have [i Ei] := accepted _ H. rewrite /isabelle_adl_ident Ei /=. by eexists. Qed.
Lemma mapM_total {A B} (f : A -> res B) l : (forall x, In x l -> exists y, f x = Ok y) -> exists l', mapM f l = Ok l'.
Proof.
  elim: l => [|x l IH] H /=; first by exists [].
  have [y ->] := H x (or_introl eq_refl). have [ys ->] := IH (fun x I => H x (or_intror I)). by exists (y :: ys).
Qed.
Lemma dataport_ok t : dataport_type t -> exists i, isabelle_dataport t = Ok i.
Proof. move=> H. apply: adl_ok. apply: identifier_hierarchical. by apply: sub_is_identifier. Qed.
Lemma accepted_all a : named a -> printable a -> exists th, arch_theory a = Ok th.
Proof.
  move=> N P. rewrite /arch_theory.
  have [ks ->] : exists l, mapM connector_def (connectors a) = Ok l.
  { apply: mapM_total => k I. rewrite /connector_def. have [i ->] := adl_ok "connector" _ (hier_k _ N _ I). by eexists. }
  have [ps ->] : exists l, mapM procedure_def (procedures a) = Ok l.
  { apply: mapM_total => q I. rewrite /procedure_def. have [i ->] := adl_ok "procedure" _ (hier_p _ N _ I). cbn [bind].
    have [ms ->] : exists l, mapM method_def (pr_methods q) = Ok l; last by eexists.
    apply: mapM_total => m J. rewrite /method_def.
    have [xs ->] : exists l, mapM param_def (me_params m) = Ok l; last by eexists.
    apply: mapM_total => x K. have I2 : In q (all_procs a) by move/uniq_In: I.
    have [Hd Ht] := P q m x I2 J K.
    have [d Ed] : exists d, direction_of (pa_dir x) = Ok d.
    { move: Hd => /= [<-|[<-|[<-|[<-|]]]] //; by eexists. }
    have [t Et] : exists t, param_type x = Ok t.
    { rewrite /param_type. case: pa_array Ht => Ht; last by eexists.
      move: (Ht eq_refl) => /= [<-|[<-|[<-|[<-|[<-|[<-|]]]]]] //; by eexists. }
    rewrite /param_def Et /= Ed /=. by eexists. }
  have [es ->] : exists l, mapM event_def (combine (seq 0 (List.length (events a))) (events a)) = Ok l.
  { apply: mapM_total => x /in_combine_snd I. rewrite /event_def. have [i ->] := adl_ok "event" _ (hier_e _ N _ I). by eexists. }
  have [ds ->] : exists l, mapM dataport_def (dataports a) = Ok l.
  { apply: mapM_total => x I. rewrite /dataport_def. have [i ->] := dataport_ok _ (type_d _ N _ I). by eexists. }
  have [cs ->] : exists l, mapM component_def (components a) = Ok l.
  { apply: mapM_total => c I. rewrite /component_def. have [i ->] := adl_ok "instance" _ (hier_c _ N _ I). cbn [bind].
    move/uniq_In/in_map_iff: I => [j [Ej Ij]]. subst c.
    set m1 := mapM _ (filter _ (co_uses _)). have [l1 ->] : exists l, m1 = Ok l.
    { apply: mapM_total => [[[u o] q]] /filter_In [J _].
      have [r ->] := adl_ok "procedure" _ (hier_p _ N _ (used_type _ _ _ Ij J)). by eexists. }
    cbn [bind]. set m2 := mapM _ (filter _ (co_provides _)). have [l2 ->] : exists l, m2 = Ok l.
    { apply: mapM_total => [[u q]] /filter_In [J _].
      have [r ->] := adl_ok "procedure" _ (hier_p _ N _ (provided_type _ _ _ Ij J)). by eexists. }
    cbn [bind]. set m3 := mapM _ (co_dataports _). have [l3 ->] : exists l, m3 = Ok l.
    { apply: mapM_total => [[u q]] J. have [r ->] := dataport_ok _ (type_d _ N _ (dataport_type_in _ _ _ Ij J)). by eexists. }
    cbn [bind]. set m4 := mapM _ (co_emits _). have [l4 ->] : exists l, m4 = Ok l.
    { apply: mapM_total => [[u q]] J. have [r ->] := adl_ok "event" _ (hier_e _ N _ (emitted_type _ _ _ Ij J)). by eexists. }
    cbn [bind]. set m5 := mapM _ (co_consumes _). have [l5 ->] : exists l, m5 = Ok l.
    { apply: mapM_total => [[[u o] q]] J. have [r ->] := adl_ok "event" _ (hier_e _ N _ (consumed_type _ _ _ Ij J)). by eexists. }
    by eexists. }
  have [js ->] : exists l, mapM instance_def (as_instances a) = Ok l.
  { apply: mapM_total => i I. rewrite /instance_def. have [n ->] := adl_ok "component" _ (hier_i _ N _ I). cbn [bind].
    have Ic : In (snd i) (components a) by apply/uniq_In; apply: in_map.
    have [m ->] := adl_ok "instance" _ (hier_c _ N _ Ic). by eexists. }
  have [ns ->] : exists l, mapM connection_def (as_connections a) = Ok l.
  { apply: mapM_total => c I. rewrite /connection_def. have [n ->] := adl_ok "connection" _ (hier_n _ N _ I). cbn [bind].
    have Ic : In (cn_type c) (connectors a) by apply/uniq_In; apply: in_map.
    have [m ->] := adl_ok "connector" _ (hier_k _ N _ Ic). by eexists. }
  have [c ->] : exists c, composition_def a = Ok c.
  { rewrite /composition_def. set m1 := mapM _ (as_instances a). have [l1 ->] : exists l, m1 = Ok l.
    { apply: mapM_total => i I. have [n ->] := adl_ok "component" _ (hier_i _ N _ I). by eexists. }
    cbn [bind]. set m2 := mapM _ (as_connections a). have [l2 ->] : exists l, m2 = Ok l.
    { apply: mapM_total => i I. have [n ->] := adl_ok "connection" _ (hier_n _ N _ I). by eexists. }
    by eexists. }
  cbn [bind]. by eexists.
Qed.
(** What cannot be printed stops the template. *)
Lemma refused a q m x th : In q (all_procs a) -> In m (pr_methods q) -> In x (me_params m) -> pa_array x = true ->
  ~ In (pa_type x) ["int"; "unsigned int"; "real"; "char"; "character"; "boolean"] -> arch_theory a <> Ok th.
Proof.
  move=> Iq Im Ix A T E. have [p _] := parts_of _ _ E. have Iq2 : In q (procedures a) by apply/uniq_In.
  have [[n v] [_ D]] := F2_in_l _ _ _ _ (pp _ _ p) Iq2. move: D. rewrite /procedure_def.
  case: isabelle_adl_ident => [?|] //=. case Em: mapM => [ms|] //= _.
  move/mapM_ok: Em => Em. have [y [_]] := F2_in_l _ _ _ _ Em Im. rewrite /method_def. case Ep: mapM => [xs|] //= _.
  move/mapM_ok: Ep => Ep. have [z [_]] := F2_in_l _ _ _ _ Ep Ix. rewrite /param_def /param_type A.
  case Eo: prim_of => [o|] //. move/prim_of_name: Eo T => ->. case: o => //= T; exfalso; apply: T; tauto.
Qed.

(** * Connections *)
Lemma flat_NoDup {A B} (f : A -> list B) l x : NoDup (flat_map f l) -> In x (flat_map f l) ->
  exists u, In u l /\ In x (f u) /\ forall w, In w l -> In x (f w) -> w = u.
Proof.
  elim: l => [|z l IH] //= Nd /in_app_iff I.
  have D : In x (f z) -> In x (flat_map f l) -> False.
  { move: Nd. elim: (f z) => [|y m IHm] //= Nd. inversion Nd as [|? ? N1 N2]; subst.
    move=> [Ey|I1] I2; last by apply: IHm. apply: N1. rewrite Ey. apply/in_app_iff. by right. }
  case: I => I.
  - exists z. split; [by left|]. split=> // w [//|Iw] J. exfalso. apply: D => //. apply/in_flat_map. by exists w.
  - have Nl : NoDup (flat_map f l) by move: Nd; elim: (f z) => [|y m IHm] //= Nd; inversion Nd; apply: IHm.
    have [u [H1 [H2 H3]]] := IH Nl I. exists u. split; [by right|]. split=> // w [Ew|Iw] J; last by apply: H3.
    subst w. by exfalso; apply: D.
Qed.
Lemma required_once a th n c i q : arch_theory a = Ok th -> connected a -> In (n, c) (as_instances a) -> In (i, false, q) (own_uses c) ->
  exists x k f t, In (x, VConnection k f t) th /\ In (n, i) (f ++ t) /\
    forall x' k' f' t', In (x', VConnection k' f' t') th -> In (n, i) (f' ++ t') -> (x', k', f', t') = (x, k, f, t).
Proof.
  move=> E [Nd C] I J. have [p _] := parts_of _ _ E.
  have [u [H1 [H2 H3]]] := flat_NoDup _ _ _ Nd (C _ _ _ _ I J).
  have [[x v] [K D]] := F2_in_l _ _ _ _ (pn _ _ p) H1. have Du := D. have [Ex [k [Ek Ev]]] := def_n _ _ D. cbn [fst snd] in *. subst v.
  exists x, k, (cn_from u), (cn_to u). split; [rewrite (pth _ _ p) !in_app_iff; tauto|]. split=> //.
  move=> x' k' f' t' I'. rewrite (pth _ _ p) !in_app_iff in I'.
  have Z : In (x', VConnection k' f' t') (t_ns _ _ p).
  { have PC := pcomp _ _ p. case Ec: (t_comp _ _ p) PC I' => [? ?] /composition_inv [? [? [? [-> _]]]].
    move=> [I'|[I'|[I'|[I'|[I'|[I'|[I'|I']]]]]]] //.
    - have [z [_ Ez]] := F2_in_r _ _ _ _ (pk _ _ p) I'. move: Ez. rewrite /connector_def.
      case: isabelle_adl_ident => [?|] //= H. injection H as _ H. by case: k_spec H.
    - have [z [_ Ez]] := F2_in_r _ _ _ _ (pp _ _ p) I'. move: Ez. rewrite /procedure_def.
      case: isabelle_adl_ident => [?|] //=. by case: mapM.
    - have [z [_ Ez]] := F2_in_r _ _ _ _ (pe _ _ p) I'. move: Ez. rewrite /event_def. by case: isabelle_adl_ident.
    - have [z [_ Ez]] := F2_in_r _ _ _ _ (pd _ _ p) I'. move: Ez. rewrite /dataport_def. by case: isabelle_dataport.
    - have [z [_ Ez]] := F2_in_r _ _ _ _ (pc _ _ p) I'. have [_ [d [? _]]] := component_inv _ _ _ Ez. by [].
    - have [z [_ Ez]] := F2_in_r _ _ _ _ (pi _ _ p) I'. have [_ [r [_ H]]] := def_i _ _ Ez. by [].
    - move: I' => /= [H|[H|[H|]]] //. }
  have [w [Iw Dw]] := F2_in_r _ _ _ _ (pn _ _ p) Z. have [Ew [k2 [Ek2 Ev2]]] := def_n _ _ Dw. cbn [fst snd] in *.
  injection Ev2 as -> -> ->. move=> Jw. have Euw := H3 _ Iw Jw. subst w.
  rewrite Ex in Ew. rewrite Ek in Ek2. injection Ew as ->. injection Ek2 as ->. by [].
Qed.
