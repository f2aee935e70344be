From Coq Require Import List String Ascii Bool NArith Permutation ssreflect Lia.
From Verif Require Import Prelude DecStr Isabelle_Model Isabelle_Spec Isabelle_Proofs Refine_Model Arch_Model Arch_Spec.
Import ListNotations.
Open Scope string_scope. Open Scope list_scope.

(** * mapM *)
Lemma mapM_ok {A B} (f : A -> res B) l l' : mapM f l = Ok l' <-> Forall2 (fun x y => f x = Ok y) l l'.
Proof.
  elim: l l' => [|x l IH] l' /=.
  - split; [move=> [<-]; constructor|move=> H; by inversion H].
  - split.
    + case E: (f x) => [y|e] //=. case E2: (mapM f l) => [ys|e] //= [<-]. constructor=> //. by apply/IH.
    + move=> H; inversion H as [|? y ? ys Ey Eys]; subst. rewrite Ey /=. move/IH: Eys => -> //.
Qed.
Lemma F2_in_l {A B} (R : A -> B -> Prop) l l' x : Forall2 R l l' -> In x l -> exists y, In y l' /\ R x y.
Proof.
  elim=> [|a b m m' H F IH] //= [<-|I]; first by exists b; split; [left|].
  have [y [? ?]] := IH I. exists y. split=> //. by right.
Qed.
Lemma F2_in_r {A B} (R : A -> B -> Prop) l l' y : Forall2 R l l' -> In y l' -> exists x, In x l /\ R x y.
Proof.
  elim=> [|a b m m' H F IH] //= [<-|I]; first by exists a; split; [left|].
  have [x [? ?]] := IH I. exists x. split=> //. by right.
Qed.
Lemma F2_impl {A B} (R S : A -> B -> Prop) l l' : (forall x y, In x l -> R x y -> S x y) -> Forall2 R l l' -> Forall2 S l l'.
Proof.
  move=> H F. elim: F H => [|a b m m' Hab F IH] H; constructor; first by apply: H => //; left.
  apply: IH => x y I. by apply: H; right.
Qed.

(** * uniq *)
Lemma uniq_fold {A} (dec : forall a b : A, {a = b} + {a <> b}) xs ys : NoDup ys ->
  NoDup (fold_left (add_new dec) xs ys) /\
  forall x, In x (fold_left (add_new dec) xs ys) <-> In x ys \/ In x xs.
Proof.
  elim: xs ys => [|z xs IH] ys N /=; first by split=> // x; tauto.
  rewrite /add_new. case: in_dec => I; rewrite -/(add_new dec).
  - have [? H] := IH ys N. split=> // x. rewrite H. split; [tauto|]. move=> [?|[<-|?]]; tauto.
  - have N2 : NoDup (ys ++ [z]).
    { apply: (Permutation_NoDup (l := z :: ys)); [apply: Permutation_cons_append|by constructor]. }
    have [? H] := IH _ N2. split=> // x. rewrite H in_app_iff /=. tauto.
Qed.
Lemma uniq_NoDup {A} dec (xs : list A) : NoDup (uniq dec xs).
Proof. apply: (proj1 (uniq_fold dec xs [] _)). constructor. Qed.
Lemma uniq_In {A} dec (xs : list A) x : In x (uniq dec xs) <-> In x xs.
Proof. have [_ H] := uniq_fold dec xs [] ltac:(constructor). rewrite H /=. tauto. Qed.

(** * Order *)
Lemma in_order_mono th : forall D E, incl D E -> in_order D th -> in_order E th.
Proof.
  elim: th => [|[x v] th IH] D E I //= [H1 H2]. split; first by move=> y /H1 /I.
  apply: IH H2. move=> y [<-|/I ?]; by [left|right].
Qed.
Lemma in_order_app t1 : forall t2 D, in_order D t1 -> in_order (map fst t1 ++ D) t2 -> in_order D (t1 ++ t2).
Proof.
  elim: t1 => [|[x v] t1 IH] t2 D //= [H1 H2] H3. split=> //. apply: IH => //.
  apply: in_order_mono H3 => y. rewrite in_app_iff. move=> [<-|J]; first by right; left. move/in_app_iff: J => [J|J]; [by left|by right; right].
Qed.
Lemma in_order_all t D : (forall x v, In (x, v) t -> incl (mentions v) D) -> in_order D t.
Proof.
  elim: t D => [|[x v] t IH] D H //=. split; first by apply: H; left.
  apply: IH => y w I. move=> z /(H y w (or_intror I)) ?. by right.
Qed.

(** * The parts of the theory *)
Record parts (a : assembly) (th : list (string * value)) := mk_parts {
  t_ks : list (string * value); t_ps : list (string * value); t_es : list (string * value); t_ds : list (string * value);
  t_cs : list (string * value); t_is : list (string * value); t_ns : list (string * value);
  t_comp : string * value;
  pk : Forall2 (fun x y => connector_def x = Ok y) (connectors a) t_ks;
  pp : Forall2 (fun x y => procedure_def x = Ok y) (procedures a) t_ps;
  pe : Forall2 (fun x y => event_def x = Ok y) (combine (seq 0 (List.length (events a))) (events a)) t_es;
  pd : Forall2 (fun x y => dataport_def x = Ok y) (dataports a) t_ds;
  pc : Forall2 (fun x y => component_def x = Ok y) (components a) t_cs;
  pi : Forall2 (fun x y => instance_def x = Ok y) (as_instances a) t_is;
  pn : Forall2 (fun x y => connection_def x = Ok y) (as_connections a) t_ns;
  pcomp : composition_def a = Ok t_comp;
  pth : th = t_ks ++ t_ps ++ t_es ++ t_ds ++ t_cs ++ t_is ++ t_ns ++
    [t_comp; (configuration_name a, VConfiguration (as_settings a));
     (assembly_name a, VAssembly (composition_name a) (configuration_name a) (as_extra a))] }.
Lemma parts_of a th : arch_theory a = Ok th -> exists p : parts a th, True.
Proof.
  rewrite /arch_theory.
  case E1: (mapM connector_def _) => [ks|] //=. case E2: (mapM procedure_def _) => [ps|] //=.
  case E3: (mapM event_def _) => [es|] //=. case E4: (mapM dataport_def _) => [ds|] //=.
  case E5: (mapM component_def _) => [cs|] //=. case E6: (mapM instance_def _) => [js|] //=.
  case E7: (mapM connection_def _) => [ns|] //=. case E8: (composition_def a) => [c|] //= E.
  injection E as E.
  move/mapM_ok: E1 => E1. move/mapM_ok: E2 => E2. move/mapM_ok: E3 => E3. move/mapM_ok: E4 => E4.
  move/mapM_ok: E5 => E5. move/mapM_ok: E6 => E6. move/mapM_ok: E7 => E7.
  by exists (mk_parts a th ks ps es ds cs js ns c E1 E2 E3 E4 E5 E6 E7 E8 (eq_sym E)).
Qed.

Lemma map_fst_in {A B} (l : list (A * B)) x v : In (x, v) l -> In x (map fst l).
Proof. move=> I. by apply: (in_map fst _ (x, v)). Qed.
Lemma connector_name a th (p : parts a th) c n : In c (as_connections a) -> isabelle_adl_ident "connector" (k_name (cn_type c)) = Ok n ->
  exists v, In (n, v) (t_ks _ _ p) /\ connector_def (cn_type c) = Ok (n, v).
Proof.
  move=> I E. have I2 : In (cn_type c) (connectors a) by apply/uniq_In; apply: in_map.
  have [[m v] [J D]] := F2_in_l _ _ _ _ (pk _ _ p) I2. exists v.
  have Dv := D. rewrite /connector_def E /= in D. injection D as <- _. by split.
Qed.
Lemma procedure_name a th (p : parts a th) q n : In q (procedures a) -> isabelle_adl_ident "procedure" (pr_name q) = Ok n ->
  exists v, In (n, v) (t_ps _ _ p) /\ procedure_def q = Ok (n, v).
Proof.
  move=> I E. have [[m v] [J D]] := F2_in_l _ _ _ _ (pp _ _ p) I. exists v.
  have Dv := D. rewrite /procedure_def E /= in D. case: mapM D => [ms|] //= D. injection D as <- _. by split.
Qed.
Lemma in_combine_seq {A} (l : list A) x k : In x l -> exists i, In (k + i, x) (combine (seq k (List.length l)) l) /\ nth_error l i = Some x.
Proof.
  elim: l k => [|y l IH] k //= [<-|I].
  - exists 0. split=> //. left. by rewrite PeanoNat.Nat.add_0_r.
  - have [i [H1 H2]] := IH (S k) I. exists (S i). split=> //. right. by rewrite -plus_n_Sm -plus_Sn_m.
Qed.
Lemma event_name a th (p : parts a th) t n : In t (events a) -> isabelle_adl_ident "event" t = Ok n ->
  exists i, In (n, VEvent i) (t_es _ _ p) /\ nth_error (events a) i = Some t.
Proof.
  move=> I E. have [i [J N]] := in_combine_seq _ _ 0 I. exists i. split=> //.
  have [[m v] [K D]] := F2_in_l _ _ _ _ (pe _ _ p) J. move: D. rewrite /event_def /= E /= => [[Em Ev]].
  by subst m v.
Qed.
Lemma dataport_name a th (p : parts a th) t n : In t (dataports a) -> isabelle_dataport t = Ok n -> In (n, VDataport t) (t_ds _ _ p).
Proof.
  move=> I E. have [[m v] [K D]] := F2_in_l _ _ _ _ (pd _ _ p) I. move: D. rewrite /dataport_def /= E /= => [[Em Ev]].
  by subst m v.
Qed.
(** A component described *)
Lemma component_inv c n v : component_def c = Ok (n, v) -> isabelle_adl_ident "instance" (co_name c) = Ok n /\
  exists d, v = VComponent d /\ c_control d = co_control c /\ c_hardware d = co_hardware c /\
  Forall2 (fun x y => isabelle_adl_ident "procedure" (pr_name (snd x)) = Ok (snd (snd y)) /\ fst y = fst (fst x) /\
    fst (snd y) = negb (snd (fst x))) (filter (fun x => negb (interface_is_exported c (fst (fst x)))) (co_uses c)) (c_requires d) /\
  Forall2 (fun x y => isabelle_adl_ident "procedure" (pr_name (snd x)) = Ok (snd y) /\ fst y = fst x)
    (filter (fun x => negb (interface_is_exported c (fst x))) (co_provides c)) (c_provides d) /\
  Forall2 (fun x y => isabelle_dataport (snd x) = Ok (snd y) /\ fst y = fst x) (co_dataports c) (c_dataports d) /\
  Forall2 (fun x y => isabelle_adl_ident "event" (snd x) = Ok (snd y) /\ fst y = fst x) (co_emits c) (c_emits d) /\
  Forall2 (fun x y => isabelle_adl_ident "event" (snd x) = Ok (snd (snd y)) /\ fst y = fst (fst x) /\
    fst (snd y) = negb (snd (fst x))) (co_consumes c) (c_consumes d) /\
  c_attributes d = map (fun '(a, t) => (a, camkes_type t)) (co_attributes c).
Proof.
  rewrite /component_def.
  case En: (isabelle_adl_ident "instance" _) => [n0|] //=.
  case E1: (mapM _ (filter _ (co_uses c))) => [l1|] //=. case E2: (mapM _ (filter _ (co_provides c))) => [l2|] //=.
  case E3: (mapM _ (co_dataports c)) => [l3|] //=. case E4: (mapM _ (co_emits c)) => [l4|] //=.
  case E5: (mapM _ (co_consumes c)) => [l5|] //= E. injection E as <- <-. split=> //.
  eexists; split; [reflexivity|]. cbn [c_control c_hardware c_requires c_provides c_dataports c_emits c_consumes c_attributes].
  do 2 (split; first by []).
  split; [|split; [|split; [|split; [|split]]]] => //.
  - move/mapM_ok: E1. apply: F2_impl => [[[i o] p] y] _. case: isabelle_adl_ident => [r|] //= H. by injection H as <-.
  - move/mapM_ok: E2. apply: F2_impl => [[i p] y] _. case: isabelle_adl_ident => [r|] //= H. by injection H as <-.
  - move/mapM_ok: E3. apply: F2_impl => [[i p] y] _. case: isabelle_dataport => [r|] //= H. by injection H as <-.
  - move/mapM_ok: E4. apply: F2_impl => [[i p] y] _. case: isabelle_adl_ident => [r|] //= H. by injection H as <-.
  - move/mapM_ok: E5. apply: F2_impl => [[[i o] p] y] _. case: isabelle_adl_ident => [r|] //= H. by injection H as <-.
Qed.
Lemma component_name a th (p : parts a th) i n : In i (as_instances a) -> isabelle_adl_ident "instance" (co_name (snd i)) = Ok n ->
  exists d, In (n, d) (t_cs _ _ p) /\ component_def (snd i) = Ok (n, d).
Proof.
  move=> I E. have I2 : In (snd i) (components a) by apply/uniq_In; apply: in_map.
  have [[m v] [K D]] := F2_in_l _ _ _ _ (pc _ _ p) I2. exists v.
  have [E2 _] := component_inv _ _ _ D. rewrite E in E2. injection E2 as E2. subst m. by split.
Qed.
Lemma composition_inv a n v : composition_def a = Ok (n, v) -> n = composition_name a /\
  exists js cs, v = VComposition js cs (arch_group_labels (as_groups a)) /\
  Forall2 (fun x y => isabelle_adl_ident "component" (fst x) = Ok (snd y) /\ fst y = fst x) (as_instances a) js /\
  Forall2 (fun x y => isabelle_adl_ident "connection" (cn_name x) = Ok (snd y) /\ fst y = cn_name x) (as_connections a) cs.
Proof.
  rewrite /composition_def. case E1: (mapM _ (as_instances a)) => [l1|] //=. case E2: (mapM _ (as_connections a)) => [l2|] //= E.
  injection E as <- <-. split=> //. exists l1, l2. split=> //. split.
  - move/mapM_ok: E1. apply: F2_impl => x y _. case: isabelle_adl_ident => [r|] //= H. by injection H as <-.
  - move/mapM_ok: E2. apply: F2_impl => x y _. case: isabelle_adl_ident => [r|] //= H. by injection H as <-.
Qed.

(** Interfaces of instances are among the types *)
Lemma used_type a i q : In i (as_instances a) -> In q (co_uses (snd i)) -> In (snd q) (procedures a).
Proof. move=> I J. apply/uniq_In. apply/in_flat_map. exists i. split=> //. apply/in_app_iff. left. by apply: in_map. Qed.
Lemma provided_type a i q : In i (as_instances a) -> In q (co_provides (snd i)) -> In (snd q) (procedures a).
Proof. move=> I J. apply/uniq_In. apply/in_flat_map. exists i. split=> //. apply/in_app_iff. right. by apply: in_map. Qed.
Lemma emitted_type a i q : In i (as_instances a) -> In q (co_emits (snd i)) -> In (snd q) (events a).
Proof. move=> I J. apply/uniq_In. apply/in_flat_map. exists i. split=> //. apply/in_app_iff. left. by apply: in_map. Qed.
Lemma consumed_type a i q : In i (as_instances a) -> In q (co_consumes (snd i)) -> In (snd q) (events a).
Proof. move=> I J. apply/uniq_In. apply/in_flat_map. exists i. split=> //. apply/in_app_iff. right. by apply: in_map. Qed.
Lemma dataport_type_in a i q : In i (as_instances a) -> In q (co_dataports (snd i)) -> In (snd q) (dataports a).
Proof. move=> I J. apply/uniq_In. apply/in_flat_map. exists i. split=> //. by apply: in_map. Qed.

(** * Every constant is defined before it is mentioned *)
Lemma ordered a th : arch_theory a = Ok th -> in_order [] th.
Proof.
  move=> /parts_of [p _]. rewrite (pth _ _ p).
  have Z (t : list (string * value)) D : (forall x v, In (x, v) t -> mentions v = []) -> in_order D t.
  { move=> H. apply: in_order_all => x v /H ->. by move=> ?. }
  apply: in_order_app.
  { apply: Z => x v I. have [k [_ E]] := F2_in_r _ _ _ _ (pk _ _ p) I. move: E. rewrite /connector_def.
    case: isabelle_adl_ident => [n|] //= E. injection E as _ <-. by case: k_spec. }
  apply: in_order_app.
  { apply: Z => x v I. have [k [_ E]] := F2_in_r _ _ _ _ (pp _ _ p) I. move: E. rewrite /procedure_def.
    case: isabelle_adl_ident => [n|] //=. case: mapM => [ms|] //= E. by injection E as _ <-. }
  apply: in_order_app.
  { apply: Z => x v I. have [k [_ E]] := F2_in_r _ _ _ _ (pe _ _ p) I. move: E. rewrite /event_def.
    case: isabelle_adl_ident => [n|] //= E. by injection E as _ <-. }
  apply: in_order_app.
  { apply: Z => x v I. have [k [_ E]] := F2_in_r _ _ _ _ (pd _ _ p) I. move: E. rewrite /dataport_def.
    case: isabelle_dataport => [n|] //= E. by injection E as _ <-. }
  apply: in_order_app.
  { apply: in_order_all => x v I. have [c [Ic E]] := F2_in_r _ _ _ _ (pc _ _ p) I.
    move/uniq_In/in_map_iff: Ic => [i [Ei Ii]]. subst c.
    have [_ [d [-> [_ [_ [F1 [F2 [F3 [F4 [F5 _]]]]]]]]]] := component_inv _ _ _ E.
    move=> r. cbn [mentions]. rewrite !in_app_iff.
    move=> [/in_map_iff [y [<- J]]|[/in_map_iff [y [<- J]]|[/in_map_iff [y [<- J]]|[/in_map_iff [y [<- J]]|/in_map_iff [y [<- J]]]]]].
    - have [q [/filter_In [Jq _] [Eq _]]] := F2_in_r _ _ _ _ F1 J.
      have [w [K _]] := procedure_name _ _ p _ _ (used_type _ _ _ Ii Jq) Eq.
      have := map_fst_in _ _ _ K. tauto.
    - have [q [/filter_In [Jq _] [Eq _]]] := F2_in_r _ _ _ _ F2 J.
      have [w [K _]] := procedure_name _ _ p _ _ (provided_type _ _ _ Ii Jq) Eq.
      have := map_fst_in _ _ _ K. tauto.
    - have [q [Jq [Eq _]]] := F2_in_r _ _ _ _ F3 J.
      have K := dataport_name _ _ p _ _ (dataport_type_in _ _ _ Ii Jq) Eq.
      have := map_fst_in _ _ _ K. tauto.
    - have [q [Jq [Eq _]]] := F2_in_r _ _ _ _ F4 J.
      have [w [K _]] := event_name _ _ p _ _ (emitted_type _ _ _ Ii Jq) Eq.
      have := map_fst_in _ _ _ K. tauto.
    - have [q [Jq [Eq _]]] := F2_in_r _ _ _ _ F5 J.
      have [w [K _]] := event_name _ _ p _ _ (consumed_type _ _ _ Ii Jq) Eq.
      have := map_fst_in _ _ _ K. tauto. }
  apply: in_order_app.
  { apply: in_order_all => x v I. have [i [Ii E]] := F2_in_r _ _ _ _ (pi _ _ p) I. move: E. rewrite /instance_def.
    case: (isabelle_adl_ident "component") => [n|] //=. case E: (isabelle_adl_ident "instance") => [m|] //= H.
    injection H as _ <-. have [d [K _]] := component_name _ _ p _ _ Ii E.
    have K2 := map_fst_in _ _ _ K. move=> r [<-|] //. rewrite !in_app_iff. tauto. }
  apply: in_order_app.
  { apply: in_order_all => x v I. have [i [Ii E]] := F2_in_r _ _ _ _ (pn _ _ p) I. move: E. rewrite /connection_def.
    case: (isabelle_adl_ident "connection") => [n|] //=. case E: (isabelle_adl_ident "connector") => [m|] //= H.
    injection H as _ <-. have [d [K _]] := connector_name _ _ p _ _ Ii E.
    have K2 := map_fst_in _ _ _ K. move=> r [<-|] //. rewrite !in_app_iff. tauto. }
  have PC := pcomp _ _ p. case Ec: (t_comp _ _ p) PC => [n v] PC.
  have [-> [js [cs [-> [F1 F2]]]]] := composition_inv _ _ _ PC.
  split.
  { move=> r. cbn [mentions]. rewrite in_app_iff. move=> [/in_map_iff [y [<- J]]|/in_map_iff [y [<- J]]].
    - have [i [Ii [Ei _]]] := F2_in_r _ _ _ _ F1 J. have [[m w] [K D]] := F2_in_l _ _ _ _ (pi _ _ p) Ii.
      move: D. rewrite /instance_def Ei /=. case: isabelle_adl_ident => [?|] //= H. injection H as E1 _. subst m.
      have := map_fst_in _ _ _ K. rewrite !in_app_iff. tauto.
    - have [i [Ii [Ei _]]] := F2_in_r _ _ _ _ F2 J. have [[m w] [K D]] := F2_in_l _ _ _ _ (pn _ _ p) Ii.
      move: D. rewrite /connection_def Ei /=. case: isabelle_adl_ident => [?|] //= H. injection H as E1 _. subst m.
      have := map_fst_in _ _ _ K. rewrite !in_app_iff. tauto. }
  split; first by move=> ?. split=> //. move=> r [<-|[<-|]] //=; tauto.
Qed.
