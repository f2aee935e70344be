(** Proofs for C118: binaries and symbols. *)
From Coq Require Import List String Ascii Bool NArith ZArith Lia.
From Coq Require Import ssreflect ssrbool.
From Verif Require Import Prelude DecStr Chars Build_Model Build_Spec Build_Proofs Build_Proofs2.
Import ListNotations.
Open Scope string_scope. Open Scope list_scope.

Lemma group_bin_inj g h : group_bin g = group_bin h -> g = h.
Proof. by apply: string_app_inj_r. Qed.
Lemma members_in s g i : In i (members s g) <-> built s i /\ i_space i = g.
Proof.
  rewrite /members filter_In software_in. split.
  - by move=> [B /eqb_eq /group_bin_inj ->].
  - move=> [B ->]. split=> //. by rewrite eqb_refl.
Qed.
Lemma groups_in s g : In g (groups s) <-> exists i, built s i /\ i_space i = g.
Proof.
  rewrite /groups nodup_In in_map_iff. split; move=> [i [A B]]; exists i.
  - split=> //. by apply/software_in.
  - split=> //. by apply/software_in.
Qed.
Lemma groups_lemma s : NoDup (map group_bin (groups s)) /\
  (forall i, built s i -> In (i_space i) (groups s)) /\
  (forall g i, In g (groups s) -> (In i (members s g) <-> built s i /\ i_space i = g)) /\
  (forall g, In g (groups s) -> members s g <> []).
Proof.
  split; [|split; [|split]].
  - have : NoDup (groups s) by apply: NoDup_nodup. elim: (groups s) => [|g l IH] N /=; first by constructor.
    inversion N as [|? ? NI N']; subst. constructor; last by apply: IH.
    move=> /in_map_iff [h [/group_bin_inj -> I]]. contradiction.
  - move=> i B. apply/groups_in. by exists i.
  - move=> g i _. exact: members_in.
  - move=> g /groups_in [i H]. have : In i (members s g) by apply/members_in. by destruct (members s g).
Qed.

Lemma more_than_one {A} (k : A -> string) l x : NoDup (map k l) -> In x l -> Nat.ltb 1 (List.length l) = true <-> exists y, In y l /\ k x <> k y.
Proof.
  move=> N I. split.
  - destruct l as [|a [|b l]] => // _. cbn [map] in N. inversion N as [|? ? NI N']; subst.
    destruct (string_dec (k x) (k a)) as [E|D].
    + exists b. split; [by right; left|]. move=> E'. apply: NI. left. by rewrite -E -E'.
    + exists a. split=> //. by left.
  - move=> [y [Iy D]]. destruct l as [|a [|b l]] => //. destruct I as [<-|[]], Iy as [<-|[]]. by case: D.
Qed.
Lemma nodup_filter_map {A B} (f : A -> B) p l : NoDup (map f l) -> NoDup (map f (filter p l)).
Proof.
  elim: l => [|x l IH] N //=. inversion N as [|? ? NI N']; subst. destruct (p x); last by apply: IH. cbn [map]. constructor; last by apply: IH.
  move=> /in_map_iff [y [E /filter_In [I _]]]. apply: NI. rewrite -E. by apply: in_map.
Qed.
Lemma members_nodup s g : NoDup (map i_name (s_insts s)) -> NoDup (map i_name (members s g)).
Proof. move=> /software_nodup N. by apply: nodup_filter_map. Qed.
Lemma relocatable_lemma s i : NoDup (map i_name (s_insts s)) -> built s i ->
  (forall h, In h (s_insts s) -> i_hardware h = true -> i_space h <> i_space i) ->
  relocatable s i = linked s (i_space i).
Proof.
  move=> N B H. have M : In i (members s (i_space i)) by apply/members_in.
  have X := more_than_one i_name _ _ (members_nodup s (i_space i) N) M.
  apply/eq_true_iff_eq. rewrite /linked X /relocatable (proj2 B) existsb_exists. split.
  - move=> [j [J /andP [/negP D /eqb_eq E]]]. exists j. split.
    + apply/members_in. split=> //. split=> //. destruct (i_hardware j) eqn:Hj => //. by case: (H _ J Hj).
    + move=> E'. apply: D. by rewrite E' eqb_refl.
  - move=> [j [/members_in [[J _] E] D]]. exists j. split=> //. apply/andP. split; [apply/negP=> /eqb_eq //|by rewrite E eqb_refl].
Qed.

(** ** The arguments *)
Definition directb (c : conn) : bool := eqb (k_name (c_type c)) "seL4DirectCall".
Lemma directb_ok c : directb c = true <-> direct c.
Proof. rewrite /directb /direct. split; [by move=> /eqb_eq|by move=> ->]. Qed.
Definition from_at (i : inst) (c : conn) := filter (at_inst i) (c_from c).
Definition to_at (i : inst) (c : conn) := filter (at_inst i) (c_to c).
Definition conn_args (i : inst) (c : conn) : list (string * string) := flat_map (end_args c) (from_at i c) ++ flat_map (end_args c) (to_at i c).
Definition full_args (conns : list conn) (i : inst) : args :=
  mk_args (start_arg i :: flat_map (conn_args i) (filter directb conns))
    ("" :: flat_map (fun c => map snd (flat_map (end_args c) (to_at i c))) (filter directb conns)).
Definition keys (i : inst) (c : conn) : list string := map (list_key i) (to_at i c).

Lemma nodup_app_inv {A} (a b : list A) : NoDup (a ++ b) -> NoDup a /\ NoDup b /\ forall x, In x a -> ~ In x b.
Proof.
  elim: a => [|x a IH] N /=; first by split; [constructor|split].
  inversion N as [|? ? NI N']; subst. case: (IH N') => Na [Nb D]. rewrite in_app_iff in NI. split.
  - constructor=> // I. apply: NI. by left.
  - split=> // y [<-|I] I'; [apply: NI; by right|by apply: (D y)].
Qed.
Lemma to_fold i c l seen acc : NoDup (map (list_key i) (filter (at_inst i) l)) ->
  (forall k, In k (map (list_key i) (filter (at_inst i) l)) -> ~ In k seen) ->
  exists seen', fold_left (to_step i c) l (seen, acc) = (seen', acc ++ flat_map (end_args c) (filter (at_inst i) l)) /\
    forall k, In k seen' <-> In k seen \/ In k (map (list_key i) (filter (at_inst i) l)).
Proof.
  elim: l seen acc => [|e l IH] seen acc N D.
  - exists seen. cbn. rewrite app_nil_r. split=> // k. intuition.
  - cbn [fold_left filter] in *. rewrite {2}/to_step. destruct (at_inst i e) eqn:A.
    + cbn [map] in *. inversion N as [|? ? NI N']; subst.
      destruct (memb (list_key i e) seen) eqn:M.
      { exfalso. apply: (D (list_key i e)); [by left|]. by apply/memb_In. }
      case: (IH (list_key i e :: seen) (acc ++ end_args c e) N').
      * move=> k I [E|I']; [by subst k|]. by apply: (D k); [right|].
      * move=> seen' [-> S]. exists seen'. split; first by cbn [flat_map]; rewrite app_assoc.
        move=> k. rewrite S. cbn [In]. intuition.
    + exact: IH.
Qed.
Lemma conn_fold i conns seen a : NoDup (flat_map (keys i) (filter directb conns)) ->
  (forall k, In k (flat_map (keys i) (filter directb conns)) -> ~ In k seen) ->
  exists seen', fold_left (conn_step i) conns (seen, a) =
    (seen', mk_args (a_redefine a ++ flat_map (conn_args i) (filter directb conns))
                    (a_keep a ++ flat_map (fun c => map snd (flat_map (end_args c) (to_at i c))) (filter directb conns))) /\
    forall k, In k seen' <-> In k seen \/ In k (flat_map (keys i) (filter directb conns)).
Proof.
  elim: conns seen a => [|c conns IH] seen a N D.
  - exists seen. cbn. rewrite !app_nil_r. split; [by destruct a|intuition].
  - cbn [fold_left filter] in *. rewrite {2}/conn_step. change (eqb (k_name (c_type c)) "seL4DirectCall") with (directb c).
    destruct (directb c) eqn:DC; last by apply: IH.
    cbn [flat_map] in *. case: (nodup_app_inv _ _ N) => Nc [Nr Dr].
    case: (to_fold i c (c_to c) seen [] Nc); first by move=> k I; apply: D; apply/in_app_iff; left.
    move=> seen1 [-> S1]. cbn [app].
    case: (IH seen1 (mk_args (a_redefine a ++ flat_map (end_args c) (filter (at_inst i) (c_from c)) ++ flat_map (end_args c) (filter (at_inst i) (c_to c)))
       (a_keep a ++ map snd (flat_map (end_args c) (filter (at_inst i) (c_to c))))) Nr).
    + move=> k I /S1 [I'|I']; [by apply: (D k); [apply/in_app_iff; right|]|by apply: (Dr k)].
    + move=> seen2 [-> S2]. exists seen2. split.
      * cbn [a_redefine a_keep]. by rewrite /conn_args -!app_assoc.
      * move=> k. rewrite S2 S1 in_app_iff. rewrite /keys /to_at. intuition.
Qed.
Lemma args_fold conns js seen : NoDup (flat_map (fun i => flat_map (keys i) (filter directb conns)) js) ->
  (forall k, In k (flat_map (fun i => flat_map (keys i) (filter directb conns)) js) -> ~ In k seen) ->
  copy_args conns seen js = map (fun i => (i, full_args conns i)) js.
Proof.
  elim: js seen => [|i js IH] seen N D //. cbn [flat_map copy_args map] in *. case: (nodup_app_inv _ _ N) => Ni [Nr Dr].
  rewrite /inst_args. case: (conn_fold i conns seen (mk_args [start_arg i] [""]) Ni); first by move=> k I; apply: D; apply/in_app_iff; left.
  move=> seen' [-> S]. f_equal. apply: IH=> // k I /S [I'|I']; [by apply: (D k); [apply/in_app_iff; right|]|by apply: (Dr k)].
Qed.

(** ** All keys are different *)
Lemma nodup_sub {A B} (f : A -> B) a b b' : NoDup (map f (a ++ b)) -> NoDup (map f b') -> incl b' b -> NoDup (map f (a ++ b')).
Proof.
  elim: a => [|x a IH] N N' I //=. cbn [app map] in N. inversion N as [|? ? NI N2]; subst. constructor; last by apply: IH.
  move=> /in_map_iff [y [E /in_app_iff Iy]]. apply: NI. apply/in_map_iff. exists y. split=> //. apply/in_app_iff.
  case: Iy => [Iy|/I Iy]; [by left|by right].
Qed.
Definition tos (s : sys) : list cend := flat_map c_to (filter directb (s_conns s)).
Lemma tos_nodup s : legal s -> NoDup (map (fun e => (e_inst e, e_iface e)) (tos s)).
Proof.
  move=> L. have := l_once _ L. rewrite /tos. elim: (s_conns s) => [|c l IH] /=; first by move=> _; constructor.
  rewrite /ends -app_assoc map_app=> /nodup_app_inv [_ [N _]].
  have N2 := IH (proj1 (proj2 (nodup_app_inv _ _ (eq_rect _ (fun q => NoDup q) N _ (map_app _ _ _))))).
  destruct (directb c); last by []. cbn [flat_map]. apply: (nodup_sub _ _ _ _ N N2).
  move=> e /in_flat_map [c' [/filter_In [I _] Ie]]. apply/in_flat_map. exists c'. split=> //. apply/in_app_iff. by right.
Qed.
Lemma flat_filter_in {A B} (f : A -> list B) p l : flat_map (fun x => filter p (f x)) l = filter p (flat_map f l).
Proof. by rewrite filter_flat. Qed.
Lemma nodup_map_on {A B C} (f : A -> B) (g : A -> C) l : NoDup (map f l) -> (forall x y, In x l -> In y l -> g x = g y -> f x = f y) -> NoDup (map g l).
Proof.
  elim: l => [|x l IH] N H /=; first by constructor. inversion N as [|? ? NI N']; subst. constructor.
  - move=> /in_map_iff [y [E I]]. apply: NI. rewrite (H x y) //; [by left|by right|by apply: in_map].
  - apply: IH=> // y z Iy Iz. by apply: H; right.
Qed.
Lemma keys_nodup s : legal s -> clear s -> NoDup (flat_map (fun i => flat_map (keys i) (filter directb (s_conns s))) (software s)).
Proof.
  move=> L K.
  have E : forall i, flat_map (keys i) (filter directb (s_conns s)) = map (list_key i) (filter (at_inst i) (tos s)).
  { move=> i. rewrite /keys /to_at /tos -flat_filter_in map_flat. reflexivity. }
  rewrite (flat_map_ext _ _ E).
  have T : forall e, In e (tos s) -> exists c, In c (s_conns s) /\ direct c /\ In e (c_to c).
  { move=> e /in_flat_map [c [/filter_In [C /directb_ok D] I]]. by exists c. }
  have KI : forall i j e f, In e (tos s) -> In f (tos s) -> at_inst i e = true -> at_inst j f = true -> list_key i e = list_key j f -> e_inst e = e_inst f /\ e_iface e = e_iface f.
  { move=> i j e f /T [c [C [D I]]] /T [c' [C' [D' I']]] /eqb_eq A /eqb_eq A'. rewrite /list_key -A -A'=> Q. exact: (d_iface _ K c c'). }
  apply: (nodup_flat _ i_name).
  - by apply: software_nodup; apply: (l_insts _ L).
  - move=> i _. apply: (nodup_map_on (fun e => (e_inst e, e_iface e))).
    + by apply: nodup_filter_map; apply: tos_nodup.
    + move=> e f /filter_In [I A] /filter_In [I' A'] Q. by case: (KI _ _ _ _ I I' A A' Q) => -> ->.
  - move=> i j o _ _ /in_map_iff [e [<- /filter_In [I A]]] /in_map_iff [f [Q /filter_In [I' A']]].
    case: (KI _ _ _ _ I' I A' A Q) => X _. move: A A'. rewrite /at_inst=> /eqb_eq <- /eqb_eq <-. by rewrite X.
Qed.
Lemma args_full s : legal s -> clear s -> copy_args (s_conns s) [] (software s) = map (fun i => (i, full_args (s_conns s) i)) (software s).
Proof. move=> L K. apply: args_fold; [by apply: keys_nodup|by move=> k _ []]. Qed.

(** ** objcopy *)
Lemma nodupb_ok l : nodupb l = true <-> NoDup l.
Proof.
  elim: l => [|x l IH] /=; first by split=> // _; constructor.
  rewrite andb_true_iff IH. split.
  - move=> [/negP M N]. constructor=> // I. apply: M. by apply/memb_In.
  - move=> N. inversion N as [|? ? NI N']; subst. split=> //. apply/negP=> /memb_In //.
Qed.
Definition new_name (a : args) (n : string) : string := match dget (a_redefine a) n with Some m => m | None => n end.
Definition copied (a : args) (y : sym) : csym :=
  mk_csym (y_name y) (new_name a (y_name y)) (if y_defined y then if memb (new_name a (y_name y)) (a_keep a) then Global else Local else Undefined).
Lemma objcopy_ok a t r : objcopy a t = Ok r -> r = map (copied a) t /\ NoDup (map fst (a_redefine a)) /\ NoDup (map snd (a_redefine a)).
Proof.
  rewrite /objcopy. destruct (nodupb (map fst _)) eqn:E1 => //. destruct (nodupb (map snd _)) eqn:E2 => //= - [<-].
  split=> //. split; by apply/nodupb_ok.
Qed.
Lemma copies_in s tables cs : copies s tables = Ok cs -> forall i t, In (i, t) cs -> exists a, In (i, a) (copy_args (s_conns s) [] (software s)) /\ objcopy a (tables i) = Ok t.
Proof.
  rewrite /copies. elim: (copy_args _ _ _) cs => [|[i a] l IH] cs /=; first by move=> [<-].
  destruct (objcopy a (tables i)) as [t|] eqn:E => //=. destruct (mapM _ l) as [r|] eqn:R => //= - [<-] j u [Q|I].
  - injection Q as <- <-. exists a. split=> //. by left.
  - case: (IH _ eq_refl _ _ I) => b [Ib Ob]. exists b. split=> //. by right.
Qed.
Lemma copies_of s tables cs : copies s tables = Ok cs -> forall i a, In (i, a) (copy_args (s_conns s) [] (software s)) -> exists t, In (i, t) cs /\ objcopy a (tables i) = Ok t.
Proof.
  rewrite /copies. elim: (copy_args _ _ _) cs => [|[i a] l IH] cs //=.
  destruct (objcopy a (tables i)) as [t|] eqn:E => //=. destruct (mapM _ l) as [r|] eqn:R => //= - [<-] j u [Q|I].
  - injection Q as <- <-. exists t. split=> //. by left.
  - case: (IH _ eq_refl _ _ I) => b [Ib Ob]. exists b. split=> //. by right.
Qed.
Lemma copy_args_fst conns seen js : map fst (copy_args conns seen js) = js.
Proof. elim: js seen => [|i js IH] seen //=. destruct (inst_args conns seen i) as [s2 a] => /=. by rewrite IH. Qed.
Lemma copy_args_in conns seen js i a : In (i, a) (copy_args conns seen js) -> In i js /\ exists s1 s2, inst_args conns s1 i = (s2, a).
Proof.
  elim: js seen => [|j js IH] seen //=. destruct (inst_args conns seen j) as [s2 b] eqn:E => /=. move=> [Q|/IH [I H]].
  - injection Q as -> ->. split; [by left|]. by exists seen, s2.
  - split; [by right|]. done.
Qed.

(** What is known without assumptions on names *)
Definition sound (conns : list conn) (i : inst) (a : args) : Prop :=
  (forall k, In k (a_keep a) -> k = "" \/ exists c e m, In c conns /\ direct c /\ In e (c_to c) /\ e_inst e = i_name i /\ In m (e_methods e) /\
     k = target c m /\ In (symbol e m, k) (a_redefine a)) /\
  (forall o n, In (o, n) (a_redefine a) -> n <> "").
Lemma to_sound i c l seen acc seen' acc' : fold_left (to_step i c) l (seen, acc) = (seen', acc') ->
  forall p, In p acc' -> In p acc \/ exists e m, In e l /\ e_inst e = i_name i /\ In m (e_methods e) /\ p = (symbol e m, target c m).
Proof.
  elim: l seen acc => [|e l IH] seen acc /=; first by move=> [_ <-] p; left.
  destruct (at_inst i e) eqn:A; [destruct (memb (list_key i e) seen)|].
  - move=> /IH H p /H [|[f [m [I R]]]]; [by left|]. right. exists f, m. split=> //. by right.
  - move=> /IH H p /H [/in_app_iff [I|/in_map_iff [m [<- I]]]|[f [m [I R]]]]; [by left| |].
    + right. exists e, m. split; [by left|]. split=> //. by move/eqb_eq: A.
    + right. exists f, m. split=> //. by right.
  - move=> /IH H p /H [|[f [m [I R]]]]; [by left|]. right. exists f, m. split=> //. by right.
Qed.
Lemma conn_sound all i conns seen a seen' a' : incl conns all -> sound all i a -> fold_left (conn_step i) conns (seen, a) = (seen', a') -> sound all i a'.
Proof.
  elim: conns seen a => [|c conns IH] seen a IN S; first by move=> [_ <-].
  cbn [fold_left]. rewrite {2}/conn_step. change (eqb (k_name (c_type c)) "seL4DirectCall") with (directb c).
  destruct (directb c) eqn:D; last by apply: IH=> // x I; apply: IN; right.
  destruct (fold_left (to_step i c) (c_to c) (seen, [])) as [s1 ts] eqn:F.
  apply: IH; first by move=> x I; apply: IN; right.
  have T := to_sound _ _ _ _ _ _ _ F. case: S => S1 S2. split.
  - cbn [a_keep a_redefine]. move=> k /in_app_iff [/S1 [->|[c' [e [m [C [Dd [I [E [M [K R]]]]]]]]]]|/in_map_iff [p [<- Ip]]].
    + by left.
    + right. exists c', e, m. do 6 (split=> //). apply/in_app_iff. by left.
    + right. case: (T _ Ip) => [[]|[e [m [I [E [M Q]]]]]]. exists c, e, m. split; [by apply: IN; left|]. split; [by apply/directb_ok|].
      split=> //. split=> //. split=> //. rewrite Q. split=> //. apply/in_app_iff. right. apply/in_app_iff. right. by rewrite -Q.
  - cbn [a_redefine]. move=> o n /in_app_iff [/S2 //|/in_app_iff [/in_flat_map [e [_ /in_map_iff [m [Q _]]]]|/T [[]|[e [m [_ [_ [_ Q]]]]]]]].
    + by injection Q as _ <-.
    + by injection Q as _ ->.
Qed.
Lemma inst_sound conns i s1 s2 a : inst_args conns s1 i = (s2, a) -> sound conns i a.
Proof.
  apply: conn_sound; first by []. split.
  - move=> k [<-|[]]. by left.
  - move=> o n [Q|[]]. injection Q as _ <-. by [].
Qed.

Lemma new_name_in a o : new_name a o = o \/ In (o, new_name a o) (a_redefine a).
Proof. rewrite /new_name. destruct (dget (a_redefine a) o) as [n|] eqn:E; [right|by left]. exact: (dget_In _ _ _ E). Qed.
Lemma private_lemma s tables cs i t y : tables_ok s tables -> copies s tables = Ok cs -> In (i, t) cs -> In y t -> y_binding y = Global ->
  exists c e m, In c (s_conns s) /\ direct c /\ In e (c_to c) /\ e_inst e = i_name i /\ In m (e_methods e) /\
    y_old y = (e_iface e ++ "_" ++ m)%string /\ y_new y = ("camkes connection " ++ c_name c ++ "_" ++ m)%string.
Proof.
  move=> T C I Iy G. case: (copies_in _ _ _ C _ _ I) => a [Ia O]. case: (objcopy_ok _ _ _ O) => Et [N1 N2]. subst t.
  case: (copy_args_in _ _ _ _ _ Ia) => Ii [s1 [s2 A]]. case: (inst_sound _ _ _ _ _ A) => K R.
  move/in_map_iff: Iy => [z [Ez Iz]]. have B : built s i by apply/software_in. case: (T _ B) => _ TN. case: (TN _ Iz) => Z1 Z2.
  subst y. cbn in G |- *. destruct (y_defined z) => //. destruct (memb (new_name a (y_name z)) (a_keep a)) eqn:M => //.
  move/memb_In: M => M. case: (K _ M) => [E|[c [e [m [Cc [D [Ie [Ei [Im [E X]]]]]]]]]].
  - exfalso. case: (new_name_in a (y_name z)) => Q; [by apply: Z1; rewrite -Q|by apply: (R _ _ Q)].
  - exists c, e, m. do 5 (split=> //). split=> //. case: (new_name_in a (y_name z)) => Q.
    + exfalso. apply: (Z2 (c_name c ++ "_" ++ m)%string). by rewrite -Q E.
    + have P := by_key snd _ _ _ N2 Q X eq_refl. by injection P.
Qed.
Lemma copies_lemma s tables cs i : tables_ok s tables -> copies s tables = Ok cs -> built s i ->
  exists t, In (i, t) cs /\ map y_old t = map y_name (tables i) /\
    forall y, In y t -> (y_binding y = Undefined <-> In (mk_sym (y_old y) false) (tables i)).
Proof.
  move=> T C B. have Ii : In i (software s) by apply/software_in.
  rewrite -(copy_args_fst (s_conns s) [] (software s)) in Ii. move/in_map_iff: Ii => [[j a] [E Ia]]. cbn in E. subst j.
  case: (copies_of _ _ _ C _ _ Ia) => t [It O]. case: (objcopy_ok _ _ _ O) => Et [N1 N2]. exists t. split=> //. subst t. split.
  - rewrite map_map. reflexivity.
  - move=> y /in_map_iff [z [<- Iz]]. cbn. split.
    + destruct (y_defined z) eqn:D; first by destruct (memb _ _). move=> _. by destruct z; cbn in *; subst.
    + move=> I. case: (T _ B) => N _. have Q := by_key y_name _ _ _ N Iz I eq_refl. by rewrite Q.
Qed.

(** "camkes X _camkes_start" is "camkes connection Y" only for Y = "_camkes_start". *)
Lemma start_target i c m : word (i_name i) -> (c_name c ++ "_" ++ m)%string <> "_camkes_start" -> target c m <> ("camkes " ++ i_name i ++ " _camkes_start")%string.
Proof.
  move=> W N. rewrite /target. have -> : ("camkes connection " ++ c_name c ++ "_" ++ m = "camkes " ++ "connection" ++ " " ++ c_name c ++ "_" ++ m)%string by [].
  move=> /string_app_inj_l E. apply: N. move: E.
  have S : forall a b x y, ~ In " "%char (list_ascii_of_string a) -> ~ In " "%char (list_ascii_of_string b) -> (a ++ " " ++ x = b ++ " " ++ y)%string -> x = y.
  { elim=> [|p a IH] [|q b] x y Na Nb /=.
    - by move=> [].
    - move=> [E _]. exfalso. apply: Nb. left. by rewrite E.
    - move=> [E _]. exfalso. apply: Na. by left.
    - move=> [_ E]. apply: (IH b) E; move=> I; [apply: Na|apply: Nb]; by right. }
  apply: S; first by cbn; intuition discriminate. move=> /W [I|[|]] //. revert I. cbn. intuition discriminate.
Qed.
Definition fst_map (cs : list (inst * list csym)) : list inst := map fst cs.
Lemma copies_fst s tables cs : copies s tables = Ok cs -> fst_map cs = software s.
Proof.
  rewrite /copies -{2}(copy_args_fst (s_conns s) [] (software s)). elim: (copy_args _ _ _) cs => [|[i a] l IH] cs /=; first by move=> [<-].
  destruct (objcopy a (tables i)) as [t|] => //=. destruct (mapM _ l) as [r|] => //= - [<-] /=. by rewrite (IH _ eq_refl).
Qed.

Lemma full_in s i p : In p (a_redefine (full_args (s_conns s) i)) <-> p = start_arg i \/
  exists c e m, In c (s_conns s) /\ direct c /\ In e (ends c) /\ e_inst e = i_name i /\ In m (e_methods e) /\ p = (symbol e m, target c m).
Proof.
  cbn [full_args a_redefine In]. split.
  - move=> [<-|/in_flat_map [c [/filter_In [C /directb_ok D] I]]]; [by left|right].
    have H : forall l, (forall e, In e l -> In e (ends c)) -> In p (flat_map (end_args c) (filter (at_inst i) l)) ->
      exists c e m, In c (s_conns s) /\ direct c /\ In e (ends c) /\ e_inst e = i_name i /\ In m (e_methods e) /\ p = (symbol e m, target c m).
    { move=> l Hl /in_flat_map [e [/filter_In [Ie /eqb_eq A] /in_map_iff [m [<- M]]]]. exists c, e, m. do 5 (split; auto). }
    move/in_app_iff: I => [I|I]; apply: H I => e Ie; apply/in_app_iff; [by left|by right].
  - move=> [->|[c [e [m [C [D [Ie [A [M ->]]]]]]]]]; [by left|right]. apply/in_flat_map. exists c. split; first by apply/filter_In; split=> //; apply/directb_ok.
    have AT : at_inst i e = true by rewrite /at_inst A eqb_refl.
    apply/in_app_iff. move/in_app_iff: Ie => [Ie|Ie]; [left|right]; apply/in_flat_map; exists e; (split; [by apply/filter_In|]);
      apply/in_map_iff; by exists m.
Qed.
Lemma full_keep s i k : In k (a_keep (full_args (s_conns s) i)) <-> k = "" \/
  exists c e m, In c (s_conns s) /\ direct c /\ In e (c_to c) /\ e_inst e = i_name i /\ In m (e_methods e) /\ k = target c m.
Proof.
  cbn [full_args a_keep In]. split.
  - move=> [<-|/in_flat_map [c [/filter_In [C /directb_ok D] /in_map_iff [p [<- /in_flat_map [e [/filter_In [Ie /eqb_eq A] /in_map_iff [m [<- M]]]]]]]]]; [by left|right].
    exists c, e, m. do 5 (split; auto).
  - move=> [->|[c [e [m [C [D [Ie [A [M ->]]]]]]]]]; [by left|right]. apply/in_flat_map. exists c. split; first by apply/filter_In; split=> //; apply/directb_ok.
    apply/in_map_iff. exists (symbol e m, target c m). split=> //. apply/in_flat_map. exists e. split.
    + apply/filter_In. split=> //. by rewrite /at_inst A eqb_refl.
    + apply/in_map_iff. by exists m.
Qed.

Lemma filter_single {A B} (k : A -> B) (p : A -> bool) l x : NoDup (map k l) -> In x l -> p x = true -> (forall y, In y l -> p y = true -> k y = k x) -> filter p l = [x].
Proof.
  elim: l => [|y l IH] //= N I P U. inversion N as [|? ? NI N']; subst. destruct I as [<-|I].
  - rewrite P. f_equal. apply: filter_none=> z Iz. apply/negP=> Pz. apply: NI. rewrite -(U z) //; [by right|by apply: in_map].
  - destruct (p y) eqn:Py.
    + exfalso. apply: NI. rewrite (U y) //; [by left|by apply: in_map].
    + apply: IH=> // z Iz. by apply: U; right.
Qed.

Lemma direct_lemma s tables cs c f t m x y : legal s -> clear s -> tables_ok s tables -> copies s tables = Ok cs ->
  In c (s_conns s) -> direct c -> In f (c_from c) -> c_to c = [t] -> In m (e_methods f) -> In m (e_methods t) ->
  built s x -> built s y -> e_inst f = i_name x -> e_inst t = i_name y -> i_space x = i_space y ->
  In (mk_sym (e_iface f ++ "_" ++ m)%string false) (tables x) -> In (mk_sym (e_iface t ++ "_" ++ m)%string true) (tables y) ->
  exists sx r, In (x, sx) cs /\ In (mk_csym (e_iface f ++ "_" ++ m)%string r Undefined) sx /\
    definitions cs (i_space x) r = [(i_name y, (e_iface t ++ "_" ++ m)%string)].
Proof.
  move=> L K T C Cc D If Ct Mf Mt Bx By Ef Et SP Sx Sy.
  have AF := args_full _ L K.
  have CI : forall i u, In (i, u) cs -> built s i /\ u = map (copied (full_args (s_conns s) i)) (tables i) /\
     NoDup (map fst (a_redefine (full_args (s_conns s) i))) /\ NoDup (map snd (a_redefine (full_args (s_conns s) i))).
  { move=> i u /(copies_in _ _ _ C) [a [Ia O]]. rewrite AF in Ia. move/in_map_iff: Ia => [j [Q Ij]]. injection Q as -> <-.
    split; [by apply/software_in|]. exact: objcopy_ok. }
  have CX : forall i, built s i -> exists u, In (i, u) cs.
  { move=> i B. case: (copies_lemma _ _ _ _ T C B) => u [I _]. by exists u. }
  have Ie : forall e, In e (c_to c) -> In e (ends c) by move=> e I; apply/in_app_iff; right.
  have Iff : In f (ends c) by apply/in_app_iff; left.
  have It : In t (c_to c) by rewrite Ct; left.
  have NF : fst_map cs = software s.
  { exact: copies_fst C. }
  case: (CX _ Bx) => sx Ix. case: (CI _ _ Ix) => _ [Esx [N1x N2x]].
  exists sx, (target c m). split=> //. split.
  - rewrite Esx. apply/in_map_iff. exists (mk_sym (symbol f m) false). split=> //. rewrite /copied. cbn [y_name y_defined].
    f_equal. rewrite /new_name. have -> : dget (a_redefine (full_args (s_conns s) x)) (symbol f m) = Some (target c m); last by [].
    apply: (In_dget _ _ _ _ N1x). apply/full_in. right. exists c, f, m. by do 5 (split=> //).
  - case: (CX _ By) => sy Iy. case: (CI _ _ Iy) => _ [Esy [N1y N2y]].
    rewrite /definitions.
    rewrite (flat_one _ (fun p => i_name (fst p)) _ (y, sy)) //.
    + rewrite -(map_map fst i_name). rewrite -/(fst_map cs) NF. by apply: software_nodup; apply: (l_insts _ L).
    + move=> [j u] Ij. cbn [fst]=> Dj. destruct (eqb (group_bin (i_space x)) (group_bin (i_space j))) => //.
      case: (CI _ _ Ij) => Bj [-> _]. rewrite filter_none //. move=> z /in_map_iff [w [<- Iw]]. cbn [copied y_binding y_new].
      destruct (y_defined w) => //. destruct (memb (new_name (full_args (s_conns s) j) (y_name w)) _) eqn:M => //. move/memb_In: M => M.
      apply/negP=> /eqb_eq E. rewrite E in M. move/full_keep: M => [//|[c' [e [m' [C' [D' [I' [A' [M' Q]]]]]]]]].
      move/string_app_inj_l: Q => Q. have I'' : In e (ends c') by apply/in_app_iff; right.
      case: (d_target _ K c c' t e m m' Cc C' D D' (Ie _ It) I'' Mt M' Q) => En _.
      have Ec := by_key c_name _ _ _ (l_conns _ L) Cc C' En. subst c'. rewrite Ct in I'. destruct I' as [<-|[]].
      apply: Dj. by rewrite -A' -Et.
    + rewrite SP eqb_refl Esy. case: (T _ By) => NT TN.
      rewrite (filter_single y_old _ _ (copied (full_args (s_conns s) y) (mk_sym (symbol t m) true))).
      * rewrite map_map. exact NT.
      * by apply: in_map.
      * have NN : new_name (full_args (s_conns s) y) (symbol t m) = target c m.
        { rewrite /new_name. have -> : dget (a_redefine (full_args (s_conns s) y)) (symbol t m) = Some (target c m); last by [].
          apply: (In_dget _ _ _ _ N1y). apply/full_in. right. exists c, t, m. do 5 (split; auto). }
        cbn [copied y_binding y_new y_name y_defined]. rewrite NN. have -> : memb (target c m) (a_keep (full_args (s_conns s) y)) = true; last by rewrite eqb_refl.
        apply/memb_In. apply/full_keep. right. exists c, t, m. by do 5 (split=> //).
      * move=> z /in_map_iff [w [<- Iw]]. cbn [copied y_binding y_new y_old y_name]. destruct (y_defined w) => //. destruct (memb (new_name (full_args (s_conns s) y) (y_name w)) _) => //. move=> /eqb_eq E.
        case: (new_name_in (full_args (s_conns s) y) (y_name w)) => Q.
        -- exfalso. case: (TN _ Iw) => _ H. apply: (H (c_name c ++ "_" ++ m)%string). by rewrite -Q E.
        -- rewrite E in Q. have X : In (symbol t m, target c m) (a_redefine (full_args (s_conns s) y)).
           { apply/full_in. right. exists c, t, m. do 5 (split; auto). }
           have P := by_key snd _ _ _ N2y Q X eq_refl. by injection P.
      * by [].
Qed.

Lemma accepted_lemma s tables : legal s -> clear s -> proper s -> exists cs, copies s tables = Ok cs.
Proof.
  move=> L K P. rewrite /copies (args_full _ L K).
  have OK : forall i, In i (software s) -> exists t, objcopy (full_args (s_conns s) i) (tables i) = Ok t.
  { move=> i /software_in B. rewrite /objcopy.
    pose E := filter (fun q => at_inst i (snd q)) (flat_map (fun c => map (pair c) (ends c)) (filter directb (s_conns s))).
    have EI : forall q, In q E -> In (fst q) (s_conns s) /\ direct (fst q) /\ In (snd q) (ends (fst q)) /\ e_inst (snd q) = i_name i.
    { move=> q /filter_In [/in_flat_map [c [/filter_In [C /directb_ok D] /in_map_iff [e [<- I]]]] /eqb_eq A]. by []. }
    have EQ : flat_map (conn_args i) (filter directb (s_conns s)) = flat_map (fun q => end_args (fst q) (snd q)) E.
    { rewrite /E [RHS]flat_filter [RHS]flat_flat. apply: flat_map_ext=> c. rewrite flat_mapf. cbn [fst snd]. rewrite /conn_args /from_at /to_at -flat_map_app -filter_app.
      by rewrite flat_filter. }
    have EN : NoDup (map (fun q => e_iface (snd q)) E).
    { have N : NoDup (map (fun q : conn * cend => (e_inst (snd q), e_iface (snd q))) E).
      { apply: nodup_filter_map. rewrite map_flat. have := l_once _ L. rewrite map_flat.
        have Q : forall c, map (fun q : conn * cend => (e_inst (snd q), e_iface (snd q))) (map (pair c) (ends c)) = map (fun e => (e_inst e, e_iface e)) (ends c) by move=> c; rewrite map_map.
        rewrite (flat_map_ext _ _ Q). elim: (s_conns s) => [|c l IH] //= /nodup_app_inv [Na [Nb Dd]]. destruct (directb c); last by apply: IH.
        cbn [flat_map]. have IH' := IH Nb. elim: (map _ (ends c)) Na Dd => [|p r IHr] Na Dd //=. inversion Na; subst. constructor.
        - rewrite in_app_iff. case=> // /in_flat_map [c' [/filter_In [I _] I']]. apply: (Dd p); [by left|]. apply/in_flat_map. by exists c'.
        - apply: IHr=> // q Iq. by apply: Dd; right. }
      apply: (nodup_map_on _ _ _ N) => q r /EI [_ [_ [_ A]]] /EI [_ [_ [_ A']]] ->. by rewrite A A'. }
    have N1 : NoDup (map fst (a_redefine (full_args (s_conns s) i))).
    { cbn [full_args a_redefine map]. rewrite EQ. constructor.
      - rewrite map_flat. move=> /in_flat_map [[c e] [/EI [C [D [I A]]] /in_map_iff [p [Ep /in_map_iff [m [Em M]]]]]]. cbn [fst snd] in *.
        case: (p_start _ P c e m C D I M) => X _. apply: X. by rewrite -Em in Ep.
      - rewrite map_flat. apply: (nodup_flat _ (fun q => e_iface (snd q))) => //.
        + move=> [c e] /EI [C [D [I A]]]. cbn [fst snd] in *. rewrite map_map. cbn [fst].
          apply: (nodup_map_on (fun m => m)); first by rewrite map_id; apply: (p_methods _ P c).
          move=> m m' _ _ /string_app_inj_l /string_app_inj_l //.
        + move=> [c e] [c' e'] o /EI [C [D [I A]]] /EI [C' [D' [I' A']]] /in_map_iff [p [Ep /in_map_iff [m [Em M]]]] /in_map_iff [p' [Ep' /in_map_iff [m' [Em' M']]]].
          cbn [fst snd] in *. subst p p' o. cbn [fst] in Ep'.
          case: (p_symbol _ P c' c e' e m' m C' C D' D I' I) => //. by rewrite A A'. }
    have N2 : NoDup (map snd (a_redefine (full_args (s_conns s) i))).
    { cbn [full_args a_redefine map]. rewrite EQ. constructor.
      - rewrite map_flat. move=> /in_flat_map [[c e] [/EI [C [D [I A]]] /in_map_iff [p [Ep /in_map_iff [m [Em M]]]]]]. cbn [fst snd] in *.
        case: (p_start _ P c e m C D I M) => _ X. subst p. cbn [snd start_arg] in Ep. exact: (start_target _ _ _ (l_inst_names _ L _ (proj1 B)) X Ep).
      - rewrite map_flat. apply: (nodup_flat _ (fun q => e_iface (snd q))) => //.
        + move=> [c e] /EI [C [D [I A]]]. cbn [fst snd] in *. rewrite map_map. cbn [snd].
          apply: (nodup_map_on (fun m => m)); first by rewrite map_id; apply: (p_methods _ P c).
          move=> m m' _ _ /string_app_inj_l /string_app_inj_l /string_app_inj_l //.
        + move=> [c e] [c' e'] o /EI [C [D [I A]]] /EI [C' [D' [I' A']]] /in_map_iff [p [Ep /in_map_iff [m [Em M]]]] /in_map_iff [p' [Ep' /in_map_iff [m' [Em' M']]]].
          cbn [fst snd] in *. subst p p' o. cbn [snd] in Ep'. move/string_app_inj_l: Ep' => Q.
          case: (d_target _ K c' c e' e m' m C' C D' D I' I M' M Q) => En _.
          have Ec := by_key c_name _ _ _ (l_conns _ L) C' C En. subst c'.
          by rewrite (by_key e_inst _ _ _ (p_apart _ P c C D) I I'); first by rewrite A A'. }
    move/nodupb_ok: N1 => ->. move/nodupb_ok: N2 => ->. by eexists. }
  elim: (software s) OK => [|i l IH] OK; first by exists [].
  cbn [map mapM]. case: (OK i); first by left. move=> t ->. cbn [bind].
  case: IH; first by move=> j Ij; apply: OK; right. move=> r ->. by eexists.
Qed.

Lemma clear_lemma s : (forall c e m, In c (s_conns s) -> direct c -> In e (ends c) -> In m (e_methods e) -> no_underscore m) ->
  (forall c e, In c (s_conns s) -> direct c -> In e (c_to c) -> no_underscore (e_iface e)) -> clear s.
Proof.
  move=> M I. split.
  - move=> c c' e e' m m' C C' D D' E E' Mm Mm' Q. exact: (last_sep _ _ _ _ (M _ _ _ C D E Mm) (M _ _ _ C' D' E' Mm') Q).
  - move=> c c' e e' C C' D D' E E' Q. exact: (last_sep _ _ _ _ (I _ _ C D E) (I _ _ C' D' E') Q).
Qed.
