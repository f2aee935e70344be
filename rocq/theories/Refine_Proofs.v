(** Proofs about the labels of the generated theory. *)
From Coq Require Import List String Ascii Bool NArith Permutation Sorted.
From Coq Require Import ssreflect ssrbool.
From Verif Require Import Prelude DecStr Labels_Model Labels_Spec Labels_Proofs Isabelle_Model Isabelle_Spec Isabelle_Proofs
  Threads_Model Refine_Model Refine_Spec.
Import ListNotations.
Open Scope string_scope. Open Scope list_scope.

Lemma group_label m l : group_of m l = label m l.
Proof. by []. Qed.

(** ** The groups *)
Lemma insert_item_perm x l : Permutation (insert_item x l) (x :: l).
Proof.
  elim: l => [|y l IH] //=. case: String.leb => //. etransitivity; first exact: (perm_skip y IH). exact: perm_swap.
Qed.
Lemma arch_perm m : Permutation (arch_group_labels m) m.
Proof. elim: m => [|x m IH] //=. etransitivity; first exact: insert_item_perm. exact: perm_skip. Qed.
Lemma insert_item_sorted x l : Sorted (fun x y : string * string => String.leb (fst x) (fst y) = true) l ->
  Sorted (fun x y : string * string => String.leb (fst x) (fst y) = true) (insert_item x l).
Proof.
  elim: l => [|y l IH] H /=; first by repeat constructor.
  case E: (String.leb (fst x) (fst y)); first by constructor=> //; constructor.
  inversion H as [|? ? H1 H2]; subst. constructor; first exact: IH.
  have L : String.leb (fst y) (fst x) = true by case: (String.leb_total (fst x) (fst y)) => // L; rewrite L in E.
  case: l H2 {IH H H1} => [|z l] H2 /=; first by constructor.
  case: (String.leb (fst x) (fst z)); first by constructor.
  inversion H2; subst. by constructor.
Qed.
Lemma arch_sorted m : Permutation (arch_group_labels m) m /\
  Sorted (fun x y : string * string => String.leb (fst x) (fst y) = true) (arch_group_labels m).
Proof.
  split; first exact: arch_perm. elim: m => [|x m IH] /=; first by constructor. exact: insert_item_sorted.
Qed.
Lemma labels_NoDup is' cs m : integrity_group_labels is' cs = Ok m -> NoDup (dkeys m).
Proof.
  rewrite /integrity_group_labels. case R: raw_labels => [g|] //= /final_shape [-> _]. exact: raw_NoDup R.
Qed.
Lemma find_dget (l : list (string * string)) x :
  find (fun y => String.eqb (fst y) x) l = option_map (fun v => (x, v)) (dget l x).
Proof.
  elim: l => [|[k v] l IH] //. cbn [find dget fst]. case: (String.eqb_spec k x) => [->|N].
  - by rewrite eqb_refl.
  - case E: (eqb _ _) => //. move/eqb_eq: E => E. by case: N.
Qed.
Lemma lookup_group m x : NoDup (dkeys m) -> get_group_label (arch_group_labels m) x = label m x.
Proof.
  move=> N. rewrite /get_group_label find_dget /label. have P := arch_perm m.
  have N' : NoDup (dkeys (arch_group_labels m)).
  { apply: Permutation_NoDup N. apply: Permutation_map. by symmetry. }
  case D: (dget m x) => [v|].
  - have I := dget_In _ _ _ D. have I' : In (x, v) (arch_group_labels m) by apply: Permutation_in I; symmetry.
    by rewrite (In_dget _ _ _ _ N' I').
  - case D': (dget (arch_group_labels m) x) => [v|] //=. have I := dget_In _ _ _ D'.
    have I' : In (x, v) m by apply: Permutation_in I. by rewrite (In_dget _ _ _ _ N I') in D.
Qed.
Lemma lookups_claim is' cs m names x g : integrity_group_labels is' cs = Ok m -> In (x, g) (lookups m names) ->
  get_group_label (arch_group_labels m) x = g.
Proof. move=> /labels_NoDup N /in_map_iff [y [[<- <-] _]]. exact: lookup_group. Qed.

(** ** Objects *)
Lemma add_label_perm d x : Permutation (object_label_mapping (add_label d x)) (x :: object_label_mapping d).
Proof.
  case: x => [o l]. rewrite /add_label. cbn [fst snd]. elim: d => [|[k os] d IH]; first by [].
  cbn [dget dset]. destruct (eqb l k) eqn:E.
  - move/eqb_eq: E => ->. cbn. rewrite map_app -app_assoc. cbn. symmetry. exact: Permutation_middle.
  - cbn. etransitivity; first exact: (Permutation_app_head _ IH). symmetry. exact: Permutation_middle.
Qed.
Lemma mapping_perm allocated : Permutation (object_label_mapping (labels_of allocated)) allocated.
Proof.
  rewrite /labels_of -{2}[allocated]app_nil_r. change [] with (object_label_mapping []) at 2.
  move: (@nil (string * list obj)) => d. elim: allocated d => [|x l IH] d //=.
  etransitivity; first exact: IH. etransitivity; first exact: (Permutation_app_head _ (add_label_perm d x)).
  symmetry. exact: Permutation_middle.
Qed.
Lemma insert_obj_perm x l : Permutation (insert_obj x l) (x :: l).
Proof.
  elim: l => [|y l IH] //=. case: String.leb => //. etransitivity; first exact: (perm_skip y IH). exact: perm_swap.
Qed.
Lemma sort_objs_perm l : Permutation (sort_objs l) l.
Proof. elim: l => [|x l IH] //=. etransitivity; first exact: insert_obj_perm. exact: perm_skip. Qed.

Lemma replace_primed s : replace "." "'" s = primed s.
Proof. by elim: s => [|c s IH] //=; rewrite IH. Qed.
Lemma name_ident n : object_name n -> isabelle_ident n = Ok (primed n).
Proof. move=> [c [r [-> [W _]]]]. by rewrite /isabelle_ident start_pattern // replace_primed. Qed.
Lemma prefix_spec p s : String.prefix p s = true <-> exists r, s = (p ++ r)%string.
Proof.
  elim: p s => [|c p IH] [|d s]; cbn [String.prefix append].
  - split=> // _. by exists "".
  - split=> // _. by exists (String d s).
  - split=> // [[r H]]. discriminate.
  - case: (ascii_dec c d) => [->|N].
    + rewrite IH. split=> [[r ->]|[r [->]]]; by exists r.
    + split=> // [[r [E _]]]. by case: N.
Qed.
Lemma kept_spec s : negb (String.prefix "root_untyped_" s) = true <-> kept s.
Proof.
  rewrite negb_true_iff. split.
  - move=> H r E. have : String.prefix "root_untyped_" s = true by apply/prefix_spec; exists r. by rewrite H.
  - move=> K. case E: String.prefix => //. move/prefix_spec: E => [r E]. by case: (K r).
Qed.

Definition entry_of (m : dict string string) (x : obj * string) : string * N * string :=
  (constant (o_name (fst x)), match o_bits (fst x) with Some b => b | None => 0%N end, label m (snd x)).
Lemma mapM_map {A B} (f : A -> res B) (g : A -> B) l : (forall x, In x l -> f x = Ok (g x)) -> mapM f l = Ok (map g l).
Proof.
  elim: l => [|x l IH] //= H. rewrite (H x (or_introl eq_refl)). cbn. by rewrite (IH (fun y I => H y (or_intror I))).
Qed.
Definition bare (x : obj * string) : bool := negb (String.prefix "root_untyped_" (o_name (fst x))).
Lemma filter_perm {A} (f : A -> bool) l1 l2 : Permutation l1 l2 -> Permutation (filter f l1) (filter f l2).
Proof.
  elim=> [|x a b _ IH|x y a|a b c _ IH1 _ IH2] //=.
  - case: (f x) => //. exact: perm_skip.
  - case: (f x); case: (f y) => //. exact: perm_swap.
  - etransitivity; [exact: IH1|exact: IH2].
Qed.
Lemma obj_labels_perm m allocated : (forall o l, In (o, l) allocated -> object_name (o_name o)) ->
  exists e, obj_labels m (labels_of allocated) = Ok e /\ Permutation e (map (entry_of m) (filter bare allocated)).
Proof.
  move=> H. rewrite /obj_labels. have P : Permutation (sort_objs (object_label_mapping (labels_of allocated))) allocated.
  { etransitivity; [exact: sort_objs_perm|exact: mapping_perm]. }
  eexists. split; last by apply: Permutation_map; apply: (filter_perm bare); exact: P.
  apply: mapM_map => [[o l]] /filter_In [I _]. have /H N := Permutation_in _ P I. cbn [fst snd]. by rewrite (name_ident _ N).
Qed.
Lemma objects_labelled m allocated : (forall o l, In (o, l) allocated -> object_name (o_name o)) ->
  exists e, obj_labels m (labels_of allocated) = Ok e /\
  (forall id b g, In (id, b, g) e <-> exists o l, In (o, l) allocated /\ kept (o_name o) /\ id = constant (o_name o) /\
     b = match o_bits o with Some b => b | None => 0%N end /\ g = label m l).
Proof.
  move=> H. have [e [E P]] := obj_labels_perm m _ H. exists e. split=> // id b g. split.
  - move=> /(Permutation_in _ P) /in_map_iff [[o l] [[<- <- <-] /filter_In [I /kept_spec K]]]. by exists o, l.
  - move=> [o [l [I [K [-> [-> ->]]]]]]. apply: (Permutation_in _ (Permutation_sym P)). apply/in_map_iff. exists (o, l). split=> //.
    apply/filter_In. split=> //. by apply/kept_spec.
Qed.

(** Names are told apart. *)
Lemma object_chars n : object_name n -> all_chars name_char n = true.
Proof.
  move=> [c [r [-> [W H]]]]. cbn [all_chars]. apply/andb_true_iff. split.
  - apply: word_name. by move: W; rewrite /word_start; case: word_char.
  - elim: r H => [|d r IH] //= H. apply/andb_true_iff. split; last by apply: IH => x X; apply: H; right.
    rewrite /name_char. case: (H d (or_introl eq_refl)) => [->|->] //.
Qed.
Lemma suffix_inj a b s : (a ++ s = b ++ s)%string -> a = b.
Proof. exact: string_app_inj_r. Qed.
Lemma constant_inj a b : object_name a -> object_name b -> constant a = constant b -> a = b.
Proof.
  move=> /object_chars A /object_chars B /suffix_inj. rewrite -!replace_primed. exact: replace_inj.
Qed.
Lemma one_label m allocated o l : (forall o l, In (o, l) allocated -> object_name (o_name o)) ->
  NoDup (map (fun x => o_name (fst x)) allocated) -> In (o, l) allocated -> kept (o_name o) ->
  exists e, obj_labels m (labels_of allocated) = Ok e /\ says e (constant (o_name o)) (label m l).
Proof.
  move=> H N I K. have [e [E S]] := objects_labelled m _ H. exists e. split=> //. split.
  - eexists. apply/S. exists o, l. by [].
  - move=> b g /S [o' [l' [I' [K' [C [_ ->]]]]]]. have X : o_name o = o_name o' by apply: constant_inj => //; [exact: H I|exact: H I'].
    suff Q : (o', l') = (o, l) by case: Q => _ ->.
    move: N I I' X. clear. elim: allocated => [|[o1 l1] a IH] //= N. inversion N as [|? ? N1 N2]; subst.
    move=> [E|I] [E'|I'] X.
    + by rewrite -E -E'.
    + case: N1. move: E X => [-> _] ->. exact: (in_map (fun x => o_name (fst x)) _ _ I').
    + case: N1. move: E' X => [-> _] <-. exact: (in_map (fun x => o_name (fst x)) _ _ I).
    + exact: IH.
Qed.

(** ** Labels of the policy *)
Section Policy.
Context (is' : list linst) (cs : list lconn) (m : dict string string).
Hypothesis S : separated is' cs.
Hypothesis E : integrity_group_labels is' cs = Ok m.
Lemma unmapped x : ~ In x (dkeys m) -> label m x = x.
Proof. move=> /dget_None D. by rewrite /label D. Qed.
Lemma space_same i : In i is' -> li_label i = None -> label m (li_name i) = label m (li_space i).
Proof.
  move=> I L. case: (string_dec (li_space i) (li_name i)) => [->|N] //. apply: (labels_follow _ _ _ _ _ S E). exists i. by rewrite L.
Qed.
Lemma owner_policy l : owner is' cs l -> exists x, (In x (map li_name is') \/ In x (map lc_name cs)) /\ label m l = label m x.
Proof.
  move=> [I|[I|/in_map_iff [i [<- I]]]]; [by exists l; split; [left|]|by exists l; split; [right|]|].
  exists (li_name i). split; first by left; apply: in_map. case L: (li_label i) => [x|]; last by rewrite (space_same i I L).
  have [_ [_ [Q _]]] := S. rewrite Q //. by rewrite L.
Qed.

(** ** Groups only *)
Hypothesis G : by_groups is'.
Lemma group_is_space i : In i is' -> label m (li_name i) = li_space i.
Proof.
  move=> I. have [L G2] := G. rewrite (space_same i I (L i I)). apply: unmapped => /(labels_keys _ _ _ _ S E).
  have [_ [_ [_ [C _]]]] := S. move=> [[p [j [J [N]]]]|[c [l [Ic [N _]]]]].
  - rewrite (L j J) => [[X _]]. apply: X. exact: (G2 i j I J (eq_sym N)).
  - have [_ [X _]] := C c i Ic I. by rewrite N in X.
Qed.
End Policy.

(** ** Further edges *)
Lemma extra_same is' cs m extra : integrity_group_labels is' cs = Ok m ->
  (same_set (extra_left m extra) (extra_right extra) <->
   forall s a o, In (s, a, o) extra -> ~ In s (dkeys m) /\ ~ In o (dkeys m)).
Proof.
  move=> E. have N := labels_NoDup _ _ _ E.
  have L : forall x, ~ In (label m x) (dkeys m).
  { move=> x. rewrite /label. case D: (dget m x) => [g|]; last by apply/dget_None.
    exact: (labels_canonical _ _ _ _ _ E (dget_In _ _ _ D)). }
  split.
  - move=> H s a o I. have : In (s, a, o) (extra_right extra) by []. move=> /H /in_map_iff [[[s' a'] o'] [X _]].
    injection X as <- _ <-. by rewrite !lookup_group.
  - move=> H. rewrite /same_set /extra_left /extra_right. have -> // : map (fun '(s, a, o) => (get_group_label (arch_group_labels m) s, a,
      get_group_label (arch_group_labels m) o)) extra = extra.
    rewrite -[RHS]map_id. apply: map_ext_in => [[[s a] o]] /H [A B]. rewrite !lookup_group // /label.
    by move/dget_None: A => ->; move/dget_None: B => ->.
Qed.

(** ** Interrupts and ASIDs *)
Lemma irqs_labelled m allocated n g : In (n, g) (irqs m (labels_of allocated)) <->
  exists o l, In (o, l) allocated /\ o_kind o = IRQ n /\ g = label m l.
Proof.
  rewrite /irqs in_flat_map. have P := mapping_perm allocated. split.
  - move=> [[o l] [/(Permutation_in _ P) I]]. cbn [fst snd]. case K: (o_kind o) => [k|h|]; [move=> [X|[]]; injection X as <- <-|by []|by []]. by exists o, l.
  - move=> [o [l [I [K ->]]]]. exists (o, l). split; first exact: (Permutation_in _ (Permutation_sym P) I).
    cbn [fst snd]. rewrite K. by left.
Qed.
Definition pool_of (h : N) (x : obj * string) : Prop := o_kind (fst x) = ASIDPool (Some h).
Lemma asids_fold l r h g :
  dget (fold_left (fun r (x : obj * string) => match o_kind (fst x) with ASIDPool (Some h) => dset r h (snd x) | _ => r end) l r) h = Some g ->
  (exists o, In (o, g) l /\ o_kind o = ASIDPool (Some h)) \/ dget r h = Some g.
Proof.
  elim: l r => [|[o g'] l IH] r; first by right. cbn [fold_left fst snd]. move=> /IH [[o' [I K]]|H].
  - left. exists o'. split=> //. by right.
  - move: H. case K: (o_kind o) => [n|[h'|]|]; try by right.
    rewrite dget_dset. destruct (eqb h h') eqn:X; last by right. move=> [<-]. move/eqb_eq: X => X. subst h'. left. exists o. by split; [left|].
Qed.
Lemma asids_some l r h : (exists o g, In (o, g) l /\ o_kind o = ASIDPool (Some h)) \/ dget r h <> None ->
  dget (fold_left (fun r (x : obj * string) => match o_kind (fst x) with ASIDPool (Some h) => dset r h (snd x) | _ => r end) l r) h <> None.
Proof.
  elim: l r => [|[o g'] l IH] r; first by move=> [[o [g [[] _]]]|]. cbn [fold_left fst snd]. move=> [[o' [g [[X|I] K]]]|H]; apply: IH.
  - right. injection X as -> _. by rewrite K dget_dset_eq.
  - left. by exists o', g.
  - right. case: (o_kind o) => [n|[h'|]|] //. rewrite dget_dset. by destruct (eqb h h').
Qed.
Lemma asids_raw allocated h :
  (forall g, dget (asids (labels_of allocated)) h = Some g -> exists o, In (o, g) allocated /\ o_kind o = ASIDPool (Some h)) /\
  ((exists o l, In (o, l) allocated /\ o_kind o = ASIDPool (Some h)) -> exists g, dget (asids (labels_of allocated)) h = Some g).
Proof.
  have P := mapping_perm allocated. split.
  - move=> g /asids_fold [[o [I K]]|] //. exists o. split=> //. exact: (Permutation_in _ P I).
  - move=> [o [l [I K]]]. have : dget (asids (labels_of allocated)) h <> None.
    { apply: asids_some. left. exists o, l. split=> //. exact: (Permutation_in _ (Permutation_sym P) I). }
    case: dget => [g|] // _. by exists g.
Qed.
Lemma asid_group m allocated o l h : In (o, l) allocated -> o_kind o = ASIDPool (Some h) ->
  (forall o' l', In (o', l') allocated -> o_kind o' = ASIDPool (Some h) -> l' = l) ->
  dget (asids (labels_of allocated)) h = Some l /\ (dget (asids (labels_of allocated)) h = Some (label m l) <-> label m l = l).
Proof.
  move=> I K U. have [A B] := asids_raw allocated h. have [g D] : exists g, dget (asids (labels_of allocated)) h = Some g by apply: B; exists o, l.
  have [o' [I' K']] := A _ D. rewrite D (U _ _ I' K'). split=> //. split; [by move=> [<-]|by move=> ->].
Qed.
