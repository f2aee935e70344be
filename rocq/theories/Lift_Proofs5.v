From Coq Require Import String Ascii List Bool NArith ZArith Lia.
From Verif Require Import Prelude DecStr Numeric_Model Lift_Model Lift_Spec Lift_Proofs Lift_Proofs2 Lift_Proofs3 Lift_Proofs4.
Import ListNotations.
Open Scope string_scope.
Open Scope list_scope.

(** ** Dictionaries, by their entries *)
Lemma last_value_in k l d : (forall p, In p l -> hashable (fst p) = true) ->
  (exists l1 v l2, l = l1 ++ (k, v) :: l2 /\ ~ In k (map fst l2) /\ last_value k l d = v) \/
  (~ In k (map fst l) /\ last_value k l d = d).
Proof.
  revert d. induction l as [|[k' v] l IH]; intros d H; [right; split; [intros []|reflexivity]|].
  cbn [last_value]. destruct (IH (if same_key k k' then v else d) (fun p I => H p (or_intror I))) as [(l1 & w & l2 & -> & N & E)|[N E]].
  - left. exists ((k', v) :: l1), w, l2. auto.
  - destruct (same_key k k') eqn:S.
    + apply same_key_eq in S. subst k'. left. exists [], v, l. auto.
    + right. split; [|exact E]. cbn. intros [<-|I]; [|auto]. rewrite same_key_refl in S by exact (H (k', v) (or_introl eq_refl)). discriminate.
Qed.
Lemma in_first_keys l k : (forall x, In x l -> hashable x = true) -> In k l -> In k (first_keys l).
Proof.
  induction l as [|a l IH]; intros H; [auto|]. intros [->|I]; [left; reflexivity|]. cbn.
  destruct (same_key a k) eqn:S; [left; apply same_key_eq, S|]. right. apply filter_In. split; [|rewrite S; reflexivity].
  apply IH; [|exact I]. intros x J. apply H. right. exact J.
Qed.
Lemma app_mid_inj {A B} (k : A) (l1 l1' l2 l2' : list (A * B)) v v' : l1 ++ (k, v) :: l2 = l1' ++ (k, v') :: l2' ->
  ~ In k (map fst l2) -> ~ In k (map fst l2') -> v = v'.
Proof.
  revert l1'. induction l1 as [|p l1 IH]; intros [|p' l1']; cbn; intros E N N'.
  - congruence.
  - injection E as <- ->. exfalso. apply N. rewrite map_app. apply in_or_app. right. left. reflexivity.
  - injection E as -> <-. exfalso. apply N'. rewrite map_app. apply in_or_app. right. left. reflexivity.
  - injection E as -> E. eapply IH; eauto.
Qed.
Lemma dict_entries kvs : (forall p, In p kvs -> hashable (fst p) = true) ->
  NoDup (map fst (dict_of kvs)) /\
  forall k v, In (k, v) (dict_of kvs) <-> exists l1 l2, kvs = l1 ++ (k, v) :: l2 /\ ~ In k (map fst l2).
Proof.
  intros H. assert (HK : forall x, In x (map fst kvs) -> hashable x = true).
  { intros x I. apply in_map_iff in I. destruct I as (p & <- & I). apply H, I. }
  split.
  - unfold dict_of. rewrite map_map. cbn [fst]. rewrite map_id. apply first_keys_NoDup. exact HK.
  - intros k v. unfold dict_of. rewrite in_map_iff. split.
    + intros (k' & E & I). injection E as -> <-. destruct (last_value_in k kvs (VNum 0) H) as [(l1 & w & l2 & EQ & N & ->)|[N _]].
      * exists l1, l2. auto.
      * exfalso. apply N. apply first_keys_in, I.
    + intros (l1 & l2 & E & N). exists k. split.
      * f_equal. destruct (last_value_in k kvs (VNum 0) H) as [(m1 & w & m2 & EQ & N' & ->)|[N' _]].
        -- rewrite E in EQ. symmetry. eapply app_mid_inj; eauto.
        -- exfalso. apply N'. rewrite E, map_app. apply in_or_app. right. left. reflexivity.
      * apply in_first_keys; [exact HK|]. rewrite E, map_app. apply in_or_app. right. left. reflexivity.
Qed.
Lemma entries_hashable l kvs : all (map (fun p => k <~ m_key (fst p) ;; v <~ m_item (snd p) ;; Some (k, v)) l) = Some kvs ->
  forall p, In p kvs -> hashable (fst p) = true.
Proof.
  intros E p I. pose proof (all_In _ _ _ E I) as J. apply in_map_iff in J. destruct J as ([k i] & M & _). cbn [fst snd] in M.
  destruct (m_key k) as [kv|] eqn:K; cbn [obind] in M; [|discriminate]. destruct (m_item i); cbn [obind] in M; [|discriminate].
  injection M as <-. cbn. eapply m_key_hashable. exact K.
Qed.
Lemma dictionary l kvs : all (map (fun p => k <~ m_key (fst p) ;; v <~ m_item (snd p) ;; Some (k, v)) l) = Some kvs ->
  exists d, lift_raw (t_item (IDict l)) = Ok (VDict d) /\ NoDup (map fst d) /\
  forall k v, In (k, v) d <-> exists l1 l2, kvs = l1 ++ (k, v) :: l2 /\ ~ In k (map fst l2).
Proof.
  intros E. exists (dict_of kvs). pose proof (lift_item (IDict l)) as H. cbn [m_item] in H. rewrite E in H. cbn in H.
  split; [exact H|]. apply dict_entries. eapply entries_hashable. exact E.
Qed.

(** ** Where a declaration goes wrong *)
Lemma accepted d : in_place d -> ((exists v, lift_raw (tree_of d) = Ok v) <-> object_of d <> None).
Proof.
  intros P. pose proof (lifted d P) as H. destruct (object_of d) as [v|]; cbn [agrees] in H.
  - split; [discriminate|]. intros _. exists v. exact H.
  - destruct H as [e H]. split; [|intros N; elim N; reflexivity]. intros [v V]. congruence.
Qed.

(** ** Which declarations mean something *)
Definition def {A} (o : option A) : Prop := o <> None.
Lemma def_some {A} (a : A) : def (Some a) <-> True.
Proof. split; [auto|discriminate]. Qed.
Lemma def_none {A} : def (@None A) <-> False.
Proof. split; [intros H; apply H; reflexivity|intros []]. Qed.
Lemma def_omap {A B} (f : A -> B) o : def (omap f o) <-> def o.
Proof. destruct o; cbn; rewrite ?def_some, ?def_none; reflexivity. Qed.
Lemma def_obind {A B} (o : option A) (f : A -> option B) : def (obind o f) <-> exists a, o = Some a /\ def (f a).
Proof.
  destruct o as [a|]; cbn; [|rewrite def_none]; split; [intros H; exists a; auto|intros (b & [= <-] & H); exact H|intros []|].
  intros (b & [=] & _).
Qed.
Lemma def_obind' {A B} (o : option A) (f : A -> option B) (Q : Prop) : (forall a, o = Some a -> (def (f a) <-> Q)) ->
  (def (obind o f) <-> def o /\ Q).
Proof.
  intros H. destruct o as [a|]; cbn; [rewrite (H a eq_refl), def_some|rewrite !def_none]; tauto.
Qed.
Lemma def_all {A B} (f : A -> option B) P l : (forall a, In a l -> (def (f a) <-> P a)) -> (def (all (map f l)) <-> conj P l).
Proof.
  unfold conj. induction l as [|a l IH]; intros H; cbn [map all fold_right]; [apply def_some|].
  rewrite <- (H a (or_introl eq_refl)), <- IH by (intros; apply H; right; assumption).
  destruct (f a); [|rewrite !def_none; tauto]. destruct (all (map f l)); rewrite ?def_some, ?def_none; tauto.
Qed.
Lemma def_number e : def (number e) <-> number_such any e.
Proof. unfold number_such, any. destruct (number e) as [z|]; rewrite ?def_some, ?def_none; split; try tauto; [eauto|intros (z & [=] & _)]. Qed.
Lemma conj_in {A} (P : A -> Prop) l : conj P l <-> forall a, In a l -> P a.
Proof.
  unfold conj. induction l as [|b l IH]; cbn; [split; [intros _ a []|auto]|]. rewrite IH. split.
  - intros [H T] a [<-|I]; auto.
  - intros H. split; [apply H; auto|]. intros a I. apply H. auto.
Qed.

Lemma def_key k : def (m_key k) <-> ok_key k.
Proof. destruct k; cbn [m_key ok_key]; [rewrite def_omap; apply def_number|apply def_some]. Qed.
Lemma def_item i : def (m_item i) <-> ok_item i.
Proof.
  induction i as [e|t|l IH|l IH] using item_ind'; cbn [m_item ok_item].
  - rewrite def_omap. apply def_number.
  - apply def_some.
  - rewrite def_omap. apply def_all. exact IH.
  - rewrite def_omap. apply def_all. intros p I. rewrite (def_obind' _ _ (ok_item (snd p))); [rewrite def_key; tauto|].
    intros k _. rewrite (def_obind' _ _ True); [rewrite (IH p I); tauto|]. intros v _. apply def_some.
Qed.
Lemma prefix_canonical n : starts_struct (canonical n) = String.prefix "struct " n.
Proof.
  unfold canonical, starts_struct. destruct (String.eqb n "integer") eqn:A; [apply String.eqb_eq in A; subst; reflexivity|].
  destruct (String.eqb n "signed int") eqn:B; [apply String.eqb_eq in B; subst; reflexivity|].
  destruct (String.eqb n "unsigned integer") eqn:C; [apply String.eqb_eq in C; subst; reflexivity|].
  destruct (String.eqb n "bool") eqn:D; [apply String.eqb_eq in D; subst; reflexivity|]. reflexivity.
Qed.
Lemma def_not_empty {A} (fs : list A) {B} (o : option B) : def (if not_empty fs then o else None) <-> fs <> [] /\ def o.
Proof. destruct fs; cbn; [rewrite def_none; split; [intros []|intros [H _]; apply H; reflexivity]|]. split; [split; [discriminate|auto]|tauto]. Qed.
Lemma def_types : (forall t, def (m_ty t) <-> ok_ty t) /\ (forall f, def (m_field f) <-> ok_field f).
Proof.
  apply both_ind'; try (intros; cbn [m_ty ok_ty]; apply def_some).
  - intros fs IH. cbn [m_ty ok_ty]. rewrite def_not_empty, def_omap, (def_all _ ok_field) by exact IH. reflexivity.
  - intros t n a d IH. cbn [m_field ok_field].
    rewrite (def_obind' _ _ (on ok_item d /\ match t with TStruct _ => False | TName n => String.prefix "struct " n = false | _ => True end)); [rewrite IH; tauto|].
    intros v E. rewrite (def_obind' _ _ (match t with TStruct _ => False | TName n => String.prefix "struct " n = false | _ => True end)).
    + destruct d; cbn [on]; [rewrite def_omap, def_item|rewrite def_some]; tauto.
    + intros w _. destruct t; cbn [m_ty] in E; try (injection E as <-; cbn; apply def_some).
      * injection E as <-. cbn. replace (prefix "" name) with true by (destruct name; reflexivity). apply def_none.
      * injection E as <-. rewrite prefix_canonical. destruct (String.prefix "struct " name); rewrite ?def_some, ?def_none; split; first [tauto | congruence | discriminate | (intros; reflexivity)].
      * destruct (not_empty fields); [|discriminate]. destruct (all _); cbn in E; [|discriminate]. injection E as <-. apply def_some.
Qed.
Lemma def_field f : def (m_field f) <-> ok_field f.
Proof. apply def_types. Qed.
Lemma def_type_text t : def (type_text t) <-> ok_type_name t.
Proof.
  destruct t; cbn [type_text ok_type_name m_ty]; rewrite ?def_some, ?def_none; try reflexivity.
  destruct p as [h [|x r]]; rewrite ?def_some, ?def_none; reflexivity.
Qed.
Lemma def_param p : def (m_param p) <-> ok_param p.
Proof. destruct p as [d t n a]. cbn [m_param ok_param]. rewrite def_omap. apply def_type_text. Qed.
Lemma def_method m : def (m_method m) <-> ok_method m.
Proof.
  destruct m as [r n ps]. cbn [m_method ok_method]. rewrite (def_obind' _ _ (conj ok_param ps)).
  - destruct r; cbn [on]; [rewrite def_omap, def_type_text|rewrite def_some]; tauto.
  - intros o _. rewrite def_omap. apply def_all. intros; apply def_param.
Qed.
Lemma conj_pick {A B} (sel : A -> option B) P l : conj P (pick sel l) <-> forall a b, In a l -> sel a = Some b -> P b.
Proof.
  rewrite conj_in. split.
  - intros H a b I S. apply H. eapply pick_in; eauto.
  - intros H b I. apply in_pick in I. destruct I as (a & I & S). eapply H; eauto.
Qed.
Lemma def_procedure n l : def (m_procedure n l) <-> conj ok_pitem l.
Proof.
  unfold m_procedure.
  rewrite (def_obind' _ _ (conj ok_field (pick (fun i => match i with PField f => Some f | _ => None end) l))).
  - rewrite (def_all _ ok_method) by (intros; apply def_method). rewrite !conj_pick, conj_in. split.
    + intros [HM HF] [m|f|i] I; [exact (HM _ m I eq_refl)|exact (HF _ f I eq_refl)|exact Logic.I].
    + intros H. split; intros [m|f|i] b I [= <-]; exact (H _ I).
  - intros ms _. rewrite (def_obind' _ _ True); [|intros; apply def_some].
    rewrite (def_all _ ok_field) by (intros; apply def_field). tauto.
Qed.
Lemma def_keys ks : def (m_keys ks) <-> on ok_keys ks.
Proof.
  destruct ks as [ks|]; cbn [m_keys on]; [|apply def_some]. rewrite def_omap. apply def_all. intros; apply def_key.
Qed.
Lemma def_qarg a : def (m_qarg a) <-> ok_qarg a.
Proof. destruct a as [l|ls]; cbn [m_qarg ok_qarg]; [rewrite def_omap; apply def_item|]. apply def_all. intros; apply def_item. Qed.
Lemma def_setting s : def (m_setting s) <-> ok_setting s.
Proof.
  destruct s as [i a r]. cbn [m_setting ok_setting]. rewrite def_omap. destruct r as [x|n q ks|p ks]; cbn [m_rhs ok_rhs].
  - apply def_item.
  - rewrite (def_obind' _ _ (on ok_keys ks)); [rewrite def_qarg; reflexivity|].
    intros w _. rewrite (def_obind' _ _ True); [rewrite def_keys; tauto|]. intros; apply def_some.
  - rewrite (def_obind' _ _ True); [rewrite def_keys; tauto|]. intros; apply def_some.
Qed.
Lemma def_conf f : def (m_conf_sing f) <-> ok_conf f.
Proof.
  destruct f as [p|n l]; cbn [m_conf_sing ok_conf]; [apply def_some|]. unfold m_conf_decl. rewrite def_omap.
  apply def_all. intros; apply def_setting.
Qed.
Lemma def_threads e : def (threads e) <-> ok_cend e.
Proof.
  unfold threads, ok_cend. destruct (ce_threads e) as [n|]; cbn [on]; [|apply def_some].
  unfold number_such. destruct (number n) as [z|]; cbn [obind].
  - destruct (Z.ltb_spec z 0) as [L|L]; rewrite ?def_some, ?def_none; split; try tauto.
    + intros (w & [= <-] & Z). lia.
    + intros _. exists z. auto.
  - rewrite def_none. split; [intros []|intros (w & [=] & _)].
Qed.
Lemma def_connector n c : def (m_connector n c) <-> ok_connector c.
Proof.
  destruct c as [f t fs]. cbn [m_connector ok_connector].
  rewrite (def_obind' _ _ (ok_cend t /\ conj ok_field fs)); [rewrite def_threads; reflexivity|]. intros a _.
  rewrite (def_obind' _ _ (conj ok_field fs)); [rewrite def_threads; reflexivity|]. intros b _.
  rewrite (def_obind' _ _ True); [|intros; apply def_some]. rewrite (def_all _ ok_field) by (intros; apply def_field). tauto.
Qed.
Lemma def_conn_type c : def (m_conn_type c) <-> ok_conn_type c.
Proof. destruct c; cbn [m_conn_type ok_conn_type]; [apply def_some|apply def_connector]. Qed.
Lemma def_dataport m t n : def (m_dataport (m, t, n)) <-> ok_citem (CDataport m t n).
Proof.
  cbn [m_dataport ok_citem]. rewrite def_omap. destruct t as [s|e]; cbn [m_dtype]; [apply def_some|].
  unfold number_such. destruct (number e) as [z|]; cbn [obind].
  - destruct (Z.leb_spec z 0) as [L|L]; rewrite ?def_some, ?def_none; split; try tauto.
    + intros (w & [= <-] & Z). lia.
    + intros _. exists z. auto.
  - rewrite def_none. split; [intros []|intros (w & [=] & _)].
Qed.
Lemma def_component l x f : def (component_of l x f) <-> conj ok_citem l.
Proof.
  unfold component_of.
  rewrite (def_obind' _ _ (conj (fun c => ok_citem (CDataport (fst (fst c)) (snd (fst c)) (snd c)))
    (pick (fun c => match c with CDataport m t n => Some (m, t, n) | _ => None end) l))).
  - rewrite (def_all _ ok_field) by (intros; apply def_field). rewrite !conj_pick, conj_in. split.
    + intros [HF HD] c I. destruct c; try exact Logic.I; [exact (HF _ f0 I eq_refl)|exact (HD _ (maybe, type, name) I eq_refl)].
    + intros H. split; intros c b I S; destruct c; try discriminate S; injection S as <-; exact (H _ I).
  - intros fs _. rewrite (def_obind' _ _ True); [|intros; apply def_some].
    rewrite (def_all _ (fun c => ok_citem (CDataport (fst (fst c)) (snd (fst c)) (snd c)))); [tauto|].
    intros [[m t] n] _. apply def_dataport.
Qed.
Lemma def_bodies :
  (forall b, def (m_body b) <-> ok_body b) /\ (forall x, def (m_comp_sing x) <-> ok_comp x) /\
  (forall s, def (m_stmt s) <-> ok_stmt s) /\ (forall i, def (m_inst i) <-> ok_inst i) /\
  (forall t, def (m_comp_type t) <-> ok_comp_type t).
Proof.
  apply bodies_ind.
  - intros l x f c IX. cbn [m_body ok_body]. rewrite (def_obind' _ _ (on ok_conf f /\ conj ok_citem l)).
    + destruct x as [x|]; cbn [on]; [rewrite def_omap, (IX x eq_refl)|rewrite def_some]; tauto.
    + intros xv _. rewrite (def_obind' _ _ (conj ok_citem l)); [|intros; apply def_component].
      destruct f as [f|]; cbn [keep on]; [rewrite def_omap, def_conf|rewrite def_some]; tauto.
  - intros p. apply def_some.
  - intros n l IH. cbn [m_comp_sing ok_comp]. rewrite def_omap. apply def_all. exact IH.
  - intros i IH. cbn [m_stmt ok_stmt]. rewrite def_omap. exact IH.
  - intros t n l. cbn [m_stmt ok_stmt]. rewrite def_omap. apply def_conn_type.
  - intros n l IH. cbn [m_stmt ok_stmt]. rewrite def_omap. apply def_all. exact IH.
  - intros p q. cbn [m_stmt ok_stmt]. destruct (snd p); [rewrite def_none; split; [intros []|intros H; apply H; reflexivity]|].
    rewrite def_some. split; [discriminate|auto].
  - intros t n IH. cbn [m_inst ok_inst]. rewrite def_omap. exact IH.
  - intros p. apply def_some.
  - intros b IH. exact IH.
Qed.
Lemma def_slot s : def (m_slot s) <-> ok_slot s.
Proof.
  destruct s as [a b u]. cbn [m_slot ok_slot]. rewrite <- !def_number.
  destruct (number (NNum a)), (number (NNum b)); rewrite ?def_some, ?def_none; tauto.
Qed.
Lemma pick_count {B} (sel : part -> option B) (f : part -> bool) l : (forall p, f p = match sel p with Some _ => true | None => false end) ->
  List.length (pick sel l) = count f l.
Proof.
  intros H. unfold count, pick. induction l as [|p l IH]; [reflexivity|]. cbn [flat_map List.filter]. rewrite H, app_length, IH.
  destruct (sel p); reflexivity.
Qed.
Lemma def_assembly n ps : def (m_assembly n ps) <-> ok_decl (DAssembly n ps).
Proof.
  unfold m_assembly. cbn [ok_decl].
  set (cx := count (fun p => match p with ACompos _ => true | _ => false end) ps).
  set (cf := count (fun p => match p with AConf _ => true | _ => false end) ps).
  set (cs := count (fun p => match p with ASchedule _ => true | _ => false end) ps).
  set (px := pick (fun p => match p with ACompos x => Some x | _ => None end) ps).
  set (pf := pick (fun p => match p with AConf f => Some f | _ => None end) ps).
  set (pl := pick (fun p => match p with ASchedule l => Some l | _ => None end) ps).
  assert (CX : List.length px = cx) by (apply pick_count; intros []; reflexivity).
  assert (CF : List.length pf = cf) by (apply pick_count; intros []; reflexivity).
  assert (CS : List.length pl = cs) by (apply pick_count; intros []; reflexivity).
  assert (PP : conj ok_part ps <-> conj ok_comp px /\ conj ok_conf pf /\ conj (conj ok_slot) pl).
  { unfold px, pf, pl. rewrite !conj_pick, conj_in. split.
    - intros H. repeat split; intros a b I S; destruct a; try discriminate S; injection S as <-; exact (H _ I).
    - intros (HX & HF & HS) [x|f|l] I; [exact (HX _ x I eq_refl)|exact (HF _ f I eq_refl)|exact (HS _ l I eq_refl)]. }
  rewrite PP.
  rewrite (def_obind' _ _ ((conj ok_conf pf /\ conj (conj ok_slot) pl) /\ cx = 1%nat /\ (cf <= 1)%nat /\ (cs <= 1)%nat)).
  - rewrite (def_all _ ok_comp) by (intros; apply def_bodies). tauto.
  - intros xs EX. rewrite (def_obind' _ _ (conj (conj ok_slot) pl /\ cx = 1%nat /\ (cf <= 1)%nat /\ (cs <= 1)%nat)).
    + rewrite (def_all _ ok_conf) by (intros; apply def_conf). tauto.
    + intros fs EF. rewrite (def_obind' _ _ (cx = 1%nat /\ (cf <= 1)%nat /\ (cs <= 1)%nat)).
      * rewrite (def_all _ (conj ok_slot)); [tauto|]. intros l _. rewrite def_omap. apply def_all. intros; apply def_slot.
      * intros ss ES.
        apply all_length in EX. apply all_length in EF. apply all_length in ES. rewrite map_length in *.
        rewrite CX in EX. rewrite CF in EF. rewrite CS in ES. rewrite <- EX, <- EF, <- ES.
        destruct xs as [|x [|? ?]]; cbn [obind List.length]; rewrite ?def_none; try (split; [intros []|intros (A & _); discriminate A]).
        destruct fs as [|f [|? ?]]; cbn [obind List.length]; rewrite ?def_none; try (split; [intros []|intros (_ & A & _); lia]);
        (destruct ss as [|s [|? ?]]; cbn [obind List.length]; rewrite ?def_none, ?def_some; [..|split; [intros []|intros (_ & _ & A); lia]]; split; auto).
Qed.
Lemma def_decl d : def (object_of d) <-> ok_decl d.
Proof.
  destruct d as [n ps|n b|n l|n l|n c|n l|n fs]; cbn [object_of ok_decl].
  - apply def_assembly.
  - rewrite def_omap. apply def_bodies.
  - rewrite def_omap. apply def_all. intros; apply def_bodies.
  - unfold m_conf_decl. rewrite def_omap. apply def_all. intros; apply def_setting.
  - apply def_connector.
  - apply def_procedure.
  - rewrite def_not_empty, def_omap, (def_all _ ok_field) by (intros; apply def_field). reflexivity.
Qed.
Lemma accepted_iff d : in_place d -> ((exists v, lift_raw (tree_of d) = Ok v) <-> ok_decl d).
Proof. intros P. rewrite (accepted d P). apply def_decl. Qed.
