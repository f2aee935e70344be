From Coq Require Import String Ascii List Bool NArith ZArith Lia.
From Verif Require Import Prelude DecStr Numeric_Model Lift_Model Lift_Spec.
Import ListNotations.
Open Scope string_scope.
Open Scope list_scope.

(** ** Nodes *)
Lemma node_eq h f ts : existsb (String.eqb h) DONT_DESCEND = false -> lookup h LIFT = Some f ->
  lift_raw (Node h ts) = bind (mapR lift_raw ts) f.
Proof. intros A B. cbn [lift_raw]. rewrite A, B. reflexivity. Qed.
Lemma raw_eq h f ts : existsb (String.eqb h) DONT_DESCEND = true -> lookup h LIFT = Some f ->
  lift_raw (Node h ts) = f (map raw_child ts).
Proof. intros A B. cbn [lift_raw]. rewrite A, B. reflexivity. Qed.

Ltac nd := match goal with |- context [lift_raw (Node ?h ?ts)] => rewrite (node_eq h _ ts eq_refl eq_refl) end.
Ltac rw := match goal with |- context [lift_raw (Node ?h ?ts)] => rewrite (raw_eq h _ ts eq_refl eq_refl) end.

Lemma mapR_app {A B} (f : A -> res B) l1 l2 :
  mapR f (l1 ++ l2) = bind (mapR f l1) (fun a => bind (mapR f l2) (fun b => Ok (a ++ b))).
Proof.
  induction l1 as [|x l1 IH]; simpl.
  - destruct (mapR f l2); reflexivity.
  - destruct (f x); simpl; [|reflexivity]. rewrite IH. destruct (mapR f l1); simpl; [|reflexivity].
    destruct (mapR f l2); reflexivity.
Qed.

Lemma lift_id s : lift_raw (t_id s) = Ok (VTok s).
Proof. reflexivity. Qed.
Lemma lift_ids l : mapR lift_raw (map t_id l) = Ok (map VTok l).
Proof. induction l as [|s l IH]; [reflexivity|]. cbn [map mapR]. rewrite lift_id. cbn [bind]. rewrite IH. reflexivity. Qed.
Lemma need_toks l : mapR need_str (map VTok l) = Ok l.
Proof. induction l as [|s l IH]; [reflexivity|]. cbn. rewrite IH. reflexivity. Qed.
Lemma lift_path p : lift_raw (t_path p) = Ok (VRef (ids p) None).
Proof. unfold t_path. nd. rewrite lift_ids. cbn [bind]. unfold lift_reference. rewrite need_toks. reflexivity. Qed.

(** ** Strings *)
Lemma length_app s t : String.length (s ++ t)%string = (String.length s + String.length t)%nat.
Proof. induction s; simpl; congruence. Qed.
Lemma substring_app s t : substring 0 (String.length s) (s ++ t) = s.
Proof. induction s as [|c s IH]; [destruct t; reflexivity|]. simpl. rewrite IH. reflexivity. Qed.
Lemma inner_around c s d : inner (String c (s ++ String d EmptyString)) = s.
Proof.
  unfold inner. cbn [String.length]. rewrite length_app. cbn [String.length].
  replace (S (String.length s + 1) - 2)%nat with (String.length s) by lia. cbn [substring]. apply substring_app.
Qed.
Lemma get_last s d : String.get (String.length s) (s ++ String d EmptyString) = Some d.
Proof. induction s as [|c s IH]; [reflexivity|]. simpl. exact IH. Qed.
Lemma quoted_in_quotes s : quoted (in_quotes s) = true.
Proof.
  unfold quoted, in_quotes. cbn [String.get String.length]. rewrite length_app. cbn [String.length].
  replace (S (String.length s + 1) - 1)%nat with (S (String.length s)) by lia. cbn [String.get]. rewrite get_last. reflexivity.
Qed.
Lemma inner_in_quotes s : inner (in_quotes s) = s.
Proof. apply inner_around. Qed.
Lemma strip_in_quotes s : strip_quotes (VStr (in_quotes s)) = Ok (VStr s).
Proof.
  unfold strip_quotes. cbn [str]. pose proof (quoted_in_quotes s) as Q. pose proof (inner_in_quotes s) as I.
  destruct (in_quotes s) as [|c r] eqn:E; [discriminate E|]. rewrite Q. cbn [assert bind]. rewrite I. reflexivity.
Qed.
Lemma lift_piece s : lift_raw (t_piece s) = Ok (VTok (in_quotes s)).
Proof. reflexivity. Qed.
Lemma lift_text t : lift_raw (t_text t) = Ok (VStr (in_quotes (words t))).
Proof.
  unfold t_text. nd.
  assert (P : forall l, mapR lift_raw (map t_piece l) = Ok (map (fun s => VTok (in_quotes s)) l)).
  { induction l as [|s l IH]; [reflexivity|]. cbn [map mapR]. rewrite lift_piece. cbn [bind]. rewrite IH. reflexivity. }
  rewrite P. cbn [bind]. unfold lift_multi_string. cbn [map List.length Nat.eqb negb assert bind].
  assert (Q : forall l, mapR (fun v => match str v with Some s => Ok (inner s) | None => fails end) (map (fun s => VTok (in_quotes s)) l) = Ok l).
  { induction l as [|s l IH]; [reflexivity|]. cbn [map mapR str bind]. rewrite inner_in_quotes, IH. reflexivity. }
  change (VTok (in_quotes (fst t)) :: map (fun s => VTok (in_quotes s)) (snd t)) with (map (fun s => VTok (in_quotes s)) (fst t :: snd t)).
  rewrite Q. reflexivity.
Qed.

(** ** Agreement *)
Lemma agrees_bind {A B} (r : res A) m (f : A -> res B) (g : A -> option B) :
  agrees r m -> (forall a, m = Some a -> agrees (f a) (g a)) -> agrees (bind r f) (obind m g).
Proof.
  intros H F. destruct m as [a|]; simpl in *.
  - rewrite H. apply F. reflexivity.
  - destruct H as [e ->]. exists e. reflexivity.
Qed.
Lemma agrees_map {A B} (f : A -> res B) (g : A -> option B) l :
  (forall a, In a l -> agrees (f a) (g a)) -> agrees (mapR f l) (all (map g l)).
Proof.
  induction l as [|a l IH]; intros H; [reflexivity|]. cbn [map all mapR].
  assert (Ha := H a (or_introl eq_refl)). assert (Hl : agrees (mapR f l) (all (map g l))) by (apply IH; intros; apply H; right; assumption).
  destruct (g a) as [b|]; simpl in Ha; [|destruct Ha as [e ->]; exists e; reflexivity].
  rewrite Ha. cbn [bind]. destruct (all (map g l)) as [bs|]; simpl in *; [rewrite Hl; reflexivity|].
  destruct Hl as [e ->]. exists e. reflexivity.
Qed.
Lemma agrees_number e : agrees (lift_raw (Num e)) (omap VNum (number e)).
Proof. unfold number. simpl. destruct (Numeric_Model.lift e) as [z|x]; simpl; [reflexivity|exists x; reflexivity]. Qed.

(** The two halves of a literal: as lifted, the strings still have their quotes. *)
Definition with_quotes (v : val) : val := match v with VStr s => VStr (in_quotes s) | v => v end.
Lemma strip_with_quotes v : (forall s, v <> VTok s) -> strip_quotes (with_quotes v) = Ok v.
Proof.
  intros H. destruct v; try reflexivity; [apply strip_in_quotes|]. exfalso. eapply H. reflexivity.
Qed.

Definition q_key (k : key) : option val := omap with_quotes (m_key k).
Lemma lift_key k : agrees (lift_raw (t_key k)) (q_key k).
Proof.
  destruct k as [e|t]; unfold q_key; cbn [t_key m_key].
  - pose proof (agrees_number e) as H. destruct (number e); cbn [omap with_quotes] in *; exact H.
  - cbn. apply lift_text.
Qed.

(** ** Dictionaries *)
Lemma same_key_eq a b : same_key a b = true -> a = b.
Proof.
  destruct a, b; simpl; try discriminate.
  - intros H. apply String.eqb_eq in H. congruence.
  - intros H. apply Z.eqb_eq in H. congruence.
Qed.
Lemma same_key_refl a : hashable a = true -> same_key a a = true.
Proof. destruct a; simpl; try discriminate; intros _; [apply String.eqb_refl|apply Z.eqb_refl]. Qed.
Lemma key_eqb_same a b : key_eqb a b = same_key a b.
Proof. destruct a, b; reflexivity. Qed.

Definition keys_of (l : list (val * val)) : list val := first_keys (map fst l).

Lemma last_value_app k l1 l2 d : last_value k (l1 ++ l2) d = last_value k l2 (last_value k l1 d).
Proof. revert d. induction l1 as [|[k' v] l1 IH]; intros d; [reflexivity|]. simpl. apply IH. Qed.

Lemma first_keys_app l k : first_keys (l ++ [k]) =
  first_keys l ++ (if existsb (fun k' => same_key k' k) (first_keys l) then [] else [k]).
Proof.
  induction l as [|a l IH]; [reflexivity|]. cbn [app first_keys existsb]. rewrite IH.
  rewrite filter_app. destruct (same_key a k) eqn:E.
  - simpl. f_equal. destruct (existsb (fun k' => same_key k' k) (first_keys l)); simpl; [|rewrite E; simpl]; rewrite app_nil_r; reflexivity.
  - cbn [orb].
    assert (X : existsb (fun k' => same_key k' k) (List.filter (fun k' => negb (same_key a k')) (first_keys l)) =
                existsb (fun k' => same_key k' k) (first_keys l)).
    { clear IH. induction (first_keys l) as [|b m IHm]; [reflexivity|]. simpl. destruct (same_key a b) eqn:AB; simpl.
      - rewrite IHm. apply same_key_eq in AB. subst b. rewrite E. reflexivity.
      - rewrite IHm. reflexivity. }
    simpl. rewrite X. f_equal. destruct (existsb (fun k' => same_key k' k) (first_keys l)); simpl; [|rewrite E; simpl]; reflexivity.
Qed.

Lemma first_keys_in l k : In k (first_keys l) -> In k l.
Proof.
  revert k. induction l as [|a l IH]; intros k; [auto|]. simpl. intros [->|H]; [left; reflexivity|].
  apply filter_In in H. right. apply IH, H.
Qed.
Lemma first_keys_NoDup l : (forall k, In k l -> hashable k = true) -> NoDup (first_keys l).
Proof.
  induction l as [|a l IH]; intros H; [constructor|]. simpl. constructor.
  - rewrite filter_In. intros [_ N]. rewrite same_key_refl in N by (apply H; left; reflexivity). discriminate.
  - apply NoDup_filter. apply IH. intros k I. apply H. right. exact I.
Qed.

Lemma dict_set_app ks k v (g : val -> val) : NoDup ks -> (forall x, In x ks -> hashable x = true) -> hashable k = true ->
  dict_set (map (fun x => (x, g x)) ks) k v =
  map (fun x => (x, if same_key x k then v else g x)) (ks ++ (if existsb (fun x => same_key x k) ks then [] else [k])).
Proof.
  intros ND HA HK. induction ks as [|a ks IH].
  - simpl. rewrite same_key_refl by exact HK. reflexivity.
  - inversion ND as [|y m NI ND' EQ]; subst. cbn [map dict_set existsb app]. rewrite key_eqb_same.
    destruct (same_key a k) eqn:E.
    + cbn [orb]. rewrite app_nil_r. f_equal. apply same_key_eq in E. subst a.
      apply map_ext_in. intros x I. destruct (same_key x k) eqn:XK; [|reflexivity].
      apply same_key_eq in XK. subst x. contradiction.
    + cbn [orb]. f_equal. apply IH; [exact ND'|]. intros x I. apply HA. right. exact I.
Qed.

Lemma dict_of_snoc l k v : (forall p, In p l -> hashable (fst p) = true) -> hashable k = true ->
  dict_of (l ++ [(k, v)]) = dict_set (dict_of l) k v.
Proof.
  intros H HK. unfold dict_of. rewrite map_app. cbn [map fst]. rewrite first_keys_app.
  assert (HF : forall x, In x (first_keys (map fst l)) -> hashable x = true).
  { intros x I. apply first_keys_in in I. apply in_map_iff in I. destruct I as (p & <- & I). apply H, I. }
  rewrite (dict_set_app (first_keys (map fst l)) k v (fun x => last_value x l (VNum 0))); auto.
  - apply map_ext. intros x. rewrite last_value_app. reflexivity.
  - apply first_keys_NoDup. intros x I. apply in_map_iff in I. destruct I as (p & <- & I). apply H, I.
Qed.

Lemma m_key_hashable k v : m_key k = Some v -> hashable v = true.
Proof. destruct k as [e|t]; simpl; [destruct (number e); simpl; intros [= <-]; reflexivity|intros [= <-]; reflexivity]. Qed.
Lemma m_key_not_tok k v : m_key k = Some v -> forall s, v <> VTok s.
Proof. destruct k as [e|t]; simpl; [destruct (number e); simpl; intros [= <-]; discriminate|intros [= <-]; discriminate]. Qed.
Lemma m_item_not_tok i v : m_item i = Some v -> forall s, v <> VTok s.
Proof.
  destruct i as [e|t|l|l]; cbn [m_item]; [destruct (number e); simpl; intros [= <-]; discriminate|intros [= <-]; discriminate| |].
  - destruct (all (map m_item l)); simpl; intros [= <-]; discriminate.
  - destruct (all _); simpl; intros [= <-]; discriminate.
Qed.

Lemma dict_from l0 kvs : (forall p, In p l0 -> hashable (fst p) = true) ->
  (forall p, In p kvs -> hashable (fst p) = true /\ (forall s, fst p <> VTok s) /\ (forall s, snd p <> VTok s)) ->
  lift_dict_from (dict_of l0) (map (fun p => (with_quotes (fst p), with_quotes (snd p))) kvs) = Ok (VDict (dict_of (l0 ++ kvs))).
Proof.
  revert l0. induction kvs as [|[k v] kvs IH]; intros l0 H0 H.
  - simpl. rewrite app_nil_r. reflexivity.
  - cbn [map lift_dict_from fst snd]. destruct (H (k, v) (or_introl eq_refl)) as (HK & TK & TV). cbn [fst snd] in *.
    rewrite (strip_with_quotes k TK). cbn [bind]. rewrite (strip_with_quotes v TV). cbn [bind]. rewrite HK.
    rewrite <- dict_of_snoc by assumption. rewrite IH.
    + rewrite <- app_assoc. reflexivity.
    + intros p I. apply in_app_iff in I. destruct I as [I|[<-|[]]]; [apply H0, I|exact HK].
    + intros p I. apply H. right. exact I.
Qed.

(** ** Values *)
Section item_ind'.
Variable P : item -> Prop.
Hypothesis HN : forall e, P (INum e).
Hypothesis HT : forall t, P (IText t).
Hypothesis HL : forall l, (forall i, In i l -> P i) -> P (IList l).
Hypothesis HD : forall l, (forall p, In p l -> P (snd p)) -> P (IDict l).
Fixpoint item_ind' (i : item) : P i :=
  match i with
  | INum e => HN e
  | IText t => HT t
  | IList l => HL l ((fix go (l : list item) : forall i, In i l -> P i :=
      match l with
      | [] => fun i H => match H with end
      | a :: l => fun i H => match H with or_introl E => eq_ind a P (item_ind' a) i E | or_intror H => go l i H end
      end) l)
  | IDict l => HD l ((fix go (l : list (key * item)) : forall p, In p l -> P (snd p) :=
      match l with
      | [] => fun p H => match H with end
      | a :: l => fun p H => match H with or_introl E => eq_ind a (fun p => P (snd p)) (item_ind' (snd a)) p E | or_intror H => go l p H end
      end) l)
  end.
End item_ind'.

Lemma lift_item i : agrees (lift_raw (t_item i)) (omap with_quotes (m_item i)).
Proof.
  induction i as [e|t|l IH|l IH] using item_ind'; cbn [t_item].
  - pose proof (agrees_number e) as H. cbn [m_item]. destruct (number e); exact H.
  - apply lift_text.
  - nd.
    assert (H : agrees (mapR lift_raw (map t_item l)) (all (map (fun i => omap with_quotes (m_item i)) l))).
    { assert (E : mapR lift_raw (map t_item l) = mapR (fun i => lift_raw (t_item i)) l).
      { clear. induction l as [|a l IH]; [reflexivity|]. cbn [map mapR]. rewrite IH. reflexivity. }
      rewrite E. apply agrees_map. intros i I. apply IH, I. }
    cbn [m_item].
    assert (S : forall l, match all (map m_item l) with
                | Some vs => all (map (fun i => omap with_quotes (m_item i)) l) = Some (map with_quotes vs) /\ (forall v s, In v vs -> v <> VTok s)
                | None => all (map (fun i => omap with_quotes (m_item i)) l) = None end).
    { clear. induction l as [|i l IH]; [cbn; split; [reflexivity|intros v s []]|]. cbn [map all].
      destruct (m_item i) as [v|] eqn:E; cbn [omap]; [|reflexivity]. destruct (all (map m_item l)) as [vs|].
      - destruct IH as [-> N]. split; [reflexivity|]. intros w s [<-|I]; [eapply m_item_not_tok; exact E|apply N, I].
      - rewrite IH. reflexivity. }
    specialize (S l). destruct (all (map m_item l)) as [vs|].
    + destruct S as [S N]. rewrite S in H. cbn [agrees] in H. rewrite H. cbn [bind omap with_quotes agrees]. unfold lift_list.
      assert (X : mapR strip_quotes (map with_quotes vs) = Ok vs).
      { clear - N. induction vs as [|v vs IH]; [reflexivity|]. cbn [map mapR].
        rewrite strip_with_quotes by (intros s; apply N; left; reflexivity). cbn [bind]. rewrite IH; [reflexivity|].
        intros w s I. apply N. right. exact I. }
      rewrite X. reflexivity.
    + rewrite S in H. destruct H as [e ->]. exists e. reflexivity.
  - nd. cbn [m_item].
    assert (H : forall l, (forall p, In p l -> agrees (lift_raw (t_item (snd p))) (omap with_quotes (m_item (snd p)))) ->
      match all (map (fun p => k <~ m_key (fst p) ;; v <~ m_item (snd p) ;; Some (k, v)) l) with
      | Some kvs => mapR lift_raw (flat_map (fun p => [t_key (fst p); t_item (snd p)]) l) =
                    Ok (flat_map (fun p => [with_quotes (fst p); with_quotes (snd p)]) kvs) /\
                    (forall p, In p kvs -> hashable (fst p) = true /\ (forall s, fst p <> VTok s) /\ (forall s, snd p <> VTok s))
      | None => exists e, mapR lift_raw (flat_map (fun p => [t_key (fst p); t_item (snd p)]) l) = Err e
      end).
    { clear. induction l as [|[k i] l IH]; intros H; [cbn; split; [reflexivity|intros p []]|].
      cbn [flat_map map all app mapR fst snd]. pose proof (lift_key k) as HK. unfold q_key in HK.
      destruct (m_key k) as [kv|] eqn:EK; cbn [omap agrees obind] in *.
      2:{ destruct HK as [e ->]. exists e. reflexivity. }
      rewrite HK. cbn [bind]. pose proof (H (k, i) (or_introl eq_refl)) as HI. cbn [snd] in HI.
      destruct (m_item i) as [iv|] eqn:EI; cbn [omap agrees obind] in *.
      2:{ destruct HI as [e ->]. exists e. reflexivity. }
      rewrite HI. cbn [bind].
      assert (G : forall p, In p l -> agrees (lift_raw (t_item (snd p))) (omap with_quotes (m_item (snd p)))) by (intros; apply H; right; assumption).
      specialize (IH G). destruct (all _) as [kvs|].
      - destruct IH as [-> F]. split; [reflexivity|]. intros p [<-|I]; [|apply F, I]. cbn [fst snd].
        split; [eapply m_key_hashable; exact EK|]. split; [eapply m_key_not_tok; exact EK|eapply m_item_not_tok; exact EI].
      - destruct IH as [e ->]. exists e. reflexivity. }
    specialize (H l IH). destruct (all _) as [kvs|]; cbn [omap agrees with_quotes].
    + destruct H as [-> F]. cbn [bind]. unfold lift_dict.
      assert (X : forall kvs, pairwise (flat_map (fun p : val * val => [with_quotes (fst p); with_quotes (snd p)]) kvs) =
                  map (fun p => (with_quotes (fst p), with_quotes (snd p))) kvs).
      { clear. induction kvs as [|p kvs IH]; [reflexivity|]. cbn [flat_map app pairwise map]. rewrite IH. reflexivity. }
      rewrite X. change (@nil (val * val)) with (dict_of []). rewrite dict_from; [reflexivity|intros p []|exact F].
    + destruct H as [e ->]. exists e. reflexivity.
Qed.
