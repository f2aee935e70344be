(** The contents of capability spaces in terms of the templates' requests; names. *)
From Coq Require Import List Bool Arith NArith String Ascii Lia.
From mathcomp Require Import ssreflect.
From Verif Require Import Prelude DecStr Context_Model Context_Spec Context_Proofs Context_Proofs2 Context_Proofs3
  Grant_Model Grant_Spec Grant_Proofs.
Import ListNotations.
Open Scope string_scope.
Open Scope list_scope.

Definition is_right (f : rights -> bool) : Prop := f = r_read \/ f = r_write \/ f = r_grant \/ f = r_grantreply.
Lemma asked_right f ops key : is_right f -> f (asked_rights ops key) = asked f ops key.
Proof. by move=> [->|[->|[->|->]]]. Qed.
Lemma no_right f : is_right f -> f no_rights = false.
Proof. by move=> [->|[->|[->|->]]]. Qed.
Lemma Forall2_In_r A B (R : A -> B -> Prop) l l' b : Forall2 R l l' -> In b l' -> exists a, In a l /\ R a b.
Proof.
  elim=> [|x y l0 l0' H F IH] //= [<-|H']; first by exists x; split=> //; left.
  have [a [H1 H2]] := IH H'. exists a. by split=> //; right.
Qed.
Lemma Forall2_In_l A B (R : A -> B -> Prop) l l' a : Forall2 R l l' -> In a l -> exists b, In b l' /\ R a b.
Proof.
  elim=> [|x y l0 l0' H F IH] //= [<-|H']; first by exists y; split=> //; left.
  have [b [H1 H2]] := IH H'. exists b. by split=> //; right.
Qed.

Definition same_key (q q' : req) : Prop := q_space q' = q_space q /\ q_label q' = q_label q /\ q_cap q' = q_cap q.
Lemma is_key_iff sp l n o : is_key (sp, l, n) o = true <-> cap_key o = Some (sp, l, n).
Proof.
  rewrite /is_key. case: (cap_key o) => [k|]; last by split.
  rewrite eqb_eq. split; congruence.
Qed.

Lemma asked_iff ops qs q f : Forall2 (answers (table ops)) qs (filter is_cap ops) -> is_right f ->
  (asked f ops (q_space q, q_label q, q_cap q) = true <->
   exists q', In q' qs /\ same_key q q' /\ q_obj q' <> None /\ f (q_rights q') = true).
Proof.
  move=> F Hf0. split.
  - rewrite /asked => /existsb_exists [o' [Ho' /andb_prop [Hk' Hr']]].
    move/is_key_iff in Hk'.
    have Hf' : In o' (filter is_cap ops) by apply/filter_In; split=> //; rewrite /is_cap Hk'.
    have [q' [Hq' [Kq' Oq']]] := Forall2_In_r _ _ _ _ _ _ F Hf'. rewrite Hk' in Kq'. move: Kq' => [X1 X2 X3].
    exists q'. split=> //. split; first by split; [congruence|split; congruence].
    case: (q_obj q') Oq' => [m|].
    + move=> [j [_ [_ Hr]]]. by rewrite -Hr.
    + move=> [r0 Er]. move: Hr'. rewrite Er /=. by rewrite no_right.
  - move=> [q' [Hq' [[S1 [S2 S3]] [On' Hr']]]]. rewrite /asked. apply/existsb_exists.
    have [o' [Ho' [Kq' Oq']]] := Forall2_In_l _ _ _ _ _ _ F Hq'. move: Ho' => /filter_In [Ho' _].
    exists o'. split=> //. apply/andb_true_intro. split.
    + apply/is_key_iff. by rewrite Kq' S1 S2 S3.
    + case: (q_obj q') On' Oq' => // m _ [j [_ [_ ->]]]. by [].
Qed.
(** A capability stems from requests. *)
Lemma slot_stems st qs sp slot c : traced st qs -> contents st sp slot = Some (Some c) ->
  exists q n, In q qs /\ q_space q = sp /\ q_obj q = Some n /\
    find_obj (c_objs st) (full_name (q_label q) n) 0 = Some (kc_obj c) /\
    forall f, is_right f -> (f (kc_rights c) = true <-> exists q', In q' qs /\ same_key q q' /\ q_obj q' <> None /\ f (q_rights q') = true).
Proof.
  move=> [ops [outs [R F]]]. rewrite contentsE. have [_ [T [K _]]] := inv_run _ _ _ R.
  rewrite K nth_error_map. case Ek: (nth_error (keys ops sp) slot) => [[l n]|] //= [E].
  have [o Ho] := find_key_Some _ _ _ _ (nth_error_In _ _ Ek).
  have [Hin Hkey] := find_some _ _ Ho. move/is_key_iff in Hkey.
  have Hf : In o (filter is_cap ops) by apply/filter_In; split=> //; rewrite /is_cap Hkey.
  have [q [Hq [Kq Oq]]] := Forall2_In_r _ _ _ _ _ _ F Hf.
  rewrite Hkey in Kq. move: Kq => [E1 E2 E3]. subst sp l n.
  rewrite first_cap_eq Ho in E.
  case Eo: (q_obj q) Oq => [n|]; last by move=> [r Er]; move: E; rewrite Er.
  move=> [i [Ct [Fo Ro]]]. rewrite Ct /= in E. move: E => [<-]. cbn [kc_obj kc_rights].
  exists q, n. rewrite T. refine (conj Hq (conj eq_refl (conj Eo (conj Fo _)))) => f Hf0.
  rewrite asked_right //. exact: asked_iff.
Qed.
(** A request is met, when no other request takes its name for something else. *)
Lemma slot_for st qs q n : traced st qs -> In q qs -> q_obj q = Some n ->
  (forall q', In q' qs -> same_key q q' -> q_obj q' = Some n) ->
  exists slot c, contents st (q_space q) slot = Some (Some c) /\
    find_obj (c_objs st) (full_name (q_label q) n) 0 = Some (kc_obj c) /\
    (forall f, is_right f -> (f (kc_rights c) = true <->
       exists q', In q' qs /\ same_key q q' /\ q_obj q' <> None /\ f (q_rights q') = true)).
Proof.
  move=> [ops [outs [R F]]] Hq On Hsame. have [_ [T [K _]]] := inv_run _ _ _ R.
  have [o [Ho [Kq Oq]]] := Forall2_In_l _ _ _ _ _ _ F Hq. move: Ho => /filter_In [Ho _].
  rewrite On in Oq. move: Oq => [i0 [_ [_ Ro]]].
  have Hk : In (q_label q, q_cap q) (keys ops (q_space q)) by apply/keys_In; exists o; split=> //; apply/is_key_iff.
  have [slot Hs] := In_nth_error _ _ Hk. exists slot.
  have [o1 Ho1] := find_key_Some _ _ _ _ Hk. have [Hin1 Hkey1] := find_some _ _ Ho1. move/is_key_iff in Hkey1.
  have Hf : In o1 (filter is_cap ops) by apply/filter_In; split=> //; rewrite /is_cap Hkey1.
  have [q1 [Hq1 [Kq1 Oq1]]] := Forall2_In_r _ _ _ _ _ _ F Hf. rewrite Hkey1 in Kq1. move: Kq1 => [X1 X2 X3].
  rewrite (Hsame q1 Hq1) in Oq1; last by split; [congruence|split; congruence].
  move: Oq1 => [i [Ct [Fo Ro1]]].
  exists (mk_kcap i (asked_rights ops (q_space q, q_label q, q_cap q)) None).
  rewrite contentsE K nth_error_map Hs /= first_cap_eq Ho1 Ct /=. split=> //. rewrite T. split; first by rewrite X2.
  move=> f Hf0. rewrite asked_right //. exact: asked_iff.
Qed.

(** ** Names *)
Fixpoint bars (s : string) : nat :=
  match s with
  | EmptyString => 0
  | String c s => (if Ascii.eqb c "_" then 1 else 0) + bars s
  end.
(** What follows the last bar; the whole string if there is none. *)
Fixpoint tail_from (s : string) (acc : string) : string :=
  match s with
  | EmptyString => acc
  | String c s => if Ascii.eqb c "_" then tail_from s s else tail_from s acc
  end.
Definition tail_of (s : string) : string := tail_from s s.
Lemma bars_app a b : bars (a ++ b) = (bars a + bars b)%nat.
Proof. elim: a => [|c a IH] //=. rewrite IH. lia. Qed.
Lemma tail_from_app a b acc : tail_from (a ++ String "_" b) acc = tail_of b.
Proof. elim: a acc => [|c a IH] acc; first by []. cbn [append tail_from]. destruct (Ascii.eqb c "_"); exact: IH. Qed.
Lemma tail_app a b : tail_of (a ++ String "_" b) = tail_of b.
Proof. exact: tail_from_app. Qed.
Lemma tail_from_none s acc : bars s = 0%nat -> tail_from s acc = acc.
Proof. elim: s acc => [|c s IH] acc; first by []. cbn [bars tail_from]. destruct (Ascii.eqb c "_"); [by []|exact: IH]. Qed.
Lemma tail_none s : bars s = 0%nat -> tail_of s = s.
Proof. exact: tail_from_none. Qed.
Lemma digits_bars s : all_chars is_digit s = true -> bars s = 0%nat.
Proof.
  elim: s => [|c s IH]; first by []. cbn [bars all_chars] => /andb_prop [H1 H2]. rewrite (IH H2).
  destruct (Ascii.eqb_spec c "_") as [E|E]; last by []. by subst c.
Qed.
Lemma dec_bars n : bars (dec n) = 0%nat.
Proof. apply: digits_bars. exact: dec_digits. Qed.
Lemma dec_not n s : all_chars is_digit s = false -> dec n <> s.
Proof. move=> H E. move: (dec_digits n). by rewrite E H. Qed.

Lemma app_split (a b a' b' : string) : (a ++ b = a' ++ b')%string ->
  (exists x, a' = a ++ x /\ b = x ++ b')%string \/ (exists x, a = a' ++ x /\ b' = x ++ b)%string.
Proof.
  elim: a a' => [|c a IH] a' E; first by left; exists a'.
  case: a' E => [|c' a'] E; first by right; exists (String c a).
  move: E => [-> E]. by case: (IH _ E) => [[x [-> ->]]|[x [-> ->]]]; [left|right]; exists x.
Qed.

(** The names of the objects of a connection. *)
Definition word (n : string) : Prop :=
  n = "ep" \/ n = "notification" \/ n = "userspace_buffer_ep" \/ n = "reply_cap_slot" \/
  exists p i, In p ["ep"; "notification"; "handoff"; "lock"] /\ n = numbered_ p i.
Lemma numbered_E p i : numbered_ p i = (p ++ String "_" (dec (N.of_nat i)))%string.
Proof. by []. Qed.
Lemma plainp p : In p ["ep"; "notification"; "handoff"; "lock"] -> bars p = 0%nat.
Proof. by move=> [<-|[<-|[<-|[<-|[]]]]]. Qed.
Lemma word_tail n : word n ->
  (bars n = 0%nat /\ (n = "ep" \/ n = "notification") /\ tail_of n = n) \/
  (bars n = 1%nat /\ exists p i, In p ["ep"; "notification"; "handoff"; "lock"] /\ n = numbered_ p i /\ tail_of n = dec (N.of_nat i)) \/
  (bars n = 2%nat /\ ((n = "userspace_buffer_ep" /\ tail_of n = "ep") \/ (n = "reply_cap_slot" /\ tail_of n = "slot"))).
Proof.
  move=> [->|[->|[->|[->|[p [i [Hp ->]]]]]]]; [by left; split; [|split=> //; left]|by left; split; [|split=> //; right]| | |].
  - right; right. split=> //. by left.
  - right; right. split=> //. by right.
  - right; left. rewrite numbered_E bars_app /= dec_bars (plainp _ Hp). split=> //. exists p, i. split=> //. split=> //.
    rewrite tail_app. apply: tail_none. exact: dec_bars.
Qed.
Lemma inside n n' y : word n -> word n' -> n = (y ++ String "_" n')%string ->
  n = "userspace_buffer_ep" /\ n' = "ep" /\ y = "userspace_buffer".
Proof.
  move=> W W' E. have Hb : bars n = (bars y + S (bars n'))%nat by rewrite E bars_app.
  have Ht : tail_of n = tail_of n' by rewrite E tail_app.
  case: (word_tail n W) => [[B _]|[[B [p [i [Hp [En Tn]]]]]|[B C]]]; first by lia.
  - have B' : bars n' = 0%nat by lia.
    case: (word_tail n' W') => [[_ [Hn' T']]|[[B2 _]|[B2 _]]]; [|by lia|by lia].
    exfalso. rewrite Tn T' in Ht. case: Hn' => Hn'; rewrite Hn' in Ht; exact: (dec_not _ _ _ Ht).
  - case: (word_tail n' W') => [[_ [Hn' T']]|[[B2 [p [i [Hp [En Tn]]]]]|[B2 _]]]; last by lia.
    + case: C => [[En Tn]|[En Tn]]; rewrite Tn T' in Ht; last by case: Hn' => Hn'; rewrite Hn' in Ht.
      case: Hn' => Hn'; rewrite Hn' in Ht; last by []. split=> //. split=> //.
      have E' : ("userspace_buffer" ++ "_ep" = y ++ "_ep")%string by move: E; rewrite En Hn'.
      symmetry. exact: string_app_inj_r E'.
    + exfalso. case: C => [[_ Tn']|[_ Tn']]; rewrite Tn Tn' in Ht; symmetry in Ht; exact: (dec_not _ _ _ Ht).
Qed.
(** Two names of objects of connections agree only if connections and objects do, save for
    the buffer's lock. *)
Lemma names_apart c n c' n' : word n -> word n' -> object_name c n = object_name c' n' ->
  (c = c' /\ n = n') \/ c' = (c ++ "_userspace_buffer")%string \/ c = (c' ++ "_userspace_buffer")%string.
Proof.
  rewrite /object_name. move=> W W' E.
  case: (app_split _ _ _ _ E) => [[x [Ec En]]|[x [Ec En]]].
  - case: x Ec En => [|a x] Ec /= En.
    + left. move: En => [->]. split=> //. rewrite Ec. clear. by elim: c => [|a c IH] //=; rewrite -IH.
    + move: En => [Ea En]. subst a. have [_ [_ Hx]] := inside _ _ _ W W' En. subst x. by right; left.
  - case: x Ec En => [|a x] Ec /= En.
    + left. move: En => [->]. split=> //. rewrite Ec. clear. by elim: c' => [|a c IH] //=; rewrite IH.
    + move: En => [Ea En]. subst a. have [_ [_ Hx]] := inside _ _ _ W' W En. subst x. by right; right.
Qed.
