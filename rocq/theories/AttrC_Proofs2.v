(** Proofs about generated struct definitions (C89). *)
From Coq Require Import List String Ascii Bool NArith Lia.
From Verif Require Import Prelude DecStr AttrC_Model AttrC_Spec AttrC_Proofs.
Import ListNotations.
Open Scope string_scope.
Open Scope list_scope.

Lemma fields_inv v fs us : recurse_fields v fs = Ok us ->
  forall u, In u us -> exists m arr t x here,
    In (m, arr, t) fs /\ value_get v m = Ok x /\ recurse_structs t arr x = Ok here /\ In u here.
Proof.
  revert us. induction fs as [|[[m a] ft] fs IH]; intros us H u Hu.
  - injection H as <-. destruct Hu.
  - cbn [recurse_fields] in H. destruct ft as [k|k gs].
    + cbn [bind] in H. destruct (recurse_fields v fs) as [rest|]; [|discriminate]. cbn [bind] in H.
      injection H as <-. destruct (IH rest eq_refl u Hu) as (m' & arr & t & x & here & A & B).
      exists m', arr, t, x, here. split; [right; exact A|exact B].
    + destruct (value_get v m) as [x|] eqn:Ex; [|discriminate]. cbn [bind] in H.
      destruct (recurse_structs (Struct k gs) a x) as [here|] eqn:Eh; [|discriminate]. cbn [bind] in H.
      destruct (recurse_fields v fs) as [rest|]; [|discriminate]. cbn [bind] in H. injection H as <-.
      apply in_app_or in Hu as [Hu|Hu].
      * exists m, a, (Struct k gs), x, here. split; [left; reflexivity|]. auto.
      * destruct (IH rest eq_refl u Hu) as (m' & arr & t & x' & here' & A & B).
        exists m', arr, t, x', here'. split; [right; exact A|exact B].
Qed.

Lemma fields_in v fs us f m gs : recurse_fields v fs = Ok us ->
  In f fs -> f_type f = Struct m gs ->
  exists x here, recurse_structs (f_type f) (f_array f) x = Ok here /\ incl here us.
Proof.
  revert us. induction fs as [|[[k a] ft] fs IH]; intros us H Hf E; [destruct Hf|].
  cbn [recurse_fields] in H. destruct ft as [j|j hs].
  - cbn [bind] in H. destruct (recurse_fields v fs) as [rest|]; [|discriminate]. cbn [bind] in H.
    injection H as <-. destruct Hf as [<-|Hf]; [discriminate|]. exact (IH rest eq_refl Hf E).
  - destruct (value_get v k) as [x|] eqn:Ex; [|discriminate]. cbn [bind] in H.
    destruct (recurse_structs (Struct j hs) a x) as [here|] eqn:Eh; [|discriminate]. cbn [bind] in H.
    destruct (recurse_fields v fs) as [rest|]; [|discriminate]. cbn [bind] in H. injection H as <-.
    destruct Hf as [<-|Hf].
    + exists x, here. split; [exact Eh|apply incl_appl, incl_refl].
    + destruct (IH rest eq_refl Hf E) as (x' & here' & A & B). exists x', here'.
      split; [exact A|]. apply incl_appr. exact B.
Qed.

Lemma recurse_shape name fs arr v us :
  recurse_structs (Struct name fs) arr v = Ok us ->
  exists inner v', recurse_fields v fs = Ok inner /\ first_value arr v = Ok v' /\
    us = inner ++ [(name, fs, v')].
Proof.
  rewrite recurse_struct. destruct (recurse_fields v fs) as [inner|]; [|discriminate]. cbn [bind].
  destruct (first_value arr v) as [v'|]; [|discriminate]. cbn [bind]. intros H. injection H as <-.
  exists inner, v'. auto.
Qed.

(** Each struct found is a part of the type, and conversely. *)
Lemma recurse_part t : forall arr v us, recurse_structs t arr v = Ok us ->
  forall u, In u us -> part t (Struct (u_name u) (u_fields u)).
Proof.
  induction t as [n|n fs IH] using ctype_ind'; intros arr v us H u Hu.
  - injection H as <-. destruct Hu.
  - apply recurse_shape in H as (inner & v' & E & _ & ->). apply in_app_or in Hu as [Hu|[<-|[]]].
    + destruct (fields_inv v fs inner E u Hu) as (m & a & ft & x & here & Hin & _ & Eh & Hu').
      rewrite Forall_forall in IH. apply (part_field n fs (m, a, ft)); [exact Hin|].
      exact (IH _ Hin a x here Eh u Hu').
    + apply part_self.
Qed.
Lemma recurse_complete t : forall arr v us, recurse_structs t arr v = Ok us ->
  forall m gs, part t (Struct m gs) -> In m (map u_name us).
Proof.
  induction t as [n|n fs IH] using ctype_ind'; intros arr v us H m gs Hp.
  - inversion Hp.
  - pose proof H as H'. apply recurse_shape in H as (inner & v' & E & _ & ->).
    inversion Hp; subst.
    + rewrite map_app. apply in_or_app. right. left. reflexivity.
    + rewrite Forall_forall in IH. destruct (f_type f) as [k|k hs] eqn:Ef; [inversion H3|].
      destruct (fields_in v fs inner f k hs E H1 Ef) as (x & here & Eh & Hi).
      rewrite <- Ef in H3. pose proof (IH f H1 _ _ _ Eh m gs H3) as A.
      rewrite map_app. apply in_or_app. left. apply in_map_iff in A as (u & <- & Hu).
      apply in_map. apply Hi. exact Hu.
Qed.
Lemma recurse_uses t : forall arr v us, recurse_structs t arr v = Ok us ->
  forall u, In u us -> uses t arr v u.
Proof.
  induction t as [n|n fs IH] using ctype_ind'; intros arr v us H u Hu.
  - injection H as <-. destruct Hu.
  - apply recurse_shape in H as (inner & v' & E & Ev & ->). apply in_app_or in Hu as [Hu|[<-|[]]].
    + destruct (fields_inv v fs inner E u Hu) as (m & a & ft & x & here & Hin & Ex & Eh & Hu').
      rewrite Forall_forall in IH. pose proof (IH _ Hin a x here Eh u Hu') as A.
      unfold value_get in Ex. destruct v as [[| | |d]|]; try discriminate. injection Ex as <-.
      destruct arr.
      * unfold first_value in Ev. destruct d; cbn in Ev; [|discriminate].
        exact (uses_absent n fs m a ft u Hin A).
      * apply (uses_field n fs m a ft d u Hin A).
    + unfold first_value in Ev. destruct arr.
      * destruct v as [[[|c s]|w|[|x l]|[|kv d]]|]; cbn in Ev; try discriminate; injection Ev as <-;
          try (apply uses_empty; auto; fail).
        apply uses_element. left. reflexivity.
      * injection Ev as <-. apply uses_single.
Qed.

Lemma all_inv attributes conf us : all_structs attributes conf = Ok us ->
  (forall u, In u us -> exists a here, In a attributes /\
     recurse_structs (f_type a) (f_array a) (get (f_name a) conf) = Ok here /\ In u here) /\
  (forall a, In a attributes -> exists here,
     recurse_structs (f_type a) (f_array a) (get (f_name a) conf) = Ok here /\ incl here us).
Proof.
  revert us. induction attributes as [|a attributes IH]; intros us H.
  - injection H as <-. split; [intros u []|intros a []].
  - cbn [all_structs] in H. destruct (recurse_structs _ _ _) as [here|] eqn:E; [|discriminate].
    cbn [bind] in H. destruct (all_structs attributes conf) as [rest|]; [|discriminate].
    cbn [bind] in H. injection H as <-. destruct (IH rest eq_refl) as [A B]. split.
    + intros u Hu. apply in_app_or in Hu as [Hu|Hu].
      * exists a, here. split; [left; reflexivity|]. auto.
      * destruct (A u Hu) as (b & h & Hb & C). exists b, h. split; [right; exact Hb|exact C].
    + intros b [<-|Hb].
      * exists here. split; [exact E|apply incl_appl, incl_refl].
      * destruct (B b Hb) as (h & C & D). exists h. split; [exact C|apply incl_appr; exact D].
Qed.

(** The definitions drawn. *)
Lemma draw_in us : forall drawn defs, draw us drawn = Ok defs ->
  forall name l, In (name, l) defs -> exists fs v, In (name, fs, v) us /\ mapM (print_field v) fs = Ok l.
Proof.
  induction us as [|[[name fs] v] us IH]; intros drawn defs H m l Hin.
  - injection H as <-. destruct Hin.
  - cbn [draw] in H. destruct (existsb (String.eqb name) drawn).
    + destruct (IH _ _ H m l Hin) as (gs & w & A & B). exists gs, w. split; [right; exact A|exact B].
    + unfold print_struct_definition in H. destruct (mapM (print_field v) fs) as [l'|] eqn:El; [|discriminate].
      cbn [bind] in H. destruct (draw us (name :: drawn)) as [rest|] eqn:Er; [|discriminate].
      cbn [bind] in H. injection H as <-. destruct Hin as [E|Hin].
      * injection E as <- <-. exists fs, v. split; [left; reflexivity|exact El].
      * destruct (IH _ _ Er m l Hin) as (gs & w & A & B). exists gs, w. split; [right; exact A|exact B].
Qed.
Lemma draw_complete us : forall drawn defs, draw us drawn = Ok defs ->
  forall name, In name (map u_name us) -> In name drawn \/ In name (map fst defs).
Proof.
  induction us as [|[[name fs] v] us IH]; intros drawn defs H m Hin; [destruct Hin|].
  cbn [draw] in H. destruct (existsb (String.eqb name) drawn) eqn:E.
  - destruct Hin as [<-|Hin]; [left; apply existsb_in; exact E|exact (IH _ _ H m Hin)].
  - unfold print_struct_definition in H. destruct (mapM (print_field v) fs) as [l'|] eqn:El; [|discriminate].
    cbn [bind] in H. destruct (draw us (name :: drawn)) as [rest|] eqn:Er; [|discriminate].
    cbn [bind] in H. injection H as <-. destruct Hin as [<-|Hin]; [right; left; reflexivity|].
    destruct (IH _ _ Er m Hin) as [[<-|A]|A]; [right; left; reflexivity|left; exact A|right; right; exact A].
Qed.

Lemma print_fields_signature v fs l : mapM (print_field v) fs = Ok l ->
  map printed l = map signature fs.
Proof.
  revert l. induction fs as [|f fs IH]; intros l H.
  - injection H as <-. reflexivity.
  - cbn [mapM] in H. unfold print_field at 1 in H.
    destruct (if f_array f then _ else _) as [len|] eqn:E; [|discriminate]. cbn [bind] in H.
    destruct (mapM (print_field v) fs) as [l'|]; [|discriminate]. cbn [bind] in H. injection H as <-.
    cbn [map]. rewrite (IH l' eq_refl). f_equal. unfold printed, signature. cbn [fst snd]. f_equal.
    destruct (f_array f).
    + destruct (empty_value v); [injection E as <-; reflexivity|].
      destruct (value_get v (f_name f)) as [x|]; [|discriminate]. cbn [bind] in E.
      destruct (pylen x); [|discriminate]. injection E as <-. reflexivity.
    + injection E as <-. reflexivity.
Qed.

Lemma print_field_length v fs l f k : mapM (print_field v) fs = Ok l ->
  In f fs -> f_array f = true -> has_elements v (f_name f) k ->
  In (show_type (f_type f), f_name f, Some k) l.
Proof.
  revert l. induction fs as [|g fs IH]; intros l H Hf Ha Hk; [destruct Hf|].
  cbn [mapM] in H. unfold print_field at 1 in H.
  destruct (if f_array g then _ else _) as [len|] eqn:E; [|discriminate]. cbn [bind] in H.
  destruct (mapM (print_field v) fs) as [l'|]; [|discriminate]. cbn [bind] in H. injection H as <-.
  destruct Hf as [->|Hf].
  - left. rewrite Ha in E. destruct Hk as (d & xs & -> & Eg & <-).
    destruct d as [|kv d]; [discriminate|]. cbn [empty_value value_get bind] in E. rewrite Eg in E.
    cbn [pylen bind] in E. injection E as <-. reflexivity.
  - right. exact (IH l' eq_refl Hf Ha Hk).
Qed.

Lemma definitions attributes conf defs :
  (forall a n, In a attributes -> part (f_type a) (Named n) ->
     forall s, show_type (Named n) <> ("struct " ++ s)%string) ->
  print_type_definitions attributes conf = Ok defs ->
  well_formed [] defs.
Proof.
  intros Hn H. unfold print_type_definitions in H.
  destruct (all_structs attributes conf) as [us|] eqn:E; [|discriminate]. cbn [bind] in H.
  apply (draw_well_formed us []); [exact (all_closed _ _ _ E)| |exact H].
  intros u f Hu Hf n En s. destruct (proj1 (all_inv _ _ _ E) u Hu) as (a & here & Ha & Eh & Hu').
  apply (Hn a n Ha). pose proof (recurse_part _ _ _ _ Eh u Hu') as Hp.
  assert (K : forall t t' t'', part t t' -> part t' t'' -> part t t'').
  { clear. intros t t' t'' H. induction H; [trivial|]. intros H'. apply (part_field n fs f); auto. }
  apply (K _ _ _ Hp). apply (part_field _ _ f); [exact Hf|]. rewrite En. apply part_self.
Qed.

Lemma all_defined attributes conf defs a m gs :
  (forall b b' m gs gs', In b attributes -> In b' attributes ->
     part (f_type b) (Struct m gs) -> part (f_type b') (Struct m gs') -> gs = gs') ->
  print_type_definitions attributes conf = Ok defs ->
  In a attributes -> part (f_type a) (Struct m gs) ->
  exists l, In (m, l) defs /\ map printed l = map signature gs.
Proof.
  intros Hc H Ha Hp. unfold print_type_definitions in H.
  destruct (all_structs attributes conf) as [us|] eqn:E; [|discriminate]. cbn [bind] in H.
  destruct (all_inv _ _ _ E) as [A B]. destruct (B a Ha) as (here & Eh & Hi).
  pose proof (recurse_complete _ _ _ _ Eh m gs Hp) as C.
  assert (D : In m (map u_name us)).
  { apply in_map_iff in C as (u & <- & Hu). apply in_map. apply Hi. exact Hu. }
  destruct (draw_complete us [] defs H m D) as [[]|F]. apply in_map_iff in F as ([m' l] & <- & Hl).
  cbn [fst] in *. exists l. split; [exact Hl|].
  destruct (draw_in us [] defs H m' l Hl) as (fs & v & Hu & El).
  rewrite (print_fields_signature v fs l El). f_equal.
  destruct (A _ Hu) as (b & h & Hb & Ebh & Hbu).
  pose proof (recurse_part _ _ _ _ Ebh _ Hbu) as Pb. exact (Hc b a m' fs gs Hb Ha Pb Hp).
Qed.

Lemma lengths attributes conf defs m l f k :
  print_type_definitions attributes conf = Ok defs -> In (m, l) defs ->
  (forall a gs v, In a attributes -> uses (f_type a) (f_array a) (get (f_name a) conf) (m, gs, v) ->
     In f gs /\ has_elements v (f_name f) k) ->
  f_array f = true ->
  In (show_type (f_type f), f_name f, Some k) l.
Proof.
  intros H Hl Hu Ha. unfold print_type_definitions in H.
  destruct (all_structs attributes conf) as [us|] eqn:E; [|discriminate]. cbn [bind] in H.
  destruct (draw_in us [] defs H m l Hl) as (fs & v & Hus & El).
  destruct (proj1 (all_inv _ _ _ E) _ Hus) as (a & here & Haa & Eh & Hin).
  destruct (Hu a fs v Haa (recurse_uses _ _ _ _ Eh _ Hin)) as [Hf Hk].
  exact (print_field_length v fs l f k El Hf Ha Hk).
Qed.

(** Settings for which definitions are generated. *)
Definition use_ok (u : struct_use) : Prop :=
  match snd u with
  | None => True
  | Some (VDict d) => exists items, stands_for_fields (u_fields u) d items
  | Some _ => False
  end.
Lemma sf_field fs d items : stands_for_fields fs d items ->
  forall m arr t, In (m, arr, t) fs -> exists x c, get m d = Some x /\ stands_for_attr arr t x c.
Proof.
  induction 1; intros m' arr' t' Hin; [destruct Hin|]. destruct Hin as [E|Hin].
  - injection E as <- <- <-. exists x, c. auto.
  - exact (IHstands_for_fields m' arr' t' Hin).
Qed.

Lemma flat_fields v fs : (forall m arr t, In (m, arr, t) fs -> exists k, t = Named k) ->
  recurse_fields v fs = Ok [].
Proof.
  induction fs as [|[[m a] t] fs IH]; intros H; [reflexivity|].
  destruct (H m a t (or_introl eq_refl)) as [k ->]. cbn [recurse_fields bind].
  rewrite IH; [reflexivity|]. intros m' a' t' Hin. apply (H m' a' t'). right. exact Hin.
Qed.

Lemma recurse_ok t : forall arr v c, stands_for_attr arr t v c -> flat_arrays arr t ->
  exists us, recurse_structs t arr (Some v) = Ok us /\ Forall use_ok us.
Proof.
  induction t as [n|n fs IH] using ctype_ind'; intros arr v c Hs Hf.
  - exists []. split; [reflexivity|constructor].
  - rewrite recurse_struct. destruct arr.
    + inversion Hf as [| |? ? Hff]; subst. inversion Hs as [|? l cs Hl]; subst.
      rewrite (flat_fields _ _ Hff). cbn [bind]. destruct l as [|x l].
      * exists [(n, fs, None)]. split; [reflexivity|]. constructor; [exact I|constructor].
      * exists [(n, fs, Some x)]. split; [reflexivity|]. constructor; [|constructor].
        inversion Hl as [|? ? ? ? ? Hx]; subst. inversion Hx as [| |? ? ? items Hi]; subst.
        exists items. exact Hi.
    + inversion Hf as [|? ? Hff|]; subst. inversion Hs as [? ? ? Hv|]; subst.
      inversion Hv as [| |? ? d items Hi]; subst.
      assert (A : forall gs, (forall f, In f gs -> In f fs) ->
        exists inner, recurse_fields (Some (VDict d)) gs = Ok inner /\ Forall use_ok inner).
      { rewrite Forall_forall in IH. induction gs as [|[[m a] t] gs IHg]; intros Hg.
        - exists []. split; [reflexivity|constructor].
        - destruct IHg as (rest & Er & Fr); [intros f Hin; apply Hg; right; exact Hin|].
          pose proof (Hg _ (or_introl eq_refl)) as Hin.
          destruct (sf_field fs d items Hi m a t Hin) as (x & cx & Eg & Sx).
          cbn [recurse_fields]. destruct t as [k|k hs].
          + cbn [bind]. rewrite Er. exists rest. split; [reflexivity|exact Fr].
          + cbn [value_get bind]. rewrite Eg.
            destruct (IH _ Hin a x cx Sx (Hff m a _ Hin)) as (here & Eh & Fh).
            cbn [f_type snd] in Eh. rewrite Eh. cbn [bind]. rewrite Er.
            exists (here ++ rest). split; [reflexivity|]. apply Forall_app. auto. }
      destruct (A fs (fun f H => H)) as (inner & Ei & Fi). rewrite Ei. cbn [bind first_value].
      exists (inner ++ [(n, fs, Some (VDict d))]). split; [reflexivity|]. apply Forall_app.
      split; [exact Fi|]. constructor; [exists items; assumption|constructor].
Qed.

Lemma print_ok u : use_ok u -> exists l, mapM (print_field (snd u)) (u_fields u) = Ok l.
Proof.
  destruct u as [[name fs] v]. unfold use_ok. cbn [snd u_fields fst]. intros H.
  assert (A : forall gs, (forall f, In f gs -> In f fs) -> exists l, mapM (print_field v) gs = Ok l).
  { induction gs as [|f gs IH]; intros Hg; [exists []; reflexivity|].
    destruct IH as [l El]; [intros g Hin; apply Hg; right; exact Hin|].
    cbn [mapM]. unfold print_field at 1. destruct (f_array f) eqn:Ea.
    - destruct v as [[s|w|xs|d]|]; try contradiction.
      + destruct H as [items H]. destruct (empty_value (Some (VDict d))) eqn:Ee.
        * cbn [bind]. rewrite El. eexists. reflexivity.
        * pose proof (Hg f (or_introl eq_refl)) as Hin. destruct f as [[m a] t]. cbn in Ea. subst a.
          destruct (sf_field fs d items H m true t Hin) as (x & c & Eg & Sx). inversion Sx; subst.
          cbn [value_get f_name fst bind]. rewrite Eg. cbn [pylen bind]. rewrite El. eexists. reflexivity.
      + cbn [empty_value bind]. rewrite El. eexists. reflexivity.
    - cbn [bind]. rewrite El. eexists. reflexivity. }
  exact (A fs (fun f H => H)).
Qed.
Lemma draw_ok us : Forall use_ok us -> forall drawn, exists defs, draw us drawn = Ok defs.
Proof.
  induction 1 as [|u us Hu _ IH]; intros drawn; [exists []; reflexivity|].
  destruct (print_ok u Hu) as [l El]. destruct u as [[name fs] v]. cbn [snd u_fields fst] in El.
  cbn [draw]. destruct (existsb (String.eqb name) drawn); [apply IH|].
  unfold print_struct_definition. rewrite El. cbn [bind].
  destruct (IH (name :: drawn)) as [rest Er]. rewrite Er. eexists. reflexivity.
Qed.

Lemma definitions_exist attributes conf :
  (forall a, In a attributes -> exists v c,
     get (f_name a) conf = Some v /\ stands_for_attr (f_array a) (f_type a) v c /\
     flat_arrays (f_array a) (f_type a)) ->
  exists defs, print_type_definitions attributes conf = Ok defs.
Proof.
  intros H. unfold print_type_definitions.
  assert (A : exists us, all_structs attributes conf = Ok us /\ Forall use_ok us).
  { induction attributes as [|a attributes IH]; [exists []; split; [reflexivity|constructor]|].
    destruct IH as (rest & Er & Fr); [intros b Hb; apply H; right; exact Hb|].
    destruct (H a (or_introl eq_refl)) as (v & c & Eg & Sv & Fl).
    destruct (recurse_ok _ _ _ _ Sv Fl) as (here & Eh & Fh).
    cbn [all_structs]. rewrite Eg, Eh. cbn [bind]. rewrite Er. exists (here ++ rest).
    split; [reflexivity|]. apply Forall_app. auto. }
  destruct A as (us & -> & F). cbn [bind]. apply draw_ok. exact F.
Qed.

(** Cases in which the definitions are wrong or missing. *)
Definition in_t : field := ("b", true, Named "int").
Definition cat : ctype := Struct "cat" [in_t].
Definition house : ctype := Struct "house" [("pet", false, cat)].
Definition nums (l : list string) : value := VList (map VLit l).

Lemma array_of_nested name v x xs :
  v = Some (VList (x :: xs)) ->
  print_type_definitions [(name, true, house)] match v with Some v => [(name, v)] | None => [] end =
  Err OtherException.
Proof.
  intros ->. unfold print_type_definitions. cbn [all_structs f_type f_array f_name fst snd get].
  rewrite String.eqb_refl. reflexivity.
Qed.
Lemma unset_nested name : print_type_definitions [(name, false, house)] [] = Err OtherException.
Proof. reflexivity. Qed.
Lemma first_value_only :
  (exists conf v w, get "x" conf = Some v /\ get "y" conf = Some w /\
     has_elements (Some v) "b" 1 /\ has_elements (Some w) "b" 3 /\
     print_type_definitions [("x", false, cat); ("y", false, cat)] conf =
       Ok [("cat", [("int", "b", Some 1%N)])]) /\
  (exists conf w, get "y" conf = Some w /\ has_elements (Some w) "b" 3 /\
     print_type_definitions [("x", false, cat); ("y", false, cat)] conf =
       Ok [("cat", [("int", "b", Some 0%N)])]).
Proof.
  set (v := VDict [("b", nums ["1"])]). set (w := VDict [("b", nums ["1"; "2"; "3"])]). split.
  - exists [("x", v); ("y", w)], v, w.
    repeat split; try reflexivity; unfold has_elements; eexists _, _; repeat split; reflexivity.
  - exists [("y", w)], w.
    repeat split; try reflexivity; unfold has_elements; eexists _, _; repeat split; reflexivity.
Qed.

Lemma string_escapes :
  (exists s, stands_for_attr false (Named "string") (VStr s) (CStr s) /\
     exists text c, show_attribute_value (Named "string") (VStr s) = Ok text /\
     c_read text = Some (CStr c) /\ c <> s) /\
  (exists s, stands_for_attr false (Named "string") (VStr s) (CStr s) /\
     exists text, show_attribute_value (Named "string") (VStr s) = Ok text /\ c_read text = None) /\
  (exists s, plain_string s = false /\ String.length s = 1 /\
     exists text, show_attribute_value (Named "string") (VStr s) = Ok text /\ c_read text = None).
Proof.
  split; [|split].
  - exists (String backslash "t"). split; [apply sf_single, sf_str|].
    eexists _, _. split; [reflexivity|]. split; [vm_compute; reflexivity|]. discriminate.
  - exists (String backslash ""). split; [apply sf_single, sf_str|].
    eexists. split; [reflexivity|]. vm_compute; reflexivity.
  - exists (String nl ""). split; [reflexivity|]. split; [reflexivity|].
    eexists. split; [reflexivity|]. vm_compute; reflexivity.
Qed.

Lemma show_type_other n : ~ In n ["string"; "character"; "boolean"] -> show_type (Named n) = n.
Proof.
  intros N. assert (N1 : n <> "string") by (intros ->; cbn in N; tauto).
  assert (N2 : n <> "character") by (intros ->; cbn in N; tauto).
  assert (N3 : n <> "boolean") by (intros ->; cbn in N; tauto).
  clear N. unfold show_type.
  repeat (match goal with
          | |- context [match ?x with _ => _ end] => is_var x; destruct x; try reflexivity; try congruence
          end).
Qed.
Lemma show_type_ok t : c_type t (show_type t) /\ forall s, c_type t s -> s = show_type t.
Proof.
  split.
  - destruct t as [n|n fs]; [|constructor].
    destruct (string_dec n "string") as [->|N1]; [constructor|].
    destruct (string_dec n "character") as [->|N2]; [constructor|].
    destruct (string_dec n "boolean") as [->|N3]; [constructor|].
    assert (N : ~ In n ["string"; "character"; "boolean"]) by (intros [<-|[<-|[<-|[]]]]; congruence).
    rewrite (show_type_other n N). now constructor.
  - intros s Hs. inversion Hs as [E1 E2|E1 E2|E1 E2|n N E1 E2|n fs E1 E2]; subst; try reflexivity.
    now rewrite show_type_other.
Qed.
