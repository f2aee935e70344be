(** Proofs about the C functions of methods: names *)
From Coq Require Import List String Ascii Bool Lia.
From Verif Require Import Prelude Sig_Model Sig_Spec Sig_Proofs Sig_Proofs2.
Import ListNotations.
Open Scope string_scope. Open Scope list_scope.
Set Implicit Arguments.

Lemma strip x : forall y s s', (x ++ s = y ++ s')%string ->
  (exists u, x = (y ++ u)%string /\ s' = (u ++ s)%string) \/ (exists u, y = (x ++ u)%string /\ s = (u ++ s')%string).
Proof.
  induction x as [|c x IH]; intros y s s' H; cbn in H.
  - right. exists y. auto.
  - destruct y as [|c' y]; cbn in H.
    + left. exists (String c x). auto.
    + injection H as <- H. destruct (IH _ _ _ H) as [(u & -> & ->)|(u & -> & ->)]; [left|right]; exists u; auto.
Qed.
Lemma app_empty x : (x ++ "")%string = x.
Proof. induction x; cbn; congruence. Qed.
Lemma cut s s' u : In s ("" :: suffixes) -> In s' ("" :: suffixes) -> s' = (u ++ s)%string ->
  u = "" /\ s = s' \/ In u suffixes.
Proof.
  intros H1 H2 E.
  assert (L : (String.length u <= 8)%nat).
  { assert (String.length s' <= 8)%nat.
    { clear - H2. cbn in H2. repeat (destruct H2 as [<-|H2]; [cbn; lia|]). destruct H2. }
    assert (String.length (u ++ s) = String.length u + String.length s)%nat.
    { clear. induction u; cbn; lia. }
    subst s'. lia. }
  cbn in H1, H2.
  repeat (destruct H1 as [<-|H1]); try contradiction;
  repeat (destruct H2 as [<-|H2]); try contradiction;
  repeat (destruct u as [|? u]; cbn in E; try discriminate E; try injection E as <- E); subst; cbn; auto 12.
Qed.
Lemma names_apart m p q s s' : apart m -> In p (m_params m) -> In q (m_params m) ->
  In s ("" :: suffixes) -> In s' ("" :: suffixes) ->
  (p_name p ++ s = p_name q ++ s')%string -> p_name p = p_name q /\ s = s'.
Proof.
  intros [_ A] Hp Hq Hs Hs' E. destruct (strip _ _ _ _ E) as [(u & E1 & E2)|(u & E1 & E2)].
  - destruct (@cut _ _ _ Hs Hs' E2) as [[-> ->]|Hu]; [rewrite app_empty in E1; auto|].
    destruct (A _ _ _ Hp Hq Hu E1).
  - destruct (@cut _ _ _ Hs' Hs E2) as [[-> ->]|Hu]; [rewrite app_empty in E1; auto|].
    destruct (A _ _ _ Hq Hp Hu E1).
Qed.

Lemma nodup_app' {A} (a b : list A) : NoDup a -> NoDup b -> (forall x, In x a -> In x b -> False) -> NoDup (a ++ b).
Proof.
  induction 1 as [|x a Hx Ha IH]; intros Hb H; cbn; [exact Hb|]. constructor.
  - rewrite in_app_iff. intros [I|I]; [auto|]. apply (H x); [now left|exact I].
  - apply IH; [exact Hb|]. intros y I J. apply (H y); [now right|exact J].
Qed.
Lemma nodup_family (f : string -> string) m (S : param -> list string) ps :
  (forall x y, f x = f y -> x = y) -> apart m -> (forall p, In p ps -> In p (m_params m)) -> NoDup (map p_name ps) ->
  (forall p, NoDup (S p)) -> (forall p s, In s (S p) -> In s ("" :: suffixes)) ->
  NoDup (flat_map (fun p => map (fun s => f (p_name p ++ s)%string) (S p)) ps).
Proof.
  intros Fi A Hin Hn HS HI. induction ps as [|p ps IH]; cbn [flat_map]; [constructor|].
  inversion Hn as [|? ? Hx Hn']. subst.
  apply nodup_app'.
  - pose proof (HS p) as Hd. pose proof (HI p) as Hi. pose proof (Hin p (or_introl eq_refl)) as Hp.
    induction (S p) as [|s l IHl]; cbn; [constructor|]. inversion Hd. subst. constructor.
    + rewrite in_map_iff. intros (s' & E & I). apply Fi in E.
      destruct (@names_apart m p p s' s A Hp Hp) as [_ ->]; auto; apply Hi; [now right|now left].
    + apply IHl; [assumption|]. intros s' I. apply Hi. now right.
  - apply IH; [|exact Hn']. intros q Hq. apply Hin. now right.
  - intros x H1 H2. rewrite in_map_iff in H1. destruct H1 as (s & <- & I1).
    rewrite in_flat_map in H2. destruct H2 as (q & Hq & H2). rewrite in_map_iff in H2. destruct H2 as (s' & E & I2).
    apply Fi in E. destruct (@names_apart m q p s' s A) as [E' _]; eauto.
    + apply Hin. now right.
    + apply Hin. now left.
    + apply Hx. rewrite <- E'. now apply in_map.
Qed.

Lemma nodup_signature m : apart m -> NoDup (map snd (signature m)).
Proof.
  intros A. unfold signature. rewrite map_flat.
  assert (E : flat_map (fun x => map snd (promised x)) (m_params m) =
    flat_map (fun p => map (fun s => p_name p ++ s)%string (if p_array p then ["_sz"; ""] else [""])) (m_params m)).
  { apply flat_map_ext. intros p. rewrite snd_promised. unfold referenced. destruct (p_array p); cbn; now rewrite app_empty. }
  rewrite E. apply (@nodup_family (fun x => x) m); auto.
  - apply A.
  - intros p. destruct (p_array p); repeat constructor; cbn; intuition discriminate.
  - intros p s. destruct (p_array p); cbn; intuition.
Qed.
Lemma nodup_prefixed l : NoDup (map snd l) -> NoDup (map snd (prefixed l)).
Proof.
  unfold prefixed. rewrite map_map. cbn [snd]. intros H.
  induction l as [|[t x] l IH]; cbn; [constructor|]. cbn in H. inversion H. subst. constructor; [|auto].
  rewrite in_map_iff. intros (v & E & I). injection E as E. apply H2. rewrite <- E. now apply in_map.
Qed.
Lemma decl_fun E ls A : declare E ls A -> forall B, declare E ls B -> A = B.
Proof.
  induction 1 as [E|E toks init t x ls E' Hp Hi Hd IH]; intros B HB; inversion HB; subst; [reflexivity|].
  rewrite Hp in *. match goal with H : Some _ = Some _ |- _ => injection H as <- <- end. auto.
Qed.
Lemma prefix_p x : String.prefix "p_" ("p_" ++ x) = true.
Proof. destruct x; reflexivity. Qed.
Lemma prefixed_snd l x : In x (map snd (prefixed l)) -> exists y, x = ("p_" ++ y)%string.
Proof. unfold prefixed. rewrite map_map, in_map_iff. intros ([t y] & <- & _). exists y. reflexivity. Qed.
Lemma client_names m E : ok_method m -> apart m -> declare (prefixed (signature m)) (stub_locals m) E -> NoDup (map snd E).
Proof.
  intros Hm A Hd. rewrite (decl_fun Hd (stub_locals_ok Hm)). unfold client_vars. rewrite map_app.
  apply nodup_app'.
  - destruct (m_ret m); cbn; repeat constructor; cbn; intuition discriminate.
  - cbn [map snd]. constructor; [|now apply nodup_prefixed, nodup_signature].
    intros I. apply prefixed_snd in I. destruct I as (y & Hy). discriminate.
  - intros x H1 H2. cbn [map snd In] in H2. destruct H2 as [<-|H2].
    + destruct (m_ret m); cbn in H1; intuition discriminate.
    + apply prefixed_snd in H2. destruct H2 as (y & ->). destruct (m_ret m); cbn in H1; intuition discriminate.
Qed.
Lemma app_inj_l x a b : (x ++ a = x ++ b)%string -> a = b.
Proof. induction x; cbn; intros H; [exact H|]. injection H as H. auto. Qed.
Lemma p_inj x y : ("p_" ++ x = "p_" ++ y)%string -> x = y.
Proof. intros H. now injection H. Qed.
Lemma ret_not_p name x s : String.prefix "p_" (name ++ "_") = false -> (name ++ String "_" s <> "p_" ++ x)%string.
Proof.
  intros H E. destruct name as [|a [|b n]]; cbn in E.
  - discriminate.
  - injection E as -> E. cbn in H. discriminate.
  - injection E as -> -> E. cbn in H. destruct (n ++ "_")%string; discriminate.
Qed.
Lemma server_names name m E : ok_method m -> apart m -> String.prefix "p_" (name ++ "_") = false ->
  declare [(CBase "unsigned", "size")] (flat_map server_locals (m_params m) ++ server_result_locals name m) E ->
  NoDup (map snd E).
Proof.
  intros Hm A Hn Hd. rewrite (decl_fun Hd (all_locals_ok name Hm)). unfold all_vars. rewrite !map_app.
  set (S := fun p => if p_array p then ["_ptr"; ""; "_sz_ptr"; "_sz"] else ["_ptr"; ""]).
  assert (Es : map snd (server_vars (m_params m)) =
    flat_map (fun p => map (fun s => "p_" ++ (p_name p ++ s))%string (S p)) (rev (m_params m))).
  { unfold server_vars. rewrite map_flat. apply flat_map_ext. intros p. unfold server_vars_of, S.
    destruct (p_array p); cbn [map snd]; rewrite ?str_assoc, ?app_empty; reflexivity. }
  rewrite Es.
  assert (Hp : forall x, In x (flat_map (fun p => map (fun s => "p_" ++ (p_name p ++ s))%string (S p)) (rev (m_params m))) ->
             exists y, x = ("p_" ++ y)%string).
  { intros x H. rewrite in_flat_map in H. destruct H as (p & _ & H). rewrite in_map_iff in H. destruct H as (s & <- & _). eauto. }
  assert (Hsize : forall x, In x (map snd (result_vars name m)) -> exists s, In s ["_ret_ptr"; "_ret"] /\ x = (name ++ s)%string).
  { intros x. unfold result_vars. destruct (m_ret m); cbn [map snd In]; [|tauto].
    intros [<-|[<-|[]]]; eexists; (split; [|reflexivity]); cbn; tauto. }
  apply nodup_app'; [| |].
  - unfold result_vars. destruct (m_ret m); cbn [map snd]; repeat constructor; cbn; [|tauto].
    intros [E0|[]]. apply app_inj_l in E0. discriminate.
  - apply nodup_app'.
    + apply (@nodup_family (fun x => "p_" ++ x)%string m); auto using p_inj.
      * intros p Hi. now apply in_rev.
      * rewrite map_rev. apply NoDup_rev. apply A.
      * intros p. unfold S. destruct (p_array p); repeat constructor; cbn; intuition discriminate.
      * intros p s. unfold S. destruct (p_array p); cbn; intuition.
    + repeat constructor. cbn. tauto.
    + intros x H1 H2. apply Hp in H1. destruct H1 as (y & ->). cbn in H2. destruct H2 as [H2|[]]. discriminate.
  - intros x H1 H2. apply Hsize in H1. destruct H1 as (s & Hs & ->).
    apply in_app_or in H2. destruct H2 as [H2|H2].
    + apply Hp in H2. destruct H2 as (y & E1). cbn in Hs.
      destruct Hs as [<-|[<-|[]]]; eapply ret_not_p; eauto.
    + cbn in H2. destruct H2 as [H2|[]]. cbn in Hs.
      destruct Hs as [<-|[<-|[]]]; destruct name as [|c1 [|c2 [|c3 [|c4 [|c5 n]]]]]; cbn in H2; try discriminate H2;
        try (inversion H2).
Qed.

Definition clash : method :=
  mk_method None [mk_param DIn true "int" "a"; mk_param DIn false "int" "a_sz"].

Definition p_ret : method := mk_method (Some "int") [mk_param DIn false "int" "ret"].

Lemma clash_refutes :
  ~ (forall m, ok_method m -> NoDup (map p_name (m_params m)) ->
       forall l, parse_params (header_params m) = Some l -> NoDup (map snd l)).
Proof.
  intros H. assert (O : ok_method clash).
  { split; [|discriminate]. repeat constructor; discriminate. }
  assert (Hd : NoDup (map p_name (m_params clash))).
  { repeat constructor; cbn; intuition discriminate. }
  specialize (H clash O Hd _ eq_refl). cbn in H.
  inversion H as [|? ? Hn _]. apply Hn. right. now left.
Qed.

Lemma p_ret_refutes :
  ~ (forall name m E, ok_method m -> apart m ->
       declare [(CBase "unsigned", "size")] (flat_map server_locals (m_params m) ++ server_result_locals name m) E ->
       NoDup (map snd E)).
Proof.
  intros H.
  assert (O : ok_method p_ret).
  { split; [repeat constructor; discriminate|]. intros t [= <-]. repeat split; discriminate. }
  assert (A : apart p_ret).
  { split; [repeat constructor; cbn; tauto|]. intros p q s [<-|[]] [<-|[]] Hs. cbn in Hs.
    repeat (destruct Hs as [<-|Hs]; [discriminate|]). destruct Hs. }
  specialize (H "p" p_ret _ O A (all_locals_ok "p" O)). cbn in H.
  inversion H as [|? ? Hn _]. apply Hn. right. now left.
Qed.

Lemma caller_ok : forall m buffer size rbuffer, ok_method m -> word buffer -> word size -> word rbuffer ->
  exists E toks,
    declare (prefixed (signature m)) (stub_locals m) E /\
    marshal_inputs_params m = Ok toks /\
    good_call E toks (call_marshal_input buffer size m) buffer size [] (fun x => x) /\
    good_call E (unmarshal_outputs_params m) (call_unmarshal_output rbuffer m) rbuffer "size"
      (ret_name m "return_ptr") (fun x => x) /\
    (forall e, stub_return m = Some e -> has E e (result m)) /\
    (stub_return m = None <-> m_ret m = None).
Proof.
  exact (fun m b s r Hm Hb Hs Hr =>
    match call_marshal_input_ok Hm Hb Hs with
    | ex_intro _ toks (conj E G) =>
        ex_intro _ (client_vars m) (ex_intro _ toks (conj (stub_locals_ok Hm) (conj E (conj G
          (conj (call_unmarshal_output_ok Hm Hr) (conj (@stub_return_ok m) (stub_return_iff m)))))))
    end).
Qed.

Lemma server_ok : forall name m buffer size rbuffer, ok_method m -> word buffer -> word size -> word rbuffer ->
  exists E toks,
    declare [(CBase "unsigned", "size")] (flat_map server_locals (m_params m) ++ server_result_locals name m) E /\
    good_call E (unmarshal_inputs_params m) (call_unmarshal_input rbuffer m) rbuffer "size" []
      (fun x => x ++ "_ptr")%string /\
    parse_args (call_implementation m) = Some (flat_map given (m_params m)) /\
    Forall2 (accepts E) (flat_map given (m_params m)) (map fst (signature m)) /\
    (forall e, store_result name m = Some e -> has E e (result m)) /\
    (store_result name m = None <-> m_ret m = None) /\
    marshal_outputs_params m = Ok toks /\
    good_call E toks (call_marshal_output buffer size name m) buffer size
      (ret_name m (name ++ "_ret_ptr")%string) (fun x => x ++ "_ptr")%string.
Proof.
  exact (fun name m b s r Hm Hb Hs Hr =>
    match call_marshal_output_ok name Hm Hb Hs with
    | ex_intro _ toks (conj E G) =>
        ex_intro _ (all_vars name m) (ex_intro _ toks (conj (all_locals_ok name Hm)
          (conj (call_unmarshal_input_ok name Hm Hr)
          (conj (proj1 (call_implementation_ok name Hm)) (conj (proj2 (call_implementation_ok name Hm))
          (conj (@store_ok name m) (conj (store_iff name m) (conj E G))))))))
    end).
Qed.
