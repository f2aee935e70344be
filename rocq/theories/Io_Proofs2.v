(** Driver initialisation: proofs. *)
From Coq Require Import String List Bool Arith Sorted Lia.
From Verif Require Import Io_Model Io_Spec.
Import ListNotations.

Lemma find_string_spec n l :
  match find_string n l with
  | Match => exists a s b, l = a ++ s :: b /\ n_check n s = Match /\ Forall (fun s => n_check n s = NoMatch) a
  | Malformed => exists a s b, l = a ++ s :: b /\ n_check n s = Malformed /\ Forall (fun s => n_check n s = NoMatch) a
  | NoMatch => Forall (fun s => n_check n s = NoMatch) l
  end.
Proof.
  induction l as [|s l IH]; cbn [find_string]; [constructor|].
  destruct (n_check n s) eqn:E.
  - exists [], s, l. repeat split; [assumption|constructor].
  - destruct (find_string n l).
    + destruct IH as (a & t & b & -> & H1 & H2). exists (s :: a), t, b. repeat split; [assumption|now constructor].
    + now constructor.
    + destruct IH as (a & t & b & -> & H1 & H2). exists (s :: a), t, b. repeat split; [assumption|now constructor].
  - exists [], s, l. repeat split; [assumption|constructor].
Qed.

Lemma split_unique {A} (P : A -> Prop) a s b a' s' b' :
  a ++ s :: b = a' ++ s' :: b' -> Forall P a -> ~ P s -> Forall P a' -> ~ P s' -> a = a' /\ s = s' /\ b = b'.
Proof.
  revert a'. induction a as [|x a IH]; intros [|x' a'] E Fa Ns Fa' Ns'; cbn [app] in E.
  - injection E as -> ->. auto.
  - injection E as -> _. apply Forall_cons_iff in Fa' as (H & _). contradiction.
  - injection E as <- _. apply Forall_cons_iff in Fa as (H & _). contradiction.
  - injection E as <- E. apply Forall_cons_iff in Fa as (_ & Fa). apply Forall_cons_iff in Fa' as (_ & Fa').
    destruct (IH a' E Fa Ns Fa' Ns') as (-> & H). auto.
Qed.

Definition chosen_in (n : node) (ds : list driver) (f : nat) : Prop :=
  exists before d after a s b, ds = before ++ d :: after /\ d_init d = f /\
    d_compatible d = a ++ s :: b /\ n_check n s = Match /\
    Forall (fun s => n_check n s = NoMatch) a /\
    Forall (fun d => Forall (fun s => n_check n s = NoMatch) (d_compatible d)) before.

Lemma find_module_spec n ds f : find_module n ds = Some f <-> chosen_in n ds f.
Proof.
  induction ds as [|d ds IH]; cbn [find_module].
  - split; [discriminate|]. intros ([|? ?] & ? & ? & ? & ? & ? & E & _); discriminate.
  - pose proof (find_string_spec n (d_compatible d)) as F.
    destruct (find_string n (d_compatible d)).
    + destruct F as (a & s & b & E & H1 & H2). split.
      * intros [= <-]. exists [], d, ds, a, s, b. repeat split; try assumption. constructor.
      * intros (before & d' & after & a' & s' & b' & E1 & E2 & E3 & E4 & E5 & E6).
        destruct before as [|x before]; cbn [app] in E1; injection E1 as -> ->; [now rewrite E2|].
        apply Forall_cons_iff in E6 as (E6 & _). rewrite E in E6. apply Forall_app in E6 as (_ & E6).
        apply Forall_cons_iff in E6 as (E6 & _). congruence.
    + rewrite IH. split; intros (before & d' & after & a' & s' & b' & E1 & E2 & E3 & E4 & E5 & E6).
      * exists (d :: before), d', after, a', s', b'. repeat split; try assumption; [now rewrite E1|now constructor].
      * destruct before as [|x before]; cbn [app] in E1; injection E1 as -> ->.
        -- rewrite E3 in F. apply Forall_app in F as (_ & F). apply Forall_cons_iff in F as (F & _). congruence.
        -- apply Forall_cons_iff in E6 as (_ & E6). exists before, d', after, a', s', b'. repeat split; assumption.
    + destruct F as (a & s & b & E & H1 & H2). split; [discriminate|].
      intros (before & d' & after & a' & s' & b' & E1 & E2 & E3 & E4 & E5 & E6).
      destruct before as [|x before]; cbn [app] in E1; injection E1 as -> ->.
      * rewrite E in E3.
        destruct (split_unique (fun s => n_check n s = NoMatch) a s b a' s' b' E3 H2) as (_ & E7 & _); congruence.
      * apply Forall_cons_iff in E6 as (E6 & _). rewrite E in E6. apply Forall_app in E6 as (_ & E6).
        apply Forall_cons_iff in E6 as (E6 & _). congruence.
Qed.

Definition pick (tree : string -> option node) (ds : list driver) (p : string) : option nat :=
  match tree p with
  | Some n => if n_has_compatible n then find_module n ds else None
  | None => None
  end.
Lemma pick_spec tree ds p f : pick tree ds p = Some f <-> chosen tree ds p f.
Proof.
  unfold pick. split.
  - destruct (tree p) as [n|] eqn:E; [|discriminate]. destruct (n_has_compatible n) eqn:E'; [|discriminate].
    intros H. apply find_module_spec in H as (before & d & after & a & s & b & H).
    exists n, before, d, after, a, s, b. tauto.
  - intros (n & before & d & after & a & s & b & E & E' & H). rewrite E, E'. apply find_module_spec.
    exists before, d, after, a, s, b. exact H.
Qed.

Section Init.
Context {W : Type} (init : nat -> string -> W -> answer * W).

Fixpoint tokens (tree : string -> option node) (ds : list driver) (i : nat) (paths : list string) : list token :=
  match paths with
  | [] => []
  | p :: paths => match pick tree ds p with
                  | Some f => mk_token i f p :: tokens tree ds (S i) paths
                  | None => tokens tree ds (S i) paths
                  end
  end.
Lemma first_pass_round tree ds paths : forall i w,
  first_pass init tree ds i paths w = round init (tokens tree ds i paths) w.
Proof.
  induction paths as [|p paths IH]; intros i w; cbn [first_pass tokens]; [reflexivity|].
  fold (pick tree ds p). destruct (pick tree ds p) as [f|]; [|apply IH].
  cbn [round t_init t_path]. destruct (init f p w) as [a w']. rewrite IH. reflexivity.
Qed.

Lemma tokens_in tree ds paths : forall k i f p,
  In (mk_token i f p) (tokens tree ds k paths) <->
  exists j, i = (k + j)%nat /\ nth_error paths j = Some p /\ chosen tree ds p f.
Proof.
  induction paths as [|q paths IH]; intros k i f p; cbn [tokens].
  - split; [easy|]. intros (j & _ & E & _). now destruct j.
  - transitivity ((i = k /\ q = p /\ pick tree ds q = Some f) \/ In (mk_token i f p) (tokens tree ds (S k) paths)).
    + destruct (pick tree ds q) as [g|].
      * cbn [In]. split; (intros [E|E]; [left|now right]).
        -- injection E as -> -> ->. auto.
        -- destruct E as (-> & -> & [= ->]). reflexivity.
      * split; [now right|]. intros [(_ & _ & E)|E]; [discriminate|exact E].
    + rewrite IH. split.
      * intros [(-> & -> & E)|(j & -> & E1 & E2)].
        -- exists O. rewrite Nat.add_0_r. repeat split. now apply pick_spec.
        -- exists (S j). repeat split; [lia|assumption..].
      * intros ([|j] & -> & E1 & E2).
        -- left. cbn in E1. injection E1 as ->. rewrite Nat.add_0_r. repeat split. now apply pick_spec.
        -- right. exists j. repeat split; [lia|assumption..].
Qed.
Lemma tokens_sorted tree ds paths : forall k,
  StronglySorted lt (map t_index (tokens tree ds k paths)) /\ Forall (fun i => k <= i) (map t_index (tokens tree ds k paths)).
Proof.
  induction paths as [|q paths IH]; intros k; cbn [tokens]; [split; constructor|].
  destruct (IH (S k)) as (I1 & I2). destruct (pick tree ds q).
  - cbn [map t_index]. split.
    + constructor; [exact I1|]. revert I2. apply Forall_impl. intros; lia.
    + constructor; [lia|]. revert I2. apply Forall_impl. intros; lia.
  - split; [exact I1|]. revert I2. apply Forall_impl. intros; lia.
Qed.
Lemma tokens_all tree ds paths : all_devices tree ds paths (tokens tree ds 0 paths).
Proof.
  split; [apply tokens_sorted|]. intros i f p. rewrite tokens_in. split.
  - intros (j & -> & H). exact H.
  - intros H. now exists i.
Qed.

Lemma round_spec ts : forall w cs dl w', round init ts w = (cs, dl, w') ->
  map c_token cs = ts /\ dl = map c_token (filter deferred cs).
Proof.
  induction ts as [|t ts IH]; intros w cs dl w'; cbn [round].
  - intros [= <- <- <-]. auto.
  - destruct (init (t_init t) (t_path t) w) as [a w1].
    destruct (round init ts w1) as [[cs1 ds1] w2] eqn:E. destruct (IH _ _ _ _ E) as (I1 & I2).
    intros [= <- <- <-]. cbn [map c_token filter]. rewrite I1. split; [reflexivity|].
    unfold deferred at 1. cbn [c_answer]. destruct a; cbn [map c_token]; now rewrite <- I2.
Qed.
Lemma rounds_spec fuel : forall ts w cs w', rounds init fuel ts w = Some (cs, w') ->
  exists rs, cs = concat rs /\ in_rounds ts rs /\ ~ In [] rs.
Proof.
  induction fuel as [|fuel IH]; intros ts w cs w'; cbn [rounds].
  - destruct ts; [|discriminate]. intros [= <- <-]. now exists [].
  - destruct ts as [|t ts]; [intros [= <- <-]; now exists []|].
    destruct (round init (t :: ts) w) as [[cs1 ds1] w1] eqn:R. destruct (round_spec _ _ _ _ _ R) as (R1 & R2).
    destruct (rounds init fuel ds1 w1) as [[cs2 w2]|] eqn:E; [|discriminate]. intros [= <- <-].
    destruct (IH _ _ _ _ E) as (rs & -> & H1 & H2). exists (cs1 :: rs). split; [reflexivity|]. split.
    + cbn [in_rounds]. rewrite <- R2. auto.
    + intros [->|H]; [discriminate|contradiction].
Qed.

(** What happens to one device, from the rounds. *)
Lemma answers_app i a b : answers i (a ++ b) = answers i a ++ answers i b.
Proof. unfold answers. now rewrite filter_app, map_app. Qed.
Lemma not_called i cs : ~ In i (map t_index (map c_token cs)) -> answers i cs = [].
Proof.
  induction cs as [|c cs IH]; intros N; [reflexivity|]. unfold answers in *. cbn [filter map In] in *.
  destruct (Nat.eqb_spec (t_index (c_token c)) i) as [E|E]; [destruct N; now left|]. apply IH. tauto.
Qed.
Lemma called_once i cs : StronglySorted lt (map t_index (map c_token cs)) -> In i (map t_index (map c_token cs)) ->
  exists a, answers i cs = [a] /\ (a = Defer <-> In i (map t_index (map c_token (filter deferred cs)))).
Proof.
  induction cs as [|c cs IH]; intros S N; [easy|]. cbn [map] in S. apply StronglySorted_inv in S as (S1 & S2).
  unfold answers. cbn [filter map In] in *.
  assert (X : forall j, In j (map t_index (map c_token (filter deferred cs))) -> In j (map t_index (map c_token cs))).
  { intros j. rewrite !in_map_iff. intros (t & <- & H). exists t. split; [reflexivity|].
    apply in_map_iff in H as (c' & <- & H). apply filter_In in H as (H & _). apply in_map_iff. now exists c'. }
  destruct (Nat.eqb_spec (t_index (c_token c)) i) as [E|E].
  - subst i. assert (N' : ~ In (t_index (c_token c)) (map t_index (map c_token cs))).
    { intros H. rewrite Forall_forall in S2. specialize (S2 _ H). lia. }
    exists (c_answer c). cbn [map]. fold (answers (t_index (c_token c)) cs). rewrite (not_called _ _ N').
    split; [reflexivity|]. unfold deferred. fold deferred. destruct (c_answer c) eqn:A; split; intros H; try discriminate.
    1,4,5: contradict N'; apply X; exact H.
    + cbn [map In]. now left.
    + reflexivity.
  - destruct N as [N|N]; [contradiction|]. destruct (IH S1 N) as (a & A1 & A2). exists a. split; [exact A1|].
    rewrite A2. destruct (deferred c); [|reflexivity]. cbn [map In]. split; [now right|].
    intros [H|H]; [contradiction|exact H].
Qed.
Lemma deferred_sorted cs : StronglySorted lt (map t_index (map c_token cs)) ->
  StronglySorted lt (map t_index (map c_token (filter deferred cs))).
Proof.
  induction cs as [|c cs IH]; intros S; [constructor|]. cbn [map] in S. apply StronglySorted_inv in S as (S1 & S2).
  cbn [filter]. destruct (deferred c); [|now apply IH]. cbn [map]. constructor; [now apply IH|].
  rewrite Forall_forall in *. intros j H. apply S2. rewrite in_map_iff in *. destruct H as (t & <- & H).
  exists t. split; [reflexivity|]. apply in_map_iff in H as (c' & <- & H). apply filter_In in H as (H & _).
  apply in_map_iff. now exists c'.
Qed.
Lemma rounds_settled i : forall rs ts, in_rounds ts rs -> StronglySorted lt (map t_index ts) ->
  (In i (map t_index ts) -> settled (answers i (concat rs))) /\
  (~ In i (map t_index ts) -> answers i (concat rs) = []).
Proof.
  induction rs as [|r rs IH]; intros ts; cbn [in_rounds].
  - intros -> _. split; [easy|reflexivity].
  - intros (<- & R) S. specialize (IH _ R (deferred_sorted _ S)). destruct IH as (I1 & I2).
    cbn [concat]. rewrite answers_app. split.
    + intros N. destruct (called_once i r S N) as (a & -> & A2).
      destruct (in_dec Nat.eq_dec i (map t_index (map c_token (filter deferred r)))) as [H|H].
      * destruct (I1 H) as (k & b & E & B). rewrite E. exists (Datatypes.S k), b. rewrite (proj2 A2 H). now split.
      * rewrite (I2 H). exists O, a. split; [reflexivity|]. tauto.
    + intros N. rewrite (not_called _ _ N), I2; [reflexivity|].
      intros H. apply N. rewrite in_map_iff in *. destruct H as (t & <- & H). exists t. split; [reflexivity|].
      apply in_map_iff in H as (c' & <- & H). apply filter_In in H as (H & _). apply in_map_iff. now exists c'.
Qed.

Lemma call_in_rounds fuel tree ds paths w calls stale w' : paths <> [] ->
  call_hardware_init_modules init fuel tree ds paths false w = Finished calls stale w' ->
  exists rs, calls = concat rs /\ all_devices tree ds paths (tokens tree ds 0 paths) /\
    in_rounds (tokens tree ds 0 paths) rs.
Proof.
  intros N. unfold call_hardware_init_modules. destruct paths as [|p paths]; [easy|]. clear N.
  set (ps := p :: paths). rewrite first_pass_round.
  destruct (round init (tokens tree ds 0 ps) w) as [[cs ts] w1] eqn:R. destruct (round_spec _ _ _ _ _ R) as (R1 & R2).
  destruct (rounds init fuel ts w1) as [[cs' w2]|] eqn:E; [|discriminate]. intros [= <- _ _].
  destruct (rounds_spec _ _ _ _ _ E) as (rs & -> & H & _).
  exists (cs :: rs). split; [reflexivity|]. split; [apply tokens_all|]. cbn [in_rounds]. rewrite <- R2. auto.
Qed.

Lemma call_rounds fuel tree ds paths w calls stale w' :
  call_hardware_init_modules init fuel tree ds paths false w = Finished calls stale w' ->
  exists ts rs, calls = concat rs /\ all_devices tree ds paths ts /\ in_rounds ts rs.
Proof.
  destruct paths as [|p paths].
  - intros [= <- <- <-]. exists [], []. split; [reflexivity|]. split; [|reflexivity].
    exact (tokens_all tree ds []).
  - intros H. destruct (call_in_rounds fuel tree ds (p :: paths) w calls stale w') as (rs & H'); [easy|exact H|].
    now exists (tokens tree ds 0 (p :: paths)), rs.
Qed.

Lemma call_settled fuel tree ds paths w calls stale w' i p :
  call_hardware_init_modules init fuel tree ds paths false w = Finished calls stale w' ->
  nth_error paths i = Some p ->
  ((exists f, chosen tree ds p f) -> settled (answers i calls)) /\
  ((forall f, ~ chosen tree ds p f) -> answers i calls = []) /\
  (forall c, In c calls -> t_index (c_token c) = i -> t_path (c_token c) = p /\ chosen tree ds p (t_init (c_token c))).
Proof.
  intros H E. destruct (call_rounds _ _ _ _ _ _ _ _ H) as (ts & rs & -> & (A1 & A2) & R).
  destruct (rounds_settled i rs ts R A1) as (S1 & S2).
  assert (X : In i (map t_index ts) <-> exists f, chosen tree ds p f).
  { rewrite in_map_iff. split.
    - intros ([j f q] & <- & T). apply A2 in T as (T1 & T2). cbn [t_index] in E. rewrite E in T1. injection T1 as <-. now exists f.
    - intros (f & C). exists (mk_token i f p). split; [reflexivity|]. now apply A2. }
  split; [|split].
  - intros C. now apply S1, X.
  - intros C. apply S2. intros T. apply X in T as (f & T). exact (C f T).
  - assert (Y : forall rs ts, in_rounds ts rs -> forall c, In c (concat rs) -> In (c_token c) ts).
    { clear. induction rs as [|r rs IH]; intros ts; cbn [in_rounds concat].
      - easy.
      - intros (<- & R) c. rewrite in_app_iff. intros [C|C]; [now apply in_map|].
        specialize (IH _ R c C). apply in_map_iff in IH as (c' & E & H). apply filter_In in H as (H & _).
        rewrite <- E. now apply in_map. }
    intros c C Ci. specialize (Y rs ts R c C). destruct (c_token c) as [j f q]; cbn [t_index t_path t_init] in *.
    subst j. apply A2 in Y as (Y1 & Y2). rewrite E in Y1. injection Y1 as <-. auto.
Qed.

(** Progress *)
Section Progress.
Context (ready : W -> string -> Prop) (deps : string -> list string) (rank : string -> nat).
Hypothesis answer_ok : forall f p w, fst (init f p w) = Success \/ fst (init f p w) = Defer.
Hypothesis success_ready : forall f p w, fst (init f p w) = Success -> ready (snd (init f p w)) p.
Hypothesis ready_stays : forall f p q w, ready w q -> ready (snd (init f p w)) q.
Hypothesis deps_suffice : forall f p w, (forall q, In q (deps p) -> ready w q) -> fst (init f p w) = Success.
Hypothesis acyclic : forall p q, In q (deps p) -> rank q < rank p.

Lemma round_progress k (all : list string) : (forall p q, In p all -> In q (deps p) -> In q all) ->
  forall ts w cs dl w', (forall t, In t ts -> In (t_path t) all) ->
  (forall q, In q all -> rank q < k -> ready w q) ->
  round init ts w = (cs, dl, w') ->
  (forall q, ready w q -> ready w' q) /\
  (forall t, In t ts -> ready w' (t_path t) \/ In t dl) /\
  (forall t, In t dl -> In t ts /\ k < rank (t_path t)).
Proof.
  intros Cl. induction ts as [|t ts IH]; intros w cs dl w' Hp Hk; cbn [round].
  - intros [= <- <- <-]. split; [auto|]. split; intros t [].
  - pose proof (answer_ok (t_init t) (t_path t) w) as A. pose proof (success_ready (t_init t) (t_path t) w) as R.
    pose proof (fun q => ready_stays (t_init t) (t_path t) q w) as M.
    pose proof (deps_suffice (t_init t) (t_path t) w) as D.
    destruct (init (t_init t) (t_path t) w) as [a w1]. cbn [fst snd] in *.
    destruct (round init ts w1) as [[cs1 ds1] w2] eqn:E. intros [= <- <- <-].
    destruct (IH w1 cs1 ds1 w2) as (I1 & I2 & I3); [intros u Hu; apply Hp; now right|auto|exact E|].
    split; [auto|]. split.
    + intros u [<-|Hu].
      * destruct A as [->| ->]; [left; auto|right; now left].
      * destruct (I2 u Hu) as [H|H]; [now left|]. right. destruct a; [exact H|now right|exact H..].
    + assert (K : a = Defer -> k < rank (t_path t) ).
      { intros ->. destruct (Nat.lt_ge_cases k (rank (t_path t))) as [L|L]; [exact L|]. exfalso.
        enough (Defer = Success) by discriminate. apply D. intros q Hq. apply Hk.
        - apply (Cl (t_path t)); [apply Hp; now left|exact Hq].
        - apply acyclic in Hq. lia. }
      intros u Hu. destruct A as [->| ->].
      * destruct (I3 u Hu). split; [now right|assumption].
      * destruct Hu as [<-|Hu]; [split; [now left|now apply K]|]. destruct (I3 u Hu). split; [now right|assumption].
Qed.

Lemma rounds_progress (all : list string) top : (forall p q, In p all -> In q (deps p) -> In q all) ->
  (forall p, In p all -> rank p < top) ->
  forall fuel k ts w, top <= k + fuel -> (forall t, In t ts -> In (t_path t) all /\ k <= rank (t_path t)) ->
  (forall q, In q all -> rank q < k -> ready w q) -> (forall q, In q all -> ready w q \/ In q (map t_path ts)) ->
  exists cs w', rounds init fuel ts w = Some (cs, w') /\ forall q, In q all -> ready w' q.
Proof.
  intros Cl Top. induction fuel as [|fuel IH]; intros k ts w F T K A.
  - destruct ts as [|t ts].
    + exists [], w. split; [reflexivity|]. intros q Q. now destruct (A q Q).
    + destruct (T t (or_introl eq_refl)) as (T1 & T2). specialize (Top _ T1). lia.
  - destruct ts as [|t ts].
    + exists [], w. split; [reflexivity|]. intros q Q. now destruct (A q Q).
    + cbn [rounds]. destruct (round init (t :: ts) w) as [[cs dl] w1] eqn:R.
      destruct (round_progress k all Cl (t :: ts) w cs dl w1) as (R1 & R2 & R3); [intros u Hu; now apply T|exact K|exact R|].
      destruct (IH (S k) dl w1) as (cs' & w2 & E & H).
      * lia.
      * intros u Hu. destruct (R3 u Hu) as (U1 & U2). destruct (T u U1). split; [assumption|lia].
      * intros q Q Qk. destruct (A q Q) as [H|H]; [auto|]. apply in_map_iff in H as (u & <- & Hu).
        destruct (R2 u Hu) as [H|H]; [exact H|]. destruct (R3 u H). lia.
      * intros q Q. destruct (A q Q) as [H|H]; [auto|]. apply in_map_iff in H as (u & <- & Hu).
        destruct (R2 u Hu) as [H|H]; [now left|]. right. now apply in_map.
      * rewrite E. exists (cs ++ cs'), w2. auto.
Qed.

Lemma call_progress tree ds paths w :
  (forall p q f, In p paths -> chosen tree ds p f -> In q (deps p) -> In q paths /\ exists g, chosen tree ds q g) ->
  exists fuel calls stale w',
    call_hardware_init_modules init fuel tree ds paths false w = Finished calls stale w' /\
    forall p f, In p paths -> chosen tree ds p f -> ready w' p.
Proof.
  intros Cl. set (ts := tokens tree ds 0 paths). set (all := map t_path ts).
  assert (In_all : forall p, In p all <-> In p paths /\ exists f, chosen tree ds p f).
  { intros p. unfold all, ts. rewrite in_map_iff. split.
    - intros ([i f q] & <- & H). apply tokens_all in H as (H1 & H2). cbn [t_path]. split; [now apply nth_error_In in H1|now exists f].
    - intros (H & f & C). apply In_nth_error in H as (i & H). exists (mk_token i f p). split; [reflexivity|]. now apply tokens_all. }
  assert (Cl' : forall p q, In p all -> In q (deps p) -> In q all).
  { intros p q P Q. apply In_all in P as (P & f & C). apply In_all. now apply (Cl p q f). }
  set (top := S (list_max (map rank all))).
  assert (Top : forall p, In p all -> rank p < top).
  { intros p P. assert (L := proj1 (list_max_le (map rank all) (list_max (map rank all))) (le_n _)).
    rewrite Forall_forall in L. specialize (L (rank p) (in_map _ _ _ P)). unfold top. lia. }
  destruct (rounds_progress all top Cl' Top top 0 ts w) as (cs & w' & E & H).
  { lia. }
  { intros t T. split; [now apply in_map|lia]. }
  { intros; lia. }
  { intros q Q. now right. }
  exists top. unfold call_hardware_init_modules. destruct paths as [|p0 paths0].
  - exists [], false, w. split; [reflexivity|]. intros p f [].
  - set (paths := p0 :: paths0) in *. rewrite first_pass_round. fold ts.
    unfold top in E. cbn [rounds] in E. destruct ts as [|t0 ts0] eqn:TS.
    + cbn [round]. destruct top; cbn [rounds].
      all: exists [], false, w; split; [reflexivity|]; intros p f P C.
      all: injection E as _ <-; apply H, In_all; split; [exact P|now exists f].
    + destruct (round init (t0 :: ts0) w) as [[cs1 ds1] w1].
      destruct (rounds init (list_max (map rank all)) ds1 w1) as [[cs2 w2]|] eqn:E2; [|discriminate].
      injection E as _ <-.
      assert (Mono : forall fuel ts w r, rounds init fuel ts w = Some r -> rounds init (S fuel) ts w = Some r).
      { clear. induction fuel as [|fuel IH]; intros ts w r; [destruct ts; [auto|discriminate]|].
        destruct ts as [|t ts]; [auto|]. intros H.
        change (rounds init (S (S fuel)) (t :: ts) w) with
          (let '(cs, ds, w) := round init (t :: ts) w in
           match rounds init (S fuel) ds w with Some (cs', w) => Some (cs ++ cs', w) | None => None end).
        cbn [rounds] in H. destruct (round init (t :: ts) w) as [[cs dl] w1].
        destruct (rounds init fuel dl w1) as [[cs' w2]|] eqn:E; [|discriminate]. now rewrite (IH _ _ _ E). }
      unfold top. rewrite (Mono _ _ _ _ E2).
      eexists _, _, w2. split; [reflexivity|]. intros p f P C. apply H, In_all. split; [exact P|now exists f].
Qed.
End Progress.
End Init.
