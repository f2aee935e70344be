(** Proofs about the names of the machine and the clock. *)
From Coq Require Import List String Ascii Bool NArith ZArith Lia PeanoNat.
From Verif Require Import Prelude Sys_Model Sys_Spec.
Import ListNotations.
Open Scope string_scope. Open Scope list_scope.

(** ** C strings *)
Lemma strncpy_len n : forall src a, strncpy n src = Some a -> List.length a = n.
Proof.
  induction n as [|n IH]; intros src a; cbn [strncpy]; [intros [= <-]; reflexivity|].
  destruct src as [|c r]; [discriminate|]. destruct (Ascii.eqb c NUL).
  - intros [= <-]. exact (repeat_length NUL (S n)).
  - destruct (strncpy n r) as [b|] eqn:E; [|discriminate]. intros [= <-]. cbn. now rewrite (IH _ _ E).
Qed.
Lemma not_nul (s : list ascii) c : ~ In NUL (c :: s) -> Ascii.eqb c NUL = false /\ ~ In NUL s.
Proof.
  intros H. split; [|intros I; apply H; now right]. apply Ascii.eqb_neq. intros ->. apply H. now left.
Qed.
Lemma strncpy_text s : ~ In NUL s -> forall n r, List.length s < n ->
  strncpy n (s ++ NUL :: r) = Some (s ++ repeat NUL (n - List.length s)).
Proof.
  induction s as [|c s IH]; intros H n r L; destruct n as [|n]; cbn in L; try lia.
  - reflexivity.
  - apply not_nul in H as [E H]. cbn [app strncpy]. rewrite E, (IH H) by lia. reflexivity.
Qed.
Lemma strncpy_long s : ~ In NUL s -> forall n r, n <= List.length s -> strncpy n (s ++ r) = Some (firstn n s).
Proof.
  induction s as [|c s IH]; intros H n r L; destruct n as [|n]; cbn in L; try lia; try reflexivity.
  apply not_nul in H as [E H]. cbn [app strncpy firstn]. rewrite E, (IH H) by lia. reflexivity.
Qed.
Lemma strncpy_short s : ~ In NUL s -> forall n, List.length s < n -> strncpy n s = None.
Proof.
  induction s as [|c s IH]; intros H n L; destruct n as [|n]; cbn in L; try lia; [reflexivity|].
  apply not_nul in H as [E H]. cbn [strncpy]. rewrite E, (IH H) by lia. reflexivity.
Qed.
Lemma store_len a i c : List.length (store a i c) = List.length a.
Proof. revert i. induction a as [|b a IH]; intros [|i]; cbn; auto. Qed.
Lemma store_In a i c : i < List.length a -> In c (store a i c).
Proof.
  revert i. induction a as [|b a IH]; intros i L; cbn in L; [lia|].
  destruct i as [|i]; [now left|]. right. apply IH. lia.
Qed.
Lemma store_app s a i c : List.length s <= i -> store (s ++ a) i c = s ++ store a (i - List.length s) c.
Proof.
  revert i. induction s as [|b s IH]; intros i L; cbn in *; [now rewrite Nat.sub_0_r|].
  destruct i as [|i]; [lia|]. cbn. f_equal. apply IH. lia.
Qed.
Lemma store_repeat k i : store (repeat NUL k) i NUL = repeat NUL k.
Proof. revert i. induction k as [|k IH]; intros [|i]; cbn; auto. now rewrite IH. Qed.

Lemma text_of_list s rest : ~ In NUL s -> holds_text (s ++ NUL :: rest) (string_of_list_ascii s).
Proof. intros H. exists rest. rewrite list_ascii_of_string_of_list_ascii. now split. Qed.
Lemma first_nul a : In NUL a -> exists s rest, a = s ++ NUL :: rest /\ ~ In NUL s.
Proof.
  induction a as [|c a IH]; intros I; [destruct I|]. destruct (Ascii.eqb_spec c NUL) as [->|D].
  - exists [], a. split; [reflexivity|intros []].
  - destruct I as [I|I]; [congruence|]. destruct (IH I) as (s & r & -> & H). exists (c :: s), r. split; [reflexivity|].
    intros [J|J]; [congruence|now apply H].
Qed.
Lemma holds_some a : In NUL a -> exists text, holds_text a text.
Proof. intros I. destruct (first_nul a I) as (s & r & -> & H). eexists. now apply text_of_list. Qed.
Lemma holds_det a s t : holds_text a s -> holds_text a t -> s = t.
Proof.
  intros (r & -> & H) (r' & E & H'). rewrite <- (string_of_list_ascii_of_string s), <- (string_of_list_ascii_of_string t).
  f_equal. revert E H H'. generalize (list_ascii_of_string s) (list_ascii_of_string t). clear.
  induction l as [|c l IH]; intros [|d m] E H H'; cbn in E.
  - reflexivity.
  - injection E as E1 _. exfalso. apply H'. left. congruence.
  - injection E as E1 _. exfalso. apply H. left. congruence.
  - injection E as -> E. f_equal. apply (IH m E); intros I; [apply H|apply H']; now right.
Qed.

(** ** Setting a name *)
Lemma set_text old p text len : text_at p text -> (N.of_nat (String.length text) <= 64)%N -> (len <= 64)%N ->
  fst (set_name old p len) = Zero /\ holds_text (snd (set_name old p len)) text.
Proof.
  intros (a & -> & r & -> & H) L L'. unfold set_name. change (N.of_nat size - 1)%N with 64%N.
  replace (64 <? len)%N with false by (symmetry; apply N.ltb_ge; lia).
  assert (Q : List.length (list_ascii_of_string text) = String.length text).
  { clear. induction text as [|c t IH]; cbn; congruence. }
  rewrite strncpy_text by (trivial; unfold size; lia). cbn [fst snd]. split; [reflexivity|].
  rewrite store_app by (unfold size; lia). rewrite store_repeat.
  exists (repeat NUL (size - List.length (list_ascii_of_string text) - 1)). split; [|exact H]. f_equal.
  rewrite Q in *. change (NUL :: repeat NUL (size - String.length text - 1))
    with (repeat NUL (S (size - String.length text - 1))). f_equal. unfold size. lia.
Qed.
Lemma set_kept old p len : (match p with Some _ => (64 < len)%N | None => True end) -> snd (set_name old p len) = old.
Proof.
  unfold set_name. destruct p as [src|]; [|reflexivity]. change (N.of_nat size - 1)%N with 64%N.
  intros H. replace (64 <? len)%N with true by (symmetry; apply N.ltb_lt; lia). reflexivity.
Qed.
Lemma set_inv old p len : (exists t, holds_text old t) -> exists t, holds_text (snd (set_name old p len)) t.
Proof.
  intros H. unfold set_name. destruct p as [src|]; [|exact H]. destruct (_ <? _)%N; [exact H|].
  destruct (strncpy size src) as [a|] eqn:E; [|exact H]. cbn [snd]. apply holds_some, store_In.
  rewrite (strncpy_len _ _ _ E). unfold size. lia.
Qed.

(** ** Histories *)
Section Machine.
  Context (plat : string) (m : machine).
  Notation after := (after plat m).
  Lemma after_app h c : after (h ++ [c]) = snd (step plat m (after h) c).
  Proof. unfold Sys_Model.after. now rewrite fold_left_app. Qed.
  Lemma step_node st c : keeps_host c -> nm_node (snd (step plat m st c)) = nm_node st.
  Proof.
    destruct c as [p n|p n|[b|]]; cbn [keeps_host step]; intros H.
    - assert (K : snd (set_name (nm_node st) p n) = nm_node st) by (apply set_kept; now destruct p).
      destruct (set_name (nm_node st) p n) as [r a]. exact K.
    - now destruct (set_name (nm_domain st) p n).
    - now destruct (uname plat m st b).
    - reflexivity.
  Qed.
  Lemma step_domain st c : keeps_domain c -> nm_domain (snd (step plat m st c)) = nm_domain st.
  Proof.
    destruct c as [p n|p n|[b|]]; cbn [keeps_domain step]; intros H.
    - now destruct (set_name (nm_node st) p n).
    - assert (K : snd (set_name (nm_domain st) p n) = nm_domain st) by (apply set_kept; now destruct p).
      destruct (set_name (nm_domain st) p n) as [r a]. exact K.
    - now destruct (uname plat m st b).
    - reflexivity.
  Qed.
  Lemma kept_host h h' : Forall keeps_host h' -> nm_node (after (h ++ h')) = nm_node (after h).
  Proof.
    induction h' as [|c h' IH] using rev_ind; intros F; [now rewrite app_nil_r|].
    apply Forall_app in F as [F F']. inversion_clear F' as [|? ? C _].
    rewrite app_assoc, after_app, step_node by exact C. now apply IH.
  Qed.
  Lemma kept_domain h h' : Forall keeps_domain h' -> nm_domain (after (h ++ h')) = nm_domain (after h).
  Proof.
    induction h' as [|c h' IH] using rev_ind; intros F; [now rewrite app_nil_r|].
    apply Forall_app in F as [F F']. inversion_clear F' as [|? ? C _].
    rewrite app_assoc, after_app, step_domain by exact C. now apply IH.
  Qed.
  Lemma after_inv h : (exists t, holds_text (nm_node (after h)) t) /\ (exists t, holds_text (nm_domain (after h)) t).
  Proof.
    induction h as [|c h IH] using rev_ind.
    - split; apply holds_some; now left.
    - rewrite after_app. destruct IH as [A B]. destruct c as [p n|p n|[b|]]; cbn [step].
      + pose proof (set_inv _ p n A) as K. destruct (set_name _ p n). now split.
      + pose proof (set_inv _ p n B) as K. destruct (set_name _ p n). now split.
      + destruct (uname plat m (after h) b); now split.
      + now split.
  Qed.

  (** What uname stores. *)
  Lemma sysname_text : exists a, strncpy size (list_ascii_of_string "CAmkES/seL4" ++ [NUL]) = Some a /\
    holds_text (store a (size - 1) NUL) "CAmkES/seL4".
  Proof.
    eexists. split; [reflexivity|]. eexists. split; [reflexivity|]. cbn. intuition discriminate.
  Qed.
  Lemma empty_text a : List.length a = 65 -> holds_text (store a 0 NUL) "".
  Proof. destruct a as [|c a]; [discriminate|]. intros _. exists a. split; [reflexivity|intros []]. Qed.
  Lemma uname_gives st b : sized b -> ~ In NUL (list_ascii_of_string plat) ->
    ~ In NUL (list_ascii_of_string (arch_text m)) ->
    exists u, step plat m st (Uname (Some b)) = (Zero, Some u, st) /\
      holds_text (u_sysname u) "CAmkES/seL4" /\ u_nodename u = nm_node st /\ u_domainname u = nm_domain st /\
      holds_text (u_release u) "" /\ holds_text (u_version u) "" /\
      holds_text (u_machine u) (substring 0 64 (plat ++ " (" ++ arch_text m ++ ")")%string).
  Proof.
    intros (R & V & _) P A. destruct sysname_text as (a & E & T). cbn [step]. unfold uname. rewrite E.
    eexists. split; [reflexivity|]. cbn [u_sysname u_nodename u_release u_version u_machine u_domainname].
    split; [exact T|]. split; [reflexivity|]. split; [reflexivity|]. split; [now apply empty_text|].
    split; [now apply empty_text|]. unfold snprintf. set (w := (plat ++ _)%string).
    assert (W : ~ In NUL (list_ascii_of_string w)).
    { assert (X : forall s t, list_ascii_of_string (s ++ t)%string = (list_ascii_of_string s ++ list_ascii_of_string t)%list).
      { clear. induction s as [|c s IH]; intros t; cbn; [reflexivity|]. now rewrite IH. }
      subst w. rewrite !X. rewrite !in_app_iff. cbn. intuition discriminate. }
    eexists. split.
    - f_equal. change (size - 1) with 64. generalize 64 w. clear. intros n w. revert n.
      induction w as [|c w IH]; intros [|n]; cbn; try reflexivity. now rewrite IH.
    - intros I. apply W. revert I. generalize 64 w. clear. intros n w. revert n.
      induction w as [|c w IH]; intros [|n]; cbn; try (intros []; fail).
      intros [I|I]; [now left|]. right. now apply (IH n).
  Qed.
End Machine.

Lemma host_set plat m h h' p text len : text_at p text -> (N.of_nat (String.length text) <= 64)%N -> (len <= 64)%N ->
  Forall keeps_host h' -> holds_text (nm_node (after plat m (h ++ SetHost p len :: h'))) text.
Proof.
  intros T L L' K. change (h ++ SetHost p len :: h') with (h ++ [SetHost p len] ++ h'). rewrite app_assoc, kept_host by exact K.
  rewrite after_app. cbn [step]. pose proof (set_text (nm_node (after plat m h)) p text len T L L') as [_ Q].
  now destruct (set_name _ p len).
Qed.
Lemma domain_set plat m h h' p text len : text_at p text -> (N.of_nat (String.length text) <= 64)%N -> (len <= 64)%N ->
  Forall keeps_domain h' -> holds_text (nm_domain (after plat m (h ++ SetDomain p len :: h'))) text.
Proof.
  intros T L L' K. change (h ++ SetDomain p len :: h') with (h ++ [SetDomain p len] ++ h'). rewrite app_assoc, kept_domain by exact K.
  rewrite after_app. cbn [step]. pose proof (set_text (nm_domain (after plat m h)) p text len T L L') as [_ Q].
  now destruct (set_name _ p len).
Qed.
Lemma set_codes plat m st p len :
  fst (fst (step plat m st (SetHost p len))) = fst (fst (step plat m st (SetDomain p len))) /\
  (fst (fst (step plat m st (SetHost p len))) = EFAULT <-> p = None) /\
  (fst (fst (step plat m st (SetHost p len))) = EINVAL <-> p <> None /\ (64 < len)%N).
Proof.
  cbn [step]. unfold set_name. change (N.of_nat size - 1)%N with 64%N. destruct p as [src|].
  - destruct (N.ltb_spec 64 len).
    + cbn. repeat split; try discriminate; auto; intros; discriminate.
    + destruct (strncpy size src); cbn; repeat split; intros; try discriminate; lia.
  - cbn. repeat split; try discriminate; intros; tauto.
Qed.
Lemma length_ignored old s r len len' : ~ In NUL s -> (len <= 64)%N -> (len' <= 64)%N ->
  set_name old (Some (s ++ NUL :: r)) len = set_name old (Some (s ++ NUL :: r)) len'.
Proof.
  intros _ L L'. unfold set_name. change (N.of_nat size - 1)%N with 64%N.
  replace (64 <? len)%N with false by (symmetry; apply N.ltb_ge; lia).
  replace (64 <? len')%N with false by (symmetry; apply N.ltb_ge; lia). reflexivity.
Qed.
Lemma unterminated old s : ~ In NUL s -> (N.of_nat (List.length s) <= 64)%N ->
  fst (set_name old (Some s) (N.of_nat (List.length s))) = Undefined.
Proof.
  intros H L. unfold set_name. change (N.of_nat size - 1)%N with 64%N.
  replace (64 <? N.of_nat (List.length s))%N with false by (symmetry; apply N.ltb_ge; lia).
  rewrite strncpy_short; [reflexivity|exact H|]. unfold size. lia.
Qed.

(** ** The clock *)
Open Scope Z_scope.
Lemma clock_exact assertions t sec nsec clk ts : 0 <= t < 2 ^ 32 ->
  clock_gettime assertions (Some t) clk ts = Time sec nsec -> 0 <= nsec < 1000000000 /\ sec * 1000000000 + nsec = t * 1000000.
Proof.
  intros B. unfold clock_gettime. destruct (_ && ts); [|discriminate]. unfold uint32. intros [= <- <-].
  rewrite (Z.mod_small t) by exact B. pose proof (Z.mod_pos_bound t 1000 ltac:(lia)) as M.
  rewrite Z.mod_small by (change (2 ^ 32) with 4294967296; lia).
  pose proof (Z.div_mod t 1000 ltac:(lia)). split; lia.
Qed.
Lemma clock_range assertions t sec nsec clk ts :
  clock_gettime assertions (Some t) clk ts = Time sec nsec -> 0 <= nsec < 1000000000 /\ 0 <= sec <= 4294967.
Proof.
  unfold clock_gettime. destruct (_ && ts); [|discriminate]. unfold uint32. intros [= <- <-].
  pose proof (Z.mod_pos_bound t (2 ^ 32) ltac:(reflexivity)) as T. change (Z.pow_pos 2 32) with (2 ^ 32).
  set (x := t mod 2 ^ 32) in *. clearbody x.
  pose proof (Z.mod_pos_bound x 1000 ltac:(lia)) as M. change (2 ^ 32) with 4294967296 in *.
  rewrite (Z.mod_small (x mod 1000 * 1000000)) by lia. split; [lia|]. split; [apply Z.div_pos; lia|].
  transitivity (4294967295 / 1000); [apply Z.div_le_mono; lia|]. discriminate.
Qed.
Lemma clock_when assertions source clk ts :
  (exists sec nsec, clock_gettime assertions source clk ts = Time sec nsec) <-> source <> None /\ clk = 0 /\ ts = true.
Proof.
  unfold clock_gettime. destruct source as [t|].
  - destruct (Z.eqb_spec clk 0), ts; cbn [andb]; split; intros H.
    all: try (destruct H as (? & ? & H); discriminate). all: try (destruct H as (_ & ? & ?); congruence).
    + repeat split; congruence.
    + eauto.
  - split; [intros (? & ? & H); discriminate|intros [H _]; congruence].
Qed.
Lemma clock_back : clock_gettime true (Some 4294967295) 0 true = Time 4294967 295000000 /\
  clock_gettime true (Some 4294967296) 0 true = Time 0 0.
Proof. split; reflexivity. Qed.
