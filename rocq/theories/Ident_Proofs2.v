(** Proofs about faults, threads and processes. *)
From Coq Require Import List String Bool NArith ZArith Lia Permutation Sorted Arith.
From Verif Require Import Prelude DecStr Threads_Model Threads_Spec Threads_Proofs Layout_Model Layout_Spec Layout_Proofs
  FaultMap_Model FaultMap_Spec FaultMap_Proofs Posix_Model Ident_Model Ident_Spec Ident_Proofs.
Import ListNotations.
Open Scope Z_scope.

(** ** The picture *)
Definition described (L : layout) (t : thread) : list region := removelast (memory_map L t).

Lemma map_terminated L t : 0 < l_start L -> 0 <= l_var L (t_stack_symbol t) -> 0 <= l_var L (t_ipc_symbol t) ->
  terminated (described L t) [] (memory_map L t).
Proof.
  intros A B C. exists (mk_region 0 0 ""). split; [reflexivity|]. split; [now split|].
  unfold described, memory_map. cbn [removelast]. pose proof (stack_bytes_ge t) as G. unfold P in *.
  repeat constructor; unfold sentinel; cbn [r_start r_end]; unfold ipc_bytes; change (Z.of_N ipc_buffer) with 12288; lia.
Qed.

Lemma unique_shown a order rs r name : Permutation order rs -> NoDup (map r_end rs) -> In r rs -> within a r ->
  (forall q, In q rs -> within a q -> q = r) -> r_name r = name -> shown_as a order name.
Proof.
  intros Pm N I W U E. assert (J : In r order) by (apply (Permutation_in _ (Permutation_sym Pm)); exact I).
  destruct (in_split _ _ J) as (b & c & ->). exists b, r, c. split; [reflexivity|]. split; [exact W|]. split; [exact E|].
  apply (Permutation_NoDup (Permutation_map r_end (Permutation_sym Pm))) in N. apply NoDup_map_inv in N.
  apply NoDup_remove in N as (_ & N). rewrite Forall_forall. intros q Q Wq.
  apply N. rewrite <- (U q); [exact Q| |exact Wq]. apply (Permutation_in _ Pm). apply in_app_or in Q as [Q|Q];
    apply in_or_app; [now left|right; now right].
Qed.

Lemma seated_apart w L t : seated w L t -> 
  let s := l_var L (t_stack_symbol t) in let i := l_var L (t_ipc_symbol t) in
  (l_align12 L <= s \/ s + stack_bytes t <= l_start L) /\ (l_align12 L <= i \/ i + 12288 <= l_start L) /\
  (s + stack_bytes t <= i \/ i + 12288 <= s).
Proof.
  intros (_ & _ & _ & _ & _ & _ & A). cbn zeta.
  inversion_clear A as [|? ? A1 A']. inversion_clear A' as [|? ? A2 _].
  inversion_clear A1 as [|? ? R1 A3]. inversion_clear A3 as [|? ? R2 _]. inversion_clear A2 as [|? ? R3 _].
  unfold apart in *. cbn [fst snd] in *. unfold ipc_bytes in *. change (Z.of_N ipc_buffer) with 12288 in *. lia.
Qed.

Lemma drawn w L t a : 0 < w -> seated w L t -> 2 * P < stack_bytes t ->
  exists order ls, show_fault_location w (memory_map L t) a = Ok ls /\ Permutation order (described L t) /\
    StronglySorted higher order /\ picture a None order ls /\ NoDup (map r_end (described L t)).
Proof.
  intros W S G. pose proof (seated_apart w L t S) as (A1 & A2 & A3).
  destruct S as (B1 & B2 & B3 & B4 & B5 & B6 & _). unfold P, ipc_bytes in *. change (Z.of_N ipc_buffer) with 12288 in *.
  assert (N : NoDup (map r_end (described L t))).
  { unfold described, memory_map, P, ipc_bytes. change (Z.of_N ipc_buffer) with 12288. cbn [removelast map r_end].
    repeat constructor; cbn [In]; lia. }
  destruct (picture_ok w (described L t) [] (memory_map L t) a W) as (order & ls & E & Pm & S & Pc).
  - apply map_terminated; lia.
  - unfold described, memory_map, word_regions, P, ipc_bytes. change (Z.of_N ipc_buffer) with 12288. cbn [removelast].
    repeat constructor; cbn [r_start r_end]; lia.
  - unfold described, memory_map, upright, P, ipc_bytes. change (Z.of_N ipc_buffer) with 12288. cbn [removelast].
    repeat constructor; cbn [r_start r_end]; lia.
  - exact N.
  - unfold described, memory_map, P, ipc_bytes. change (Z.of_N ipc_buffer) with 12288. cbn [removelast]. intros r I.
    destruct I as [<-|[<-|[<-|[<-|[<-|[<-|[<-|[]]]]]]]]; cbn [r_end]; lia.
  - exists order, ls. repeat split; assumption.
Qed.

Ltac pick k := first [ now left | right; pick k ].
Ltac which := unfold described, memory_map, P, ipc_bytes; change (Z.of_N ipc_buffer) with 12288; cbn [removelast].

Lemma stack_shown w L label t x : 0 < w -> seated w L t -> whole_pages t -> t_stack_size t <> 0%N ->
  0 <= Z.of_N x < stack_bytes t ->
  let a := l_var L (t_stack_symbol t) + Z.of_N x in
  exists order ls, show_fault_location w (memory_map L t) a = Ok ls /\ Permutation order (described L t) /\
    StronglySorted higher order /\ picture a None order ls /\
    (faults (stack_mapping label t) x /\ shown_as a order "guard page" \/
     read_write (stack_mapping label t) x /\ shown_as a order "stack").
Proof.
  intros W S H H0 B a. pose proof (whole_stack t H) as E. unfold P in E.
  destruct (drawn w L t a W S) as (order & ls & D & Pm & So & Pc & N). { unfold P. lia. }
  exists order, ls. repeat split; try assumption.
  pose proof (seated_apart w L t S) as (A1 & A2 & A3).
  assert (K : forall r name, In r (described L t) -> within a r -> r_name r = name -> shown_as a order name).
  { intros r name I Wr Nm. apply (unique_shown a order (described L t) r name Pm N I Wr); [|exact Nm].
    intros q Q Wq. revert I Q Wr Wq. unfold a, within. which. intros I Q Wr Wq.
    destruct I as [<-|[<-|[<-|[<-|[<-|[<-|[<-|[]]]]]]]]; destruct Q as [<-|[<-|[<-|[<-|[<-|[<-|[<-|[]]]]]]]];
      cbn [r_start r_end] in Wr, Wq; try lia; reflexivity. }
  destruct (whole_cases label t x H B) as [(F & C)|(F & C)]; [left|right]; (split; [exact F|]); unfold P in C.
  - destruct C as [C|C].
    + eapply K; [which; right; left; reflexivity| |reflexivity]. unfold within, a. cbn [r_start r_end]. lia.
    + eapply K; [which; right; right; right; left; reflexivity| |reflexivity]. unfold within, a. cbn [r_start r_end]. lia.
  - eapply K; [which; right; right; left; reflexivity| |reflexivity]. unfold within, a. cbn [r_start r_end]. lia.
Qed.

Lemma ipc_shown w L f t x : 0 < w -> seated w L t -> t_stack_size t <> 0%N ->
  0 <= Z.of_N x < ipc_bytes ->
  let a := l_var L (t_ipc_symbol t) + Z.of_N x in
  exists order ls, show_fault_location w (memory_map L t) a = Ok ls /\ Permutation order (described L t) /\
    StronglySorted higher order /\ picture a None order ls /\
    (faults (register_ipc_symbol f) x /\ shown_as a order "guard page" \/
     read_write (register_ipc_symbol f) x /\ shown_as a order "IPC buffer").
Proof.
  intros W S H0 B a. assert (G : 2 * 4096 < stack_bytes t).
  { unfold stack_bytes, thread_stack, round_up, page. lia. }
  destruct (drawn w L t a W S) as (order & ls & D & Pm & So & Pc & N). { unfold P. lia. }
  exists order, ls. repeat split; try assumption.
  pose proof (seated_apart w L t S) as (A1 & A2 & A3).
  assert (K : forall r name, In r (described L t) -> within a r -> r_name r = name -> shown_as a order name).
  { intros r name I Wr Nm. apply (unique_shown a order (described L t) r name Pm N I Wr); [|exact Nm].
    intros q Q Wq. revert I Q Wr Wq. unfold a, within. which. intros I Q Wr Wq.
    destruct I as [<-|[<-|[<-|[<-|[<-|[<-|[<-|[]]]]]]]]; destruct Q as [<-|[<-|[<-|[<-|[<-|[<-|[<-|[]]]]]]]];
      cbn [r_start r_end] in Wr, Wq; try lia; reflexivity. }
  destruct (ipc_cases f x B) as [(F & C)|(F & C)]; [left|right]; (split; [exact F|]);
    unfold P, ipc_bytes in *; change (Z.of_N ipc_buffer) with 12288 in *.
  - destruct C as [C|C].
    + eapply K; [which; do 4 right; left; reflexivity| |reflexivity]. unfold within, a. cbn [r_start r_end]. lia.
    + eapply K; [which; do 6 right; left; reflexivity| |reflexivity]. unfold within, a. cbn [r_start r_end]. lia.
  - eapply K; [which; do 5 right; left; reflexivity| |reflexivity]. unfold within, a. cbn [r_start r_end]. lia.
Qed.

Lemma no_stack_asserts w L t a : 0 < l_start L -> 0 <= l_var L (t_stack_symbol t) -> 0 <= l_var L (t_ipc_symbol t) ->
  t_stack_size t = 0%N -> show_fault_location w (memory_map L t) a = Err AssertionError.
Proof.
  intros A B C Z0. apply (inverted_err w (described L t) [] (memory_map L t) a
    (mk_region (l_var L (t_stack_symbol t) + P) (l_var L (t_stack_symbol t) + stack_bytes t - P - 1) "stack")).
  - now apply map_terminated.
  - unfold described, memory_map. cbn [removelast]. right. right. now left.
  - unfold upright. cbn [r_start r_end]. unfold stack_bytes. rewrite Z0. change (Z.of_N (thread_stack 0)) with 8192. unfold P. lia.
Qed.

(** ** Threads *)
Open Scope nat_scope.
  Lemma badge_exists slot (ts : list thread) i t : nth_error ts i = Some t -> S i < List.length ts ->
    exists b, nth_error (fault_badges slot ts) i = Some (t, Some b).
  Proof.
    revert i. induction ts as [|u ts IH]; intros i E G; [destruct i; discriminate|].
    destruct ts as [|v ts]; [cbn in G; lia|]. destruct i as [|i].
    - injection E as ->. now exists (tcb slot t).
    - apply IH; [exact E|cbn in *; lia].
  Qed.
  Lemma no_badge slot (ts : list thread) i t : nth_error (fault_badges slot ts) i = Some (t, None) -> S i = List.length ts.
  Proof.
    revert i. induction ts as [|u ts IH]; intros i E; [destruct i; discriminate|].
    destruct ts as [|v ts].
    - destruct i as [|[|i]]; [reflexivity|discriminate..].
    - destruct i as [|i]; [discriminate|]. cbn [List.length]. f_equal. now apply IH.
  Qed.
Section Slots.
  Context (slot : string -> nat) (ts : list thread) (inj : distinct_slots slot ts).

  Lemma find_own {A} (name : A -> thread) l i x : (forall y, In y l -> In (name y) ts) ->
    NoDup (map (fun y => t_name (name y)) l) -> nth_error l i = Some x ->
    find (fun y => Nat.eqb (tcb slot (name y)) (tcb slot (name x))) l = Some x.
  Proof.
    intros Al. assert (Ax : nth_error l i = Some x -> In (name x) ts) by (intros E; apply Al; now apply nth_error_In in E).
    intros N E. specialize (Ax E). revert i N E.
    induction l as [|y l IH]; intros i N E; [destruct i; discriminate|]. cbn [find].
    destruct (Nat.eqb_spec (tcb slot (name y)) (tcb slot (name x))) as [Q|Q].
    - destruct i as [|i]; [exact E|]. cbn [nth_error] in E. inversion_clear N as [|? ? Ni _]. exfalso. apply Ni.
      apply inj in Q; [|apply Al; now left|exact Ax]. apply nth_error_In in E. apply in_map_iff. exists x. now split.
    - destruct i as [|i]; [injection E as ->; congruence|]. inversion_clear N.
      apply (IH (fun z Z => Al z (or_intror Z)) i); assumption.
  Qed.
  Lemma nth_combine_seq {A} (l : list A) i x k : nth_error l i = Some x ->
    nth_error (combine (seq k (List.length l)) l) i = Some (k + i, x).
  Proof.
    revert k l. induction i as [|i IH]; intros k [|y l] E; try discriminate; cbn [List.length seq combine nth_error] in *.
    - injection E as ->. now rewrite Nat.add_0_r.
    - rewrite (IH (S k) l E). f_equal. f_equal. lia.
  Qed.
  Lemma map_snd_combine {A} (l : list A) k : map snd (combine (seq k (List.length l)) l) = l.
  Proof. revert k. induction l as [|x l IH]; intros k; [reflexivity|]. cbn. now rewrite IH. Qed.
  Lemma names_combine k : NoDup (map t_name ts) ->
    NoDup (map (fun y : nat * thread => t_name (snd y)) (combine (seq k (List.length ts)) ts)).
  Proof.
    intros N. rewrite <- (map_map snd t_name), map_snd_combine. exact N.
  Qed.

  Lemma in_snd k (y : nat * thread) : In y (combine (seq k (List.length ts)) ts) -> In (snd y) ts.
  Proof. destruct y. apply in_combine_r. Qed.

  Lemma own_faults L i t b : NoDup (map t_name ts) -> nth_error (fault_badges slot ts) i = Some (t, Some b) ->
    nth_error ts i = Some t /\ S i < List.length ts /\ faulted slot L ts b = (t_name t, Some (memory_map L t)).
  Proof.
    intros N E.
    assert (K : forall ts i t b, nth_error (fault_badges slot ts) i = Some (t, Some b) ->
      nth_error ts i = Some t /\ S i < List.length ts /\ b = tcb slot t).
    { clear. intros us. induction us as [|u us IH]; intros i t b E; [destruct i; discriminate|].
      destruct us as [|v us].
      - destruct i as [|[|i]]; discriminate.
      - destruct i as [|i]; cbn [fault_badges nth_error] in E.
        + injection E as -> <-. repeat split. cbn. lia.
        + destruct (IH i t b E) as (A & B & C). repeat split; [exact A|cbn in *; lia|exact C]. }
    destruct (K ts i t b E) as (A & B & ->). repeat split; [exact A|exact B|]. unfold faulted.
    rewrite (find_own (fun t => t) ts i t (fun y Y => Y) N A). reflexivity.
  Qed.
  Lemma unknown_fault L b : (forall t, In t ts -> b <> tcb slot t) -> faulted slot L ts b = ("<unknown>"%string, None).
  Proof.
    intros H. unfold faulted. destruct (find _ ts) as [t|] eqn:E; [|reflexivity]. apply find_some in E as (I & E).
    apply Nat.eqb_eq in E. exfalso. now apply (H t I).
  Qed.

  Lemma tls_of L rt i t : NoDup (map t_name ts) -> nth_error ts i = Some t ->
    exists x, camkes_tls_init slot L rt ts (tcb slot t) = Ok x /\ gettid x = S i /\ x_tcb x = tcb slot t /\
      x_ipc x = (l_var L (t_ipc_symbol t) + Z.of_N thread_addr)%Z /\
      x_region x = (match i with 0 => None | S k => Some k end) /\ x_sc x = (rt && Nat.eqb i 0)%bool.
  Proof.
    intros N E. pose proof (nth_combine_seq ts i t 0 E) as E'. cbn [Nat.add] in E'.
    pose proof (find_own snd _ i (i, t) (in_snd 0) (names_combine 0 N) E') as Fo. cbn [snd] in Fo.
    unfold camkes_tls_init. destruct ts as [|c l] eqn:Ets; [destruct i; discriminate|]. rewrite Fo.
    eexists. split; [reflexivity|]. cbn [gettid x_index x_tcb x_ipc x_region x_sc tls_case].
    repeat split. destruct i as [|i].
    - injection E as ->. now rewrite Nat.eqb_refl.
    - destruct (Nat.eqb_spec (tcb slot t) (tcb slot c)) as [Q|Q].
      + exfalso. apply inj in Q; [|now apply (nth_error_In _ (S i))|now left].
        inversion_clear N as [|? ? Ni _]. apply Ni. rewrite <- Q.
        apply in_map. cbn [nth_error] in E. now apply (nth_error_In _ i).
      + do 2 f_equal. lia.
  Qed.

  Lemma names_get fh i t : NoDup (map t_name ts) -> nth_error ts i = Some t ->
    get_thread_name slot fh ts (tcb slot t) = short_name fh (List.length ts) i t.
  Proof.
    intros N E. unfold get_thread_name, thread_names.
    pose proof (nth_combine_seq ts i t 0 E) as E'. cbn [Nat.add] in E'. pose proof (names_combine 0 N) as N'.
    assert (It : In t ts) by now apply nth_error_In in E.
    assert (Al : forall p, In p (combine (seq 0 (List.length ts)) ts) -> In (snd p) ts) by apply in_snd.
    set (l := combine _ ts) in *. set (n := List.length ts). clearbody l n. clear E N.
    assert (K : forall l d, (forall p, In p l -> tcb slot (snd p) <> tcb slot t) ->
      dget (fold_left (fun d p => dset d (tcb slot (snd p)) (short_name fh n (fst p) (snd p))) l d) (tcb slot t) =
      dget d (tcb slot t)).
    { clear. induction l as [|p l IH]; intros d H; [reflexivity|]. cbn [fold_left]. rewrite IH by (intros q Q; apply H; now right).
      rewrite dget_dset_ne; [reflexivity|]. intros Q. apply (H p); [now left|congruence]. }
    enough (G : forall d, dget (fold_left (fun d p => dset d (tcb slot (snd p)) (short_name fh n (fst p) (snd p))) l d) (tcb slot t) =
      Some (short_name fh n i t)) by now rewrite G.
    revert E' N' Al. generalize i at 1 as j. induction l as [|p l IH]; intros j E N Al d; [destruct j; discriminate|].
    cbn [fold_left]. destruct j as [|j]; cbn [nth_error] in E.
    - injection E as ->. rewrite K; [apply dget_dset_eq|]. intros q Q Hq. inversion_clear N as [|? ? Ni _]. apply Ni.
      apply inj in Hq; [|apply Al; now right|exact It]. cbn [snd]. rewrite <- Hq. now apply in_map with (f := fun y => t_name (snd y)).
    - inversion_clear N. apply (IH j); [assumption..|]. intros q Q. apply Al. now right.
  Qed.
End Slots.

(** ** Processes *)
Lemma pid_from_ge is me : forall k p, pid_from k is me = Some p -> k + 2 <= p.
Proof.
  induction is as [|i is IH]; intros k p E; [discriminate|]. cbn in E.
  destruct (String.eqb i me); [injection E as <-; lia|]. apply IH in E. lia.
Qed.
Lemma pid_nth is me : forall k p, pid_from k is me = Some p -> nth_error is (p - (k + 2)) = Some me.
Proof.
  induction is as [|i is IH]; intros k p E; [discriminate|]. cbn in E.
  destruct (String.eqb_spec i me) as [->|].
  - injection E as <-. now rewrite Nat.sub_diag.
  - pose proof (pid_from_ge _ _ _ _ E). apply IH in E. replace (p - (k + 2)) with (S (p - (S k + 2))) by lia. exact E.
Qed.
Lemma pid_total is me : forall k, In me is -> exists p, pid_from k is me = Some p.
Proof.
  induction is as [|i is IH]; intros k I; [destruct I|]. cbn. destruct (String.eqb_spec i me) as [->|]; [eauto|].
  apply IH. destruct I; [contradiction|assumption].
Qed.
Lemma pids_distinct is a b p : getpid is a = Some p -> getpid is b = Some p -> a = b.
Proof. unfold getpid. intros A B. apply pid_nth in A, B. congruence. Qed.
Lemma pids_from_two is a p : getpid is a = Some p -> 2 <= p.
Proof. unfold getpid. intros A. now apply pid_from_ge in A. Qed.
