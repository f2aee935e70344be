(** Proofs about sockets. *)
From Coq Require Import ZArith NArith List Bool Lia.
From Verif Require Import Prelude Socket_Model Socket_Spec.
Import ListNotations.
Open Scope Z_scope.

Lemma firstn_app_exact {A} (l r : list A) : firstn (List.length l) (l ++ r) = l.
Proof. rewrite firstn_app, Nat.sub_diag, firstn_all. cbn. apply app_nil_r. Qed.

Section S.
Context (V : server) (pick : (Z -> option file) -> Z).
Implicit Types w : world V.

Lemma call_asked r w data :
  exists v w', call V r (World (fds w) (data ++ skipn (List.length data) (sock_data w)) (srv w)) = (v, w') /\ asked V w r data v w'.
Proof.
  unfold call, asked. cbn. destruct (serve V r _ (srv w)) as [[v p'] s'] eqn:E.
  exists v, (World (fds w) p' s'). auto.
Qed.
Lemma call_asked' r w : exists v w', call V r w = (v, w') /\ asked V w r [] v w'.
Proof. destruct w as [f p s]. exact (call_asked r (World f p s) []). Qed.
Lemma call_fds r w v w' : call V r w = (v, w') -> fds w' = fds w.
Proof. unfold call. destruct (serve _ _ _ _) as [[? ?] ?]. intros [= <- <-]. reflexivity. Qed.
Lemma call_serve r w v w' : call V r w = (v, w') -> serve V r (sock_data w) (srv w) = (v, sock_data w', srv w').
Proof. unfold call. destruct (serve _ _ _ _) as [[? ?] ?]. intros [= <- <-]. reflexivity. Qed.

Lemma with_data_ok data r w : (List.length data <= 4096)%nat ->
  exists v w', with_data V data r w = Ret v tt w' /\ asked V w r data v w'.
Proof.
  intros L. unfold with_data, to_page, PAGE_SIZE_4K. apply Nat.leb_le in L. rewrite L.
  destruct (call_asked r w data) as (v & w' & C & A).
  rewrite C. eauto.
Qed.
Lemma with_data_fault data r w : (4096 < List.length data)%nat -> with_data V data r w = Fault.
Proof.
  intros L. unfold with_data, to_page, PAGE_SIZE_4K. apply Nat.leb_gt in L. rewrite L. reflexivity.
Qed.

Lemma sockfd_socket w fd k : fds w fd = Some (Socket k) -> sockfd V w fd = Some k.
Proof. unfold sockfd. intros ->. reflexivity. Qed.

Lemma write_ok fd buf w k : fds w fd = Some (Socket k) ->
  exists v w', sys_write V fd buf w = Ret v tt w' /\
  asked V w (RWrite k (Nat.min (List.length buf) 4096)) (firstn 4096 buf) v w'.
Proof.
  intros F. unfold sys_write. rewrite F.
  assert (N : (if Nat.ltb PAGE_SIZE_4K (List.length buf) then PAGE_SIZE_4K else List.length buf) = Nat.min (List.length buf) 4096).
  { unfold PAGE_SIZE_4K. destruct (Nat.ltb_spec 4096 (List.length buf)); lia. }
  rewrite N. set (n := Nat.min (List.length buf) 4096).
  assert (FN : firstn n buf = firstn 4096 buf).
  { unfold n. destruct (Nat.le_ge_cases (List.length buf) 4096).
    - rewrite Nat.min_l by assumption. rewrite firstn_all. symmetry. apply firstn_all2. assumption.
    - rewrite Nat.min_r by assumption. reflexivity. }
  rewrite FN. unfold to_page, PAGE_SIZE_4K.
  assert (L : (List.length (firstn 4096 buf) <= 4096)%nat) by (rewrite firstn_length; lia).
  apply Nat.leb_le in L. rewrite L.
  destruct (call_asked (RWrite k n) w (firstn 4096 buf)) as (v & w' & C & A).
  rewrite C. eauto.
Qed.

Lemma read_ok fd buf w k : fds w fd = Some (Socket k) ->
  exists v w', asked V w (RRead k (Nat.min (List.length buf) 4096)) [] v w' /\
  ((0 <= v <= Z.of_nat (Nat.min (List.length buf) 4096) ->
    sys_read V fd buf w = Ret v (firstn (Z.to_nat v) (sock_data w') ++ skipn (Z.to_nat v) buf) w') /\
   (~ 0 <= v <= Z.of_nat (Nat.min (List.length buf) 4096) -> sys_read V fd buf w = Fault)).
Proof.
  intros F. unfold sys_read. rewrite F.
  assert (N : (if Nat.ltb PAGE_SIZE_4K (List.length buf) then PAGE_SIZE_4K else List.length buf) = Nat.min (List.length buf) 4096).
  { unfold PAGE_SIZE_4K. destruct (Nat.ltb_spec 4096 (List.length buf)); lia. }
  rewrite N. destruct (call_asked' (RRead k (Nat.min (List.length buf) 4096)) w) as (v & w' & C & A).
  exists v, w'. split; [exact A|]. rewrite C. unfold from_page, PAGE_SIZE_4K.
  destruct (0 <=? v) eqn:E1, (v <=? Z.of_nat 4096) eqn:E2, (v <=? Z.of_nat (List.length buf)) eqn:E3;
    rewrite ?Z.leb_le, ?Z.leb_gt in *; cbn [andb]; split; intros H; try reflexivity; lia.
Qed.

Lemma set_fd_opens w fd k : fds w fd = None -> opens V w fd k (set_fd V fd (Some (Socket k)) w).
Proof.
  intros F. unfold opens, set_fd; cbn. rewrite Z.eqb_refl. repeat split; auto.
  intros x NE. apply Z.eqb_neq in NE. rewrite NE. reflexivity.
Qed.

Lemma socket_ok d t p w : allocator pick -> 0 <= pick (fds w) ->
  exists k w1 fd w', asked V w (RSocket d t p) [] k w1 /\ opens V w1 fd k w' /\ sys_socket V pick d t p w = Ret fd tt w'.
Proof.
  intros A P. unfold sys_socket, new_fd. destruct (pick (fds w) <? 0) eqn:E; [apply Z.ltb_lt in E; lia|].
  destruct (call_asked' (RSocket d t p) w) as (v & w1 & C & K). rewrite C.
  assert (FE : fds w1 = fds w) by (destruct K; assumption).
  rewrite FE, E. exists v, w1, (pick (fds w)), (set_fd V (pick (fds w)) (Some (Socket v)) w1).
  split; [exact K|]. split; [|reflexivity]. apply set_fd_opens. rewrite FE. apply A, P.
Qed.

Lemma accept_ok fd addr w k : fds w fd = Some (Socket k) -> allocator pick -> 0 <= pick (fds w) ->
  (forall a l, addr = Some (a, l) -> List.length a = 16%nat /\ List.length l = 4%nat) ->
  exists v w1, asked V w (RAccept k) (match addr with Some (a, l) => a ++ l | None => [] end) v w1 /\
  if v =? -1 then sys_accept V pick fd addr w = Ret (-1) (Some (firstn 4 (sock_data w1)), addr) w1
  else exists fd' w', opens V w1 fd' v w' /\
    sys_accept V pick fd addr w = Ret fd' (None, match addr with
      | Some _ => Some (firstn 16 (sock_data w1), firstn 4 (skipn 16 (sock_data w1)))
      | None => None end) w'.
Proof.
  intros F A P L. unfold sys_accept. rewrite (sockfd_socket _ _ _ F).
  set (data := match addr with Some (a, l) => a ++ l | None => [] end).
  assert (E : match addr with Some (a, l) => to_page (sock_data w) (a ++ l) | None => Some (sock_data w) end =
    Some (data ++ skipn (List.length data) (sock_data w))).
  { unfold data. destruct addr as [[a l]|]; [|reflexivity].
    destruct (L a l eq_refl) as [La Ll]. unfold to_page.
    assert (LE : Nat.leb (List.length (a ++ l)) PAGE_SIZE_4K = true).
    { apply Nat.leb_le. rewrite app_length, La, Ll. unfold PAGE_SIZE_4K. lia. }
    rewrite LE. reflexivity. }
  rewrite E. destruct (call_asked (RAccept k) w data) as (v & w1 & C & K). exists v, w1. split; [exact K|].
  rewrite C. destruct (v =? -1) eqn:EV; [apply Z.eqb_eq in EV; subst v; reflexivity|].
  assert (FE : fds w1 = fds w) by (destruct K; assumption).
  unfold new_fd. rewrite FE. destruct (pick (fds w) <? 0) eqn:EP; [apply Z.ltb_lt in EP; lia|].
  exists (pick (fds w)), (set_fd V (pick (fds w)) (Some (Socket v)) w1). split; [|reflexivity].
  apply set_fd_opens. rewrite FE. apply A, P.
Qed.

Lemma close_ok fd w k : fds w fd = Some (Socket k) ->
  exists v w1 w', asked V w (RClose k) [] v w1 /\ sys_close V fd w = Ret 0 tt w' /\
  fds w' fd = None /\ (forall x, x <> fd -> fds w' x = fds w x) /\ srv w' = srv w1.
Proof.
  intros F. unfold sys_close. rewrite F. destruct (call_asked' (RClose k) w) as (v & w1 & C & K). rewrite C.
  assert (FE : fds w1 = fds w) by (destruct K; assumption).
  exists v, w1, (set_fd V fd None w1). split; [exact K|]. split; [reflexivity|]. split; [|split; [|reflexivity]].
  - unfold set_fd; cbn [fds]. rewrite Z.eqb_refl. reflexivity.
  - intros x NE. unfold set_fd; cbn [fds]. apply Z.eqb_neq in NE. rewrite NE, FE. reflexivity.
Qed.

(** ** Streams *)
Lemma write_all_prefix taken fuel fd data w k r w' : takes V taken -> fds w fd = Some (Socket k) ->
  write_all V fuel fd data w = Some (r, w') ->
  (r <= List.length data)%nat /\ taken (srv w') k = taken (srv w) k ++ firstn r data /\
  (forall j, j <> k -> taken (srv w') j = taken (srv w) j) /\ fds w' = fds w.
Proof.
  intros T. revert data w r w'. induction fuel as [|fuel IH]; intros data w r w' F H; cbn in H.
  - injection H as <- <-. cbn. rewrite app_nil_r. repeat split; auto; lia.
  - destruct data as [|b data]; [injection H as <- <-; cbn; rewrite app_nil_r; repeat split; auto; lia|].
    set (D := b :: data) in *. destruct (write_ok fd D w k F) as (v & w1 & C & SV & FE).
    rewrite C in H. destruct (T _ _ _ _ _ _ _ SV) as [LE TK].
    destruct (0 <? v) eqn:EV.
    + apply Z.ltb_lt in EV. destruct (write_all V fuel fd (skipn (Z.to_nat v) D) w1) as [[n w2]|] eqn:E; [|discriminate].
      injection H as <- <-. assert (F1 : fds w1 fd = Some (Socket k)) by (rewrite FE; exact F).
      destruct (IH _ _ _ _ F1 E) as (L & A & B & FF). rewrite skipn_length in L.
      assert (Lv : (Z.to_nat v <= Nat.min (List.length D) 4096)%nat) by lia.
      split; [lia|]. split; [|split].
      * rewrite A, TK, Z.eqb_refl. cbn [andb]. 
        rewrite <- app_assoc. f_equal.
        rewrite (firstn_app (Z.to_nat v)), firstn_firstn, (Nat.min_l (Z.to_nat v)) by lia.
        replace (Z.to_nat v - List.length (firstn 4096 D))%nat with 0%nat by (rewrite firstn_length; lia).
        rewrite app_nil_r. rewrite <- (firstn_skipn (Z.to_nat v) (firstn (Z.to_nat v + n) D)). rewrite firstn_firstn, Nat.min_l by lia.
        f_equal. rewrite firstn_skipn_comm. reflexivity.
      * intros j NE. rewrite (B j NE), TK. apply Z.eqb_neq in NE. rewrite NE. reflexivity.
      * congruence.
    + injection H as <- <-. cbn [firstn]. rewrite app_nil_r. split; [lia|]. split; [rewrite TK, andb_false_r; reflexivity|].
      split; [|exact FE]. intros j _. rewrite TK, andb_false_r. reflexivity.
Qed.
Lemma write_all_whole taken fuel fd data w k : takes V taken -> willing V -> fds w fd = Some (Socket k) ->
  (List.length data <= fuel)%nat -> exists w', write_all V fuel fd data w = Some (List.length data, w').
Proof.
  intros T WL. revert data w. induction fuel as [|fuel IH]; intros data w F L; cbn.
  - destruct data; [eauto|cbn in L; lia].
  - destruct data as [|b data]; [eauto|]. set (D := b :: data) in *.
    destruct (write_ok fd D w k F) as (v & w1 & C & SV & FE). rewrite C.
    destruct (T _ _ _ _ _ _ _ SV) as [LE TK].
    assert (P : 0 < v). { apply (WL _ _ _ _ _ _ _) in SV; [exact SV|]. unfold D. cbn. lia. }
    assert (E : (0 <? v) = true) by (apply Z.ltb_lt; lia). rewrite E.
    destruct (IH (skipn (Z.to_nat v) D) w1) as (w2 & EW).
    + rewrite FE. exact F.
    + rewrite skipn_length. lia.
    + rewrite EW. exists w2. rewrite skipn_length. assert ((Z.to_nat v <= List.length D)%nat) by lia.
      replace (Z.to_nat v + (List.length D - Z.to_nat v))%nat with (List.length D) by lia. reflexivity.
Qed.

Lemma read_all_ok pending sizes fd w k : keeps_page V -> gives V pending -> paged V w -> fds w fd = Some (Socket k) ->
  exists d w', read_all V sizes fd w = Some (d, w') /\ pending (srv w) k = d ++ pending (srv w') k /\
  (forall j, j <> k -> pending (srv w') j = pending (srv w) j).
Proof.
  intros KP G. revert w. induction sizes as [|n sizes IH]; intros w PG F; cbn; [exists [], w; auto|].
  destruct (read_ok fd (repeat 0%N n) w k F) as (v & w1 & (SV & FE) & R & _). cbn in SV.
  destruct (G _ _ _ _ _ _ _ PG SV) as (B1 & B2 & FN & PD). rewrite (R B1).
  destruct (IH w1) as (d & w2 & E & P & O).
  - exact (KP _ _ _ _ _ _ PG SV).
  - rewrite FE. exact F.
  - rewrite E. eexists _, w2. split; [reflexivity|]. split.
    + assert (L : List.length (firstn (Z.to_nat v) (sock_data w1)) = Z.to_nat v).
      { rewrite FN, firstn_length. lia. }
      rewrite firstn_app, L, Nat.sub_diag, firstn_firstn, Nat.min_id. cbn [firstn]. rewrite app_nil_r, FN.
      rewrite <- app_assoc, <- P, PD, Z.eqb_refl. symmetry. apply firstn_skipn.
    + intros j NE. rewrite (O j NE), PD. apply Z.eqb_neq in NE. rewrite NE. reflexivity.
Qed.

(** ** Many calls *)
Section Apart.
Context (used : sstate V -> Z -> Prop) (KA : keeps_apart V used).

Lemma plain w w' : one_to_one V used w -> fds w' = fds w -> (forall k, used (srv w') k <-> used (srv w) k) -> one_to_one V used w'.
Proof.
  intros [A B] F U. split.
  - intros k. rewrite U, A, F. tauto.
  - rewrite F. exact B.
Qed.
Definition ordinary (r : request) : Prop := match r with RSocket _ _ _ | RAccept _ | RClose _ => False | _ => True end.
Lemma call_plain r w p v w1 : ordinary r -> one_to_one V used w -> call V r (World (fds w) p (srv w)) = (v, w1) -> one_to_one V used w1.
Proof.
  intros R O C. apply (plain w); [exact O|exact (call_fds _ _ _ _ C)|].
  pose proof (KA _ _ _ _ _ _ (call_serve _ _ _ _ C)) as U. destruct r; try contradiction; exact U.
Qed.
Lemma call_plain' r w v w1 : ordinary r -> one_to_one V used w -> call V r w = (v, w1) -> one_to_one V used w1.
Proof. destruct w as [f p s]. apply (call_plain r (World f p s)). Qed.
Lemma with_data_apart data r w w' : ordinary r -> one_to_one V used w -> state_of (with_data V data r w) = Some w' -> one_to_one V used w'.
Proof.
  intros R O. unfold with_data. destruct (to_page _ _); [|discriminate]. destruct (call V _ _) as [v w1] eqn:C.
  cbn. intros [= <-]. exact (call_plain _ _ _ _ _ R O C).
Qed.
Lemma opened w w1 w' fd k : one_to_one V used w -> fds w1 = fds w -> ~ used (srv w) k ->
  (forall j, used (srv w1) j <-> used (srv w) j \/ j = k) -> opens V w1 fd k w' -> one_to_one V used w'.
Proof.
  intros [A B] F1 NU U (N & F & O & _ & S). rewrite F1 in *. split.
  - intros j. rewrite S, U, A. split.
    + intros [(x & X)| ->]; [|eauto]. exists x. rewrite O; [exact X|]. intros ->. congruence.
    + intros (x & X). destruct (Z.eq_dec x fd) as [->|NE]; [right; congruence|left]. rewrite O in X by exact NE. eauto.
  - intros x y j X Y. destruct (Z.eq_dec x fd) as [->|NX], (Z.eq_dec y fd) as [->|NY]; auto.
    + exfalso. apply NU. apply A. exists y. rewrite O in Y by exact NY. congruence.
    + exfalso. apply NU. apply A. exists x. rewrite O in X by exact NX. congruence.
    + rewrite O in X, Y by assumption. eauto.
Qed.
Lemma perform_ok c w w' : allocator pick -> one_to_one V used w -> perform V pick c w = Some w' -> one_to_one V used w'.
Proof.
  intros AL O. destruct c; cbn [perform]; intros H.
  - unfold sys_socket in H. destruct (pick (fds w) <? 0) eqn:P; [discriminate|]. apply Z.ltb_ge in P.
    destruct (call_asked' (RSocket domain type protocol) w) as (v & w1 & C & SV & FE). rewrite C in H. cbn in SV.
    pose proof (KA _ _ _ _ _ _ SV) as [NU U]. unfold new_fd in H. rewrite FE in H.
    destruct (pick (fds w) <? 0); [discriminate|]. cbn in H. injection H as <-.
    eapply opened; [exact O|exact FE|exact NU|exact U|]. apply set_fd_opens. rewrite FE. apply AL, P.
  - unfold sys_bind in H. destruct (sockfd V w fd); [|discriminate]. refine (with_data_apart _ _ _ _ _ O H); exact I.
  - unfold sys_connect in H. destruct (sockfd V w fd); [|discriminate]. refine (with_data_apart _ _ _ _ _ O H); exact I.
  - unfold sys_setsockopt in H. destruct (sockfd V w fd); [|discriminate]. refine (with_data_apart _ _ _ _ _ O H); exact I.
  - unfold sys_listen in H. destruct (sockfd V w fd); [|discriminate]. destruct (call V _ _) as [v w1] eqn:C.
    cbn in H. injection H as <-. refine (call_plain' _ _ _ _ _ O C); exact I.
  - unfold sys_accept in H. destruct (sockfd V w fd) as [k|]; [|discriminate].
    destruct (match addr with Some (a, l) => _ | None => _ end) as [p|]; [|discriminate].
    destruct (call V _ _) as [v w1] eqn:C. pose proof (KA _ _ _ _ _ _ (call_serve _ _ _ _ C)) as U.
    pose proof (call_fds _ _ _ _ C) as FE. cbn in U, FE. destruct (v =? -1).
    + cbn in H. injection H as <-. exact (plain _ _ O FE U).
    + destruct U as [NU U]. unfold new_fd in H. rewrite FE in H. destruct (pick (fds w) <? 0) eqn:P; [discriminate|].
      apply Z.ltb_ge in P. cbn in H. injection H as <-.
      eapply opened; [exact O|exact FE|exact NU|exact U|]. apply set_fd_opens. rewrite FE. apply AL, P.
  - unfold sys_write in H. destruct (fds w fd) as [[k|]|]; try discriminate. destruct (to_page _ _); [|discriminate].
    destruct (call V _ _) as [v w1] eqn:C. cbn in H. injection H as <-. refine (call_plain _ _ _ _ _ _ O C); exact I.
  - unfold sys_read in H. destruct (fds w fd) as [[k|]|]; try discriminate. destruct (call V _ _) as [v w1] eqn:C.
    destruct (from_page _ _ _); [|discriminate]. cbn in H. injection H as <-. refine (call_plain' _ _ _ _ _ O C); exact I.
  - unfold sys_fcntl in H. destruct (fds w fd) as [[k|]|]; try discriminate. destruct (call V _ _) as [v w1] eqn:C.
    cbn in H. injection H as <-. refine (call_plain' _ _ _ _ _ O C); exact I.
  - unfold sys_close in H. destruct (fds w fd) as [[k|]|] eqn:F; try discriminate. destruct (call V _ _) as [v w1] eqn:C.
    pose proof (KA _ _ _ _ _ _ (call_serve _ _ _ _ C)) as U. pose proof (call_fds _ _ _ _ C) as FE. cbn in U, FE.
    cbn in H. injection H as <-. destruct O as [A B]. split; unfold set_fd; cbn [fds srv]; rewrite ?FE.
    + intros j. rewrite U, A. split.
      * intros [(x & X) NE]. exists x. destruct (Z.eqb_spec x fd) as [E|_]; [congruence|exact X].
      * intros (x & X). destruct (Z.eqb_spec x fd) as [E|NE]; [discriminate|]. split; [eauto|].
        intros ->. apply NE. exact (B _ _ _ X F).
    + intros x y j X Y. destruct (x =? fd); [discriminate|]. destruct (y =? fd); [discriminate|]. eauto.
Qed.
Lemma performs_ok l w w' : allocator pick -> one_to_one V used w -> performs V pick l w = Some w' -> one_to_one V used w'.
Proof.
  intros AL. revert w. induction l as [|c l IH]; intros w O H; cbn in H; [congruence|].
  destruct (perform V pick c w) as [w1|] eqn:E; [|discriminate]. exact (IH _ (perform_ok _ _ _ AL O E) H).
Qed.
End Apart.
End S.
