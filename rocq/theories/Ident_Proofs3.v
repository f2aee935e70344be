(** The statements about the threads of an instance. *)
From Coq Require Import List String Bool NArith ZArith Lia Permutation Sorted Arith.
From Verif Require Import Prelude DecStr Threads_Model Threads_Spec Threads_Proofs Layout_Model Layout_Spec
  FaultMap_Model FaultMap_Spec Posix_Model Ident_Model Ident_Spec Ident_Proofs Ident_Proofs2.
Import ListNotations.
Open Scope string_scope. Open Scope list_scope.

Lemma shown_stack w L label t x : (0 < w)%Z -> seated w L t -> whole_pages t -> t_stack_size t <> 0%N ->
  (0 <= Z.of_N x < stack_bytes t)%Z ->
  let a := (l_var L (t_stack_symbol t) + Z.of_N x)%Z in
  exists rs order ls, terminated rs [] (memory_map L t) /\ show_fault_location w (memory_map L t) a = Ok ls /\
    Permutation order rs /\ StronglySorted higher order /\ picture a None order ls /\
    (faults (stack_mapping label t) x /\ shown_as a order "guard page" \/
     read_write (stack_mapping label t) x /\ shown_as a order "stack").
Proof.
  intros W S H H0 B a. destruct (stack_shown w L label t x W S H H0 B) as (order & ls & A1 & A2 & A3 & A4 & A5).
  exists (described L t), order, ls. destruct S as (S1 & _ & S2 & _ & S3 & _).
  repeat (split; [first [assumption | apply map_terminated; lia]|]). exact A5.
Qed.
Lemma shown_ipc w L f t x : (0 < w)%Z -> seated w L t -> t_stack_size t <> 0%N ->
  (0 <= Z.of_N x < ipc_bytes)%Z ->
  let a := (l_var L (t_ipc_symbol t) + Z.of_N x)%Z in
  exists rs order ls, terminated rs [] (memory_map L t) /\ show_fault_location w (memory_map L t) a = Ok ls /\
    Permutation order rs /\ StronglySorted higher order /\ picture a None order ls /\
    (faults (register_ipc_symbol f) x /\ shown_as a order "guard page" \/
     read_write (register_ipc_symbol f) x /\ shown_as a order "IPC buffer").
Proof.
  intros W S H0 B a. destruct (ipc_shown w L f t x W S H0 B) as (order & ls & A1 & A2 & A3 & A4 & A5).
  exists (described L t), order, ls. destruct S as (S1 & _ & S2 & _ & S3 & _).
  repeat (split; [first [assumption | apply map_terminated; lia]|]). exact A5.
Qed.

Section Instance.
  Context (cs : list tconn) (inst : string) (conf : dict string N) (dflt : N) (d : bool)
    (once : connected_once inst cs) (slot : string -> nat).
  Let ts := threads cs inst conf dflt d.
  Context (inj : distinct_slots slot ts).

  Lemma own_tls L rt i t : nth_error ts i = Some t ->
    exists x, camkes_tls_init slot L rt ts (tcb slot t) = Ok x /\ gettid x = S i /\ x_tcb x = tcb slot t /\
      x_ipc x = (l_var L (t_ipc_symbol t) + Z.of_N thread_addr)%Z /\
      (x_region x = None <-> i = 0%nat) /\ (forall k, x_region x = Some k -> (k < tls_regions ts)%nat).
  Proof.
    intros E. destruct (tls_of slot ts inj L rt i t (threads_names _ _ _ _ _ once) E) as (x & A & B & C & D & R & _).
    exists x. repeat (split; [assumption|]). rewrite R. split.
    - destruct i; split; congruence.
    - intros k K. destruct i as [|i]; [discriminate|]. injection K as <-. unfold tls_regions.
      assert (S i < List.length ts)%nat by (apply nth_error_Some; congruence). lia.
  Qed.
  Lemma distinct_tls L rt i j t u x y : nth_error ts i = Some t -> nth_error ts j = Some u -> i <> j ->
    camkes_tls_init slot L rt ts (tcb slot t) = Ok x -> camkes_tls_init slot L rt ts (tcb slot u) = Ok y ->
    gettid x <> gettid y /\ x_tcb x <> x_tcb y /\ x_region x <> x_region y.
  Proof.
    intros Ei Ej NE Ex Ey.
    destruct (tls_of slot ts inj L rt i t (threads_names _ _ _ _ _ once) Ei) as (x' & A & B & C & D & R & _).
    destruct (tls_of slot ts inj L rt j u (threads_names _ _ _ _ _ once) Ej) as (y' & A' & B' & C' & D' & R' & _).
    assert (x' = x) as -> by congruence. assert (y' = y) as -> by congruence. split; [lia|]. split.
    - rewrite C, C'. intros Q. apply inj in Q; [|now apply (nth_error_In _ i)|now apply (nth_error_In _ j)]. apply NE.
      apply (proj1 (NoDup_nth_error (map t_name ts)) (threads_names _ _ _ _ _ once)).
      + apply nth_error_Some. rewrite nth_error_map, Ei. discriminate.
      + rewrite !nth_error_map, Ei, Ej. cbn. now rewrite Q.
    - rewrite R, R'. destruct i, j; congruence.
  Qed.
  Lemma sc_recorded L rt i t x : nth_error ts i = Some t -> camkes_tls_init slot L rt ts (tcb slot t) = Ok x ->
    (x_sc x = true <-> rt = true /\ i = 0%nat).
  Proof.
    intros Ei Ex. destruct (tls_of slot ts inj L rt i t (threads_names _ _ _ _ _ once) Ei) as (x' & A & _ & _ & _ & _ & S).
    assert (x' = x) as -> by congruence. rewrite S, andb_true_iff, Nat.eqb_eq. reflexivity.
  Qed.
  Lemma tls_unknown L rt id : (forall t, In t ts -> tcb slot t <> id) -> camkes_tls_init slot L rt ts id = Err AssertionError.
  Proof.
    intros H. clear inj. unfold camkes_tls_init. destruct ts as [|c l] eqn:E; [reflexivity|].
    destruct (find _ _) as [[i t]|] eqn:F; [|reflexivity]. apply find_some in F as (I & F). apply Nat.eqb_eq in F.
    exfalso. apply (H t); [|exact F]. now apply in_combine_r in I.
  Qed.

  Lemma iface_between i t : nth_error ts i = Some t -> (0 < i)%nat -> (d = true -> S i <> List.length ts) -> t_iface t <> None.
  Proof.
    unfold ts, threads. intros E G Nl. destruct i as [|i]; [lia|]. cbn [nth_error] in E.
    set (mid := flat_map (conn_threads conf dflt inst) cs) in *.
    destruct (Nat.lt_ge_cases i (List.length mid)) as [Lt|Ge].
    - rewrite nth_error_app1 in E by exact Lt. apply nth_error_In in E. unfold mid in E.
      apply in_flat_map in E as (c & _ & E). unfold conn_threads in E. apply in_app_or in E.
      destruct E as [E|E]; apply in_flat_map in E as (e & _ & E); unfold end_threads in E;
        destruct (String.eqb (fst e) inst); try destruct E as []; apply in_map_iff in E as (n & <- & _); discriminate.
    - exfalso. assert (Lt : (S i < List.length (threads cs inst conf dflt d))%nat).
      { apply nth_error_Some. unfold threads. cbn [nth_error]. fold mid. rewrite E. discriminate. }
      unfold threads in Lt. fold mid in Lt. cbn [List.length] in Lt. rewrite app_length in Lt.
      destruct d.
      + apply (Nl eq_refl). cbn [List.length] in *. rewrite app_length. cbn [List.length] in *. lia.
      + cbn [List.length] in Lt. lia.
  Qed.
  Lemma named i t : nth_error ts i = Some t ->
    get_thread_name slot d ts (tcb slot t) =
      match t_iface t with
      | Some f => f
      | None => if Nat.eqb i 0 then "control" else "fault_handler"
      end.
  Proof.
    intros E. rewrite (names_get slot ts inj d i t (threads_names _ _ _ _ _ once) E). unfold short_name.
    destruct (Nat.eqb_spec i 0) as [->|N0].
    - unfold ts, threads in E. injection E as <-. reflexivity.
    - destruct (d && Nat.eqb (S i) (List.length ts)) eqn:Q.
      + apply andb_prop in Q as (Ed & Q). apply Nat.eqb_eq in Q.
        assert (t_iface t = None) as ->; [|reflexivity].
        destruct (threads_fault_last cs inst conf dflt) as (front & F & _).
        unfold ts in E, Q. rewrite Ed, F in E, Q. rewrite app_length in Q. cbn [List.length] in Q.
        assert (i = List.length front) as -> by lia. rewrite nth_error_app2, Nat.sub_diag in E by lia.
        injection E as <-. reflexivity.
      + destruct (t_iface t) eqn:F; [reflexivity|]. exfalso. apply (iface_between i t E); [lia| |exact F].
        intros Ed Q'. rewrite Ed in Q. cbn [andb] in Q. now apply Nat.eqb_neq in Q.
  Qed.
  Lemma unnamed id : (forall t, In t ts -> tcb slot t <> id) -> get_thread_name slot d ts id = "(unknown)".
  Proof.
    intros H. clear inj. unfold get_thread_name, thread_names.
    assert (K : forall l e, (forall p, In p l -> In (snd p) ts) -> dget e id = None ->
      dget (fold_left (fun d0 p => dset d0 (tcb slot (snd p)) (short_name d (List.length ts) (fst p) (snd p))) l e) id = None).
    { induction l as [|p l IH]; intros e Hl He; [exact He|]. cbn [fold_left]. apply IH; [intros q Q; apply Hl; now right|].
      rewrite dget_dset_ne; [exact He|]. intros Q. apply (H (snd p)); [apply Hl; now left|congruence]. }
    rewrite K; [reflexivity| |reflexivity]. intros [i t] I. now apply in_combine_r in I.
  Qed.

  Lemma attributed L i t : nth_error ts i = Some t -> (S i < List.length ts)%nat ->
    exists b, In (t, Some b) (fault_badges slot ts) /\ faulted slot L ts b = (t_name t, Some (memory_map L t)) /\
      forall u c, In (u, Some c) (fault_badges slot ts) -> c = b -> u = t.
  Proof.
    intros E G. destruct (badge_exists slot ts i t E G) as (b & B). exists b.
    pose proof (threads_names _ inst conf dflt d once) as N. fold ts in N.
    destruct (own_faults slot ts inj L i t b N B) as (_ & _ & F).
    split; [now apply nth_error_In in B|]. split; [exact F|]. intros u c I ->.
    apply In_nth_error in I as (j & J). destruct (own_faults slot ts inj L j u b N J) as (Eu & _ & Fu).
    assert (Q : t_name t = t_name u) by congruence.
    assert (i = j) as <-; [|congruence].
    apply (proj1 (NoDup_nth_error (map t_name ts)) N).
    - apply nth_error_Some. rewrite nth_error_map, E. discriminate.
    - rewrite !nth_error_map, E, Eu. cbn. now rewrite Q.
  Qed.
End Instance.

Lemma handler_alone cs inst conf dflt slot t : connected_once inst cs ->
  In (t, None) (fault_badges slot (threads cs inst conf dflt true)) -> t_name t = fault_name inst.
Proof.
  intros once I. destruct (threads_fault_last cs inst conf dflt) as (front & F & _).
  apply In_nth_error in I as (i & I). pose proof (no_badge slot _ i t I) as Q.
  assert (K : forall ts i u o, nth_error (fault_badges slot ts) i = Some (u, o) -> nth_error ts i = Some u).
  { clear. induction ts as [|v ts IH]; intros i u o E; [destruct i; discriminate|]. destruct ts as [|v' ts].
    - destruct i as [|[|i]]; [injection E as -> _; reflexivity|discriminate..].
    - destruct i as [|i]; [injection E as -> _; reflexivity|]. cbn [nth_error]. eapply IH. exact E. }
  apply K in I. rewrite F in I, Q. rewrite app_length in Q. cbn [List.length] in Q.
  assert (i = List.length front) as -> by lia. rewrite nth_error_app2, Nat.sub_diag in I by lia. injection I as <-. reflexivity.
Qed.
