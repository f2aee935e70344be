(** Proofs about the installed functions. *)
From Coq Require Import List String Ascii Bool NArith ZArith Lia PeanoNat.
From Verif Require Import Prelude Sys_Model Sys_Spec.
Import ListNotations.
Open Scope string_scope. Open Scope list_scope.

Ltac here := solve [try unfold basic; try unfold syscalls; cbn [In]; repeat first [left; reflexivity | right]].
Lemma mapM_in A B (f : A -> res B) l m : mapM f l = Ok m ->
  (forall b, In b m -> exists a, In a l /\ f a = Ok b) /\ (forall a, In a l -> exists b, In b m /\ f a = Ok b).
Proof.
  revert m. induction l as [|a l IH]; intros m; cbn [mapM].
  - intros [= <-]. split; intros ? [].
  - destruct (f a) as [b|e] eqn:F; cbn [bind]; [|discriminate]. destruct (mapM f l) as [m'|e] eqn:M; cbn [bind]; [|discriminate].
    intros [= <-]. destruct (IH m' eq_refl) as [I J]. split.
    + intros c [<-|C]; [exists a; split; [now left|exact F]|]. destruct (I c C) as (x & X & E). exists x. split; [now right|exact E].
    + intros c [<-|C]; [exists b; split; [now left|exact F]|]. destruct (J c C) as (x & X & E). exists x. split; [now right|exact E].
Qed.
Lemma mapM_total A B (f : A -> res B) l : (forall a, In a l -> exists b, f a = Ok b) -> exists m, mapM f l = Ok m.
Proof.
  induction l as [|a l IH]; intros H; cbn [mapM]; [eauto|].
  destruct (H a (or_introl eq_refl)) as (b & ->). destruct IH as (m & ->); [intros; apply H; now right|]. cbn. eauto.
Qed.

Notation installed := (fold_left (fun d p => fst (install d (fst p) (snd p)))).
Lemma fold_keep l : forall (d : dict nat string) n, (forall p, In p l -> fst p <> n) -> dget (installed l d) n = dget d n.
Proof.
  induction l as [|p l IH]; intros d n H; [reflexivity|]. cbn [fold_left]. rewrite IH by (intros; apply H; now right).
  cbn [install fst]. apply dget_dset_ne. intros E. apply (H p); [now left|congruence].
Qed.
Lemma fold_set l : forall (d : dict nat string) n f, (forall p, In p l -> fst p = n -> snd p = f) ->
  (exists p, In p l /\ fst p = n) \/ dget d n = Some f -> dget (installed l d) n = Some f.
Proof.
  induction l as [|p l IH]; intros d n f H E.
  - destruct E as [(p & [] & _)|E]; exact E.
  - cbn [fold_left]. apply IH; [intros; apply H; [now right|assumption]|]. cbn [install fst].
    destruct (Nat.eq_dec (fst p) n) as [Q|Q].
    + right. rewrite Q, (H p (or_introl eq_refl) Q). apply dget_dset_eq.
    + destruct E as [(q & [<-|I] & Eq)|E]; [congruence|left; eauto|right].
      rewrite dget_dset_ne; [exact E|congruence].
Qed.

Lemma lines_functions : Forall (fun l : line => snd l = function (snd (fst l))) syscalls.
Proof. repeat constructor. Qed.
Lemma lines_offered tg l : In l syscalls -> holds tg (fst (fst l)) = true -> snd (fst l) = "sigaction" /\ defined tg "sigcation" \/
  offered tg (snd (fst l)).
Proof.
  unfold defined. intros I. repeat (destruct I as [<-|I]; [cbn [fst snd holds]; intros H|]); [..|destruct I].
  all: try (right; apply OBasic; here).
  all: try (right; apply OSocket; [now destruct (tg_ia32 tg)|here]).
  all: try (right; apply OName; [exact H|here]).
  - right. apply OMore; [unfold defined; destruct (tg_nr tg "pause"); congruence|here].
  - right. apply OTime64. unfold defined. destruct (tg_nr tg "clock_gettime64"); congruence.
  - right. apply OTime. unfold defined. destruct (tg_nr tg "clock_gettime64"); congruence.
  - right. apply OMore; [unfold defined; destruct (tg_nr tg "_newselect"); congruence|here].
  - left. split; [reflexivity|]. destruct (tg_nr tg "sigcation"); congruence.
Qed.
Ltac here_line := match goal with |- In (?c, ?n, ?f) _ =>
  apply (fun E : find (fun l : line => String.eqb (snd (fst l)) n) syscalls = Some (c, n, f) => proj1 (find_some _ _ E));
  reflexivity end.
Lemma offered_line tg name : offered tg name -> In name ["close"; "read"; "write"; "fcntl64"] \/
  exists c f, In (c, name, f) syscalls /\ holds tg c = true.
Proof.
  assert (D : forall m, defined tg m -> holds tg (Ifdef m) = true).
  { intros m H. unfold defined in H. cbn. now destruct (tg_nr tg m). }
  intros O. destruct O as [name I|name A I|name A I|A|A|name A I].
  - unfold basic in I. repeat (destruct I as [<-|I]; [first [left; here | right; eexists _, _; split; [here_line|reflexivity]]|]).
    destruct I.
  - right. repeat (destruct I as [<-|I]; [exists IfNotIa32; eexists; split; [here_line|cbn; now rewrite A]|]). destruct I.
  - right. repeat (destruct I as [<-|I]; [exists IfBsd; eexists; split; [here_line|exact A]|]). destruct I.
  - right. exists (Ifndef "clock_gettime64"). eexists. split; [here_line|]. unfold defined in A. cbn.
    destruct (tg_nr tg "clock_gettime64"); [exfalso; apply A; discriminate|reflexivity].
  - right. exists (Ifdef "clock_gettime64"). eexists. split; [here_line|now apply D].
  - destruct I as [<-|[<-|[<-|[]]]].
    + right. exists (Ifdef "pause"). eexists. split; [here_line|now apply D].
    + right. exists (Ifdef "_newselect"). eexists. split; [here_line|now apply D].
    + left. cbn. tauto.
Qed.

Opaque syscalls.
Section Target.
  Context (tg : target) (distinct : distinct_numbers tg).

  Lemma compiled_in l : compiled tg = Ok l -> forall p, In p l ->
    exists name, tg_nr tg name = Some (fst p) /\ snd p = function name /\
      (name = "sigaction" /\ defined tg "sigcation" \/ offered tg name).
  Proof.
    intros E p I. destruct (mapM_in _ _ _ _ _ E) as [H _]. destruct (H p I) as (a & A & F).
    apply filter_In in A as [A Hd]. exists (snd (fst a)). destruct (tg_nr tg (snd (fst a))) as [n|] eqn:N; [|discriminate].
    injection F as <-. split; [reflexivity|]. split; [|apply lines_offered; assumption].
    pose proof lines_functions as L. rewrite Forall_forall in L. exact (L a A).
  Qed.
  Lemma compiled_has l c f name n : compiled tg = Ok l -> In (c, name, f) syscalls -> holds tg c = true ->
    tg_nr tg name = Some n -> In (n, f) l.
  Proof.
    intros E I Hd N. destruct (mapM_in _ _ _ _ _ E) as [_ H]. destruct (H (c, name, f)) as (b & B & F).
    - apply filter_In. split; assumption.
    - cbn [fst snd] in F. rewrite N in F. injection F as <-; exact B.
  Qed.

  (** The functions for files are in the table before the others. *)
  Lemma io_has t t' : install_io tg t = Ok t' -> forall name n, In name ["close"; "read"; "write"; "fcntl64"] ->
    tg_nr tg name = Some n -> dget (tb_calls t') n = Some (function name).
  Proof.
    unfold install_io. destruct (tg_nr tg "close") as [c|] eqn:C; [|discriminate].
    destruct (tg_nr tg "read") as [r|] eqn:R; [|discriminate]. destruct (tg_nr tg "write") as [w|] eqn:W; [|discriminate].
    cbn [install]. destruct (dget (tb_calls t) c); [|discriminate]. destruct (dget (dset _ _ _) r); [|discriminate].
    intros [= <-] name n I E. cbn [tb_calls].
    assert (X : forall a b x y, tg_nr tg a = Some x -> tg_nr tg b = Some y -> a <> b -> x <> y)
      by (intros a b x y Ea Eb Ab ->; apply Ab; now apply (distinct a b y)).
    destruct (tg_nr tg "fcntl64") as [q|] eqn:Q; cbn [fst]; destruct I as [<-|[<-|[<-|[<-|[]]]]].
    all: try congruence.
    all: match type of E with _ = Some ?k => idtac end.
    - rewrite dget_dset_ne by (eapply X; [exact E|exact Q|discriminate]). rewrite dget_dset_ne by (eapply X; [exact E|exact W|discriminate]).
      rewrite dget_dset_ne by (eapply X; [exact E|exact R|discriminate]). replace c with n by congruence. apply dget_dset_eq.
    - rewrite dget_dset_ne by (eapply X; [exact E|exact Q|discriminate]). rewrite dget_dset_ne by (eapply X; [exact E|exact W|discriminate]).
      replace r with n by congruence. apply dget_dset_eq.
    - rewrite dget_dset_ne by (eapply X; [exact E|exact Q|discriminate]). replace w with n by congruence. apply dget_dset_eq.
    - replace q with n by congruence. apply dget_dset_eq.
    - rewrite dget_dset_ne by (eapply X; [exact E|exact W|discriminate]).
      rewrite dget_dset_ne by (eapply X; [exact E|exact R|discriminate]). replace c with n by congruence. apply dget_dset_eq.
    - rewrite dget_dset_ne by (eapply X; [exact E|exact W|discriminate]). replace r with n by congruence. apply dget_dset_eq.
    - replace w with n by congruence. apply dget_dset_eq.
  Qed.
  Lemma io_keep t t' : install_io tg t = Ok t' -> forall n,
    (forall name, In name ["close"; "read"; "write"; "fcntl64"] -> tg_nr tg name <> Some n) -> dget (tb_calls t') n = dget (tb_calls t) n.
  Proof.
    unfold install_io. destruct (tg_nr tg "close") as [c|] eqn:C; [|discriminate].
    destruct (tg_nr tg "read") as [r|] eqn:R; [|discriminate]. destruct (tg_nr tg "write") as [w|] eqn:W; [|discriminate].
    cbn [install]. destruct (dget (tb_calls t) c); [|discriminate]. destruct (dget (dset _ _ _) r); [|discriminate].
    intros [= <-] n H. cbn [tb_calls].
    assert (n <> c) by (intros ->; apply (H "close"); [here|exact C]).
    assert (n <> r) by (intros ->; apply (H "read"); [here|exact R]).
    assert (n <> w) by (intros ->; apply (H "write"); [here|exact W]).
    destruct (tg_nr tg "fcntl64") as [q|] eqn:Q; cbn [fst].
    - assert (n <> q) by (intros ->; apply (H "fcntl64"); [here|exact Q]).
      now rewrite !dget_dset_ne by assumption.
    - now rewrite !dget_dset_ne by assumption.
  Qed.

  Lemma reaches t t' : install_syscalls tg t = Ok t' -> forall name n, offered tg name -> tg_nr tg name = Some n ->
    dget (tb_calls t') n = Some (function name).
  Proof.
    unfold install_syscalls. destruct (compiled tg) as [l|] eqn:Cl; cbn [bind]; [|discriminate].
    destruct (install_io tg t) as [s|] eqn:Io; cbn [bind]; [|discriminate]. intros [= <-] name n O E. cbn [tb_calls].
    apply fold_set.
    - intros p I F. destruct (compiled_in l Cl p I) as (other & N & -> & _). f_equal. apply (distinct _ _ n); congruence.
    - destruct (offered_line tg name O) as [I|(c & f & I & Hd)].
      + right. exact (io_has _ _ Io name n I E).
      + left. exists (n, f). split; [|reflexivity]. exact (compiled_has l c f name n Cl I Hd E).
  Qed.
  Lemma others_kept t t' : install_syscalls tg t = Ok t' -> ~ defined tg "sigcation" ->
    forall n, (forall name, offered tg name -> tg_nr tg name <> Some n) -> dget (tb_calls t') n = dget (tb_calls t) n.
  Proof.
    unfold install_syscalls. destruct (compiled tg) as [l|] eqn:Cl; cbn [bind]; [|discriminate].
    destruct (install_io tg t) as [s|] eqn:Io; cbn [bind]; [|discriminate]. intros [= <-] Nd n H. cbn [tb_calls].
    rewrite fold_keep.
    - apply (io_keep _ _ Io). intros name I E. refine (H name _ E). destruct I as [<-|[<-|[<-|[<-|[]]]]].
      1-3: apply OBasic; here. apply OMore; [unfold defined; congruence|here].
    - intros p I E. destruct (compiled_in l Cl p I) as (name & N & _ & [[_ S]|O]); [contradiction|].
      apply (H name O). congruence.
  Qed.
  Lemma originals t t' c r w : install_syscalls tg t = Ok t' ->
    tg_nr tg "close" = Some c -> tg_nr tg "read" = Some r -> tg_nr tg "write" = Some w ->
    tb_close t' = dget (tb_calls t) c /\ tb_read t' = dget (tb_calls t) r /\ tb_write t' = dget (tb_calls t) w /\
    tb_close t' <> None /\ tb_read t' <> None.
  Proof.
    unfold install_syscalls. destruct (compiled tg) as [l|] eqn:Cl; cbn [bind]; [|discriminate].
    destruct (install_io tg t) as [s|] eqn:Io; cbn [bind]; [|discriminate]. intros [= <-] C R W.
    unfold install_io in Io. rewrite C, R, W in Io. cbn [install] in Io.
    assert (X : forall a b x y, tg_nr tg a = Some x -> tg_nr tg b = Some y -> a <> b -> x <> y)
      by (intros a b x y Ea Eb Ab ->; apply Ab; now apply (distinct a b y)).
    destruct (dget (tb_calls t) c) eqn:Dc; [|discriminate].
    rewrite dget_dset_ne in Io by (eapply X; [exact R|exact C|discriminate]).
    destruct (dget (tb_calls t) r) eqn:Dr; [|discriminate].
    rewrite !dget_dset_ne in Io by (first [eapply X; [exact W|exact C|discriminate]|eapply X; [exact W|exact R|discriminate]]).
    injection Io as <-. cbn [tb_close tb_read tb_write]. repeat split; congruence.
  Qed.
  Lemma succeeds t : (forall l, In l syscalls -> holds tg (fst (fst l)) = true -> defined tg (snd (fst l))) ->
    forall c r, tg_nr tg "close" = Some c -> tg_nr tg "read" = Some r -> defined tg "write" ->
    dget (tb_calls t) c <> None -> dget (tb_calls t) r <> None -> exists t', install_syscalls tg t = Ok t'.
  Proof.
    intros H c r C R W Dc Dr. unfold install_syscalls.
    destruct (mapM_total _ _ (fun l : line => match tg_nr tg (snd (fst l)) with
      | Some n => Ok (n, snd l) | None => Err OtherException end)
      (filter (fun l : line => holds tg (fst (fst l))) syscalls)) as (m & M).
    { intros a A. apply filter_In in A as [A B]. specialize (H a A B). unfold defined in H.
      destruct (tg_nr tg (snd (fst a))); [eauto|congruence]. }
    unfold compiled. rewrite M. cbn [bind]. unfold install_io. rewrite C, R. unfold defined in W.
    destruct (tg_nr tg "write") as [w|]; [|congruence]. cbn [install].
    destruct (dget (tb_calls t) c); [|congruence].
    destruct (Nat.eq_dec r c) as [->|Ne]; [rewrite dget_dset_eq|rewrite dget_dset_ne by exact Ne].
    - cbn. eauto.
    - destruct (dget (tb_calls t) r); [|congruence]. cbn. eauto.
  Qed.
  Lemma twice t t' t'' : install_syscalls tg t = Ok t' -> install_syscalls tg t' = Ok t'' ->
    tb_close t'' = Some "camkes_sys_close" /\ tb_read t'' = Some "camkes_sys_read" /\ tb_write t'' = Some "camkes_sys_write".
  Proof.
    intros A B. assert (D : exists c r w, tg_nr tg "close" = Some c /\ tg_nr tg "read" = Some r /\ tg_nr tg "write" = Some w).
    { unfold install_syscalls, install_io in A. destruct (compiled tg); [|discriminate]. cbn [bind] in A.
      destruct (tg_nr tg "close"), (tg_nr tg "read"), (tg_nr tg "write"); try discriminate. eauto 6. }
    destruct D as (c & r & w & C & R & W). destruct (originals _ _ c r w B C R W) as (-> & -> & -> & _).
    repeat split; [apply (reaches _ _ A "close")|apply (reaches _ _ A "read")|apply (reaches _ _ A "write")];
      try assumption; apply OBasic; here.
  Qed.
End Target.
