(** Proofs about error handling. *)
From Coq Require Import List String Bool NArith Arith Lia.
From Verif Require Import Prelude ErrH_Model ErrH_Spec.
Import ListNotations.
Open Scope string_scope. Open Scope list_scope.
Set Implicit Arguments.

(** The pointer at a place *)
Definition at_place (s : handlers) (p : place) : ptr :=
  match p with Component => h_err s | Interface i => h_fn s i end.
Definition agrees (l : list event) (s : handlers) : Prop := forall p, registered p l (at_place s p).

Lemma agrees_initial : agrees [] initial.
Proof. intros [|i]; exact (r_start _). Qed.

Lemma agrees_skip : forall l s ev, agrees l s -> (forall p h old, ev <> ERegister p h old) -> agrees (l ++ [ev]) s.
Proof. intros l s ev A B p. apply r_other; [apply A|]. intros h old. apply B. Qed.

Lemma agrees_register : forall l s p h, agrees l s ->
  agrees (l ++ snd (register_e p h s)) (fst (register_e p h s)).
Proof.
  intros l s p h A q. unfold register_e. cbn [fst snd].
  destruct p as [|i], q as [|j]; cbn [register fst snd at_place h_err h_fn].
  - apply r_here.
  - apply r_other; [apply (A (Interface j))|intros; discriminate].
  - apply r_other; [apply (A Component)|intros; discriminate].
  - destruct (String.eqb_spec i j) as [->|N]; [apply r_here|].
    apply r_other; [apply (A (Interface j))|]. intros h' old [= E _ _]. congruence.
Qed.

Lemma register_old : forall p h s, fst (register p h s) = at_place s p.
Proof. intros [|i] h s; reflexivity. Qed.

(** Registered is a function. *)
Lemma registered_fun : forall p l h, registered p l h -> forall h', registered p l h' -> h = h'.
Proof.
  intros p l h R. induction R as [|l h old|l ev h R IH N]; intros h' R'.
  - inversion R' as [E|l' h'' old' E|l' ev' h'' R2 N2 E]; [reflexivity| |]; destruct l'; discriminate.
  - inversion R' as [E|l' h'' old' E|l' ev' h'' R2 N2 E].
    + destruct l; discriminate.
    + apply app_inj_tail in E. destruct E as [_ E]. congruence.
    + apply app_inj_tail in E. destruct E as [_ E]. subst. exfalso. eapply N2. reflexivity.
  - inversion R' as [E|l' h'' old' E|l' ev' h'' R2 N2 E].
    + destruct l; discriminate.
    + apply app_inj_tail in E. destruct E as [_ E]. subst. exfalso. eapply N. reflexivity.
    + apply app_inj_tail in E. destruct E as [-> _]. apply IH. exact R2.
Qed.

(** A log is good after [l] if each event in it is right. *)
Section good.
Variables (env : component) (debug : bool).

Definition is_reg (ev : event) : Prop := exists p h old, ev = ERegister p h old.

Inductive good : list event -> list event -> bool -> Prop :=
  | g_nil : forall l, good l [] true
  | g_reg : forall l p h old evs b, registered p l old -> good (l ++ [ERegister p h old]) evs b ->
      good l (ERegister p h old :: evs) b
  | g_null : forall l p e, responsible p l None -> good l [ERaise p e; EOutcome Undefined] false
  | g_hang : forall l p e n, responsible p l (Some (User n)) -> env n e = None ->
      good l [ERaise p e; ECall (User n) e; EOutcome Hangs] false
  | g_default_bad : forall l p e, responsible p l (Some Default) -> ~ known (e_type e) ->
      good l [ERaise p e; ECall Default e; EOutcome Undefined] false
  | g_invalid : forall l p e f a regs evs, responsible p l (Some f) -> replies env f e a regs -> ~ an_answer a ->
      noted regs evs -> good (l ++ [ERaise p e; ECall f e]) evs true ->
      good l (ERaise p e :: ECall f e :: evs ++ [EOutcome Undefined]) false
  | g_stop : forall l p e f a regs evs o, responsible p l (Some f) -> replies env f e a regs -> meant debug a o ->
      noted regs evs -> o <> Continues -> o <> Acts -> good (l ++ [ERaise p e; ECall f e]) evs true ->
      good l (ERaise p e :: ECall f e :: evs ++ [EOutcome o]) false
  | g_on : forall l p e f a regs evs o rest b, responsible p l (Some f) -> replies env f e a regs -> meant debug a o ->
      noted regs evs -> (o = Continues \/ o = Acts) -> good (l ++ [ERaise p e; ECall f e]) evs true ->
      good (l ++ ERaise p e :: ECall f e :: evs ++ [EOutcome o]) rest b ->
      good l (ERaise p e :: ECall f e :: evs ++ EOutcome o :: rest) b.

Lemma good_app : forall l a b, good l a true -> forall c, good (l ++ a) c b -> good l (a ++ c) b.
Proof.
  intros l a b G. remember true as t eqn:T. induction G; intros c C; try discriminate.
  - cbn [app]. rewrite app_nil_r in C. exact C.
  - cbn [app]. apply g_reg; [assumption|]. apply IHG; [exact T|]. rewrite <- app_assoc. exact C.
  - cbn [app]. rewrite <- app_assoc. cbn [app]. eapply g_on; try eassumption.
    apply IHG2; [exact T|].
    match type of C with good ?A _ _ => match goal with |- good ?B _ _ =>
      replace B with A; [exact C|] end end.
    rewrite <- !app_assoc. cbn [app]. rewrite <- !app_assoc. reflexivity.
Qed.

Lemma good_registers : forall regs l s, agrees l s ->
  let '(s', evs) := registers regs s in good l evs true /\ agrees (l ++ evs) s' /\ noted regs evs.
Proof.
  induction regs as [|[p h] regs IH]; intros l s A; cbn [registers].
  - split; [constructor|]. split; [rewrite app_nil_r; exact A|constructor].
  - pose proof (agrees_register p h A) as A1.
    destruct (register_e p h s) as [s1 e1] eqn:E. cbn [fst snd] in A1.
    specialize (IH _ _ A1). destruct (registers regs s1) as [s2 e2]. destruct IH as [G [B C]].
    unfold register_e in E. injection E as <- <-. cbn [app] in *.
    split; [|split].
    + apply g_reg; [rewrite register_old; apply A|exact G].
    + rewrite <- app_assoc in B. exact B.
    + constructor; [eexists; reflexivity|exact C].
Qed.

Lemma handle_call : forall p e s, exists f, handle env p e s = call env f e s /\
  match p with
  | Component => f = h_err s
  | Interface i => (f = h_fn s i /\ f <> None) \/ (h_fn s i = None /\ f = h_err s)
  end.
Proof.
  intros [|i] e s; cbn [handle].
  - eexists. split; reflexivity.
  - destruct (h_fn s i) as [f|] eqn:E.
    + exists (Some f). split; [reflexivity|]. left. split; [reflexivity|discriminate].
    + exists (h_err s). split; [reflexivity|]. right. split; reflexivity.
Qed.
Lemma responsible_at : forall p l s f, agrees l s ->
  match p with
  | Component => f = h_err s
  | Interface i => (f = h_fn s i /\ f <> None) \/ (h_fn s i = None /\ f = h_err s)
  end -> responsible p l f.
Proof.
  intros [|i] l s f A H; cbn [responsible].
  - subst. apply (A Component).
  - destruct H as [[-> N]|[E ->]].
    + left. split; [apply (A (Interface i))|exact N].
    + right. split; [rewrite <- E; apply (A (Interface i))|apply (A Component)].
Qed.

Lemma known_default : forall e, (known (e_type e) /\
   match e_type e with
   | CE_BUFFER_LENGTH_EXCEEDED | CE_INVALID_METHOD_INDEX | CE_MALFORMED_RPC_PAYLOAD
   | CE_SYSCALL_FAILED | CE_ALLOCATION_FAILURE => Answer CEA_HALT
   | _ => Bad end = Answer CEA_HALT) \/ (~ known (e_type e) /\
   match e_type e with
   | CE_BUFFER_LENGTH_EXCEEDED | CE_INVALID_METHOD_INDEX | CE_MALFORMED_RPC_PAYLOAD
   | CE_SYSCALL_FAILED | CE_ALLOCATION_FAILURE => Answer CEA_HALT
   | _ => Bad end = Bad).
Proof.
  intros e. unfold known. destruct (e_type e); try (left; split; [split; discriminate|reflexivity]);
  right; (split; [intros [A B]; congruence|reflexivity]).
Qed.

(** ERR with a condition that holds *)
Lemma good_err : forall file line p e l s o s' evs, agrees l s ->
  err env Configurable debug file line p e s = (o, s', evs) ->
  good l (evs ++ [EOutcome o]) (goes_on o) /\ agrees (l ++ evs ++ [EOutcome o]) s'.
Proof.
  intros file line p e l s o s' evs A H. cbn [err] in H.
  set (e' := mk_error _ _ _ file line _) in H. clearbody e'.
  destruct (handle_call p e' s) as [f [E1 E2]]. rewrite E1 in H.
  pose proof (@responsible_at p l s f A E2) as R. clear E1 E2.
  assert (A1 : agrees (l ++ [ERaise p e']) s) by (apply agrees_skip; [exact A|intros; discriminate]).
  destruct f as [[|n]|]; cbn [call] in H.
  - assert (A2 : agrees (l ++ [ERaise p e'; ECall Default e']) s).
    { change [ERaise p e'; ECall Default e'] with ([ERaise p e'] ++ [ECall Default e']). rewrite app_assoc.
      apply agrees_skip; [exact A1|intros; discriminate]. }
    destruct (known_default e') as [[K E]|[K E]]; rewrite E in H; injection H as <- <- <-; cbn [app].
    + split.
      * replace (goes_on (if debug then Halts else Aborts)) with false by (destruct debug; reflexivity).
        apply (@g_stop l p e' Default CEA_HALT [] []); try exact R.
        -- split; [exact K|split; reflexivity].
        -- destruct debug eqn:D; constructor; reflexivity.
        -- constructor.
        -- destruct debug; discriminate.
        -- destruct debug; discriminate.
        -- constructor.
      * change [ERaise p e'; ECall Default e'; EOutcome (if debug then Halts else Aborts)]
          with ([ERaise p e'; ECall Default e'] ++ [EOutcome (if debug then Halts else Aborts)]). rewrite app_assoc.
        apply agrees_skip; [exact A2|intros; discriminate].
    + split; [apply g_default_bad; assumption|].
      change [ERaise p e'; ECall Default e'; EOutcome Undefined] with ([ERaise p e'; ECall Default e'] ++ [EOutcome Undefined]).
      rewrite app_assoc. apply agrees_skip; [exact A2|intros; discriminate].
  - assert (A2 : agrees (l ++ [ERaise p e'; ECall (User n) e']) s).
    { change [ERaise p e'; ECall (User n) e'] with ([ERaise p e'] ++ [ECall (User n) e']). rewrite app_assoc.
      apply agrees_skip; [exact A1|intros; discriminate]. }
    destruct (env n e') as [[a regs]|] eqn:En.
    + pose proof (good_registers regs A2) as G. destruct (registers regs s) as [s1 evs1].
      destruct G as [G [A3 Nt]].
      assert (A4 : forall o', agrees (l ++ (ERaise p e' :: ECall (User n) e' :: evs1) ++ [EOutcome o']) s1).
      { intros o'. rewrite app_assoc. apply agrees_skip; [|intros; discriminate].
        rewrite <- app_assoc in A3. exact A3. }
      assert (Rp : replies env (User n) e' a regs) by exact En.
      destruct a; injection H as <- <- <-; (split; [|apply A4]); cbn [app goes_on].
      * eapply g_invalid; try eassumption. unfold an_answer. intuition discriminate.
      * eapply g_on; try eassumption; [constructor|right; reflexivity|constructor].
      * eapply g_on; try eassumption; [constructor|left; reflexivity|constructor].
      * eapply g_stop; try eassumption; [constructor|discriminate|discriminate].
      * replace (goes_on (if debug then Halts else Aborts)) with false by (destruct debug; reflexivity).
        eapply g_stop; try eassumption.
        -- destruct debug eqn:D; constructor; reflexivity.
        -- destruct debug; discriminate.
        -- destruct debug; discriminate.
      * eapply g_invalid; try eassumption. unfold an_answer. intuition discriminate.
    + injection H as <- <- <-. cbn [app goes_on]. split; [apply g_hang; assumption|].
      change [ERaise p e'; ECall (User n) e'; EOutcome Hangs] with ([ERaise p e'; ECall (User n) e'] ++ [EOutcome Hangs]).
      rewrite app_assoc. apply agrees_skip; [exact A2|intros; discriminate].
  - injection H as <- <- <-. cbn [app goes_on]. split; [apply g_null; exact R|].
    change [ERaise p e'; EOutcome Undefined] with ([ERaise p e'] ++ [EOutcome Undefined]).
    rewrite app_assoc. apply agrees_skip; [exact A1|intros; discriminate].
Qed.
End good.

(** Induction over programs *)
Section op_ind.
Variable P : op -> Prop.
Hypothesis HR : forall p h, P (Register p h).
Hypothesis HE : forall file line c p e, P (ErrIf file line c p e).
Hypothesis HD : forall p h body, Forall P body -> P (During p h body).
Fixpoint op_rect' (o : op) : P o :=
  match o with
  | Register p h => HR p h
  | ErrIf file line c p e => HE file line c p e
  | During p h body => HD p h
      ((fix all (l : list op) : Forall P l := match l with [] => Forall_nil _ | x :: r => Forall_cons x (op_rect' x) (all r) end) body)
  end.
End op_ind.

(** The body of [During] is run as [run] does. *)
Lemma run_during : forall env md debug p h body s, run_op env md debug (During p h body) s =
  (let (old, s1) := register p h s in
   let '(b, s2, evs) := run env md debug body s1 in
   if b then let (s3, e3) := register_e p old s2 in (true, s3, ERegister p h old :: evs ++ e3)
   else (false, s2, ERegister p h old :: evs)).
Proof.
  intros env md debug p h body s. cbn [run_op]. destruct (register p h s) as [old s1].
  match goal with |- context [?f body s1] => assert (E : forall l s, f l s = run env md debug l s) end.
  { induction l as [|o l IH]; intros s0; [reflexivity|]. cbn [run].
    destruct (run_op env md debug o s0) as [[b s2] e1]. destruct b; [|reflexivity]. rewrite IH. reflexivity. }
  rewrite E. reflexivity.
Qed.

Section runs.
Variables (env : component) (debug : bool).
Definition good_run (f : handlers -> bool * handlers * list event) : Prop :=
  forall l s, agrees l s -> let '(b, s', evs) := f s in good env debug l evs b /\ agrees (l ++ evs) s'.

Lemma good_run_all : forall ops, Forall (fun o => good_run (run_op env Configurable debug o)) ops ->
  good_run (run env Configurable debug ops).
Proof.
  induction ops as [|o ops IH]; intros F l s A; cbn [run].
  - split; [constructor|rewrite app_nil_r; exact A].
  - inversion F as [|? ? F1 F2]; subst. specialize (F1 l s A).
    destruct (run_op env Configurable debug o s) as [[b s1] e1]. destruct F1 as [G A1]. destruct b.
    + specialize (IH F2 _ _ A1). destruct (run env Configurable debug ops s1) as [[b2 s2] e2].
      destruct IH as [G2 A2]. split; [eapply good_app; eassumption|rewrite app_assoc; exact A2].
    + split; assumption.
Qed.

Lemma good_run_op : forall o, good_run (run_op env Configurable debug o).
Proof.
  apply op_rect'.
  - intros p h l s A. cbn [run_op]. pose proof (agrees_register p h A) as B.
    unfold register_e in *. cbn [fst snd] in *. split; [|exact B].
    apply g_reg; [rewrite register_old; apply A|constructor].
  - intros file line c p e l s A. cbn [run_op]. unfold err_if. destruct c.
    + destruct (err env Configurable debug file line p e s) as [[o s'] evs] eqn:E.
      eapply good_err; eassumption.
    + cbn [app goes_on]. split; [constructor|rewrite app_nil_r; exact A].
  - intros p h body F l s A. rewrite run_during. pose proof (agrees_register p h A) as B.
    unfold register_e in B. cbn [fst snd] in B. pose proof (register_old p h s) as O.
    destruct (register p h s) as [old s1]. cbn [fst snd] in *.
    pose proof (good_run_all F B) as G. destruct (run env Configurable debug body s1) as [[b s2] evs].
    destruct G as [G A2]. destruct b.
    + pose proof (agrees_register p old A2) as A3. unfold register_e in *. cbn [fst snd] in *.
      set (l0 := l ++ [ERegister p h old]) in *.
      split.
      * change (ERegister p h old :: evs ++ [ERegister p old (fst (register p old s2))])
          with ([ERegister p h old] ++ (evs ++ [ERegister p old (fst (register p old s2))])).
        apply g_reg; [rewrite O; apply A|]. eapply good_app; [exact G|].
        apply g_reg; [rewrite register_old; apply A2|constructor].
      * unfold l0 in A3. rewrite <- !app_assoc in A3. exact A3.
    + split; [|rewrite <- app_assoc in A2; exact A2].
      apply g_reg; [rewrite O; apply A|exact G].
Qed.

Lemma good_program : forall ops b s evs, run env Configurable debug ops initial = (b, s, evs) ->
  good env debug [] evs b /\ agrees evs s.
Proof.
  intros ops b s evs H. assert (F : Forall (fun o => good_run (run_op env Configurable debug o)) ops)
    by (apply Forall_forall; intros; apply good_run_op).
  pose proof (good_run_all F agrees_initial) as G. rewrite H in G. exact G.
Qed.
End runs.
