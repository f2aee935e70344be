(** C123: errors are delivered to the right handler and its answer is obeyed.
    C124: a server answers a request with the response to that request, and its generated loop is well-formed. *)
From Coq Require Import List String Bool NArith.
From Verif Require Import Prelude ErrH_Model ErrH_Spec ErrH_Proofs ErrH_Proofs2 ErrH_Proofs3.
Import ListNotations.
Open Scope string_scope. Open Scope list_scope.

(** An error goes to exactly the handler that is responsible at that time; if that is NULL, the call goes wrong. *)
Theorem C123_delivered : forall env debug ops b s evs,
  run env Configurable debug ops initial = (b, s, evs) ->
  forall l1 p e l2, evs = l1 ++ ERaise p e :: l2 ->
  exists f, responsible p l1 f /\
  match f with None => l2 = [EOutcome Undefined] | Some f => exists l3, l2 = ECall f e :: l3 end.
Proof. exact c123_delivered. Qed.
Print Assumptions C123_delivered.

(** No handler is called but for an error, just raised, that it is responsible for. *)
Theorem C123_called : forall env debug ops b s evs,
  run env Configurable debug ops initial = (b, s, evs) ->
  forall l1 f e l2, evs = l1 ++ ECall f e :: l2 ->
  exists l0 p, l1 = l0 ++ [ERaise p e] /\ responsible p l0 (Some f).
Proof. exact c123_called. Qed.
Print Assumptions C123_called.

(** There is only one handler at a place at a time. *)
Theorem C123_one : forall p l h, registered p l h -> forall h', registered p l h' -> h = h'.
Proof. exact registered_fun. Qed.
Print Assumptions C123_one.

(** What happens after a handler has been called is what its answer means. *)
Theorem C123_answer : forall env debug ops b s evs,
  run env Configurable debug ops initial = (b, s, evs) ->
  forall l1 f e l2 a regs o, evs = l1 ++ ECall f e :: l2 ->
  replies env f e a regs -> meant debug a o ->
  exists lr l3, l2 = lr ++ EOutcome o :: l3 /\ noted regs lr /\ (o = Continues \/ o = Acts \/ (l3 = [] /\ b = false)).
Proof. exact c123_answer. Qed.
Print Assumptions C123_answer.

(** Nothing else stops the program. *)
Theorem C123_stopped : forall env debug ops b s evs,
  run env Configurable debug ops initial = (b, s, evs) ->
  b = false -> exists l0 o, evs = l0 ++ [EOutcome o] /\ o <> Continues /\ o <> Acts.
Proof. exact c123_stopped. Qed.
Print Assumptions C123_stopped.

(** Registration returns the handler there was. *)
Theorem C123_returned : forall env debug ops b s evs,
  run env Configurable debug ops initial = (b, s, evs) ->
  forall l1 p h old l2, evs = l1 ++ ERegister p h old :: l2 -> registered p l1 old.
Proof. exact c123_returned. Qed.
Print Assumptions C123_returned.

(** Putting back what was returned restores all handlers, however such uses are nested. *)
Theorem C123_restored : forall env md debug ops s s' evs, quiet env -> (forall o, In o ops -> tidy o) ->
  run env md debug ops s = (true, s', evs) -> h_err s' = h_err s /\ forall i, h_fn s' i = h_fn s i.
Proof. exact c123_restored. Qed.
Print Assumptions C123_restored.

(** The error carries what the glue code said and where it was. *)
Theorem C123_location : forall env debug file line p e s, exists b s' rest,
  run_op env Configurable debug (ErrIf file line true p e) s =
  (b, s', ERaise p (mk_error (e_type e) (e_instance e) (e_interface e) file line (e_description e)) :: rest).
Proof. exact c123_location. Qed.
Print Assumptions C123_location.

(** Without an error nothing happens, whatever the mode. *)
Theorem C123_no_error : forall env md debug file line p e s,
  run_op env md debug (ErrIf file line false p e) s = (true, s, []).
Proof. exact c123_no_error. Qed.
Print Assumptions C123_no_error.

(** In the other modes handlers are not asked. *)
Theorem C123_other_modes : forall env md debug file line p e s, md <> Configurable ->
  run_op env md debug (ErrIf file line true p e) s =
  match md with
  | Discard => (true, s, [EOutcome Acts])
  | Guard => (false, s, [EOutcome GuardFails])
  | _ => (false, s, [EOutcome Aborts])
  end.
Proof. exact c123_other_modes. Qed.
Print Assumptions C123_other_modes.

(** An error never ends in undefined behaviour if NULL is not registered for the component, the error is
    one the default handler knows, and the answers are among the four that can be given. *)
Theorem C123_defined_partial : forall env debug ops b s evs,
  run env Configurable debug ops initial = (b, s, evs) ->
  (forall old, ~ In (ERegister Component None old) evs) ->
  (forall p e, In (ERaise p e) evs -> known (e_type e)) ->
  (forall n e a regs, env n e = Some (a, regs) -> an_answer a) ->
  ~ In (EOutcome Undefined) evs.
Proof. exact c123_defined. Qed.
Print Assumptions C123_defined_partial.

Definition no_env : component := fun _ _ => None.
Definition overflow : error := mk_error CE_OVERFLOW "inst" (Some "ev") "" 0 "an overflow".
Definition failed : error := mk_error CE_SYSCALL_FAILED "inst" (Some "ev") "" 0 "a system call".

(** Without the second condition this is false, for a component that registers nothing: an overflow of a
    notification queue is an error, but the default handler does not know it. *)
Theorem C123_overflow_refuted : ~ (forall env debug ops b s evs,
  run env Configurable debug ops initial = (b, s, evs) ->
  (forall p h old, ~ In (ERegister p h old) evs) ->
  (forall p e, In (ERaise p e) evs -> e_type e <> CE_NO_ERROR) ->
  (forall n e a regs, env n e = Some (a, regs) -> an_answer a) ->
  ~ In (EOutcome Undefined) evs).
Proof.
  intros H. specialize (H no_env true [ErrIf "f.c" 1 true (Interface "ev") overflow] _ _ _ eq_refl).
  apply H.
  - intros p h old [I|[I|[I|[]]]]; discriminate.
  - intros p e [I|[I|[I|[]]]]; try discriminate. injection I as _ <-. discriminate.
  - discriminate.
  - right. right. left. reflexivity.
Qed.
Print Assumptions C123_overflow_refuted.

(** Without the first it is false as well: NULL, which withdraws the handler of an interface, is called
    when it is registered for the component. *)
Theorem C123_null_refuted : ~ (forall env debug ops b s evs,
  run env Configurable debug ops initial = (b, s, evs) ->
  (forall p e, In (ERaise p e) evs -> known (e_type e)) ->
  (forall n e a regs, env n e = Some (a, regs) -> an_answer a) ->
  ~ In (EOutcome Undefined) evs).
Proof.
  intros H. specialize (H no_env true [Register Component None; ErrIf "f.c" 1 true (Interface "ev") failed] _ _ _ eq_refl).
  apply H.
  - intros p e [I|[I|[I|[]]]]; try discriminate. injection I as _ <-. split; discriminate.
  - discriminate.
  - right. right. left. reflexivity.
Qed.
Print Assumptions C123_null_refuted.

(** A component with a handler for itself, which ignores errors, one for the interface, which discards what
    there was and withdraws itself, and one that halts. *)
Definition some_env : component := fun n e =>
  match n with
  | 0 => Some (CEA_IGNORE, [])
  | 1 => Some (CEA_DISCARD, [(Interface "ev", None)])
  | _ => Some (CEA_HALT, [])
  end.
Definition some_ops : list op :=
  [Register Component (Some (User 0)); Register (Interface "ev") (Some (User 1));
   ErrIf "a.c" 1 true (Interface "ev") failed; ErrIf "b.c" 2 false (Interface "ev") failed;
   ErrIf "c.c" 3 true (Interface "ev") failed;
   During Component (Some Default) [ErrIf "d.c" 4 false Component failed];
   During (Interface "ev") (Some (User 2)) [ErrIf "e.c" 5 true (Interface "ev") failed];
   Register Component None].
Definition failed_at (f : string) (n : N) : error := mk_error CE_SYSCALL_FAILED "inst" (Some "ev") f n "a system call".
Example C123_met : exists s, run some_env Configurable false some_ops initial = (false, s,
  [ERegister Component (Some (User 0)) (Some Default); ERegister (Interface "ev") (Some (User 1)) None;
   ERaise (Interface "ev") (failed_at "a.c" 1); ECall (User 1) (failed_at "a.c" 1);
   ERegister (Interface "ev") None (Some (User 1)); EOutcome Acts;
   ERaise (Interface "ev") (failed_at "c.c" 3); ECall (User 0) (failed_at "c.c" 3); EOutcome Continues;
   ERegister Component (Some Default) (Some (User 0)); ERegister Component (Some (User 0)) (Some Default);
   ERegister (Interface "ev") (Some (User 2)) None;
   ERaise (Interface "ev") (failed_at "e.c" 5); ECall (User 2) (failed_at "e.c" 5); EOutcome Aborts]).
Proof. eexists. reflexivity. Qed.
(** Nothing in it is NULL for the component, all errors are known and all answers are fine. *)
Example C123_met_defined :
  (forall p e, In (ERaise p e) (snd (run some_env Configurable false some_ops initial)) -> known (e_type e)) /\
  (forall n e a regs, some_env n e = Some (a, regs) -> an_answer a) /\
  (forall old, ~ In (ERegister Component None old) (snd (run some_env Configurable false some_ops initial))).
Proof.
  split; [|split].
  - cbv. intros p e H. repeat (destruct H as [H|H]; [try discriminate; injection H as _ <-; split; discriminate|]). destruct H.
  - intros [|[|n]] e a regs [= <- <-]; unfold an_answer; auto.
  - cbv. intros old H. repeat (destruct H as [H|H]; [discriminate|]). exact H.
Qed.
(** Tidy uses, nested, that end with the handlers there were *)
Definition tidy_ops : list op :=
  [During Component (Some (User 0)) [ErrIf "a.c" 1 true (Interface "ev") failed;
     During (Interface "ev") (Some (User 0)) [ErrIf "b.c" 2 true (Interface "ev") failed]]].
Definition quiet_env : component := fun _ _ => Some (CEA_IGNORE, []).
Example C123_met_tidy : quiet quiet_env /\ (forall o, In o tidy_ops -> tidy o) /\
  fst (fst (run quiet_env Configurable true tidy_ops initial)) = true.
Proof.
  split; [intros n e a regs [= _ <-]; reflexivity|]. split; [|reflexivity].
  intros o [<-|[]]. apply t_during. intros o [<-|[<-|[]]]; [apply t_err|].
  apply t_during. intros o [<-|[]]. apply t_err.
Qed.

(** A request for a method that exists is answered with its response, or not at all if it is malformed
    or the response cannot be marshalled. *)
Theorem C124_served : forall answer ts r l f, separate ts -> serves ts r f ->
  fst (turn answer ts r l) =
  match f (r_body r) (l_buffer l) with
  | Filled b (Some n) => Some (Reply (firstn n b))
  | _ => Some NoReply
  end.
Proof. exact c124_served. Qed.
Print Assumptions C124_served.

(** Other requests are not answered if the handler discards them, and end the loop if it does not return
    to it. *)
Theorem C124_unknown : forall answer ts r l, ts <> [] -> (forall f, ~ serves ts r f) ->
  match answer r with
  | Acts => turn answer ts r l = (Some NoReply, l)
  | Continues => True
  | _ => fst (turn answer ts r l) = None
  end.
Proof. exact c124_unknown. Qed.
Print Assumptions C124_unknown.

(** A reply is the response to the request it answers, if no handler ignores errors. *)
Theorem C124_own_partial : forall answer ts, ts <> [] -> (forall r, answer r <> Continues) ->
  forall rs l k r x, nth_error rs k = Some r -> nth_error (turns answer ts rs l) k = Some x ->
  x = NoReply \/ exists f old b n, serves ts r f /\ f (r_body r) old = Filled b (Some n) /\ x = Reply (firstn n b).
Proof. exact c124_own. Qed.
Print Assumptions C124_own_partial.

(** Two methods: one gives back what it is given, one sets the buffer to 7 *)
Definition echo : smethod := fun body _ => Filled body (Some (List.length body)).
Definition seven : smethod := fun body _ => match body with [] => Dropped | _ => Filled [7%N] None end.
Definition two_types : list stype := [([1%N], [echo; seven]); ([2%N], [echo; seven])].

(** If it ignores them, the response to the last request is sent to whoever made this one. *)
Theorem C124_own_refuted : ~ (forall answer ts, ts <> [] ->
  forall rs l k r x, nth_error rs k = Some r -> nth_error (turns answer ts rs l) k = Some x ->
  x = NoReply \/ exists f old b n, serves ts r f /\ f (r_body r) old = Filled b (Some n) /\ x = Reply (firstn n b)).
Proof.
  intros H.
  specialize (H (fun _ => Continues) two_types ltac:(discriminate)
    [mk_request 1 0 [4%N; 2%N]; mk_request 2 9 []] (mk_loop [] (Some 0)) 1 _ _ eq_refl eq_refl).
  destruct H as [H|[f [old [b [n [[t [I [_ M]]] _]]]]]]; [discriminate|].
  destruct I as [<-|[<-|[]]]; destruct M as [[E _]|[_ E]]; discriminate.
Qed.
Print Assumptions C124_own_refuted.
(** The reply in question *)
Example C124_leak : turns (fun _ => Continues) two_types
  [mk_request 1 0 [4%N; 2%N]; mk_request 2 9 []; mk_request 1 1 [1%N]; mk_request 3 0 []] (mk_loop [] (Some 0))
  = [Reply [4%N; 2%N]; Reply [4%N; 2%N]; NoReply; Overrun].
Proof. reflexivity. Qed.
Example C124_met : separate two_types /\ serves two_types (mk_request 2 1 []) seven /\
  (forall f, ~ serves two_types (mk_request 3 0 []) f) /\
  turns (fun _ => Acts) two_types
    [mk_request 1 0 [4%N; 2%N]; mk_request 2 9 []; mk_request 2 1 []; mk_request 3 0 []; mk_request 2 0 [5%N]] (mk_loop [] (Some 0))
  = [Reply [4%N; 2%N]; NoReply; NoReply; NoReply; Reply [5%N]].
Proof.
  split; [|split; [|split; [|reflexivity]]].
  - intros t u b [<-|[<-|[]]] [<-|[<-|[]]] [<-|[]] [E|[]]; try reflexivity; discriminate.
  - exists ([2%N], [echo; seven]). split; [right; left; reflexivity|]. split; [right; left; reflexivity|].
    right. split; [apply le_n|reflexivity].
  - intros f [t [I [[E|B] _]]]; [discriminate|]. destruct I as [<-|[<-|[]]]; destruct B as [B|[]]; discriminate.
Qed.

(** The braces of the generated loop match exactly if all the from ends have the same interface type, or no
    two of them do. *)
Theorem C124_braces_partial : forall ts, ts <> [] -> (forall t, In t ts -> fst t <> []) ->
  (depth (loop_braces ts) 0 <-> List.length ts = 1 \/ forall t, In t ts -> exists b, fst t = [b]).
Proof. exact c124_braces. Qed.
Print Assumptions C124_braces_partial.

(** So they do not match for two from ends of one type and one of another. *)
Theorem C124_braces_refuted : ~ (forall ts, ts <> [] -> (forall t, In t ts -> fst t <> []) -> depth (loop_braces ts) 0).
Proof.
  intros H. specialize (H [([1%N; 2%N], [echo]); ([3%N], [echo])] ltac:(discriminate)).
  apply c124_braces in H.
  - destruct H as [E|A]; [discriminate|]. destruct (A _ (or_introl eq_refl)) as [b E]. discriminate.
  - discriminate.
  - intros t [<-|[<-|[]]]; discriminate.
  - intros t [<-|[<-|[]]]; discriminate.
Qed.
Print Assumptions C124_braces_refuted.
Example C124_braces_met : depth (loop_braces two_types) 0 /\ depth (loop_braces [([1%N; 2%N; 3%N], [echo; seven])]) 0.
Proof.
  split; apply c124_braces; try discriminate.
  - intros t [<-|[<-|[]]]; discriminate.
  - right. intros t [<-|[<-|[]]]; eexists; reflexivity.
  - intros t [<-|[]]; discriminate.
  - left. reflexivity.
Qed.
