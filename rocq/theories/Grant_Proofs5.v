(** Names that collide, and connectors that grant more than a direction. *)
From Coq Require Import List Bool Arith NArith String Ascii Lia.
From Verif Require Import Prelude DecStr Context_Model Context_Spec Grant_Model Grant_Spec.
Import ListNotations.
Open Scope string_scope.
Open Scope list_scope.

Definition rpc_end (c inst : string) (from : bool) (sp : nat) (buf : option nat) : cend :=
  mk_cend c RPCCall from inst "s" sp 0 1 1 buf true.
Definition ev_end (k : connector) (c inst : string) (from : bool) (sp idx senders receivers : nat) : cend :=
  mk_cend c k from inst "ev" sp idx senders receivers None false.

Ltac ends H := cbn [In] in H; repeat (destruct H as [H|H]; [try discriminate H; injection H; intros; subst|]); try contradiction H.
Ltac two_ends := intros e e' H H'; ends H; ends H'; cbn; try discriminate; auto.

(** An RPC connection with a shared buffer, and a connection called like it. *)
Definition locks : list item :=
  [End (rpc_end "c" "a" true 1 (Some 2)); End (rpc_end "c" "b" false 2 None);
   End (rpc_end "c_userspace_buffer" "x" true 3 None); End (rpc_end "c_userspace_buffer" "y" false 4 None)].
Lemma locks_names : distinct_names locks.
Proof. constructor; [two_ends|intros e inst sp n t r H H'; ends H']. Qed.
Lemma locks_counted : well_counted locks.
Proof. constructor; two_ends. Qed.
Lemma locks_refuted_lemma : exists its st e sp r n r0, render_all false its = Ok st /\ distinct_names its /\ well_counted its /\
  (forall i, In i its -> exists e, i = End e) /\
  In (End e) its /\ share false e n r0 /\ holds st sp (object_name (e_conn e) n) r /\ r_read r = true /\ r_write r = true /\
  forall e', in_conn its (e_conn e) e' -> e_space e' <> sp.
Proof.
  eexists locks, _, (rpc_end "c_userspace_buffer" "x" true 3 None), 1, send_and_receive, "ep", call.
  split; [vm_compute; reflexivity|]. split; [exact locks_names|]. split; [exact locks_counted|].
  split; [intros i H; cbn [In locks] in H; repeat (destruct H as [<-|H]; [eauto|]); contradiction|]. split; [cbn; auto|].
  split; [now constructor|]. split; [eexists 0, _, _; repeat split; reflexivity|]. split; [reflexivity|]. split; [reflexivity|].
  intros e' [H E]. ends H; cbn in E |- *; discriminate.
Qed.

(** An instance with a semaphore spelt like the endpoint of a connection it has no part in. *)
Definition semaphores : list item :=
  [Own "a" 1 "b_ep" endpoint read_write; End (rpc_end "a_b" "x" true 3 None); End (rpc_end "a_b" "y" false 4 None)].
Lemma own_refuted_lemma : exists its st e sp r n r0, render_all false its = Ok st /\ distinct_names its /\ well_counted its /\
  In (End e) its /\ share false e n r0 /\ holds st sp (object_name (e_conn e) n) r /\ r_read r = true /\ r_write r = true /\
  forall e', in_conn its (e_conn e) e' -> e_space e' <> sp.
Proof.
  eexists semaphores, _, (rpc_end "a_b" "x" true 3 None), 1, send_and_receive, "ep", call.
  split; [vm_compute; reflexivity|].
  split; [constructor; [two_ends|intros e inst sp n t r H H'; ends H; ends H'; cbn; discriminate]|].
  split; [constructor; two_ends|]. split; [cbn; auto|].
  split; [now constructor|]. split; [eexists 0, _, _; repeat split; reflexivity|]. split; [reflexivity|]. split; [reflexivity|].
  intros e' [H E]. ends H; cbn in E |- *; discriminate.
Qed.

(** The emitter of a queue may receive the events it sends. *)
Definition pair (k : connector) : list item := [End (ev_end k "c" "a" true 1 0 1 1); End (ev_end k "c" "b" false 2 0 1 1)].
Lemma pair_names k : distinct_names (pair k).
Proof. constructor; [two_ends|intros e inst sp n t r H H'; ends H']. Qed.
Lemma pair_unmistakable rt k : unmistakable rt (pair k).
Proof. constructor; [two_ends|intros e n r inst sp m t r' H Hs H'; ends H']. Qed.
Lemma pair_counted k : well_counted (pair k).
Proof. constructor; two_ends. Qed.
Lemma queue_refuted_lemma : exists its st e r, render_all false its = Ok st /\ distinct_names its /\ unmistakable false its /\
  well_counted its /\ In (End e) its /\ e_kind e = NotificationQueue /\ e_from e = true /\
  holds st (e_space e) (object_name (e_conn e) (channel (e_kind e) 0)) r /\ r_read r = true /\
  forall t, in_conn its (e_conn e) t -> e_from t = false -> e_space t <> e_space e.
Proof.
  eexists (pair NotificationQueue), _, (ev_end NotificationQueue "c" "a" true 1 0 1 1), send_and_receive.
  split; [vm_compute; reflexivity|]. split; [apply pair_names|]. split; [apply pair_unmistakable|]. split; [apply pair_counted|].
  split; [cbn; auto|]. split; [reflexivity|]. split; [reflexivity|].
  split; [eexists 0, _, _; repeat split; reflexivity|]. split; [reflexivity|].
  intros t [H E] F. ends H; cbn in F |- *; discriminate.
Qed.
(** The consumer of a bound notification may signal itself. *)
Lemma bind_refuted_lemma : exists its st e r, render_all false its = Ok st /\ distinct_names its /\ unmistakable false its /\
  well_counted its /\ In (End e) its /\ e_kind e = NotificationBind /\ e_from e = false /\
  holds st (e_space e) (object_name (e_conn e) (channel (e_kind e) 0)) r /\ r_write r = true /\
  forall s, in_conn its (e_conn e) s -> e_from s = true -> e_space s <> e_space e.
Proof.
  eexists (pair NotificationBind), _, (ev_end NotificationBind "c" "b" false 2 0 1 1), send_and_receive.
  split; [vm_compute; reflexivity|]. split; [apply pair_names|]. split; [apply pair_unmistakable|]. split; [apply pair_counted|].
  split; [cbn; auto|]. split; [reflexivity|]. split; [reflexivity|].
  split; [eexists 0, _, _; repeat split; reflexivity|]. split; [reflexivity|].
  intros t [H E] F. ends H; cbn in F |- *; discriminate.
Qed.
