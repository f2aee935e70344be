(** C42: the reply capability of an RPC server. *)
From Coq Require Import NArith List Bool.
From Verif Require Import Prelude Reply_Model Reply_Spec Reply_Proofs.
Import ListNotations.
Open Scope N_scope.

(** As long as no message is dropped, whatever the implementation does (blocking as often
    as it likes through the generated functions) the server does not stop, the replies go
    to the callers in the order of their calls, the call being served is still answerable,
    and the capability is saved exactly once in each round that asks for protection.
    Missing: rounds that drop a malformed message, see below. *)
Theorem C42_replies_in_order_partial c l : all_served l ->
  exists s, serve c l = Ok s /\ rev (replied s) = removelast (callers c l) /\
    (tcb s = Some (last (callers c l) 0) /\ in_tcb s = true) /\
    saves s = saves_of l.
Proof. exact (replies_in_order c l). Qed.
Print Assumptions C42_replies_in_order_partial.

(** At every point of the implementation's run the reply capability of the current caller
    is in the TCB and marked so, or saved in the slot. *)
Theorem C42_never_lost_partial c l u : all_served l ->
  exists s, serve c l = Ok s /\
    let s' := fold_left do_user u s in
    (in_tcb s' = true /\ tcb s' = Some (last (callers c l) 0)) \/
    (in_tcb s' = false /\ slot s' = Some (last (callers c l) 0)).
Proof. exact (never_lost c l u). Qed.
Print Assumptions C42_never_lost_partial.

(** The template decides that the server cannot block exactly when the procedure served is
    all the component has. *)
Theorem C42_might_block p u c m s : (0 < p)%nat ->
  might_block p u c m s = false <-> u = 0%nat /\ c = 0%nat /\ m = 0%nat /\ s = 0%nat /\ p = 1%nat.
Proof. exact (might_block_iff p u c m s). Qed.
Print Assumptions C42_might_block.

Example C42_example :
  all_served [Served [UOther] 2; Served [UWait None; UWait (Some 9)] 3; Served [UProtect] 4] /\
  match serve 1 [Served [UOther] 2; Served [UWait None; UWait (Some 9)] 3; Served [UProtect] 4] with
  | Ok s => rev (replied s) = [1; 2; 3] /\ tcb s = Some 4 /\ saves s = 2%nat
  | Err _ => False
  end.
Proof.
  split; [|vm_compute; auto].
  intros r [H|[H|[H|[]]]]; subst r; exact I.
Qed.

(** Finding: when the server drops a malformed message before the implementation ran, its
    next receive fails the assertion that no reply capability is pending: any client can
    stop the server. *)
Theorem C42_dropped_message_refuted c l n u : all_served l -> existsb protects u = false ->
  serve c (l ++ [Dropped u n]) = Err AssertionError.
Proof. exact (dropped_stops c l n u). Qed.
Print Assumptions C42_dropped_message_refuted.

(** Finding: when the message is dropped after the implementation blocked (the reply could
    not be marshalled), the slot stays occupied, the next caller's capability cannot be
    saved, and that caller's reply goes to the previous caller. *)
Theorem C42_wrong_recipient_refuted : exists s,
  serve 1 [Dropped [UWait None] 2; Served [UWait None] 3] = Ok s /\
  replied s = [1] /\ tcb s = Some 3 /\ slot s = None.
Proof. exact wrong_recipient. Qed.
Print Assumptions C42_wrong_recipient_refuted.
