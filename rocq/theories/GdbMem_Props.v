(** Properties of testing an address (C129). *)
From Coq Require Import List NArith Bool Lia.
From Verif Require Import GdbMem_Model GdbMem_Spec GdbMem_Proofs.
From Verif Require Gdb_Model.
Import ListNotations.
Open Scope N_scope.
Open Scope list_scope.

(** C129: testing whether a word can be read ends with the right answer, wherever the code is,
    whatever is in the registers, and leaves memory as it is. *)
Theorem C129_read : forall base a x y z r m,
  (readable m a -> answers check_read base (enter base a x y z r m) 0) /\
  (~ readable m a -> answers check_read base (enter base a x y z r m) 1).
Proof. intros. split; [apply read_ok|apply read_bad]. Qed.
Print Assumptions C129_read.

(** C129: so does testing whether a word can be written, if it can be read. *)
Theorem C129_write_partial : forall base a x y z r m, readable m a ->
  (bytes_only m -> writable_word m a -> answers check_write base (enter base a x y z r m) 0) /\
  (~ writable_word m a -> answers check_write base (enter base a x y z r m) 1).
Proof. intros base a x y z r m R. split; [apply write_good|apply write_read_only, R]. Qed.
Print Assumptions C129_write_partial.

(** C129, refuted: it always ends.  If the word cannot be read, the instruction that reads it
    faults and is skipped with 1 in eax; then the one that writes it faults, and a fault with
    something else than 0 in eax is not answered. *)
Theorem C129_write_refuted : forall base a x y z r m, ~ readable m a ->
  never_answers check_write base (enter base a x y z r m).
Proof. exact write_never. Qed.
Print Assumptions C129_write_refuted.

(** C129: there is only one answer. *)
Theorem C129_unique : forall p base s r r', answers p base s r -> answers p base s r' -> r = r'.
Proof. exact answers_unique. Qed.
Print Assumptions C129_unique.

(** C129: this is what the model of the debugger (C70) takes the tests to do. *)
Theorem C129_delegate : forall s base a x y z r, bytes_only (Gdb_Model.mem s) ->
  let m := Gdb_Model.mem s in
  answers check_read base (enter base a x y z r m) (if Gdb_Model.can_read s a then 0 else 1) /\
  if Gdb_Model.can_read s a
  then answers check_write base (enter base a x y z r m) (if Gdb_Model.can_write s a then 0 else 1)
  else never_answers check_write base (enter base a x y z r m).
Proof. exact delegate_lemma. Qed.
Print Assumptions C129_delegate.

(** Memory with a page that can be written after one that can only be read. *)
Definition case_memory : memory :=
  fun x => if (4096 <=? x) && (x <? 12288) then Some (x mod 256, 8192 <=? x) else None.
Example C129_case_bytes : bytes_only case_memory.
Proof.
intros x v w. unfold case_memory. destruct (_ && _); [|discriminate]. intros E.
assert (H : v = x mod 256) by congruence. subst v. apply N.mod_lt. lia.
Qed.
Example C129_case_read_only : readable case_memory 8190 /\ ~ writable_word case_memory 8190.
Proof.
split.
- intros i L. assert (C : i = 0 \/ i = 1 \/ i = 2 \/ i = 3) by lia.
  destruct C as [->|[->|[->| ->]]]; eexists; eexists; reflexivity.
- intros W. destruct (W 0) as [v E]; [lia|]. discriminate.
Qed.
Example C129_case_writable : writable_word case_memory 8192.
Proof.
intros i L. assert (C : i = 0 \/ i = 1 \/ i = 2 \/ i = 3) by lia.
destruct C as [->|[->|[->| ->]]]; eexists; reflexivity.
Qed.
Example C129_case_unmapped : ~ readable case_memory 12286.
Proof. intros R. destruct (R 2) as (v & w & E); [lia|]. discriminate. Qed.
Example C129_case_run :
  m_status (steps 7 check_write 400 (enter 400 8190 9 9 9 9 case_memory)) = Left /\
  m_status (steps 1000 check_write 400 (enter 400 12286 9 9 9 9 case_memory)) = Forgotten.
Proof. split; vm_compute; reflexivity. Qed.
