(** Proofs: replies. *)
From Coq Require Import ssreflect String Ascii List NArith ZArith Lia Bool.
From Verif Require Import Gdb_Model Gdb_Spec Gdb_Proofs.
Import ListNotations.
Open Scope N_scope.

Definition plain_char (c : N) : bool := (32 <=? c) && (c <? 127) && negb (c =? ch "$") && negb (c =? ch "#").
Lemma plain_check m : forallb plain_char m = true -> plain m.
Proof.
  move=> H; apply Forall_forall => c I; rewrite -> forallb_forall in H; have := H c I; unfold plain_char.
  destruct (N.leb_spec 32 c), (N.ltb_spec c 127), (N.eqb_spec c (ch "$")), (N.eqb_spec c (ch "#")) => //=.
Qed.
Lemma plain_no10 m : plain m -> ~ In 10 m.
Proof. move=> P I; unfold plain in P; rewrite -> Forall_forall in P; have := P 10 I; lia. Qed.

(** One reply and nothing else for the client. *)
Definition sent (m : list N) (s s' : st) : Prop := plain m /\ out s' = out s ++ frame m /\ posted s' = posted s.
Definition quiet (s s' : st) : Prop := out s' = out s /\ posted s' = posted s.

Lemma send_sent m s0 s : plain m -> (List.length m <= 250)%nat -> quiet s0 s -> sent m s0 (send m s).
Proof.
  move=> P L [Q1 Q2]; rewrite send_frame //; [by apply plain_no10|].
  split; [done|]; cbn; by rewrite Q1 Q2.
Qed.
Lemma quiet_refl s : quiet s s. Proof. by split. Qed.
Lemma quiet_trans a b c : quiet a b -> quiet b c -> quiet a c.
Proof. move=> [A1 A2] [B1 B2]; split; congruence. Qed.

Ltac says := eexists; apply send_sent; [apply plain_check; reflexivity|vm_compute; repeat constructor|].

Lemma hex_digit_plain u d : d < 16 -> plain_char (hex_digit u d) = true.
Proof.
  move=> L.
  have E: d = 0 \/ d = 1 \/ d = 2 \/ d = 3 \/ d = 4 \/ d = 5 \/ d = 6 \/ d = 7 \/ d = 8 \/ d = 9 \/ d = 10 \/ d = 11 \/ d = 12 \/ d = 13 \/ d = 14 \/ d = 15 by lia.
  by destruct u; repeat destruct E as [E|E]; subst d.
Qed.
Lemma plain_flat {A} (f : A -> list N) l : (forall x, forallb plain_char (f x) = true) -> plain (flat_map f l).
Proof.
  move=> H; apply plain_check; induction l as [|x l IH]; [reflexivity|]; cbn [flat_map].
  by rewrite forallb_app H IH.
Qed.
Lemma mod16 x : x mod 16 < 16. Proof. apply N.mod_lt; lia. Qed.
Lemma hex2_plain b : forallb plain_char (hex2 false b) = true.
Proof. cbn [hex2 forallb]; rewrite !hex_digit_plain //; apply mod16. Qed.
Lemma hex8_plain w : forallb plain_char (hex8 w) = true.
Proof. unfold hex8; cbn [map forallb]; rewrite !hex_digit_plain //; apply mod16. Qed.
Lemma flat_map_length {A} (f : A -> list N) k l : (forall x, List.length (f x) = k) -> List.length (flat_map f l) = (List.length l * k)%nat.
Proof. move=> H; induction l as [|x l IH]; [reflexivity|]; cbn [flat_map List.length]; rewrite app_length IH H; lia. Qed.

Lemma copy_out_length s a n l : copy_out s a n = Done l -> List.length l = n.
Proof.
  revert a l; induction n as [|n IH] => a l; cbn [copy_out]; [by move=> E; injection E as <-|].
  destruct (at_ s a) as [[v w]|]; [|discriminate].
  destruct (copy_out s (a + 1) n) as [l'|] eqn:E; [|discriminate]; cbn [andthen] => E1; injection E1 as <-.
  cbn; by rewrite (IH _ _ E).
Qed.
Lemma copy_in_quiet l a s s' : copy_in a l s = Done s' -> quiet s s'.
Proof.
  revert a s; induction l as [|v l IH] => a s; cbn [copy_in]; [move=> E; injection E as <-; apply quiet_refl|].
  destruct (at_ s a) as [[w [|]]|]; [|discriminate..].
  move=> H; apply IH in H; exact H.
Qed.
Lemma write_quiet a n l s ok s' : delegate_write_memory a n l s = Done (ok, s') -> quiet s s'.
Proof.
  unfold delegate_write_memory.
  destruct (_ || _); [move=> E; injection E as _ <-; apply quiet_refl|].
  destruct (negb _); [discriminate|].
  destruct (negb _); [move=> E; injection E as _ <-; apply quiet_refl|].
  destruct (copy_in a l s) as [s1|] eqn:E; [|discriminate]; cbn [andthen] => E1; injection E1 as _ <-.
  exact (copy_in_quiet _ _ _ _ E).
Qed.

Lemma read_memory_sent c s s' : GDB_read_memory c s = Done s' -> exists m, sent m s s'.
Proof.
  unfold GDB_read_memory.
  destruct (strtok (bytes "m,") c) as [addr r]; destruct (strtok (bytes ",") r) as [len r'].
  destruct (strtol 16 addr) as [a|]; [|discriminate]; cbn [andthen].
  destruct (strtol 10 len) as [n|]; [|discriminate]; cbn [andthen].
  destruct (N.leb_spec MAX_MEM_RANGE (word n)) as [|LN]; [move=> E; injection E as <-; says; apply quiet_refl|].
  destruct (word a =? 0); [move=> E; injection E as <-; says; apply quiet_refl|].
  destruct (delegate_read_memory (word a) (word n) s) as [[d|]|] eqn:D; [| |discriminate]; cbn [andthen] => E; injection E as <-.
  - eexists; apply send_sent; [apply plain_flat => b; apply hex2_plain| |apply quiet_refl].
    rewrite (flat_map_length _ 2); [done|].
    unfold delegate_read_memory in D; destruct (_ || _); [discriminate|]; destruct (negb _); [discriminate|].
    destruct (copy_out s (word a) _) as [l|] eqn:C; [|discriminate]; cbn [andthen] in D; injection D as <-.
    rewrite (copy_out_length _ _ _ _ C); unfold MAX_MEM_RANGE in LN; lia.
  - says; apply quiet_refl.
Qed.

Lemma write_memory_sent c s s' : GDB_write_memory c s = Done s' -> exists m, sent m s s'.
Proof.
  unfold GDB_write_memory.
  destruct (strtok (bytes "M,") c) as [addr r]; destruct (strtok (bytes ",:") r) as [len r'].
  destruct (strtok (bytes ":") r') as [d r''].
  destruct (strtol 16 addr) as [a|]; [|discriminate]; cbn [andthen].
  destruct (strtol 10 len) as [n|]; [|discriminate]; cbn [andthen].
  destruct (MAX_MEM_RANGE <=? word n); [move=> E; injection E as <-; says; apply quiet_refl|].
  destruct (word a =? 0); [move=> E; injection E as <-; says; apply quiet_refl|].
  destruct (match d with Some d => Done (read_pairs (N.to_nat (word n)) d) | None => if word n =? 0 then Done [] else Crash NullPointer end)
    as [dd|]; [|discriminate]; cbn [andthen].
  destruct (delegate_write_memory _ _ dd s) as [[ok s1]|] eqn:W; [|discriminate]; cbn [andthen fst snd] => E; injection E as <-.
  have Q := write_quiet _ _ _ _ _ _ W.
  destruct ok; says; exact Q.
Qed.

Lemma write_binary_sent c s s' : GDB_write_memory_binary c s = Done s' -> exists m, sent m s s'.
Proof.
  unfold GDB_write_memory_binary.
  destruct (strtok (bytes "X,") c) as [addr r]; destruct (strtok (bytes ",:") r) as [len r'].
  destruct (strtol 16 addr) as [a|]; [|discriminate]; cbn [andthen].
  destruct (strtol 10 len) as [n|]; [|discriminate]; cbn [andthen].
  destruct (word n =? 0); [move=> E; injection E as <-; says; apply quiet_refl|].
  destruct (strtok (bytes ":") r') as [[d|] r'']; [|move=> E; injection E as <-; says; apply quiet_refl].
  destruct (MAX_MEM_RANGE <? word n); [discriminate|].
  destruct (delegate_write_memory _ _ _ s) as [[ok s1]|] eqn:W; [|discriminate]; cbn [andthen fst snd] => E; injection E as <-.
  have Q := write_quiet _ _ _ _ _ _ W.
  destruct ok; says; exact Q.
Qed.

Lemma Done_inj {A} (a b : A) : Done a = Done b -> b = a.
Proof. by move=> [->]. Qed.
Lemma query_sent c s s' : GDB_query c s = Done s' -> exists m, sent m s s'.
Proof.
  unfold GDB_query; destruct (strtok (bytes "q:") c) as [[q|] r]; cbn [fst]; [|discriminate] => E; apply Done_inj in E; subst s'.
  match goal with |- context [List.find ?f queries] => destruct (List.find f queries) as [p|] eqn:F end; [|says; apply quiet_refl].
  apply find_some in F; destruct F as [F _].
  repeat (destruct F as [<-|F]; [says; apply quiet_refl|]); destruct F.
Qed.
Lemma reason_sent s : exists m, sent m s (GDB_stop_reason s).
Proof. unfold GDB_stop_reason; destruct (stopped s); says; apply quiet_refl. Qed.
Lemma general_sent s : exists m, sent m s (GDB_read_general_registers s).
Proof.
  unfold GDB_read_general_registers; eexists; apply send_sent; [apply plain_flat => n; apply hex8_plain| |apply quiet_refl].
  rewrite (flat_map_length _ 8) //; cbn; lia.
Qed.
Lemma read_register_sent c s s' : GDB_read_register c s = Done s' -> exists m, sent m s s'.
Proof.
  unfold GDB_read_register; destruct (rest_of c) as [r|]; [|move=> E; injection E as <-; says; apply quiet_refl].
  destruct (strtol 16 (Some r)) as [n|]; [|discriminate]; cbn [andthen].
  destruct (10 <=? word n); [move=> E; injection E as <-; says; apply quiet_refl|].
  destruct (context_index (word n)) as [i|]; move=> E; injection E as <-; [|says; apply quiet_refl].
  eexists; apply send_sent; [apply plain_check, hex8_plain|cbn; lia|apply quiet_refl].
Qed.
Lemma write_general_sent c s s' : GDB_write_general_registers c s = Done s' -> exists m, sent m s s'.
Proof.
  unfold GDB_write_general_registers; destruct (rest_of c) as [r|]; [|discriminate].
  destruct (fill_context _ _ _ _ _) as [ctx|]; [|discriminate]; cbn [andthen] => E; injection E as <-.
  says; by split.
Qed.
Lemma write_register_sent c s s' : GDB_write_register c s = Done s' -> exists m, sent m s s'.
Proof.
  unfold GDB_write_register; destruct (strtok (bytes "=") (tl c)) as [reg r].
  destruct (strtol 16 reg) as [n|]; [|discriminate]; cbn [andthen].
  destruct (word n <? 13); [|move=> E; injection E as <-; says; apply quiet_refl].
  destruct r as [|r0 r]; [discriminate|].
  destruct (string_to_word _ _) as [v|]; [|discriminate]; cbn [andthen].
  destruct (context_index (word n)) as [i|]; move=> E; injection E as <-; [|says; apply quiet_refl].
  destruct (word n =? 8); says; by split.
Qed.
Lemma breakpoint_sent ins c s s' : GDB_breakpoint ins c s = Done s' -> exists m, sent m s s'.
Proof.
  unfold GDB_breakpoint; destruct (strtok (bytes ",") (tl c)) as [ty r].
  destruct (strtok (bytes ",") r) as [ad r']; destruct (strtok (bytes ",") r') as [si r''].
  destruct (strtol 16 ty) as [t|]; [|discriminate]; cbn [andthen].
  destruct (strtol 16 ad) as [a|]; [|discriminate]; cbn [andthen].
  destruct (strtol 16 si) as [z|]; [|discriminate]; cbn [andthen].
  destruct (word t =? 0); [move=> E; injection E as <-; says; apply quiet_refl|].
  destruct (breakpoint_format (word t)) as [[bt rw]|]; [|move=> E; injection E as <-; says; apply quiet_refl].
  set b := mk_bp _ _ _ _.
  have Q: forall ok s1, (if ins then delegate_insert_break (tcb s) b s else delegate_remove_break (tcb s) b s) = (ok, s1) -> quiet s s1.
  { move=> ok s1; destruct ins; [unfold delegate_insert_break|unfold delegate_remove_break].
    - destruct (find_free 0 (table s)); [destruct (accepts s b)|]; move=> E; injection E as _ <-; by split.
    - destruct (find_bp b 0 (table s)); move=> E; injection E as _ <-; by split. }
  destruct (if ins then _ else _) as [ok s1] eqn:D; move=> E; injection E as <-.
  have Q1 := Q _ _ eq_refl; destruct ok; says; exact Q1.
Qed.

(** Letting the thread run: no reply, the thread is released once. *)
Lemma continue_post s : out (GDB_continue s) = out s /\ posted (GDB_continue s) = S (posted s).
Proof. unfold GDB_continue; destruct (_ && _); by split. Qed.
Lemma step_post s : out (GDB_step s) = out s /\ posted (GDB_step s) = S (posted s).
Proof. unfold GDB_step; destruct (_ && _); by split. Qed.

Definition outcome_ok (c : list N) (s s' : st) : Prop :=
  exists ms k, out s' = out s ++ flat_map frame ms /\ Forall plain ms /\ posted s' = (k + posted s)%nat /\
    (List.length ms + k <= 1)%nat /\ (answered c -> List.length ms = 1%nat) /\ (resumes c -> k = 1%nat) /\
    (k = 1%nat -> resumes c \/ exists r, c = bytes "vCont" ++ r).

Lemma one_reply c s s' : (exists m, sent m s s') -> ~ resumes c -> outcome_ok c s s'.
Proof.
  intros [m (P & OO & Q)] NR; exists [m], 0%nat; cbn [flat_map]; rewrite app_nil_r.
  repeat split; auto; try lia; try discriminate; by move=> R; destruct (NR R).
Qed.
Lemma released c s s' : out s' = out s /\ posted s' = S (posted s) -> ~ answered c -> (resumes c \/ exists r, c = bytes "vCont" ++ r) -> outcome_ok c s s'.
Proof.
  move=> [O Q] NA R; exists [], 1%nat; cbn [flat_map]; rewrite app_nil_r.
  repeat split; auto; by move=> A; destruct (NA A).
Qed.
Lemma silent c s : ~ answered c -> ~ resumes c -> outcome_ok c s s.
Proof.
  move=> NA NR; exists [], 0%nat; cbn [flat_map]; rewrite app_nil_r.
  repeat split; auto; try lia; try discriminate; move=> A; [by destruct (NA A)|by destruct (NR A)].
Qed.

Lemma list_eqb_eq a b : list_eqb a b = true <-> a = b.
Proof.
  revert b; induction a as [|x a IH] => b; destruct b as [|y b]; cbn; try (split; [discriminate|discriminate]); try done.
  split.
  - move=> H; apply andb_true_iff in H; destruct H as [H1 H2]; apply N.eqb_eq in H1; apply IH in H2; congruence.
  - move=> E; injection E as -> ->; rewrite N.eqb_refl; by apply IH.
Qed.
Lemma starts_iff p l : starts p l = true <-> exists r, l = bytes p ++ r.
Proof.
  unfold starts; rewrite list_eqb_eq.
  have L: List.length (bytes p) = String.length p.
  { unfold bytes; rewrite map_length; induction p as [|c p IH]; [reflexivity|]; cbn; by rewrite IH. }
  split.
  - move=> E; exists (skipn (String.length p) l); rewrite E; by rewrite firstn_skipn.
  - move=> [r ->]; rewrite -L firstn_app Nat.sub_diag /= app_nil_r; by rewrite firstn_all.
Qed.

Lemma bytes_cons (c : ascii) s r : bytes (String c s) ++ r = ch c :: (bytes s ++ r).
Proof. reflexivity. Qed.

Lemma all_outcomes c s s' : handle_command c s = Done s' -> outcome_ok c s s'.
Proof.
  destruct c as [|x r]; [cbn => E; injection E as <-; apply silent|].
  { move=> [[? [? [? _]]]|[[? ?]|[[? ?]|[? ?]]]]; discriminate. }
  { move=> [? [? [? _]]]; discriminate. }
  have NR: forall l, ~ In x (bytes "cs") -> ~ resumes (x :: l).
  { move=> l N [y [l' [E I]]]; injection E as -> ->; by apply N. }
  have NA: ~ In x (bytes "v?gGHmMpPqXzZ") -> ~ answered (x :: r).
  { move=> N [[y [l [E I]]]|[[l E]|[[l E]|[l E]]]].
    - injection E as -> ->; apply N; by right.
    - rewrite bytes_cons in E; injection E as -> _; apply N; by left.
    - rewrite bytes_cons in E; injection E as -> _; apply N; by left.
    - rewrite bytes_cons in E; injection E as -> _; apply N; by left. }
  unfold handle_command.
  destruct (N.eqb_spec x (ch "?")) as [->|X1]; [move=> E; injection E as <-; apply one_reply; [apply reason_sent|apply NR; intros H; vm_compute in H; intuition discriminate]|].
  destruct (N.eqb_spec x (ch "c")) as [->|X2].
  { move=> E; injection E as <-; apply released; [apply continue_post|apply NA; intros H; vm_compute in H; intuition discriminate|].
    left; exists (ch "c"), r; split; [done|by left]. }
  destruct (N.eqb_spec x (ch "g")) as [->|X3]; [move=> E; injection E as <-; apply one_reply; [apply general_sent|apply NR; intros H; vm_compute in H; intuition discriminate]|].
  destruct (N.eqb_spec x (ch "G")) as [->|X4]; [move=> E; apply one_reply; [exact (write_general_sent _ _ _ E)|apply NR; intros H; vm_compute in H; intuition discriminate]|].
  destruct (N.eqb_spec x (ch "H")) as [->|X5]; [move=> E; injection E as <-; apply one_reply; [says; apply quiet_refl|apply NR; intros H; vm_compute in H; intuition discriminate]|].
  destruct (N.eqb_spec x (ch "m")) as [->|X6]; [move=> E; apply one_reply; [exact (read_memory_sent _ _ _ E)|apply NR; intros H; vm_compute in H; intuition discriminate]|].
  destruct (N.eqb_spec x (ch "M")) as [->|X7]; [move=> E; apply one_reply; [exact (write_memory_sent _ _ _ E)|apply NR; intros H; vm_compute in H; intuition discriminate]|].
  destruct (N.eqb_spec x (ch "p")) as [->|X8]; [move=> E; apply one_reply; [exact (read_register_sent _ _ _ E)|apply NR; intros H; vm_compute in H; intuition discriminate]|].
  destruct (N.eqb_spec x (ch "P")) as [->|X9]; [move=> E; apply one_reply; [exact (write_register_sent _ _ _ E)|apply NR; intros H; vm_compute in H; intuition discriminate]|].
  destruct (N.eqb_spec x (ch "q")) as [->|X10]; [move=> E; apply one_reply; [exact (query_sent _ _ _ E)|apply NR; intros H; vm_compute in H; intuition discriminate]|].
  destruct (N.eqb_spec x (ch "s")) as [->|X11].
  { move=> E; injection E as <-; apply released; [apply step_post|apply NA; intros H; vm_compute in H; intuition discriminate|].
    left; exists (ch "s"), r; split; [done|right; by left]. }
  destruct (N.eqb_spec x (ch "v")) as [->|X12].
  { have NR': ~ resumes (ch "v" :: r) by apply NR; intros H; vm_compute in H; intuition discriminate.
    move=> E; injection E as <-.
    destruct (starts "Cont?" r) eqn:S1; [apply one_reply; [says; apply quiet_refl|done]|].
    destruct (starts "Cont" r) eqn:S2.
    { have NA': ~ answered (ch "v" :: r).
      { apply starts_iff in S2; destruct S2 as [q ->].
        move=> [[y [l [E I]]]|[[l E]|[[l E]|[l E]]]].
        - injection E as <- _; vm_compute in I; intuition discriminate.
        - rewrite bytes_cons in E; injection E as E; have S1': starts "Cont?" (bytes "Cont" ++ q) = true by (apply starts_iff; exists l; by rewrite E).
          congruence.
        - rewrite !bytes_cons in E; injection E as E; discriminate.
        - rewrite !bytes_cons in E; injection E as E; discriminate. }
      have V: resumes (ch "v" :: r) \/ exists r', ch "v" :: r = bytes "vCont" ++ r'.
      { right; apply starts_iff in S2; destruct S2 as [q ->]; by exists q. }
      unfold GDB_vcont; destruct (nth_error _ 7) as [z|]; [|apply one_reply; [says; apply quiet_refl|done]].
      destruct (z =? ch "c"); [apply released; [apply continue_post|done|done]|].
      destruct (z =? ch "s"); [apply released; [apply step_post|done|done]|].
      apply one_reply; [says; apply quiet_refl|done]. }
    destruct (starts "Kill" r) eqn:S3; [apply one_reply; [says; apply quiet_refl|done]|].
    destruct (starts "MustReplyEmpty" r) eqn:S4; [apply one_reply; [says; apply quiet_refl|done]|].
    apply silent; [|done].
    move=> [[y [l [E I]]]|[[l E]|[[l E]|[l E]]]].
    - injection E as <- _; vm_compute in I; intuition discriminate.
    - rewrite bytes_cons in E; injection E as E; have: starts "Cont?" r = true by apply starts_iff; exists l. by rewrite S1.
    - rewrite bytes_cons in E; injection E as E; have: starts "Kill" r = true by apply starts_iff; exists l. by rewrite S3.
    - rewrite bytes_cons in E; injection E as E; have: starts "MustReplyEmpty" r = true by apply starts_iff; exists l. by rewrite S4. }
  destruct (N.eqb_spec x (ch "X")) as [->|X13]; [move=> E; apply one_reply; [exact (write_binary_sent _ _ _ E)|apply NR; intros H; vm_compute in H; intuition discriminate]|].
  destruct (N.eqb_spec x (ch "z")) as [->|X14]; [move=> E; apply one_reply; [exact (breakpoint_sent _ _ _ _ E)|apply NR; intros H; vm_compute in H; intuition discriminate]|].
  destruct (N.eqb_spec x (ch "Z")) as [->|X15]; [move=> E; apply one_reply; [exact (breakpoint_sent _ _ _ _ E)|apply NR; intros H; vm_compute in H; intuition discriminate]|].
  move=> E; injection E as <-; apply silent.
  - apply NA; intros H; vm_compute in H; vm_compute in X1, X3, X4, X5, X6, X7, X8, X9, X10, X12, X13, X14, X15; intuition congruence.
  - apply NR; intros H; vm_compute in H; vm_compute in X2, X11; intuition congruence.
Qed.
