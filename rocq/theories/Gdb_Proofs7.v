(** Proofs: breakpoint commands. *)
From Coq Require Import ssreflect String Ascii List NArith ZArith Lia Bool.
From Verif Require Import Gdb_Model Gdb_Spec Gdb_Proofs Gdb_Proofs3 Gdb_Proofs4.
Import ListNotations.
Open Scope N_scope.

Lemma bp_eqb_eq a b : bp_eqb a b = true <-> a = b.
Proof.
  destruct a as [a1 a2 a3 a4], b as [b1 b2 b3 b4]; unfold bp_eqb; cbn.
  rewrite !andb_true_iff !N.eqb_eq; split; [by move=> [[[-> ->] ->] ->]|by move=> E; injection E as -> -> -> ->].
Qed.
Lemma set_slot_at u x y v : set_slot (List.length u) y (u ++ x :: v) = u ++ y :: v.
Proof. induction u as [|z u IH]; [reflexivity|]; cbn; by rewrite IH. Qed.
Lemma find_free_some i l k : find_free i l = Some k -> exists u v, l = u ++ None :: v /\ k = (i + List.length u)%nat.
Proof.
  revert i; induction l as [|[b|] l IH] => i; cbn; [discriminate| |].
  - move=> H; destruct (IH _ H) as (u & v & -> & ->); exists (Some b :: u), v; split; [done|cbn; lia].
  - move=> H; injection H as <-; exists [], l; split; [done|cbn; lia].
Qed.
Lemma find_free_none i l : find_free i l = None -> ~ In None l.
Proof.
  revert i; induction l as [|[b|] l IH] => i; cbn; [by auto| |discriminate].
  move=> H [E|E]; [discriminate|exact (IH _ H E)].
Qed.
Lemma find_bp_some b i l k : find_bp b i l = Some k -> exists u v, l = u ++ Some b :: v /\ k = (i + List.length u)%nat.
Proof.
  revert i; induction l as [|[b'|] l IH] => i; cbn; [discriminate| |].
  - destruct (bp_eqb b' b) eqn:E.
    + apply bp_eqb_eq in E; subst b'; move=> H; injection H as <-; exists [], l; split; [done|cbn; lia].
    + move=> H; destruct (IH _ H) as (u & v & -> & ->); exists (Some b' :: u), v; split; [done|cbn; lia].
  - move=> H; destruct (IH _ H) as (u & v & -> & ->); exists (None :: u), v; split; [done|cbn; lia].
Qed.
Lemma find_bp_none b i l : find_bp b i l = None -> ~ In (Some b) l.
Proof.
  revert i; induction l as [|[b'|] l IH] => i; cbn; [by auto| |].
  - destruct (bp_eqb b' b) eqn:E; [discriminate|]; move=> H [E'|E']; [|exact (IH _ H E')].
    injection E' as ->; have: bp_eqb b b = true by apply bp_eqb_eq. by rewrite E.
  - move=> H [E|E]; [discriminate|exact (IH _ H E)].
Qed.

(** The command, taken apart. *)
Lemma break_command (ins : bool) t ty h a z n s : hex_text t ty -> hex_text h a -> hex_text z n ->
  1 <= ty <= 4 -> a < 2 ^ 31 -> n < 2 ^ 31 ->
  handle_command (bytes (if ins then "Z"%string else "z"%string) ++ t ++ bytes "," ++ h ++ bytes "," ++ z) s =
  let '(ok, s) := if ins then delegate_insert_break (tcb s) (break_of ty a n) s else delegate_remove_break (tcb s) (break_of ty a n) s in
  Done (say (if ok then "OK" else "E01")%string s).
Proof.
  move=> T H Z LT LA LN.
  have HC: handle_command (bytes (if ins then "Z"%string else "z"%string) ++ t ++ bytes "," ++ h ++ bytes "," ++ z) s =
           GDB_breakpoint ins ((if ins then ch "Z" else ch "z") :: t ++ ch "," :: (h ++ ch "," :: z)) s by destruct ins.
  rewrite HC; clear HC; unfold GDB_breakpoint; cbn [tl].
  rewrite (strtok_at (bytes ",") t (ch ",")); [tok_free T|by destruct T|reflexivity|].
  rewrite (strtok_at (bytes ",") h (ch ",")); [tok_free H|by destruct H|reflexivity|].
  rewrite (strtok_all (bytes ",") z); [tok_free Z|by destruct Z|].
  destruct (strtol_hex _ _ T) as [x [-> X]]; destruct (strtol_hex _ _ H) as [y [-> Y]]; destruct (strtol_hex _ _ Z) as [w [-> W]].
  cbn [andthen]; rewrite X; [lia|]; rewrite Y // W //.
  have C: ty = 1 \/ ty = 2 \/ ty = 3 \/ ty = 4 by lia.
  repeat destruct C as [C|C]; subst ty; reflexivity.
Qed.

Lemma kset_other t i v k x : x <> t -> kset t i v k x = k x.
Proof. move=> N; unfold kset; by destruct (N.eqb_spec x t). Qed.

Lemma break_inserted t ty h a z n s : hex_text t ty -> hex_text h a -> hex_text z n ->
  1 <= ty <= 4 -> a < 2 ^ 31 -> n < 2 ^ 31 -> In None (table s) -> accepts s (break_of ty a n) = true ->
  exists s', handle_command (bytes "Z" ++ t ++ bytes "," ++ h ++ bytes "," ++ z) s = Done s' /\
    breaks_changed None (Some (break_of ty a n)) (bytes "OK") s s'.
Proof.
  move=> T H Z LT LA LN F A; rewrite (break_command true t ty h a z n s T H Z LT LA LN).
  unfold delegate_insert_break; destruct (find_free 0 (table s)) as [k|] eqn:E; [|by destruct (find_free_none _ _ E F)].
  destruct (find_free_some _ _ _ E) as (u & v & TE & ->); rewrite A; eexists; split; [reflexivity|].
  rewrite say_frame; [cbn; lia|reflexivity|].
  constructor; cbn [put table kslots set_bps out mem regs stepping tcb pc step_mode stopped posted]; [| |done|by repeat split].
  - exists u, v; rewrite TE /= set_slot_at; by split.
  - move=> x N; by apply kset_other.
Qed.
Lemma break_refused t ty h a z n s : hex_text t ty -> hex_text h a -> hex_text z n ->
  1 <= ty <= 4 -> a < 2 ^ 31 -> n < 2 ^ 31 -> ~ In None (table s) \/ accepts s (break_of ty a n) = false ->
  exists s', handle_command (bytes "Z" ++ t ++ bytes "," ++ h ++ bytes "," ++ z) s = Done s' /\ only_sends (bytes "E01") s s'.
Proof.
  move=> T H Z LT LA LN F; rewrite (break_command true t ty h a z n s T H Z LT LA LN).
  unfold delegate_insert_break; destruct (find_free 0 (table s)) as [k|] eqn:E.
  - destruct F as [F| ->].
    + destruct (find_free_some _ _ _ E) as (u & v & TE & _); destruct F; rewrite TE; apply in_or_app; right; by left.
    + eexists; split; [reflexivity|]; apply say_frame; [cbn; lia|reflexivity].
  - eexists; split; [reflexivity|]; apply say_frame; [cbn; lia|reflexivity].
Qed.
Lemma break_removed t ty h a z n s : hex_text t ty -> hex_text h a -> hex_text z n ->
  1 <= ty <= 4 -> a < 2 ^ 31 -> n < 2 ^ 31 -> In (Some (break_of ty a n)) (table s) ->
  exists s', handle_command (bytes "z" ++ t ++ bytes "," ++ h ++ bytes "," ++ z) s = Done s' /\
    breaks_changed (Some (break_of ty a n)) None (bytes "OK") s s'.
Proof.
  move=> T H Z LT LA LN F; rewrite (break_command false t ty h a z n s T H Z LT LA LN).
  unfold delegate_remove_break; destruct (find_bp (break_of ty a n) 0 (table s)) as [k|] eqn:E; [|by destruct (find_bp_none _ _ _ E F)].
  destruct (find_bp_some _ _ _ _ E) as (u & v & TE & ->); eexists; split; [reflexivity|].
  rewrite say_frame; [cbn; lia|reflexivity|].
  constructor; cbn [put table kslots set_bps out mem regs stepping tcb pc step_mode stopped posted]; [| |done|by repeat split].
  - exists u, v; rewrite TE /= set_slot_at; by split.
  - move=> x N; by apply kset_other.
Qed.
Lemma break_absent t ty h a z n s : hex_text t ty -> hex_text h a -> hex_text z n ->
  1 <= ty <= 4 -> a < 2 ^ 31 -> n < 2 ^ 31 -> ~ In (Some (break_of ty a n)) (table s) ->
  exists s', handle_command (bytes "z" ++ t ++ bytes "," ++ h ++ bytes "," ++ z) s = Done s' /\ only_sends (bytes "E01") s s'.
Proof.
  move=> T H Z LT LA LN F; rewrite (break_command false t ty h a z n s T H Z LT LA LN).
  unfold delegate_remove_break; destruct (find_bp (break_of ty a n) 0 (table s)) as [k|] eqn:E.
  - destruct (find_bp_some _ _ _ _ E) as (u & v & TE & _); destruct F; rewrite TE; apply in_or_app; right; by left.
  - eexists; split; [reflexivity|]; apply say_frame; [cbn; lia|reflexivity].
Qed.

(** ** The kernel's breakpoints of the thread are those in the table *)
Definition same_bp (s s' : st) : Prop := table s' = table s /\ kslots s' = kslots s /\ tcb s' = tcb s /\ accepts s' = accepts s.
Lemma same_refl s : same_bp s s. Proof. by repeat split. Qed.
Lemma copy_in_same l a s s' : copy_in a l s = Done s' -> same_bp s s'.
Proof.
  revert a s; induction l as [|v l IH] => a s; cbn [copy_in]; [move=> E; injection E as <-; apply same_refl|].
  destruct (at_ s a) as [[w [|]]|]; [|discriminate..].
  move=> H; apply IH in H; exact H.
Qed.
Lemma write_same a n l s ok s' : delegate_write_memory a n l s = Done (ok, s') -> same_bp s s'.
Proof.
  unfold delegate_write_memory.
  destruct (_ || _); [move=> E; injection E as _ <-; apply same_refl|].
  destruct (negb _); [discriminate|].
  destruct (negb _); [move=> E; injection E as _ <-; apply same_refl|].
  destruct (copy_in a l s) as [s1|] eqn:E; [|discriminate]; cbn [andthen] => E1; injection E1 as _ <-.
  exact (copy_in_same _ _ _ _ E).
Qed.

Ltac same := repeat split; reflexivity.
Lemma others_same c s s' : handle_command c s = Done s' ->
  (forall ins, match c with x :: _ => x = (if ins : bool then ch "Z" else ch "z") | [] => False end -> GDB_breakpoint ins c s <> Done s') -> same_bp s s'.
Proof.
  unfold handle_command; destruct c as [|x r]; [move=> E _; injection E as <-; same|].
  destruct (x =? ch "?"); [move=> E _; injection E as <-; unfold GDB_stop_reason; destruct (stopped s); same|].
  destruct (x =? ch "c"); [move=> E _; injection E as <-; unfold GDB_continue; destruct (_ && _); same|].
  destruct (x =? ch "g"); [move=> E _; injection E as <-; same|].
  destruct (x =? ch "G").
  { move=> E _; unfold GDB_write_general_registers in E; destruct (rest_of _); [|discriminate].
    destruct (fill_context _ _ _ _ _); [|discriminate]; cbn [andthen] in E; injection E as <-; same. }
  destruct (x =? ch "H"); [move=> E _; injection E as <-; same|].
  destruct (x =? ch "m").
  { move=> E _; unfold GDB_read_memory in E; destruct (strtok (bytes "m,") _) as [? r1]; destruct (strtok (bytes ",") r1) as [? r2].
    destruct (strtol 16 _); [|discriminate]; destruct (strtol 10 _); [|discriminate]; cbn [andthen] in E.
    destruct (MAX_MEM_RANGE <=? _); [injection E as <-; same|]; destruct (_ =? 0); [injection E as <-; same|].
    destruct (delegate_read_memory _ _ _) as [[d|]|]; [| |discriminate]; injection E as <-; same. }
  destruct (x =? ch "M").
  { move=> E _; unfold GDB_write_memory in E; destruct (strtok (bytes "M,") _) as [? r1]; destruct (strtok (bytes ",:") r1) as [? r2].
    destruct (strtok (bytes ":") r2) as [d ?].
    destruct (strtol 16 _); [|discriminate]; destruct (strtol 10 _) as [n|]; [|discriminate]; cbn [andthen] in E.
    destruct (MAX_MEM_RANGE <=? _); [injection E as <-; same|]; destruct (word _ =? 0) in E; [injection E as <-; same|].
    destruct (match d with Some d => Done (read_pairs (N.to_nat (word n)) d) | None => if word n =? 0 then Done [] else Crash NullPointer end)
      as [dd|]; [|discriminate]; cbn [andthen] in E.
    destruct (delegate_write_memory _ _ _ _) as [[ok s1]|] eqn:W; [|discriminate]; cbn [andthen fst snd] in E; injection E as <-.
    exact (write_same _ _ _ _ _ _ W). }
  destruct (x =? ch "p").
  { move=> E _; unfold GDB_read_register in E; destruct (rest_of _); [|injection E as <-; same].
    destruct (strtol 16 _); [|discriminate]; cbn [andthen] in E; destruct (10 <=? _); [injection E as <-; same|].
    destruct (context_index _); injection E as <-; same. }
  destruct (x =? ch "P").
  { move=> E _; unfold GDB_write_register in E; destruct (strtok (bytes "=") _) as [? r1].
    destruct (strtol 16 _) as [n|]; [|discriminate]; cbn [andthen] in E; destruct (_ <? 13); [|injection E as <-; same].
    destruct r1; [discriminate|]; destruct (string_to_word _ _); [|discriminate]; cbn [andthen] in E.
    destruct (context_index _); injection E as <-; [destruct (_ =? 8)|]; same. }
  destruct (x =? ch "q").
  { move=> E _; unfold GDB_query in E; destruct (strtok (bytes "q:") _) as [[q|] ?]; cbn [fst] in E; [|discriminate].
    apply Done_inj in E; subst s'; destruct (List.find _ _); same. }
  destruct (x =? ch "s"); [move=> E _; injection E as <-; unfold GDB_step; destruct (_ && _); same|].
  destruct (x =? ch "v").
  { move=> E _; injection E as <-; destruct (starts _ _); [same|]; destruct (starts _ _); [|destruct (starts _ _); [same|]; destruct (starts _ _); same].
    unfold GDB_vcont; destruct (nth_error _ 7) as [y|]; [|same].
    destruct (_ =? _); [unfold GDB_continue; destruct (_ && _); same|]; destruct (_ =? _); [unfold GDB_step; destruct (_ && _); same|same]. }
  destruct (x =? ch "X").
  { move=> E _; unfold GDB_write_memory_binary in E; destruct (strtok (bytes "X,") _) as [? r1]; destruct (strtok (bytes ",:") r1) as [? r2].
    destruct (strtol 16 _); [|discriminate]; destruct (strtol 10 _) as [n|]; [|discriminate]; cbn [andthen] in E.
    destruct (word n =? 0); [injection E as <-; same|].
    destruct (strtok (bytes ":") r2) as [[d|] ?]; [|injection E as <-; same].
    destruct (MAX_MEM_RANGE <? _); [discriminate|].
    destruct (delegate_write_memory _ _ _ _) as [[ok s1]|] eqn:W; [|discriminate]; cbn [andthen fst snd] in E; injection E as <-.
    exact (write_same _ _ _ _ _ _ W). }
  destruct (N.eqb_spec x (ch "z")) as [->|]; [move=> E H; by destruct (H false eq_refl)|].
  destruct (N.eqb_spec x (ch "Z")) as [->|]; [move=> E H; by destruct (H true eq_refl)|].
  move=> E _; injection E as <-; same.
Qed.

Lemma command_mirror c s s' : handle_command c s = Done s' -> kslots s (tcb s) = table s ->
  kslots s' (tcb s') = table s' /\ tcb s' = tcb s /\ forall t, t <> tcb s -> kslots s' t = kslots s t.
Proof.
  move=> E K.
  have B: forall ins, GDB_breakpoint ins c s = Done s' -> kslots s' (tcb s') = table s' /\ tcb s' = tcb s /\ forall t, t <> tcb s -> kslots s' t = kslots s t.
  { move=> ins; unfold GDB_breakpoint; destruct (strtok (bytes ",") (tl c)) as [ty r].
    destruct (strtok (bytes ",") r) as [ad r']; destruct (strtok (bytes ",") r') as [si r''].
    destruct (strtol 16 ty) as [t|]; [|discriminate]; cbn [andthen].
    destruct (strtol 16 ad) as [a|]; [|discriminate]; cbn [andthen].
    destruct (strtol 16 si) as [z|]; [|discriminate]; cbn [andthen].
    destruct (word t =? 0); [move=> H; injection H as <-; by repeat split|].
    destruct (breakpoint_format (word t)) as [[bt rw]|]; [|move=> H; injection H as <-; by repeat split].
    set b := mk_bp _ _ _ _.
    destruct ins; [unfold delegate_insert_break|unfold delegate_remove_break].
    - destruct (find_free 0 (table s)) as [i|]; [destruct (accepts s b)|]; move=> H; injection H as <-; try (by repeat split).
      cbn; unfold kset; rewrite N.eqb_refl K; split; [done|]; split; [done|]; move=> u N; by destruct (N.eqb_spec u (tcb s)).
    - destruct (find_bp b 0 (table s)) as [i|]; move=> H; injection H as <-; try (by repeat split).
      cbn; unfold kset; rewrite N.eqb_refl K; split; [done|]; split; [done|]; move=> u N; by destruct (N.eqb_spec u (tcb s)). }
  destruct c as [|x r]; [cbn in E; injection E as <-; by repeat split|].
  destruct (N.eq_dec x (ch "z")) as [->|N1]; [by apply (B false)|].
  destruct (N.eq_dec x (ch "Z")) as [->|N2]; [by apply (B true)|].
  destruct (others_same _ _ _ E) as (S1 & S2 & S3 & S4).
  { by move=> ins X; destruct ins. }
  by rewrite S1 S2 S3.
Qed.
Lemma commands_mirror cs s s' : commands cs s = Done s' -> kslots s (tcb s) = table s ->
  kslots s' (tcb s') = table s' /\ tcb s' = tcb s /\ forall t, t <> tcb s -> kslots s' t = kslots s t.
Proof.
  revert s; induction cs as [|c cs IH] => s; cbn [commands]; [move=> E K; injection E as <-; by repeat split|].
  destruct (handle_command c s) as [s1|] eqn:E; [|discriminate] => E1 K.
  destruct (command_mirror _ _ _ E K) as (K1 & T1 & O1); destruct (IH _ E1 K1) as (K2 & T2 & O2).
  split; [done|]; split; [congruence|]; move=> t N; rewrite O2; [congruence|by apply O1].
Qed.
