(** Proofs: stopping and going on. *)
From Coq Require Import ssreflect String Ascii List NArith ZArith Lia Bool.
From Verif Require Import Gdb_Model Gdb_Spec Gdb_Proofs Gdb_Proofs3 Gdb_Proofs5 Gdb_Proofs6 GdbStop_Model GdbStop_Spec.
Import ListNotations.
Open Scope N_scope.

(** ** Commands that do not let the thread run *)
Definition kept (s s' : st) : Prop :=
  tcb s' = tcb s /\ stopped s' = stopped s /\ step_mode s' = step_mode s /\ stepping s' = stepping s /\ posted s' = posted s.
Lemma kept_refl s : kept s s. Proof. by repeat split. Qed.
Lemma copy_in_kept l a s s' : copy_in a l s = Done s' -> kept s s'.
Proof.
  revert a s; induction l as [|v l IH] => a s; cbn [copy_in]; [move=> E; injection E as <-; apply kept_refl|].
  destruct (at_ s a) as [[w [|]]|]; [|discriminate..].
  move=> H; apply IH in H; exact H.
Qed.
Lemma write_kept a n l s ok s' : delegate_write_memory a n l s = Done (ok, s') -> kept s s'.
Proof.
  unfold delegate_write_memory.
  destruct (_ || _); [move=> E; injection E as _ <-; apply kept_refl|].
  destruct (negb _); [discriminate|].
  destruct (negb _); [move=> E; injection E as _ <-; apply kept_refl|].
  destruct (copy_in a l s) as [s1|] eqn:E; [|discriminate]; cbn [andthen] => E1; injection E1 as _ <-.
  exact (copy_in_kept _ _ _ _ E).
Qed.

Ltac same := repeat split; reflexivity.
Lemma break_kept ins c s s' : GDB_breakpoint ins c s = Done s' -> kept s s'.
Proof.
  unfold GDB_breakpoint; destruct (strtok (bytes ",") (tl c)) as [ty r].
  destruct (strtok (bytes ",") r) as [ad r']; destruct (strtok (bytes ",") r') as [si r''].
  destruct (strtol 16 ty) as [t|]; [|discriminate]; cbn [andthen].
  destruct (strtol 16 ad) as [a|]; [|discriminate]; cbn [andthen].
  destruct (strtol 16 si) as [z|]; [|discriminate]; cbn [andthen].
  destruct (word t =? 0); [move=> H; injection H as <-; same|].
  destruct (breakpoint_format (word t)) as [[bt rw]|]; [|move=> H; injection H as <-; same].
  destruct ins; [unfold delegate_insert_break|unfold delegate_remove_break].
  - destruct (find_free 0 (table s)) as [i|]; [destruct (accepts s _)|]; move=> H; injection H as <-; same.
  - destruct (find_bp _ 0 (table s)) as [i|]; move=> H; injection H as <-; same.
Qed.
Lemma command_kept c s s' : handle_command c s = Done s' -> ~ resumes c -> (forall r, c <> bytes "vCont" ++ r) -> kept s s'.
Proof.
  destruct c as [|x r]; [cbn; move=> E _ _; injection E as <-; same|].
  unfold handle_command.
  destruct (x =? ch "?"); [move=> E _ _; injection E as <-; unfold GDB_stop_reason; destruct (stopped s); same|].
  destruct (N.eqb_spec x (ch "c")) as [->|]; [move=> _ R; destruct R; exists (ch "c"), r; split; [done|by left]|].
  destruct (x =? ch "g"); [move=> E _ _; injection E as <-; same|].
  destruct (x =? ch "G").
  { move=> E _ _; unfold GDB_write_general_registers in E; destruct (rest_of _); [|discriminate].
    destruct (fill_context _ _ _ _ _); [|discriminate]; cbn [andthen] in E; injection E as <-; same. }
  destruct (x =? ch "H"); [move=> E _ _; injection E as <-; same|].
  destruct (x =? ch "m").
  { move=> E _ _; unfold GDB_read_memory in E; destruct (strtok (bytes "m,") _) as [? r1]; destruct (strtok (bytes ",") r1) as [? r2].
    destruct (strtol 16 _); [|discriminate]; destruct (strtol 10 _); [|discriminate]; cbn [andthen] in E.
    destruct (MAX_MEM_RANGE <=? _); [injection E as <-; same|]; destruct (_ =? 0); [injection E as <-; same|].
    destruct (delegate_read_memory _ _ _) as [[d|]|]; [| |discriminate]; injection E as <-; same. }
  destruct (x =? ch "M").
  { move=> E _ _; unfold GDB_write_memory in E; destruct (strtok (bytes "M,") _) as [? r1]; destruct (strtok (bytes ",:") r1) as [? r2].
    destruct (strtok (bytes ":") r2) as [d ?].
    destruct (strtol 16 _); [|discriminate]; destruct (strtol 10 _) as [nn|]; [|discriminate]; cbn [andthen] in E.
    destruct (MAX_MEM_RANGE <=? _); [injection E as <-; same|]; destruct (word _ =? 0) in E; [injection E as <-; same|].
    destruct (match d with Some d => Done (read_pairs (N.to_nat (word nn)) d) | None => if word nn =? 0 then Done [] else Crash NullPointer end)
      as [dd|]; [|discriminate]; cbn [andthen] in E.
    destruct (delegate_write_memory _ _ _ _) as [[ok s1]|] eqn:W; [|discriminate]; cbn [andthen fst snd] in E; injection E as <-.
    exact (write_kept _ _ _ _ _ _ W). }
  destruct (x =? ch "p").
  { move=> E _ _; unfold GDB_read_register in E; destruct (rest_of _); [|injection E as <-; same].
    destruct (strtol 16 _); [|discriminate]; cbn [andthen] in E; destruct (10 <=? _); [injection E as <-; same|].
    destruct (context_index _); injection E as <-; same. }
  destruct (x =? ch "P").
  { move=> E _ _; unfold GDB_write_register in E; destruct (strtok (bytes "=") _) as [? r1].
    destruct (strtol 16 _) as [nn|]; [|discriminate]; cbn [andthen] in E; destruct (_ <? 13); [|injection E as <-; same].
    destruct r1; [discriminate|]; destruct (string_to_word _ _); [|discriminate]; cbn [andthen] in E.
    destruct (context_index _); injection E as <-; [destruct (_ =? 8)|]; same. }
  destruct (x =? ch "q").
  { move=> E _ _; unfold GDB_query in E; destruct (strtok (bytes "q:") _) as [[q|] ?]; cbn [fst] in E; [|discriminate].
    apply Done_inj in E; subst s'; destruct (List.find _ _); same. }
  destruct (N.eqb_spec x (ch "s")) as [->|]; [move=> _ R; destruct R; exists (ch "s"), r; split; [done|right; by left]|].
  destruct (N.eqb_spec x (ch "v")) as [->|].
  { move=> E _ V; injection E as <-; destruct (starts "Cont?" r); [same|]; destruct (starts "Cont" r) eqn:S; [|destruct (starts "Kill" r); [same|]; destruct (starts "MustReplyEmpty" r); same].
    apply starts_iff in S; destruct S as [q ->]; by destruct (V q). }
  destruct (x =? ch "X").
  { move=> E _ _; unfold GDB_write_memory_binary in E; destruct (strtok (bytes "X,") _) as [? r1]; destruct (strtok (bytes ",:") r1) as [? r2].
    destruct (strtol 16 _); [|discriminate]; destruct (strtol 10 _) as [nn|]; [|discriminate]; cbn [andthen] in E.
    destruct (word nn =? 0); [injection E as <-; same|].
    destruct (strtok (bytes ":") r2) as [[d|] ?]; [|injection E as <-; same].
    destruct (MAX_MEM_RANGE <? _); [discriminate|].
    destruct (delegate_write_memory _ _ _ _) as [[ok s1]|] eqn:W; [|discriminate]; cbn [andthen fst snd] in E; injection E as <-.
    exact (write_kept _ _ _ _ _ _ W). }
  destruct (x =? ch "z"); [move=> E _ _; exact (break_kept _ _ _ _ E)|].
  destruct (x =? ch "Z"); [move=> E _ _; exact (break_kept _ _ _ _ E)|].
  move=> E _ _; injection E as <-; same.
Qed.
Lemma commands_kept cs s s' : stays cs -> commands cs s = Done s' -> kept s s'.
Proof.
  move=> F; revert s; induction F as [|c cs [R V] F IH] => s; cbn [commands]; [move=> E; injection E as <-; apply kept_refl|].
  destruct (handle_command c s) as [s1|] eqn:E; [|discriminate] => E1.
  destruct (command_kept _ _ _ E R V) as (K1 & K2 & K3 & K4 & K5); destruct (IH _ E1) as (L1 & L2 & L3 & L4 & L5).
  repeat split; congruence.
Qed.

(** ** Reports *)
Lemma nibble_high a k : a / 16 ^ (2 * k + 1) mod 16 = a / 256 ^ k mod 256 / 16.
Proof.
  have ->: 16 ^ (2 * k + 1) = 256 ^ k * 16 by rewrite N.pow_add_r N.pow_mul_r.
  have NZ: 256 ^ k <> 0 by apply N.pow_nonzero.
  rewrite -(N.div_div a (256 ^ k) 16 NZ ltac:(done)).
  set b := a / 256 ^ k; clearbody b.
  have H := N.div_mod b 256 ltac:(lia); have L := N.mod_lt b 256 ltac:(lia).
  have H1 := N.div_mod (b / 16) 16 ltac:(lia); have L1 := N.mod_lt (b / 16) 16 ltac:(lia).
  have H2 := N.div_mod b 16 ltac:(lia); have L2 := N.mod_lt b 16 ltac:(lia).
  have H3 := N.div_mod (b mod 256) 16 ltac:(lia); have L3 := N.mod_lt (b mod 256) 16 ltac:(lia).
  lia.
Qed.
Lemma nibble_low a k : a / 16 ^ (2 * k) mod 16 = a / 256 ^ k mod 256 mod 16.
Proof.
  have ->: 16 ^ (2 * k) = 256 ^ k by rewrite N.pow_mul_r.
  set b := a / 256 ^ k; clearbody b.
  have H := N.div_mod b 256 ltac:(lia); have L := N.mod_lt b 256 ltac:(lia).
  have H2 := N.div_mod b 16 ltac:(lia); have L2 := N.mod_lt b 16 ltac:(lia).
  have H3 := N.div_mod (b mod 256) 16 ltac:(lia); have L3 := N.mod_lt (b mod 256) 16 ltac:(lia).
  lia.
Qed.
Lemma hex8_address a : hex8 a = hex_address a.
Proof.
  have D: forall k, [hex_digit false (a / 16 ^ (2 * k + 1) mod 16); hex_digit false (a / 16 ^ (2 * k) mod 16)] = hex_of_byte (a / 256 ^ k mod 256).
  { move=> k; rewrite nibble_high nibble_low -hex2_of_byte; [by apply N.mod_lt|].
    unfold hex2; rewrite (N.mod_small (_ / 16) 16) //; apply N.div_lt_upper_bound; [done|].
    exact (N.mod_lt _ 256 ltac:(lia)). }
  unfold hex_address, hex8; cbn [flat_map map].
  have D3 := D 3; have D2 := D 2; have D1 := D 1; have D0 := D 0.
  change (2 * 3 + 1) with 7 in D3; change (2 * 3) with 6 in D3; change (2 * 2 + 1) with 5 in D2; change (2 * 2) with 4 in D2.
  change (2 * 1 + 1) with 3 in D1; change (2 * 1) with 2 in D1; change (2 * 0 + 1) with 1 in D0; change (2 * 0) with 0 in D0.
  change (256 ^ 3) with 16777216 in D3; change (256 ^ 2) with 65536 in D2; change (256 ^ 1) with 256 in D1; change (256 ^ 0) with 1 in D0.
  rewrite N.div_1_r in D0.
  change (16 ^ 0) with 1; rewrite -D3 -D2 -D1 -D0 N.div_1_r; reflexivity.
Qed.

Lemma report_plain c : ~ In 10 (report c) /\ (List.length (report c) <= 250)%nat.
Proof.
  destruct c as [a| | |]; try (split; [vm_compute; intuition discriminate|cbn; lia]).
  unfold report; rewrite -hex8_address; split.
  - apply plain_no10; unfold plain; rewrite !Forall_app; repeat split; try (apply plain_check; vm_compute; reflexivity).
    apply plain_check, hex8_plain.
  - rewrite !app_length; cbn; lia.
Qed.

Definition reason_of (c : cause) (stepped : bool) : reason :=
  match c with
  | Watchpoint _ => stop_watch
  | Breakpoint => stop_hw_break
  | Stepped => if stepped then stop_step else stop_none
  | SoftwareBreak => stop_sw_break
  end.
(** The state after a stop. *)
Lemma stop_state t ip c n s : exists w,
  stop (debug_message t ip c n) s =
    Done (put (frame (report c))
      (let p := match c with SoftwareBreak => (ip + (2 ^ 32 - 1)) mod 2 ^ 32 | _ => ip end in
       mk_st (mem s)
        (match c with SoftwareBreak => fun x => if x =? t then set_nth 0 p (regs s t) else regs s x | _ => regs s end)
        (table s) (kslots s) (accepts s) (stepping s) t p false (reason_of c (step_mode s)) w
        (posted s) (junk s) (uninit s) (out s))).
Proof.
  have R := send_frame (report c) _ (proj2 (report_plain c)) (proj1 (report_plain c)).
  destruct c as [a| | |]; unfold stop; cbn [debug_message f_args List.length Nat.ltb Nat.leb].
  - exists a; rewrite -R; unfold report; rewrite -hex8_address; reflexivity.
  - exists (watch_addr s); rewrite -R; reflexivity.
  - exists (watch_addr s); rewrite -R; unfold find_stop_reason, arg; cbn [f_kind f_args nth debug_message].
    cbn [N.eqb Pos.eqb single_step andb step_mode set_pc set_tcb].
    by destruct (step_mode s).
  - exists (watch_addr s); rewrite -R; reflexivity.
Qed.

Lemma stop_reported t ip c n s : ip < 2 ^ 32 -> (c = SoftwareBreak -> 0 < ip) -> List.length (regs s t) = 12%nat ->
  exists s', stop (debug_message t ip c n) s = Done s' /\
    out s' = out s ++ frame (report c) /\ tcb s' = t /\ pc s' = stopped_at c ip /\ same_machine s s' /\
    (c = SoftwareBreak -> register (regs s' t) "eip" = ip - 1) /\
    (forall u r, u <> t \/ c <> SoftwareBreak \/ r <> "eip"%string -> register (regs s' u) r = register (regs s u) r).
Proof.
  move=> L P LR; destruct (stop_state t ip c n s) as [w ->]; eexists; split; [reflexivity|].
  split; [reflexivity|]; split; [reflexivity|].
  have W: 0 < ip -> (ip + (2 ^ 32 - 1)) mod 2 ^ 32 = ip - 1.
  { move=> Q; have ->: ip + (2 ^ 32 - 1) = ip - 1 + 1 * 2 ^ 32 by lia.
    rewrite N.mod_add //; apply N.mod_small; lia. }
  split; [destruct c; try reflexivity; cbn; exact (W (P eq_refl))|].
  split; [repeat split|]; split.
  - move=> E; subst c; cbn [regs put]; rewrite N.eqb_refl (register_set _ 0 _ "eip" "eip" LR) //; exact (W (P eq_refl)).
  - destruct c; try reflexivity; cbn [regs put] => u r H.
    destruct (N.eqb_spec u t) as [->|]; [|reflexivity].
    rewrite (register_set _ 0 _ "eip" r LR) //.
    destruct (String.eqb_spec r "eip") as [->|]; [|reflexivity].
    by destruct H as [H|[H|H]].
Qed.

(** ** Rounds *)
Lemma round_step t ip c n cs r s o s' :
  stays cs -> round (debug_message t ip c n) cs r s = Done (o, s') ->
  (c = Stepped -> step_mode s = true) -> (r = Continue -> c = Stepped \/ stepping s t = false) ->
  o = asked r /\ step_mode s' = (match r with Step => true | Continue => false end) /\
  stepping s' t = (match r with Step => true | Continue => false end).
Proof.
  move=> ST; unfold round; destruct (stop_state t ip c n s) as [w ->].
  set s1 := put _ _.
  destruct (commands cs s1) as [s2|] eqn:C; [|discriminate].
  destruct (commands_kept _ _ _ ST C) as (K1 & K2 & K3 & K4 & _).
  cbn in K1, K2, K3, K4.
  destruct r; cbn [letter asked].
  - change (handle_command (bytes "s") s2) with (Done (GDB_step s2)) => E M _.
    have GS: GDB_step s2 = post (set_step_mode true (if match reason_of c (step_mode s) with stop_step => true | _ => false end then s2 else delegate_single_step t true s2)).
    { unfold GDB_step; rewrite K3 K2 K1; cbn [negb andb]; by destruct (reason_of c (step_mode s)). }
    injection E; clear E; rewrite GS; clear GS.
    destruct c as [a| | |]; cbn [reason_of]; try (rewrite M //).
    + unfold restart; cbn [debug_message f_kind arg f_args nth]; cbn [N.eqb single_step Pos.eqb].
      cbn; rewrite K1 N.eqb_refl => E; injection E as <- <-; cbn; by rewrite N.eqb_refl.
    + unfold restart; cbn [debug_message f_kind arg f_args nth]; cbn [N.eqb single_step Pos.eqb].
      cbn; rewrite K1 N.eqb_refl => E; injection E as <- <-; cbn; by rewrite N.eqb_refl.
    + unfold restart, reply; cbn; rewrite K2 M //=; cbn; rewrite K1 => E; injection E as <- <-; cbn; by rewrite N.eqb_refl.
    + unfold restart; cbn [debug_message f_kind arg f_args nth]; cbn [N.eqb single_step Pos.eqb].
      cbn; rewrite K1 N.eqb_refl => E; injection E as <- <-; cbn; by rewrite N.eqb_refl.
  - change (handle_command (bytes "c") s2) with (Done (GDB_continue s2)) => E M H; specialize (H eq_refl).
    have GS: GDB_continue s2 = post (set_step_mode false s2) by unfold GDB_continue; rewrite K3.
    injection E; clear E; rewrite GS; clear GS.
    destruct H as [->|H].
    + unfold restart, reply; cbn; rewrite K2 (M eq_refl) //=; cbn; rewrite K1 => E; injection E as <- <-; cbn; by rewrite N.eqb_refl.
    + destruct c as [a| | |]; try (unfold restart; cbn; rewrite K1 K4 H => E; injection E as <- <-; cbn; by rewrite K4).
      unfold restart, reply; cbn; rewrite K2 (M eq_refl) //=; cbn; rewrite K1 => E; injection E as <- <-; cbn; by rewrite N.eqb_refl.
Qed.
Lemma session_runs t es r s ns s' : Forall (fun e => stays (e_commands e)) es ->
  consistent r es -> step_mode s = (match r with Step => true | Continue => false end) ->
  stepping s t = (match r with Step => true | Continue => false end) ->
  session t es s = Done (ns, s') -> ns = map (fun e => asked (e_then e)) es.
Proof.
  move=> F; revert r s ns; induction F as [|e es ST F IH] => r s ns; cbn [session consistent].
  - move=> _ _ _ E; by injection E as <- _.
  - move=> [C CS] M P.
    destruct (round _ _ _ _) as [[o s1]|] eqn:R; [|discriminate].
    destruct (session t es s1) as [[ns1 s2]|] eqn:E; [|discriminate] => E1; injection E1 as <- <-.
    destruct (round_step _ _ _ _ _ _ _ _ _ ST R) as (-> & M1 & P1).
    + move=> Q; apply C in Q; by rewrite M Q.
    + move=> _; destruct r; [left; by apply C|by right].
    + cbn [map]; f_equal; exact (IH (e_then e) s1 ns1 CS M1 P1 E).
Qed.

Lemma query_repeats t ip c n s s' : (forall a, c <> Watchpoint a) -> stop (debug_message t ip c n) s = Done s' ->
  exists s'', handle_command (bytes "?") s' = Done s'' /\ only_sends (report c) s' s''.
Proof.
  move=> NW; destruct (stop_state t ip c n s) as [w ->] => E; apply Done_inj in E; subst s'.
  eexists; split; [reflexivity|].
  have R := fun s => send_frame (report c) s (proj2 (report_plain c)) (proj1 (report_plain c)).
  unfold only_sends; rewrite -R; unfold GDB_stop_reason.
  destruct c as [a| | |]; [by destruct (NW a)|reflexivity| |reflexivity].
  cbn [stopped put reason_of]; by destruct (step_mode s).
Qed.

(** ** Other faults *)
Lemma other_stop t args s : (List.length args <= 4)%nat ->
  exists s', stop (mk_message t OtherFault args) s = Done s' /\
    out s' = out s ++ frame (bytes "T05thread:01;") /\ tcb s' = t /\ pc s' = nth 0 args 0 /\
    stopped s' = stop_none /\ step_mode s' = false /\ regs s' = regs s /\ same_machine s s'.
Proof.
  move=> L; unfold stop; cbn [f_args].
  destruct (Nat.ltb_spec 4 (List.length args)); [lia|].
  eexists; split; [reflexivity|]. repeat split.
Qed.
Lemma other_round t args cs r s o s' : (List.length args <= 4)%nat ->
  stays cs -> round (mk_message t OtherFault args) cs r s = Done (o, s') ->
  (r = Continue -> stepping s t = false) ->
  o = asked r /\ stepping s' t = (match r with Step => true | Continue => false end).
Proof.
  move=> L ST; unfold round.
  destruct (other_stop t args s L) as (s1 & -> & _ & T & _ & R & M & _ & (_ & _ & _ & SP & _)).
  destruct (commands cs s1) as [s2|] eqn:C; [|discriminate].
  destruct (commands_kept _ _ _ ST C) as (K1 & K2 & K3 & K4 & _).
  destruct r; cbn [letter asked].
  - change (handle_command (bytes "s") s2) with (Done (GDB_step s2)).
    have GS: GDB_step s2 = post (set_step_mode true (delegate_single_step (tcb s2) true s2)).
    { unfold GDB_step. by rewrite K2 R K3 M. }
    rewrite GS. unfold restart. cbn. rewrite N.eqb_refl => E _; injection E as <- <-; cbn; by rewrite K1 T N.eqb_refl.
  - change (handle_command (bytes "c") s2) with (Done (GDB_continue s2)).
    have GS: GDB_continue s2 = post (set_step_mode false s2) by unfold GDB_continue; rewrite K3 M.
    rewrite GS. unfold restart. cbn. rewrite K4 K1 T SP => E H; specialize (H eq_refl); rewrite H in E; injection E as <- <-; cbn; by rewrite K4 SP H.
Qed.
