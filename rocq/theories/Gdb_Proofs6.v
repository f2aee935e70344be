(** Proofs: register and breakpoint commands. *)
From Coq Require Import ssreflect String Ascii List NArith ZArith Lia Bool.
From Verif Require Import Gdb_Model Gdb_Spec Gdb_Proofs Gdb_Proofs3 Gdb_Proofs4 Gdb_Proofs5.
Import ListNotations.
Open Scope N_scope.

(** ** Registers *)
Lemma twelve (l : list N) : List.length l = 12%nat ->
  exists a b c d e f g h i j k m, l = [a; b; c; d; e; f; g; h; i; j; k; m].
Proof.
  move=> L; do 12 (destruct l as [|? l]; [discriminate L|]); destruct l; [|discriminate L]. by do 12 eexists.
Qed.

Lemma general_registers s : List.length (regs s (tcb s)) = 12%nat ->
  exists s', handle_command (bytes "g") s = Done s' /\
    only_sends (flat_map (fun r => hex_word (register (regs s (tcb s)) r)) gdb_registers) s s'.
Proof.
  move=> L; eexists; split; [reflexivity|]; unfold only_sends, GDB_read_general_registers.
  set m := flat_map _ _; set m' := flat_map _ gdb_registers.
  have E: m = m'.
  { unfold m, m'; destruct (twelve _ L) as (a & b & c & d & e & f & g & h & i & j & k & l & ->).
    cbn [flat_map gdb_registers]; rewrite !hex_word_swap; reflexivity. }
  rewrite -E; apply send_frame.
  - unfold m; rewrite (flat_map_length _ 8) //; cbn; lia.
  - apply plain_no10, plain_flat => n; apply hex8_plain.
Qed.

(** The numbers of the registers that can be accessed one by one. *)
Lemma index_name n name ctx : n < 10 -> List.length ctx = 12%nat -> nth_error gdb_registers (N.to_nat n) = Some name ->
  exists i, context_index n = Some i /\ (i < 12) /\ nth_error context_registers (N.to_nat i) = Some name /\ nth (N.to_nat i) ctx 0 = register ctx name.
Proof.
  move=> L LC E; destruct (twelve _ LC) as (a & b & c & d & e & f & g & h & i & j & k & l & ->).
  have C: n = 0 \/ n = 1 \/ n = 2 \/ n = 3 \/ n = 4 \/ n = 5 \/ n = 6 \/ n = 7 \/ n = 8 \/ n = 9 by lia.
  repeat destruct C as [C|C]; subst n; vm_compute in E; injection E as <-; eexists; (split; [reflexivity|]); (split; [lia|]); by split.
Qed.

Lemma rest_nonempty x t : t <> [] -> rest_of (x :: t) = Some t.
Proof. unfold rest_of; cbn; by destruct t. Qed.

Lemma one_register h n name s : hex_text h n -> n < 10 -> nth_error gdb_registers (N.to_nat n) = Some name ->
  List.length (regs s (tcb s)) = 12%nat ->
  exists s', handle_command (bytes "p" ++ h) s = Done s' /\ only_sends (hex_word (register (regs s (tcb s)) name)) s s'.
Proof.
  move=> H LN E L.
  have HC: handle_command (bytes "p" ++ h) s = GDB_read_register (ch "p" :: h) s by reflexivity.
  rewrite HC; clear HC.
  unfold GDB_read_register; rewrite rest_nonempty; [by destruct H|].
  destruct (strtol_hex _ _ H) as [z [-> Z]]; cbn [andthen]; rewrite Z; [lia|].
  destruct (N.leb_spec 10 n); [lia|].
  destruct (index_name n name _ LN L E) as (i & -> & _ & _ & V).
  eexists; split; [reflexivity|]; unfold only_sends, delegate_read_register; rewrite V hex_word_swap.
  rewrite -hex_word_swap; apply send_frame; [cbn; lia|]; apply plain_no10, plain_check, hex8_plain.
Qed.
Lemma other_register h n s : hex_text h n -> 10 <= n < 2 ^ 31 ->
  exists s', handle_command (bytes "p" ++ h) s = Done s' /\ only_sends (bytes "E00") s s'.
Proof.
  move=> H LN.
  have HC: handle_command (bytes "p" ++ h) s = GDB_read_register (ch "p" :: h) s by reflexivity.
  rewrite HC; clear HC.
  unfold GDB_read_register; rewrite rest_nonempty; [by destruct H|].
  destruct (strtol_hex _ _ H) as [z [-> Z]]; cbn [andthen]; rewrite Z; [lia|].
  destruct (N.leb_spec 10 n); [|lia]; eexists; split; [reflexivity|]; apply say_frame; [cbn; lia|reflexivity].
Qed.

(** Eight digits, then something that is not a digit. *)
Lemma magnitude_hex_long t v x r : hex_text t v -> (2 <= List.length t)%nat -> digit_in 16 x = None ->
  magnitude 16 (t ++ x :: r) = Done (false, Z.of_N v).
Proof.
  move=> [NE [ds [F ->]]] L X; unfold magnitude.
  destruct F as [|c d t ds H F]; [by destruct NE|].
  destruct (hex_plain _ _ H) as (S1 & S2 & S3 & S4 & S5 & _).
  have FD: Forall2 (fun c d => digit_in 16 c = Some d) (c :: t) (d :: ds).
  { constructor; [by apply hex_digit_in|]. clear -F; induction F; constructor; auto using hex_digit_in. }
  cbn [List.app skip_spaces]; rewrite S1; unfold sign; rewrite S2 S3.
  have P: prefix 16 (c :: t ++ x :: r) = Done (c :: t ++ x :: r).
  { unfold prefix; destruct F as [|c' d' t ds H' F]; [cbn in L; lia|]; cbn [List.app].
    destruct (hex_plain _ _ H') as (_ & _ & _ & S4' & S5' & _); by rewrite S4' S5' andb_false_r. }
  rewrite P; cbn [andthen].
  change (c :: t ++ x :: r) with ((c :: t) ++ x :: r).
  rewrite (digits_app 16 0%Z _ _ _ _ FD X); cbn [andthen].
  change 0%Z with (Z.of_N 0); rewrite fold_number; reflexivity.
Qed.
Lemma not_hex_digit x : (forall v, ~ hex_value x v) -> digit_in 16 x = None.
Proof.
  move=> N; unfold digit_in, digit_value.
  have K: forall d, d < 16 -> x = hex_digit false d \/ x = hex_digit true d -> False.
  { move=> d L E; apply (N d); destruct E as [->| ->]; [left; rewrite hex_digit_lower //|right; rewrite hex_digit_upper //];
      apply nth_error_nth'; cbn; lia. }
  destruct (N.leb_spec 48 x), (N.leb_spec x 57); cbn [andb].
  1: { exfalso; apply (K (x - 48)); [lia|]; left; unfold hex_digit; destruct (N.ltb_spec (x - 48) 10); lia. }
  all: destruct (N.leb_spec 97 x), (N.leb_spec x 122); cbn [andb].
  all: try (destruct (N.ltb_spec (x - 97 + 10) 16); [|reflexivity]; exfalso; apply (K (x - 97 + 10)); [lia|]; left; unfold hex_digit; destruct (N.ltb_spec (x - 97 + 10) 10); lia).
  all: destruct (N.leb_spec 65 x), (N.leb_spec x 90); cbn [andb]; try reflexivity.
  all: destruct (N.ltb_spec (x - 65 + 10) 16); [|reflexivity]; exfalso; apply (K (x - 65 + 10)); [lia|]; right; unfold hex_digit; destruct (N.ltb_spec (x - 65 + 10) 10); lia.
Qed.

Lemma hex_value_of c v : digit_in 16 c = Some v -> hex_value c v.
Proof.
  move=> E; have L: v < 16.
  { unfold digit_in in E; destruct (digit_value c); [|discriminate]; destruct (N.ltb_spec n 16); [|discriminate]; by injection E as <-. }
  have C: c = hex_digit false v \/ c = hex_digit true v.
  { unfold digit_in, digit_value in E; unfold hex_digit.
    destruct (N.leb_spec 48 c), (N.leb_spec c 57), (N.leb_spec 97 c), (N.leb_spec c 122), (N.leb_spec 65 c), (N.leb_spec c 90); cbn [andb] in E;
      try discriminate E; try lia; (destruct (_ <? 16) in E; [|discriminate E]); injection E as E; destruct (N.ltb_spec v 10); lia. }
  destruct C as [->| ->]; [left; rewrite hex_digit_lower //|right; rewrite hex_digit_upper //]; apply nth_error_nth'; cbn; lia.
Qed.
Lemma hex_bytes_length t vs : hex_bytes t vs -> List.length t = (List.length vs * 2)%nat.
Proof.
  unfold hex_bytes => F.
  have -> : List.length t = List.length (flat_map (fun v => [v / 16; v mod 16]) vs) by induction F; cbn; auto.
  by rewrite (flat_map_length _ 2).
Qed.
Lemma number_bound ds : Forall (fun d => d < 16) ds -> forall acc, fold_left (fun a d => 16 * a + d) ds acc < (acc + 1) * 16 ^ N.of_nat (List.length ds).
Proof.
  induction 1 as [|d ds L F IH] => acc; [cbn; lia|]; cbn [fold_left List.length].
  have := IH (16 * acc + d); rewrite Nat2N.inj_succ N.pow_succ_r'.
  have P: 0 < 16 ^ N.of_nat (List.length ds) by apply N.neq_0_lt_0, N.pow_nonzero; lia.
  nia.
Qed.
Lemma word_text d v j junk : hex_bytes d (little_endian v) -> v < 2 ^ 32 -> (forall u, ~ hex_value j u) ->
  exists w, string_to_word d (j :: junk) = Done w /\ bswap w = v.
Proof.
  move=> D L J; unfold string_to_word.
  have LD := hex_bytes_length _ _ D; cbn in LD.
  have -> : firstn 8 (d ++ repeat 0 8) = d.
  { rewrite firstn_app (firstn_all2 d); [lia|]; rewrite LD Nat.sub_diag firstn_O; by rewrite app_nil_r. }
  set n := number 16 (flat_map (fun b => [b / 16; b mod 16]) (little_endian v)).
  have HT: hex_text d n.
  { split; [by move=> E; subst d|]; eexists; split; [exact D|reflexivity]. }
  unfold strtoul_mem; rewrite (magnitude_hex_long d n j junk HT); [lia|by apply not_hex_digit|].
  cbn [andthen fst snd].
  have B: n < 2 ^ 32.
  { unfold n, number; eapply N.lt_le_trans; [apply number_bound|cbn; lia].
    apply Forall_forall => x I; apply in_flat_map in I; destruct I as [b [I [E|[E|[]]]]]; subst x; [|apply N.mod_lt; lia].
    apply N.div_lt_upper_bound; [lia|]; cbn in I.
    repeat (destruct I as [<-|I]; [apply N.mod_lt; lia|]); destruct I. }
  destruct (Z.ltb_spec (2 ^ 32 - 1) (Z.of_N n)); [lia|].
  eexists; split; [reflexivity|].
  unfold word; rewrite Z.mod_small; [lia|]; rewrite N2Z.id; by apply swap_number.
Qed.

Lemma set_nth_length l i v : List.length (set_nth i v l) = List.length l.
Proof. revert i; induction l as [|x l IH] => i; destruct i; cbn; auto. Qed.
Lemma register_set ctx i v name name' : List.length ctx = 12%nat -> i < 12 -> nth_error context_registers (N.to_nat i) = Some name ->
  register (set_nth (N.to_nat i) v ctx) name' = if String.eqb name' name then v else register ctx name'.
Proof.
  move=> L LI E; destruct (twelve _ L) as (a & b & c & d & e & f & g & h & i' & j & k & l & ->).
  have X: forall u w : string, String.eqb u w = String.eqb w u by apply String.eqb_sym.
  have LK: (N.to_nat i < 12)%nat by lia.
  clear L LI; move: E LK; generalize (N.to_nat i) => m E LK.
  do 12 (destruct m as [|m]; [cbn in E; injection E as <-; rewrite X; cbn [set_nth]; unfold register; cbn [combine context_registers find fst];
    repeat (match goal with |- context [String.eqb ?n name'] => destruct (String.eqb_spec n name') as [<-|?] end; [reflexivity|]); reflexivity|]).
  lia.
Qed.

Lemma write_one_register h n name d v j jr s : hex_text h n -> n < 10 -> nth_error gdb_registers (N.to_nat n) = Some name ->
  List.length (regs s (tcb s)) = 12%nat -> hex_bytes d (little_endian v) -> v < 2 ^ 32 ->
  junk s = j :: jr -> (forall u, ~ hex_value j u) ->
  exists s', handle_command (bytes "P" ++ h ++ bytes "=" ++ d) s = Done s' /\
    (forall r, register (regs s' (tcb s)) r = if String.eqb r name then v else register (regs s (tcb s)) r) /\
    List.length (regs s' (tcb s)) = 12%nat /\ (forall t, t <> tcb s -> regs s' t = regs s t) /\
    pc s' = (if String.eqb name "eip" then v else pc s) /\ out s' = out s ++ frame (bytes "OK") /\
    mem s' = mem s /\ table s' = table s /\ kslots s' = kslots s /\ tcb s' = tcb s /\ posted s' = posted s.
Proof.
  move=> H LN E L D LV JS J.
  have LD := hex_bytes_length _ _ D; cbn in LD.
  have GO: GDB_write_register (ch "P" :: h ++ ch "=" :: d) s =
    match context_index n with
    | None => Done (say "OK" s)
    | Some i => Done (say "OK" (if n =? 8 then set_pc v (delegate_write_register (tcb s) v i s) else delegate_write_register (tcb s) v i s))
    end.
  { unfold GDB_write_register; cbn [tl].
    rewrite (strtok_at (bytes "=") h (ch "=") d); [tok_free H|by destruct H|reflexivity|].
    destruct (strtol_hex _ _ H) as [z [-> Z]]; cbn [andthen]; rewrite Z; [lia|].
    destruct (N.ltb_spec n 13); [|lia].
    destruct d as [|d0 d]; [discriminate LD|].
    destruct (word_text _ _ _ jr D LV J) as [w [W1 W2]]; rewrite JS W1; cbn [andthen]; by rewrite W2. }
  have HC: handle_command (bytes "P" ++ h ++ bytes "=" ++ d) s = GDB_write_register (ch "P" :: h ++ ch "=" :: d) s by reflexivity.
  rewrite HC; clear HC.
  rewrite GO; destruct (index_name n name _ LN L E) as (i & -> & LI & NI & _).
  have PCN: (n =? 8) = String.eqb name "eip".
  { have C: n = 0 \/ n = 1 \/ n = 2 \/ n = 3 \/ n = 4 \/ n = 5 \/ n = 6 \/ n = 7 \/ n = 8 \/ n = 9 by lia.
    repeat destruct C as [C|C]; subst n; vm_compute in E; injection E as <-; reflexivity. }
  rewrite PCN; eexists; split; [reflexivity|].
  rewrite say_frame; [cbn; lia|reflexivity|].
  have RS: forall r, register (set_nth (N.to_nat i) v (regs s (tcb s))) r = if String.eqb r name then v else register (regs s (tcb s)) r.
  { move=> r; by apply register_set. }
  destruct (String.eqb name "eip");
    cbn [put regs tcb pc out mem table kslots posted set_pc delegate_write_register set_thread_regs set_regs];
    rewrite N.eqb_refl; (split; [exact RS|]); (split; [by rewrite set_nth_length|]);
    (split; [by move=> t NT; destruct (N.eqb_spec t (tcb s))|]); by repeat split.
Qed.

(** Writing all registers changes none. *)
Lemma write_all_nothing c s s' : handle_command (bytes "G" ++ c) s = Done s' -> forall t, regs s' t = regs s t.
Proof.
  move=> E t.
  change (handle_command (bytes "G" ++ c) s) with (GDB_write_general_registers (ch "G" :: c) s) in E.
  unfold GDB_write_general_registers in E; destruct (rest_of _) as [d|]; [|discriminate].
  destruct (fill_context _ _ _ _ _) as [ctx|]; [|discriminate]; cbn [andthen] in E; injection E as <-.
  cbn [say send gdb_printf put regs set_pc delegate_write_registers set_thread_regs set_regs].
  by destruct (N.eqb_spec t (tcb s)) as [->|].
Qed.
