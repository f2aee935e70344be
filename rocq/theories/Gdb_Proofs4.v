(** Proofs: memory commands. *)
From Coq Require Import ssreflect String Ascii List NArith ZArith Lia Bool.
From Verif Require Import Gdb_Model Gdb_Spec Gdb_Proofs Gdb_Proofs3.
Import ListNotations.
Open Scope N_scope.

(** ** Tokens *)
Definition free (delims t : list N) : Prop := Forall (fun c => mem_N c delims = false) t.
Lemma split_free delims t : free delims t -> split_at delims t = (t, []).
Proof. induction 1 as [|c t H F IH]; [reflexivity|]; cbn; by rewrite H IH. Qed.
Lemma split_free_at delims t d r : free delims t -> mem_N d delims = true -> split_at delims (t ++ d :: r) = (t, r).
Proof. move=> F D; induction F as [|c t H F IH]; cbn; [by rewrite D|by rewrite H IH]. Qed.
Lemma strtok_all delims t : free delims t -> t <> [] -> strtok delims t = (Some t, []).
Proof.
  move=> F NE; unfold strtok; destruct F as [|c t H F]; [done|]; cbn [strspn_drop]; rewrite H.
  by rewrite split_free; [constructor|].
Qed.
Lemma strtok_at delims t d r : free delims t -> t <> [] -> mem_N d delims = true -> strtok delims (t ++ d :: r) = (Some t, r).
Proof.
  move=> F NE D; unfold strtok; destruct F as [|c t H F]; [done|]; cbn [List.app strspn_drop]; rewrite H.
  change (c :: t ++ d :: r) with ((c :: t) ++ d :: r); by rewrite split_free_at; [constructor|done|].
Qed.
Lemma strtok_skip delims d s : mem_N d delims = true -> strtok delims (d :: s) = strtok delims s.
Proof. move=> D; unfold strtok; cbn [strspn_drop]; by rewrite D. Qed.

Lemma hex_char_free c v : hex_value c v ->
  mem_N c (bytes "m,") = false /\ mem_N c (bytes ",") = false /\ mem_N c (bytes "M,") = false /\ mem_N c (bytes ",:") = false /\
  mem_N c (bytes ":") = false /\ mem_N c (bytes "X,") = false /\ mem_N c (bytes "=") = false.
Proof. move=> H; digit_cases H; repeat split; reflexivity. Qed.
Lemma hex_free delims t ds : Forall2 hex_value t ds -> (forall c v, hex_value c v -> mem_N c delims = false) -> free delims t.
Proof. move=> F H; induction F; constructor; eauto. Qed.
Lemma dec_hex t v : dec_text t v -> exists v', hex_text t v'.
Proof. move=> [NE [ds [F _]]]; exists (number 16 ds); split; [done|]; by exists ds. Qed.
Lemma hex_text_free delims t v : hex_text t v -> (forall c u, hex_value c u -> mem_N c delims = false) -> free delims t.
Proof. move=> [_ [ds [F _]]]; exact (hex_free _ _ _ F). Qed.
Ltac tok_free H := apply (hex_text_free _ _ _ H);
  let c := fresh "c" in let v := fresh "v" in let HV := fresh "HV" in
  intros c v HV; destruct (hex_char_free c v HV) as (? & ? & ? & ? & ? & ? & ?); assumption.

(** ** Copying *)
Lemma at_small s a : a < 2 ^ 32 -> at_ s a = mem s a.
Proof. move=> L; unfold at_; by rewrite N.mod_small. Qed.

Lemma can_read_mapped s a : a + 4 <= 2 ^ 32 -> mapped s a 4 -> can_read s a = true.
Proof.
  move=> L M; unfold can_read; apply forallb_forall => i I.
  have LI: i < 4 by cbn in I; lia.
  rewrite at_small; [lia|]; destruct (M (a + i)) as [v [w ->]]; [lia|done].
Qed.
Lemma can_write_writable s a : a + 4 <= 2 ^ 32 -> writable s a 4 -> can_write s a = true.
Proof.
  move=> L M; unfold can_write; apply forallb_forall => i I.
  have LI: i < 4 by cbn in I; lia.
  rewrite at_small; [lia|]; destruct (M (a + i)) as [v ->]; [lia|done].
Qed.
Lemma four x a : a <= x < a + 4 -> exists i, In i [0; 1; 2; 3] /\ x = a + i.
Proof. move=> H; exists (x - a); split; [cbn; lia|lia]. Qed.
Lemma cannot_read s a x : a + 4 <= 2 ^ 32 -> a <= x < a + 4 -> mem s x = None -> can_read s a = false.
Proof.
  move=> L R M; apply not_true_is_false => H; unfold can_read in H; rewrite -> forallb_forall in H.
  destruct (four x a R) as [i [I ->]]; have := H i I; by rewrite at_small ?M; [lia|].
Qed.
Lemma cannot_write s a x : a + 4 <= 2 ^ 32 -> a <= x < a + 4 -> (forall v, mem s x <> Some (v, true)) -> can_write s a = false.
Proof.
  move=> L R M; apply not_true_is_false => H; unfold can_write in H; rewrite -> forallb_forall in H.
  destruct (four x a R) as [i [I ->]]; have := H i I; rewrite at_small; [lia|].
  destruct (mem s (a + i)) as [[v [|]]|] eqn:E; [by destruct (M v)|done|done].
Qed.

Lemma copy_out_contents s vs a : contents s a vs -> a + N.of_nat (List.length vs) <= 2 ^ 32 ->
  copy_out s a (List.length vs) = Done vs.
Proof.
  revert a; induction vs as [|v vs IH] => a C L; [reflexivity|]; cbn [List.length copy_out] in *.
  rewrite at_small; [lia|].
  destruct (C 0%nat v eq_refl) as [_ [w E]]; replace (a + N.of_nat 0) with a in E by lia; rewrite E.
  rewrite IH; [|lia|reflexivity].
  move=> i u H; destruct (C (S i) u H) as [Lu [w' E']]; split; [done|]; exists w'.
  by replace (a + 1 + N.of_nat i) with (a + N.of_nat (S i)) by lia.
Qed.

Lemma copy_in_written vs a s : a + N.of_nat (List.length vs) <= 2 ^ 32 -> writable s a (N.of_nat (List.length vs)) ->
  exists s', copy_in a vs s = Done s' /\
    (forall i v, nth_error vs i = Some v -> mem s' (a + N.of_nat i) = Some (v, true)) /\
    (forall x, x < a \/ a + N.of_nat (List.length vs) <= x -> mem s' x = mem s x) /\
    out s' = out s /\ regs s' = regs s /\ table s' = table s /\ kslots s' = kslots s /\ stepping s' = stepping s /\ tcb s' = tcb s /\
    pc s' = pc s /\ step_mode s' = step_mode s /\ stopped s' = stopped s /\ posted s' = posted s.
Proof.
  revert a s; induction vs as [|v vs IH] => a s L W; cbn [copy_in List.length] in *.
  - exists s; split; [done|]; split; [by move=> i v; destruct i|]; split; [done|]; by repeat split.
  - rewrite at_small; [lia|]; rewrite (N.mod_small a); [lia|].
    destruct (W a) as [u ->]; [lia|].
    set s1 := set_mem _ s.
    destruct (IH (a + 1) s1) as (s' & E & IN & OUT & R); [lia| |].
    { move=> x H; unfold s1; cbn [set_mem mem]; destruct (N.eqb_spec x a); [lia|]; apply W; lia. }
    exists s'; split; [done|]; split; [|split; [|exact R]].
    + move=> i u'; destruct i as [|i]; cbn [nth_error].
      * move=> H; injection H as <-; replace (a + N.of_nat 0) with a by lia.
        rewrite OUT; [by left; lia|]; unfold s1; cbn [set_mem mem]; by rewrite N.eqb_refl.
      * move=> H; rewrite -(IN i u' H); f_equal; lia.
    + move=> x H; rewrite OUT; [by lia|]; unfold s1; cbn [set_mem mem]; destruct (N.eqb_spec x a); [lia|done].
Qed.

(** ** Reading *)
Lemma say_frame m s : (String.length m <= 250)%nat -> forallb plain_char (bytes m) = true -> say m s = put (frame (bytes m)) s.
Proof.
  move=> L P; unfold say; rewrite send_frame //; [|by apply plain_no10, plain_check].
  unfold bytes; rewrite map_length; move: L; clear; rewrite (_ : List.length (list_ascii_of_string m) = String.length m) //.
  induction m as [|c m IH]; [reflexivity|]; cbn; by rewrite IH.
Qed.
Lemma map_hex vs : Forall (fun v => v < 256) vs -> flat_map (fun b => hex2 false (b mod 256)) vs = flat_map hex_of_byte vs.
Proof.
  induction 1 as [|v vs L F IH]; [reflexivity|]; cbn [flat_map]; by rewrite IH N.mod_small // hex2_of_byte.
Qed.
Lemma contents_small s a vs : contents s a vs -> Forall (fun v => v < 256) vs.
Proof.
  move=> C; apply Forall_forall => v I; apply In_nth_error in I; destruct I as [i I]; by destruct (C i v I).
Qed.

Lemma m_command h a t n s : hex_text h a -> dec_text t n -> a < 2 ^ 31 -> n < 2 ^ 31 ->
  handle_command (bytes "m" ++ h ++ bytes "," ++ t) s =
  if MAX_MEM_RANGE <=? n then Done (say "E01" s) else if a =? 0 then Done (say "E01" s)
  else andthen (delegate_read_memory a n s) (fun d =>
    match d with None => Done (say "E01" s) | Some d => Done (send (flat_map (fun b => hex2 false (b mod 256)) d) s) end).
Proof.
  move=> H T LA LN.
  transitivity (GDB_read_memory (bytes "m" ++ h ++ bytes "," ++ t) s); [reflexivity|].
  unfold GDB_read_memory.
  destruct (dec_hex _ _ T) as [n' T'].
  have -> : strtok (bytes "m,") (bytes "m" ++ h ++ bytes "," ++ t) = (Some h, t).
  { change (bytes "m" ++ h ++ bytes "," ++ t) with (ch "m" :: h ++ ch "," :: t).
    rewrite strtok_skip //; apply strtok_at; [tok_free H|by destruct H|reflexivity]. }
  rewrite (strtok_all (bytes ",") t); [tok_free T'|by destruct T|].
  destruct (strtol_hex _ _ H) as [z [-> Z]]; destruct (strtol_dec _ _ T) as [z' [-> Z']]; cbn [andthen].
  by rewrite (Z LA) (Z' LN).
Qed.

Lemma read_ok h a t vs s : hex_text h a -> dec_text t (N.of_nat (List.length vs)) -> 0 < a -> a < 2 ^ 31 ->
  (0 < List.length vs < 100)%nat -> contents s a vs -> mapped s a 4 ->
  exists s', handle_command (bytes "m" ++ h ++ bytes "," ++ t) s = Done s' /\ only_sends (flat_map hex_of_byte vs) s s'.
Proof.
  move=> H T LA1 LA LN C M; rewrite (m_command h a t _ s H T) //; [lia|].
  destruct (N.leb_spec MAX_MEM_RANGE (N.of_nat (List.length vs))) as [G|G]; [unfold MAX_MEM_RANGE in G; lia|].
  destruct (N.eqb_spec a 0); [lia|].
  unfold delegate_read_memory.
  have -> : (N.of_nat (List.length vs) =? 0) || (MAX_MEM_RANGE <? N.of_nat (List.length vs)) = false.
  { apply orb_false_iff; split; [apply N.eqb_neq; lia|apply N.ltb_ge; unfold MAX_MEM_RANGE in *; lia]. }
  rewrite can_read_mapped //; [lia|]; cbn [negb].
  rewrite Nat2N.id copy_out_contents //; [lia|]; cbn [andthen].
  eexists; split; [reflexivity|]; unfold only_sends.
  rewrite map_hex; [by apply contents_small in C|].
  apply send_frame; [rewrite (flat_map_length _ 2) //; lia|].
  apply plain_no10.
  rewrite -(map_hex _ (contents_small _ _ _ C)); apply plain_flat => b; apply hex2_plain.
Qed.
Lemma read_error h a t n s : hex_text h a -> dec_text t n -> a < 2 ^ 31 -> n < 2 ^ 31 ->
  n = 0 \/ 100 <= n \/ a = 0 \/ (exists x, a <= x < a + 4 /\ mem s x = None) ->
  exists s', handle_command (bytes "m" ++ h ++ bytes "," ++ t) s = Done s' /\ only_sends (bytes "E01") s s'.
Proof.
  move=> H T LA LN W; rewrite (m_command h a t _ s H T) //.
  have SAY: say "E01" s = put (frame (bytes "E01")) s by apply say_frame; [cbn; lia|reflexivity].
  destruct (N.leb_spec MAX_MEM_RANGE n) as [G|G]; [by eexists|].
  destruct (N.eqb_spec a 0); [by eexists|].
  unfold delegate_read_memory.
  destruct ((n =? 0) || (MAX_MEM_RANGE <? n)) eqn:B; [by eexists|].
  apply orb_false_iff in B; destruct B as [B _]; apply N.eqb_neq in B.
  destruct W as [W|[W|[W|[x [W1 W2]]]]]; [done|unfold MAX_MEM_RANGE in G; lia|done|].
  rewrite (cannot_read s a x) //; [lia|]; by eexists.
Qed.

(** ** Writing *)
Lemma read_pairs_bytes t vs : hex_bytes t vs -> Forall (fun v => v < 256) vs -> read_pairs (List.length vs) t = vs.
Proof.
  unfold hex_bytes; revert t; induction vs as [|v vs IH] => t F L; [reflexivity|]; cbn [flat_map List.app] in F.
  inversion F as [|c1 d1 t1 ds1 H1 F1]; subst; inversion F1 as [|c2 d2 t2 ds2 H2 F2]; subst.
  inversion L as [|? ? LV LF]; subst; cbn [List.length read_pairs]; rewrite (IH t2) //; f_equal.
  unfold pair_value; rewrite (hex_digit_in _ _ H1) (hex_digit_in _ _ H2).
  rewrite {3}(N.div_mod v 16); lia.
Qed.

Lemma write_range a vs s m : 0 < a -> a < 2 ^ 31 -> (0 < List.length vs <= 100)%nat -> writable s a (N.max 4 (N.of_nat (List.length vs))) ->
  (String.length m <= 250)%nat -> forallb plain_char (bytes m) = true ->
  exists s', andthen (delegate_write_memory a (N.of_nat (List.length vs)) vs s) (fun r => Done (say (if fst r then m else "E01"%string) (snd r))) = Done s' /\
    memory_written a vs (bytes m) s s'.
Proof.
  move=> A1 A2 L W LM PM.
  unfold delegate_write_memory.
  have -> : (N.of_nat (List.length vs) =? 0) || (MAX_MEM_RANGE <? N.of_nat (List.length vs)) = false.
  { apply orb_false_iff; split; [apply N.eqb_neq; lia|apply N.ltb_ge; unfold MAX_MEM_RANGE in *; lia]. }
  rewrite can_read_mapped; [lia|move=> x H; destruct (W x) as [v ->]; [lia|eauto]|]; cbn [negb].
  rewrite can_write_writable; [lia|move=> x H; apply W; lia|]; cbn [negb].
  destruct (copy_in_written vs a s) as (s1 & -> & IN & OUT & O1 & R); [lia|move=> x H; apply W; lia|].
  cbn [andthen fst snd]; eexists; split; [reflexivity|].
  rewrite say_frame //; constructor; [exact IN|exact OUT|by cbn; rewrite O1|exact R].
Qed.

Lemma M_command h a t n d vs s : hex_text h a -> dec_text t n -> a < 2 ^ 31 -> n < 100 -> 0 < a -> hex_bytes d vs ->
  Forall (fun v => v < 256) vs -> n = N.of_nat (List.length vs) -> 0 < n ->
  handle_command (bytes "M" ++ h ++ bytes "," ++ t ++ bytes ":" ++ d) s =
  andthen (delegate_write_memory a n vs s) (fun r => Done (say (if fst r then "OK"%string else "E01"%string) (snd r))).
Proof.
  move=> H T LA LN A1 D LV EN N1.
  transitivity (GDB_write_memory (bytes "M" ++ h ++ bytes "," ++ t ++ bytes ":" ++ d) s); [reflexivity|].
  unfold GDB_write_memory.
  destruct (dec_hex _ _ T) as [n' T'].
  have -> : strtok (bytes "M,") (bytes "M" ++ h ++ bytes "," ++ t ++ bytes ":" ++ d) = (Some h, t ++ ch ":" :: d).
  { change (bytes "M" ++ h ++ bytes "," ++ t ++ bytes ":" ++ d) with (ch "M" :: h ++ ch "," :: (t ++ ch ":" :: d)).
    rewrite strtok_skip //; apply strtok_at; [tok_free H|by destruct H|reflexivity]. }
  rewrite (strtok_at (bytes ",:") t (ch ":") d); [tok_free T'|by destruct T|reflexivity|].
  rewrite (strtok_all (bytes ":") d).
  { apply (hex_free _ _ _ D) => c v HV; by destruct (hex_char_free c v HV) as (? & ? & ? & ? & ? & ? & ?). }
  { move=> E; subst d; unfold hex_bytes in D; destruct vs as [|v vs]; [cbn in EN; lia|inversion D]. }
  destruct (strtol_hex _ _ H) as [z [-> Z]]; destruct (strtol_dec _ _ T) as [z' [-> Z']]; cbn [andthen].
  rewrite (Z LA) (Z' _); [lia|].
  destruct (N.leb_spec MAX_MEM_RANGE n) as [G|G]; [unfold MAX_MEM_RANGE in G; lia|].
  destruct (N.eqb_spec a 0); [lia|].
  by rewrite EN Nat2N.id read_pairs_bytes.
Qed.
Lemma write_ok h a t d vs s : hex_text h a -> dec_text t (N.of_nat (List.length vs)) -> 0 < a -> a < 2 ^ 31 ->
  (0 < List.length vs < 100)%nat -> hex_bytes d vs -> Forall (fun v => v < 256) vs ->
  writable s a (N.max 4 (N.of_nat (List.length vs))) ->
  exists s', handle_command (bytes "M" ++ h ++ bytes "," ++ t ++ bytes ":" ++ d) s = Done s' /\ memory_written a vs (bytes "OK") s s'.
Proof.
  move=> H T A1 A2 L D LV W.
  rewrite (M_command h a t _ d vs s H T) //; [lia|lia|].
  apply write_range => //; [lia|cbn; lia].
Qed.
Lemma write_error h a t d vs s x : hex_text h a -> dec_text t (N.of_nat (List.length vs)) -> 0 < a -> a < 2 ^ 31 ->
  (0 < List.length vs < 100)%nat -> hex_bytes d vs -> Forall (fun v => v < 256) vs ->
  mapped s a 4 -> a <= x < a + 4 -> (forall v, mem s x <> Some (v, true)) ->
  exists s', handle_command (bytes "M" ++ h ++ bytes "," ++ t ++ bytes ":" ++ d) s = Done s' /\ only_sends (bytes "E01") s s'.
Proof.
  move=> H T A1 A2 L D LV MP X1 X2.
  rewrite (M_command h a t _ d vs s H T) //; [lia|lia|].
  unfold delegate_write_memory; rewrite can_read_mapped //; [lia|].
  rewrite (cannot_write s a x) //; [lia|]; cbn [negb].
  destruct (_ || _); cbn [andthen fst snd]; eexists; (split; [reflexivity|]); apply say_frame; (by cbn; lia) || reflexivity.
Qed.
Lemma write_hangs h a t d vs s x : hex_text h a -> dec_text t (N.of_nat (List.length vs)) -> 0 < a -> a < 2 ^ 31 ->
  (0 < List.length vs < 100)%nat -> hex_bytes d vs -> Forall (fun v => v < 256) vs ->
  a <= x < a + 4 -> mem s x = None ->
  handle_command (bytes "M" ++ h ++ bytes "," ++ t ++ bytes ":" ++ d) s = Crash Hang.
Proof.
  move=> H T A1 A2 L D LV X1 X2.
  rewrite (M_command h a t _ d vs s H T) //; [lia|lia|].
  unfold delegate_write_memory.
  have -> : (N.of_nat (List.length vs) =? 0) || (MAX_MEM_RANGE <? N.of_nat (List.length vs)) = false.
  { apply orb_false_iff; split; [apply N.eqb_neq; lia|apply N.ltb_ge; unfold MAX_MEM_RANGE in *; lia]. }
  by rewrite (cannot_read s a x) //; lia.
Qed.

Lemma X_command h a t n d s : hex_text h a -> dec_text t n -> a < 2 ^ 31 -> n <= 100 -> ~ In (ch ":") d ->
  n = N.of_nat (List.length d) -> 0 < n ->
  handle_command (bytes "X" ++ h ++ bytes "," ++ t ++ bytes ":" ++ d) s =
  andthen (delegate_write_memory a n d s) (fun r => Done (say (if fst r then "OK"%string else "E01"%string) (snd r))).
Proof.
  move=> H T LA LN ND EN N1.
  transitivity (GDB_write_memory_binary (bytes "X" ++ h ++ bytes "," ++ t ++ bytes ":" ++ d) s); [reflexivity|].
  unfold GDB_write_memory_binary.
  destruct (dec_hex _ _ T) as [n' T'].
  have -> : strtok (bytes "X,") (bytes "X" ++ h ++ bytes "," ++ t ++ bytes ":" ++ d) = (Some h, t ++ ch ":" :: d).
  { change (bytes "X" ++ h ++ bytes "," ++ t ++ bytes ":" ++ d) with (ch "X" :: h ++ ch "," :: (t ++ ch ":" :: d)).
    rewrite strtok_skip //; apply strtok_at; [tok_free H|by destruct H|reflexivity]. }
  rewrite (strtok_at (bytes ",:") t (ch ":") d); [tok_free T'|by destruct T|reflexivity|].
  destruct (strtol_hex _ _ H) as [z [-> Z]]; destruct (strtol_dec _ _ T) as [z' [-> Z']]; cbn [andthen].
  rewrite (Z LA) (Z' _); [lia|].
  destruct (N.eqb_spec n 0); [lia|].
  rewrite (strtok_all (bytes ":") d).
  { apply Forall_forall => c I; cbn; rewrite orb_false_r; apply N.eqb_neq => E; apply ND; change (ch ":") with 58; by rewrite -E. }
  { move=> E; subst d; cbn in EN; lia. }
  destruct (N.ltb_spec MAX_MEM_RANGE n) as [G|G]; [unfold MAX_MEM_RANGE in G; lia|].
  rewrite {2}EN Nat2N.id firstn_app firstn_all Nat.sub_diag firstn_O app_nil_r; reflexivity.
Qed.
Lemma binary_ok h a t d s : hex_text h a -> dec_text t (N.of_nat (List.length d)) -> 0 < a -> a < 2 ^ 31 ->
  (0 < List.length d <= 100)%nat -> ~ In (ch ":") d -> writable s a (N.max 4 (N.of_nat (List.length d))) ->
  exists s', handle_command (bytes "X" ++ h ++ bytes "," ++ t ++ bytes ":" ++ d) s = Done s' /\ memory_written a d (bytes "OK") s s'.
Proof.
  move=> H T A1 A2 L D W.
  rewrite (X_command h a t _ d s H T) //; [lia|lia|].
  apply write_range => //; cbn; lia.
Qed.
Lemma binary_error h a t d s x : hex_text h a -> dec_text t (N.of_nat (List.length d)) -> 0 < a -> a < 2 ^ 31 ->
  (0 < List.length d <= 100)%nat -> ~ In (ch ":") d ->
  mapped s a 4 -> a <= x < a + 4 -> (forall v, mem s x <> Some (v, true)) ->
  exists s', handle_command (bytes "X" ++ h ++ bytes "," ++ t ++ bytes ":" ++ d) s = Done s' /\ only_sends (bytes "E01") s s'.
Proof.
  move=> H T A1 A2 L D MP X1 X2.
  rewrite (X_command h a t _ d s H T) //; [lia|lia|].
  unfold delegate_write_memory; rewrite can_read_mapped //; [lia|].
  rewrite (cannot_write s a x) //; [lia|]; cbn [negb].
  destruct (_ || _); cbn [andthen fst snd]; eexists; (split; [reflexivity|]); apply say_frame; (by cbn; lia) || reflexivity.
Qed.
Lemma binary_hangs h a t d s x : hex_text h a -> dec_text t (N.of_nat (List.length d)) -> 0 < a -> a < 2 ^ 31 ->
  (0 < List.length d <= 100)%nat -> ~ In (ch ":") d -> a <= x < a + 4 -> mem s x = None ->
  handle_command (bytes "X" ++ h ++ bytes "," ++ t ++ bytes ":" ++ d) s = Crash Hang.
Proof.
  move=> H T A1 A2 L D X1 X2.
  rewrite (X_command h a t _ d s H T) //; [lia|lia|].
  unfold delegate_write_memory.
  have -> : (N.of_nat (List.length d) =? 0) || (MAX_MEM_RANGE <? N.of_nat (List.length d)) = false.
  { apply orb_false_iff; split; [apply N.eqb_neq; lia|apply N.ltb_ge; unfold MAX_MEM_RANGE in *; lia]. }
  by rewrite (cannot_read s a x) //; lia.
Qed.
