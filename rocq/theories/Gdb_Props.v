From Coq Require Import String Ascii List Bool NArith ZArith Lia.
From Verif Require Import Gdb_Model Gdb_Spec Gdb_Proofs Gdb_Proofs2 Gdb_Proofs3 Gdb_Proofs4 Gdb_Proofs5 Gdb_Proofs6 Gdb_Proofs7.
Import ListNotations.
Open Scope N_scope.

(** A stopped thread: four bytes of read-only memory at 0x1000, then writable memory up to 0x1100. *)
Example sample : st :=
  mk_st (fun x => if (4096 <=? x) && (x <? 4352) then Some (x mod 251, 4100 <=? x) else None)
    (fun t => if t =? 7 then [4096; 2; 3; 4; 5; 6; 7; 8; 9; 10; 11; 4278255360] else repeat 0 12)
    [None; None; None; None] (fun _ => [None; None; None; None]) (fun b => negb (b_size b =? 3)) (fun _ => false)
    7 4096 false stop_hw_break 0 0 [0] (repeat 0 12) [].
Ltac text := split; [discriminate|eexists; split; [repeat (constructor; [apply hex_value_of; reflexivity|]); constructor|]].
Ltac hex := text; reflexivity.
Ltac dec := text; split; [repeat constructor|reflexivity].

(** * C67: a command is carried out when the last character of its packet arrives, and only then

    For packets of at most 511 characters without zero bytes (the packet size announced to GDB is
    256), whatever came before. *)
Theorem C67_packet_partial s c w0 b w p x y hx hy :
  receive_all s (start, w0) = Done (b, w) -> ends_with_packet (s ++ [c]) p x y ->
  hex_value x hx -> hex_value y hy -> (List.length p + 5 <= 512)%nat -> ~ In 0 p ->
  exists b', receive c (b, w) =
    if sum p mod 256 =? 16 * hx + hy
    then match handle_command p (put ack w) with Done w' => Done (b', w') | Crash f => Crash f end
    else Done (b', put nack w).
Proof. exact (packet_handled s c w0 b w p x y hx hy). Qed.
Print Assumptions C67_packet_partial.

(** Any other character changes nothing but the buffer. *)
Theorem C67_other s c w0 b w :
  receive_all s (start, w0) = Done (b, w) -> (forall p x y, ~ ends_with_packet (s ++ [c]) p x y) ->
  exists b', receive c (b, w) = Done (b', w).
Proof. exact (no_packet s c w0 b w). Qed.
Print Assumptions C67_other.

(** Noise, an interrupted packet, a packet, more noise, and another packet with a wrong checksum. *)
Example stream_output :
  match receive_all (bytes "+#1$m10$?#3f#+$?#3e") (start, sample) with
  | Done (_, w) => out w = ack ++ frame (bytes "T05thread:01;hwbreak:;") ++ nack
  | Crash _ => False
  end.
Proof. vm_compute. reflexivity. Qed.
Example packet_hypotheses : exists b w, receive_all (bytes "+#1$m10$?#3") (start, sample) = Done (b, w) /\
  ends_with_packet (bytes "+#1$m10$?#3" ++ [ch "f"]) (bytes "?") (ch "3") (ch "f") /\ hex_value (ch "3") 3 /\ hex_value (ch "f") 15.
Proof.
  do 2 eexists; split; [vm_compute; reflexivity|]; split; [|split; left; reflexivity].
  split; [exists (bytes "+#1$m10"); reflexivity|].
  vm_compute; intuition discriminate.
Qed.
Example other_hypothesis : forall p x y, ~ ends_with_packet (bytes "$m10$?#" ++ [ch "3"]) p x y.
Proof.
  intros p x y [[before E] (_ & _ & N & _)].
  change (bytes "$m10$?#" ++ [ch "3"]) with ((bytes "$m10$" ++ [ch "?"]) ++ [ch "#"] ++ [ch "3"]) in E.
  change [ch "#"; x; y] with ([ch "#"] ++ [x] ++ [y]) in E.
  rewrite !app_assoc in E; apply app_inj_tail in E; destruct E as [E _]; apply app_inj_tail in E; destruct E as [E _].
  apply app_inj_tail in E; destruct E as [_ E]; discriminate.
Qed.

(** A packet of 512 characters lets the server read beyond its buffer. *)
Theorem C67_overrun_refuted : exists p,
  List.length p = 508%nat /\ ~ In 0 p /\ ~ In (ch "$") p /\ ~ In (ch "#") p /\
  receive_all ([ch "$"] ++ p ++ [ch "#"; ch "0"; ch "0"]) (start, sample) = Crash OutOfBounds.
Proof.
  exists (repeat (ch "q") 508).
  assert (A : forall n x, In x (repeat (ch "q") n) -> x = ch "q") by (intros n x H; exact (repeat_spec n _ _ H)).
  split; [reflexivity|]; do 3 (split; [intro H; apply A in H; discriminate|]); vm_compute; reflexivity.
Qed.
Print Assumptions C67_overrun_refuted.

(** * C68: a command is carried out only if its checksum is right, and always then

    For packets as above: *)
Theorem C68_right_partial s c w0 b w p x y hx hy :
  receive_all s (start, w0) = Done (b, w) -> ends_with_packet (s ++ [c]) p x y ->
  hex_value x hx -> hex_value y hy -> (List.length p + 5 <= 512)%nat -> ~ In 0 p -> sum p mod 256 = 16 * hx + hy ->
  exists b', receive c (b, w) = match handle_command p (put ack w) with Done w' => Done (b', w') | Crash f => Crash f end.
Proof. exact (right_checksum s c w0 b w p x y hx hy). Qed.
Print Assumptions C68_right_partial.
Theorem C68_wrong_partial s c w0 b w p x y hx hy :
  receive_all s (start, w0) = Done (b, w) -> ends_with_packet (s ++ [c]) p x y ->
  hex_value x hx -> hex_value y hy -> (List.length p + 5 <= 512)%nat -> ~ In 0 p -> sum p mod 256 <> 16 * hx + hy ->
  exists b', receive c (b, w) = Done (b', put nack w).
Proof. exact (wrong_checksum s c w0 b w p x y hx hy). Qed.
Print Assumptions C68_wrong_partial.
Example checksums : sum (bytes "?") mod 256 = 16 * 3 + 15 /\ sum (bytes "?") mod 256 <> 16 * 3 + 14.
Proof. split; [reflexivity|discriminate]. Qed.
(** But what is not hexadecimal counts as a number too, *)
Theorem C68_not_hexadecimal_refuted : exists p x y b w,
  (forall v, ~ hex_value x v) /\
  receive_all ([ch "$"] ++ p ++ [ch "#"; x; y]) (start, sample) = Done (b, w) /\ out w = ack ++ frame (bytes "OK").
Proof.
  exists (bytes "HX`"), (ch "z"), (ch "z"); do 2 eexists; split.
  - intros v H; pose proof (hex_digit_in _ _ H) as E; discriminate E.
  - split; [vm_compute; reflexivity|reflexivity].
Qed.
Print Assumptions C68_not_hexadecimal_refuted.
(** and binary data after a zero byte is left out of the sum: the packet is refused every time. *)
Theorem C68_binary_refuted : exists p x y hx hy b w,
  hex_value x hx /\ hex_value y hy /\ sum p mod 256 = 16 * hx + hy /\ p = bytes "X1010,2:" ++ [0; 7] /\
  receive_all ([ch "$"] ++ p ++ [ch "#"; x; y]) (start, sample) = Done (b, w) /\ out w = nack /\ mem w = mem sample.
Proof.
  exists (bytes "X1010,2:" ++ [0; 7]), (ch "b"), (ch "9"), 11, 9; do 2 eexists.
  split; [left; reflexivity|]; split; [left; reflexivity|]; split; [reflexivity|]; split; [reflexivity|].
  split; [vm_compute; reflexivity|split; reflexivity].
Qed.
Print Assumptions C68_binary_refuted.

(** * C69: each command that expects an answer gets exactly one, correctly framed

    A reply contains no character that would need escaping; [c] and [s] (and no others but
    [vCont]) let the thread run, once. *)
Theorem C69_replies c s s' : handle_command c s = Done s' ->
  exists ms k, out s' = out s ++ flat_map frame ms /\ Forall plain ms /\ posted s' = (k + posted s)%nat /\
    (List.length ms + k <= 1)%nat /\ (answered c -> List.length ms = 1%nat) /\ (resumes c -> k = 1%nat) /\
    (k = 1%nat -> resumes c \/ exists r, c = bytes "vCont" ++ r).
Proof. exact (all_outcomes c s s'). Qed.
Print Assumptions C69_replies.
Example answered_case : answered (bytes "m1000,4") /\
  match handle_command (bytes "m1000,4") sample with Done s => out s = bytes "$50515253#9A" ++ [13; 10] | Crash _ => False end.
Proof. split; [left; exists (ch "m"), (bytes "1000,4"); split; [reflexivity|vm_compute; tauto]|vm_compute; reflexivity]. Qed.
Example resumed_case : resumes (bytes "c") /\ exists s', handle_command (bytes "c") sample = Done s' /\ posted s' = 1%nat /\ out s' = [].
Proof. split; [exists (ch "c"), []; split; [reflexivity|vm_compute; tauto]|eexists; split; [vm_compute; reflexivity|split; reflexivity]]. Qed.

(** What is asked at the start of a session: the features, the packet size (which C67_packet_partial
    can receive), and the one thread that stop replies name. *)
Theorem C69_queries : forall s,
  (forall q a, In (q, a) [("qSupported:swbreak+", "swbreak+;hwbreak+;PacketSize=100"); ("qC", "QC1"); ("qfThreadInfo", "m01"); ("qsThreadInfo", "l");
                          ("qTStatus", ""); ("qAttached", ""); ("qSymbol::", ""); ("qOffsets", "")]%string ->
     exists s', handle_command (bytes q) s = Done s' /\ only_sends (bytes a) s s') /\
  hex_text (bytes "100") 256 /\ 256 + 5 <= 512.
Proof.
  intro s. split; [|split; [hex|lia]].
  intros q a H. repeat destruct H as [H|H]; try (injection H as <- <-; eexists; split; [reflexivity|reflexivity]). destruct H.
Qed.
Print Assumptions C69_queries.

(** A command that is not supported gets no answer, where the protocol asks for an empty one. *)
Theorem C69_unsupported_refuted : forall s, handle_command (bytes "D") s = Done s /\ handle_command (bytes "vAttach;1") s = Done s.
Proof. intro s. split; reflexivity. Qed.
Print Assumptions C69_unsupported_refuted.
(** The server announces vCont;c and vCont;s, and then carries out neither. *)
Theorem C69_vcont_refuted : forall s, exists s1 s2 s3,
  handle_command (bytes "vCont?") s = Done s1 /\ out s1 = out s ++ frame (bytes "vCont;c;s") /\
  handle_command (bytes "vCont;c") s = Done s2 /\ posted s2 = posted s /\ out s2 = out s ++ frame [] /\
  handle_command (bytes "vCont;s") s = Done s3 /\ posted s3 = posted s /\ out s3 = out s ++ frame [].
Proof.
  intro s. exists (say "vCont;c;s" s), (say "" s), (say "" s).
  split; [reflexivity|]. split; [reflexivity|]. split; [reflexivity|]. split; [reflexivity|]. split; [reflexivity|]. split; [reflexivity|]. split; reflexivity.
Qed.
Print Assumptions C69_vcont_refuted.

(** * C70: memory commands read and write exactly the range they name

    For addresses below 2^31 and lengths written in decimal. *)
Theorem C70_read_partial h a t vs s : hex_text h a -> dec_text t (N.of_nat (List.length vs)) -> 0 < a -> a < 2 ^ 31 ->
  (0 < List.length vs < 100)%nat -> contents s a vs -> mapped s a 4 ->
  exists s', handle_command (bytes "m" ++ h ++ bytes "," ++ t) s = Done s' /\ only_sends (flat_map hex_of_byte vs) s s'.
Proof. exact (read_ok h a t vs s). Qed.
Print Assumptions C70_read_partial.
Example read_case : hex_text (bytes "10Fa") 4346 /\ dec_text (bytes "06") 6 /\ contents sample 4346 [79; 80; 81; 82; 83; 84] /\ mapped sample 4346 4.
Proof.
  split; [hex|]; split; [dec|]; split.
  - intros i v H; do 6 (destruct i as [|i]; [injection H as <-; split; [lia|eexists; reflexivity]|]); destruct i; discriminate.
  - intros x H. assert (E : x = 4346 \/ x = 4347 \/ x = 4348 \/ x = 4349) by lia.
    repeat destruct E as [E|E]; subst x; do 2 eexists; reflexivity.
Qed.

Theorem C70_read_error h a t n s : hex_text h a -> dec_text t n -> a < 2 ^ 31 -> n < 2 ^ 31 ->
  n = 0 \/ 100 <= n \/ a = 0 \/ (exists x, a <= x < a + 4 /\ mem s x = None) ->
  exists s', handle_command (bytes "m" ++ h ++ bytes "," ++ t) s = Done s' /\ only_sends (bytes "E01") s s'.
Proof. exact (read_error h a t n s). Qed.
Print Assumptions C70_read_error.
Example read_error_case : hex_text (bytes "10fd") 4349 /\ dec_text (bytes "4") 4 /\ exists x, 4349 <= x < 4349 + 4 /\ mem sample x = None.
Proof. split; [hex|]; split; [dec|]; exists 4352; split; [lia|reflexivity]. Qed.

Theorem C70_write_partial h a t d vs s : hex_text h a -> dec_text t (N.of_nat (List.length vs)) -> 0 < a -> a < 2 ^ 31 ->
  (0 < List.length vs < 100)%nat -> hex_bytes d vs -> Forall (fun v => v < 256) vs ->
  writable s a (N.max 4 (N.of_nat (List.length vs))) ->
  exists s', handle_command (bytes "M" ++ h ++ bytes "," ++ t ++ bytes ":" ++ d) s = Done s' /\ memory_written a vs (bytes "OK") s s'.
Proof. exact (write_ok h a t d vs s). Qed.
Print Assumptions C70_write_partial.
Example write_case : hex_text (bytes "1010") 4112 /\ dec_text (bytes "2") 2 /\ hex_bytes (bytes "fF07") [255; 7] /\ writable sample 4112 4.
Proof.
  split; [hex|]; split; [dec|]; split.
  - repeat (constructor; [apply hex_value_of; reflexivity|]); constructor.
  - intros x H. assert (E : x = 4112 \/ x = 4113 \/ x = 4114 \/ x = 4115) by lia.
    repeat destruct E as [E|E]; subst x; eexists; reflexivity.
Qed.

(** Memory that can be read but not written: an error, and nothing changes. *)
Theorem C70_write_error_partial h a t d vs s x : hex_text h a -> dec_text t (N.of_nat (List.length vs)) -> 0 < a -> a < 2 ^ 31 ->
  (0 < List.length vs < 100)%nat -> hex_bytes d vs -> Forall (fun v => v < 256) vs ->
  mapped s a 4 -> a <= x < a + 4 -> (forall v, mem s x <> Some (v, true)) ->
  exists s', handle_command (bytes "M" ++ h ++ bytes "," ++ t ++ bytes ":" ++ d) s = Done s' /\ only_sends (bytes "E01") s s'.
Proof. exact (write_error h a t d vs s x). Qed.
Print Assumptions C70_write_error_partial.
Example write_error_case : hex_text (bytes "1000") 4096 /\ mapped sample 4096 4 /\ forall v, mem sample 4096 <> Some (v, true).
Proof.
  split; [hex|]; split; [|intros v; discriminate].
  intros x H. assert (E : x = 4096 \/ x = 4097 \/ x = 4098 \/ x = 4099) by lia.
  repeat destruct E as [E|E]; subst x; eexists; eexists; reflexivity.
Qed.
(** Memory that is not there: no error is sent, the delegate waits for ever (see C129). *)
Theorem C70_write_error_refuted h a t d vs s x : hex_text h a -> dec_text t (N.of_nat (List.length vs)) -> 0 < a -> a < 2 ^ 31 ->
  (0 < List.length vs < 100)%nat -> hex_bytes d vs -> Forall (fun v => v < 256) vs ->
  a <= x < a + 4 -> mem s x = None ->
  handle_command (bytes "M" ++ h ++ bytes "," ++ t ++ bytes ":" ++ d) s = Crash Hang.
Proof. exact (write_hangs h a t d vs s x). Qed.
Print Assumptions C70_write_error_refuted.
Example write_hangs_case : handle_command (bytes "M8,2:fF07") sample = Crash Hang.
Proof. vm_compute. reflexivity. Qed.

(** Binary data without colons and without zero bytes (C68_binary_refuted). *)
Theorem C70_binary_partial h a t d s : hex_text h a -> dec_text t (N.of_nat (List.length d)) -> 0 < a -> a < 2 ^ 31 ->
  (0 < List.length d <= 100)%nat -> ~ In (ch ":") d -> writable s a (N.max 4 (N.of_nat (List.length d))) ->
  exists s', handle_command (bytes "X" ++ h ++ bytes "," ++ t ++ bytes ":" ++ d) s = Done s' /\ memory_written a d (bytes "OK") s s'.
Proof. exact (binary_ok h a t d s). Qed.
Print Assumptions C70_binary_partial.
Example binary_case : ~ In (ch ":") [200; 1] /\ dec_text (bytes "2") (N.of_nat (List.length [200; 1])).
Proof. split; [vm_compute; intuition discriminate|dec]. Qed.
(** Errors of binary writes are as those of hexadecimal ones. *)
Theorem C70_binary_error_partial h a t d s x : hex_text h a -> dec_text t (N.of_nat (List.length d)) -> 0 < a -> a < 2 ^ 31 ->
  (0 < List.length d <= 100)%nat -> ~ In (ch ":") d ->
  mapped s a 4 -> a <= x < a + 4 -> (forall v, mem s x <> Some (v, true)) ->
  exists s', handle_command (bytes "X" ++ h ++ bytes "," ++ t ++ bytes ":" ++ d) s = Done s' /\ only_sends (bytes "E01") s s'.
Proof. exact (binary_error h a t d s x). Qed.
Print Assumptions C70_binary_error_partial.
Theorem C70_binary_error_refuted h a t d s x : hex_text h a -> dec_text t (N.of_nat (List.length d)) -> 0 < a -> a < 2 ^ 31 ->
  (0 < List.length d <= 100)%nat -> ~ In (ch ":") d -> a <= x < a + 4 -> mem s x = None ->
  handle_command (bytes "X" ++ h ++ bytes "," ++ t ++ bytes ":" ++ d) s = Crash Hang.
Proof. exact (binary_hangs h a t d s x). Qed.
Print Assumptions C70_binary_error_refuted.
Example binary_error_case :
  match handle_command (bytes "X1000,2:ab") sample with Done s => out s = frame (bytes "E01") | Crash _ => False end /\
  handle_command (bytes "X8,2:ab") sample = Crash Hang.
Proof. vm_compute. split; reflexivity. Qed.

(** GDB writes the length in hexadecimal: asked for sixteen bytes, the server sends ten. *)
Theorem C70_length_refuted : exists h a t n vs s, hex_text h a /\ hex_text t n /\ n = N.of_nat (List.length vs) /\ contents s a vs /\ n = 16 /\
  handle_command (bytes "m" ++ h ++ bytes "," ++ t) s = Done (put (frame (flat_map hex_of_byte (firstn 10 vs))) s).
Proof.
  exists (bytes "1010"), 4112, (bytes "10"), 16, [96; 97; 98; 99; 100; 101; 102; 103; 104; 105; 106; 107; 108; 109; 110; 111], sample.
  split; [hex|]; split; [hex|]; split; [reflexivity|]; split; [|split; [reflexivity|vm_compute; reflexivity]].
  intros i v H; do 16 (destruct i as [|i]; [injection H as <-; split; [lia|eexists; reflexivity]|]); destruct i; discriminate.
Qed.
Print Assumptions C70_length_refuted.
(** Addresses from 2^31 on are taken for 2^31 - 1. *)
Theorem C70_high_refuted : forall s v, exists h, hex_text h 3221225472 /\ hex_text (bytes "7fffffff") 2147483647 /\
  handle_command (bytes "m" ++ h ++ bytes "," ++ v) s = handle_command (bytes "m" ++ bytes "7fffffff" ++ bytes "," ++ v) s.
Proof.
  intros s v. exists (bytes "c0000000"). split; [hex|]. split; [hex|]. reflexivity.
Qed.
Print Assumptions C70_high_refuted.
(** A length over 100 in a binary write overruns the stack; a missing argument is a null pointer;
    a range that ends in unmapped memory is a fault, not an error. *)
Theorem C70_crash_refuted :
  handle_command (bytes "X1010,101:a") sample = Crash OutOfBounds /\
  (forall s, handle_command (bytes "m") s = Crash NullPointer /\ handle_command (bytes "m1000") s = Crash NullPointer /\
     handle_command (bytes "M1010,1:") s = Crash NullPointer) /\
  handle_command (bytes "m10f0,20") sample = Crash PageFault.
Proof.
  split; [vm_compute; reflexivity|]; split; [|vm_compute; reflexivity].
  intro s; split; [reflexivity|]; split; reflexivity.
Qed.
Print Assumptions C70_crash_refuted.

(** * C71: registers are those of the stopped thread, in GDB's order, the lowest byte first *)
Theorem C71_all s : List.length (regs s (tcb s)) = 12%nat ->
  exists s', handle_command (bytes "g") s = Done s' /\
    only_sends (flat_map (fun r => hex_word (register (regs s (tcb s)) r)) gdb_registers) s s'.
Proof. exact (general_registers s). Qed.
Print Assumptions C71_all.
Example all_case : register (regs sample (tcb sample)) "gs_base" = 4278255360 /\ hex_word 4278255360 = bytes "00ff00ff".
Proof. vm_compute. split; reflexivity. Qed.

(** One at a time: the first ten. *)
Theorem C71_one_partial h n name s : hex_text h n -> n < 10 -> nth_error gdb_registers (N.to_nat n) = Some name ->
  List.length (regs s (tcb s)) = 12%nat ->
  exists s', handle_command (bytes "p" ++ h) s = Done s' /\ only_sends (hex_word (register (regs s (tcb s)) name)) s s'.
Proof. exact (one_register h n name s). Qed.
Print Assumptions C71_one_partial.
(** Registers that are part of the answer to [g] are refused on their own. *)
Theorem C71_one_refuted : exists h n name s s', hex_text h n /\ nth_error gdb_registers (N.to_nat n) = Some name /\ name = "gs_base"%string /\
  register (regs s (tcb s)) name <> 0 /\ handle_command (bytes "p" ++ h) s = Done s' /\ only_sends (bytes "E00") s s'.
Proof.
  exists (bytes "f"), 15, "gs_base"%string, sample; eexists; split; [hex|].
  split; [reflexivity|]; split; [reflexivity|]; split; [vm_compute; discriminate|]; split; [vm_compute; reflexivity|reflexivity].
Qed.
Print Assumptions C71_one_refuted.

(** Writing one of the first ten, provided that what follows the parsed array is not a digit. *)
Theorem C71_write_partial h n name d v j jr s : hex_text h n -> n < 10 -> nth_error gdb_registers (N.to_nat n) = Some name ->
  List.length (regs s (tcb s)) = 12%nat -> hex_bytes d (little_endian v) -> v < 2 ^ 32 ->
  junk s = j :: jr -> (forall u, ~ hex_value j u) ->
  exists s', handle_command (bytes "P" ++ h ++ bytes "=" ++ d) s = Done s' /\
    (forall r, register (regs s' (tcb s)) r = if String.eqb r name then v else register (regs s (tcb s)) r) /\
    List.length (regs s' (tcb s)) = 12%nat /\ (forall t, t <> tcb s -> regs s' t = regs s t) /\
    pc s' = (if String.eqb name "eip" then v else pc s) /\ out s' = out s ++ frame (bytes "OK") /\
    mem s' = mem s /\ table s' = table s /\ kslots s' = kslots s /\ tcb s' = tcb s /\ posted s' = posted s.
Proof. exact (write_one_register h n name d v j jr s). Qed.
Print Assumptions C71_write_partial.
Example write_register_case : hex_bytes (bytes "78563412") (little_endian 305419896) /\ hex_text (bytes "8") 8 /\
  nth_error gdb_registers (N.to_nat 8) = Some "eip"%string /\ junk sample = 0 :: [] /\ forall u, ~ hex_value 0 u.
Proof.
  split; [repeat (constructor; [apply hex_value_of; reflexivity|]); constructor|].
  split; [hex|]; split; [reflexivity|]; split; [reflexivity|].
  intros u H; pose proof (hex_digit_in _ _ H) as E; discriminate E.
Qed.
(** Otherwise the value is read on into the stack. *)
Theorem C71_overread_refuted : exists s s', hex_bytes (bytes "78563412") (little_endian 305419896) /\
  handle_command (bytes "P8=78563412") s = Done s' /\ register (regs s' (tcb s)) "eip" = 4294967295 /\ out s' = out s ++ frame (bytes "OK").
Proof.
  exists (mk_st (mem sample) (regs sample) [] (kslots sample) (accepts sample) (stepping sample) 7 0 false stop_none 0 0 [ch "1"; 0] [] []).
  eexists; split; [repeat (constructor; [apply hex_value_of; reflexivity|]); constructor|].
  split; [vm_compute; reflexivity|split; reflexivity].
Qed.
Print Assumptions C71_overread_refuted.
(** Writing all registers is confirmed and changes none of them; more than ten are written out of bounds. *)
Theorem C71_write_all_refuted :
  (forall c s s', handle_command (bytes "G" ++ c) s = Done s' -> forall t, regs s' t = regs s t) /\
  (exists s', handle_command (bytes "G" ++ bytes "0100000002000000") sample = Done s' /\ out s' = frame (bytes "OK") /\
     register (regs sample (tcb sample)) "eax" <> 1) /\
  handle_command (bytes "G" ++ repeat (ch "0") 128) sample = Crash OutOfBounds.
Proof.
  split; [exact write_all_nothing|]; split; [|vm_compute; reflexivity].
  eexists; split; [vm_compute; reflexivity|split; [reflexivity|vm_compute; discriminate]].
Qed.
Print Assumptions C71_write_all_refuted.

(** * C72: breakpoints asked for are in force, and those removed are not

    One of the places changes: the kernel has what the table has (C72_kernel_partial). *)
Theorem C72_insert t ty h a z n s : hex_text t ty -> hex_text h a -> hex_text z n ->
  1 <= ty <= 4 -> a < 2 ^ 31 -> n < 2 ^ 31 -> In None (table s) -> accepts s (break_of ty a n) = true ->
  exists s', handle_command (bytes "Z" ++ t ++ bytes "," ++ h ++ bytes "," ++ z) s = Done s' /\
    breaks_changed None (Some (break_of ty a n)) (bytes "OK") s s'.
Proof. exact (break_inserted t ty h a z n s). Qed.
Print Assumptions C72_insert.
Theorem C72_refused t ty h a z n s : hex_text t ty -> hex_text h a -> hex_text z n ->
  1 <= ty <= 4 -> a < 2 ^ 31 -> n < 2 ^ 31 -> ~ In None (table s) \/ accepts s (break_of ty a n) = false ->
  exists s', handle_command (bytes "Z" ++ t ++ bytes "," ++ h ++ bytes "," ++ z) s = Done s' /\ only_sends (bytes "E01") s s'.
Proof. exact (break_refused t ty h a z n s). Qed.
Print Assumptions C72_refused.
Theorem C72_remove t ty h a z n s : hex_text t ty -> hex_text h a -> hex_text z n ->
  1 <= ty <= 4 -> a < 2 ^ 31 -> n < 2 ^ 31 -> In (Some (break_of ty a n)) (table s) ->
  exists s', handle_command (bytes "z" ++ t ++ bytes "," ++ h ++ bytes "," ++ z) s = Done s' /\
    breaks_changed (Some (break_of ty a n)) None (bytes "OK") s s'.
Proof. exact (break_removed t ty h a z n s). Qed.
Print Assumptions C72_remove.
Theorem C72_absent t ty h a z n s : hex_text t ty -> hex_text h a -> hex_text z n ->
  1 <= ty <= 4 -> a < 2 ^ 31 -> n < 2 ^ 31 -> ~ In (Some (break_of ty a n)) (table s) ->
  exists s', handle_command (bytes "z" ++ t ++ bytes "," ++ h ++ bytes "," ++ z) s = Done s' /\ only_sends (bytes "E01") s s'.
Proof. exact (break_absent t ty h a z n s). Qed.
Print Assumptions C72_absent.
(** As long as the same thread is debugged. *)
Theorem C72_kernel_partial cs s s' : commands cs s = Done s' -> kslots s (tcb s) = table s ->
  kslots s' (tcb s') = table s' /\ tcb s' = tcb s /\ forall t, t <> tcb s -> kslots s' t = kslots s t.
Proof. exact (commands_mirror cs s s'). Qed.
Print Assumptions C72_kernel_partial.
Example breaks_case : kslots sample (tcb sample) = table sample /\
  match commands [bytes "Z2,1010,4"; bytes "Z1,1000,1"; bytes "Z3,1010,3"; bytes "z2,1010,4"] sample with
  | Done s => kslots s 7 = [None; Some (execute_at 4096); None; None] /\
              out s = frame (bytes "OK") ++ frame (bytes "OK") ++ frame (bytes "E01") ++ frame (bytes "OK")
  | Crash _ => False
  end.
Proof. vm_compute. repeat split. Qed.

(** A breakpoint set for one thread and removed while another is stopped: confirmed, and yet the
    first thread keeps it. *)
Theorem C72_threads_refuted : exists s1 s2,
  commands [bytes "Z1,1000,1"] sample = Done s1 /\ commands [bytes "z1,1000,1"] (switch 8 s1) = Done s2 /\
  out s2 = frame (bytes "OK") ++ frame (bytes "OK") /\ table s2 = [None; None; None; None] /\
  In (Some (execute_at 4096)) (kslots s2 7).
Proof. do 2 eexists. split; [vm_compute; reflexivity|]. split; [vm_compute; reflexivity|]. split; [reflexivity|]. split; [reflexivity|left; reflexivity]. Qed.
Print Assumptions C72_threads_refuted.
