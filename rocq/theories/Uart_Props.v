(** Properties of the serial line of the debugger (C127). *)
From Coq Require Import List NArith Bool Lia.
From Verif Require Import Prelude Uart_Model Uart_Spec Uart_Proofs.
Import ListNotations.
Open Scope N_scope.
Open Scope list_scope.

(** C127: whatever is printed after initialisation is transmitted, in order, nothing is lost or
    added but a carriage return before each line feed; however fast or slow the device is, and
    whether or not it has a buffer. *)
Theorem C127_output : forall speed s u s1 u1 fuel text s2 u2,
  idle u -> serial_init speed s u = (s1, u1) -> put_text speed fuel text s1 u1 = Some (s2, u2) ->
  u_lost u2 = [] /\ exists w, lines text w /\ u_wire u2 ++ u_tx u2 = u_wire u ++ w.
Proof. exact output_lemma. Qed.
Print Assumptions C127_output.

(** C127: output ends if the device does not stop transmitting. *)
Theorem C127_ends : forall speed text, live speed ->
  forall s u, exists fuel r, put_text speed fuel text s u = Some r.
Proof. exact text_ends. Qed.
Print Assumptions C127_ends.

(** C127: initialisation leaves the port with 8 data bits, no parity and one stop bit, divisor 1
    (115200 baud), the divisor latch closed, the interrupt for received characters on, all modem
    lines on, and the driver's idea of the buffer right, whatever the registers were before. *)
Theorem C127_registers : forall speed s u s' u', idle u -> serial_init speed s u = (s', u') ->
  u_lcr u' = 3 /\ u_dlm u' * 256 + u_dll u' = 1 /\ u_ier u' = 1 /\ u_mcr u' = 15 /\
  fifo_used s' = 0%nat /\ fifo_depth s' = capacity u' /\ idle u' /\ u_wire u' = u_wire u.
Proof. exact registers_lemma. Qed.
Print Assumptions C127_registers.

(** C127, refuted: the buffer of the device is used if there is one.  The IIR of a 16550 reports it
    only while it is enabled, and the driver asks after it has disabled it. *)
Theorem C127_fifo_refuted : forall speed s u s' u',
  idle u -> u_always u = false -> serial_init speed s u = (s', u') ->
  fifo_depth s' = 1%nat /\ fifo_on u' = false.
Proof. exact fifo_lemma. Qed.
Print Assumptions C127_fifo_refuted.
(** It is used on devices that always report it. *)
Theorem C127_fifo_partial : forall speed s u s' u',
  idle u -> u_always u = true -> u_has_fifo u = true -> serial_init speed s u = (s', u') ->
  fifo_depth s' = 16%nat /\ fifo_on u' = true.
Proof. exact fifo_used_lemma. Qed.
Print Assumptions C127_fifo_partial.

(** A device that transmits a character every third access, with all registers set before. *)
Definition slow (t : nat) : nat := if Nat.eqb (Nat.modulo t 3) 0 then 1%nat else 0%nat.
Definition device (always : bool) : uart := mk_uart 255 255 255 255 255 255 [] [7] [] true always 0.
Definition hello (always : bool) : option (list N * list N) :=
  let (s, u) := serial_init slow (mk_drv 5 9) (device always) in
  match put_text slow 100 [65; 66; 10; 67] s u with
  | Some (_, u) => Some (u_wire u, u_tx u)
  | None => None
  end.
Example C127_case : idle (device true) /\ idle (device false) /\
  hello false = Some ([7; 65; 66; 13; 10], [67]) /\ hello true = Some ([7; 65], [66; 13; 10; 67]).
Proof. vm_compute. repeat split; reflexivity. Qed.
Example C127_case_live : live slow.
Proof.
  intro n. exists (n * 3)%nat. split; [Lia.lia|].
  unfold slow. rewrite PeanoNat.Nat.mod_mul by discriminate. cbn. Lia.lia.
Qed.
(** What waits to be transmitted when the port is initialised is lost. *)
Example C127_case_pending :
  u_lost (snd (serial_init (fun _ => 0%nat) (mk_drv 1 0)
    (mk_uart 3 0 1 0 1 0 [65] [] [] true false 0))) = [65].
Proof. vm_compute. reflexivity. Qed.
