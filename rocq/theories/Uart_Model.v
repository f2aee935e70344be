(** The serial line of the debugger: registers, initialisation and output of
    libsel4camkes/src/sel4_arch/ia32/gdb_server/serial.c, and the UART it drives (a 16550).

    The UART is not part of the code; [uart], [port_out] and [port_in] are its data sheet as far as
    the driver depends on it.  Between two accesses of the driver it transmits any number of
    characters: [speed t] before access number [t].
    Not modelled: received characters (area Gdb), so that no interrupt is pending while the port is
    initialised; locks; serial_port_out8_offset and serial_port_in8_offset, which reach the port. *)
From Coq Require Import List NArith Bool.
From Verif Require Import Prelude.
Import ListNotations.
Open Scope N_scope.
Open Scope list_scope.

(** ** The device *)
(** [u_tx]: what waits to be transmitted; [u_wire]: what has been; [u_lost]: what was thrown away.
    [u_has_fifo]: there is a buffer for 16 characters, otherwise for one; [u_always]: its presence is
    reported in the IIR even while it is disabled, which a 16550 does not do. *)
Record uart := mk_uart {
  u_lcr : N; u_ier : N; u_dll : N; u_dlm : N; u_fcr : N; u_mcr : N;
  u_tx : list N; u_wire : list N; u_lost : list N;
  u_has_fifo : bool; u_always : bool; u_time : nat }.
Definition dlab (u : uart) : bool := N.testbit (u_lcr u) 7.
Definition fifo_on (u : uart) : bool := u_has_fifo u && N.testbit (u_fcr u) 0.
Definition capacity (u : uart) : nat := if fifo_on u then 16 else 1.
(** Time passes: [k] characters are transmitted. *)
Definition transmit (k : nat) (u : uart) : uart :=
  mk_uart (u_lcr u) (u_ier u) (u_dll u) (u_dlm u) (u_fcr u) (u_mcr u)
    (skipn k (u_tx u)) (u_wire u ++ firstn k (u_tx u)) (u_lost u)
    (u_has_fifo u) (u_always u) (S (u_time u)).
(** Writing a register.  A character for a full buffer is lost; switching the buffer on or off
    empties it. *)
Definition port_out (off v : N) (u : uart) : uart :=
  let '(mk_uart lcr ier dll dlm fcr mcr tx wire lost hf al t) := u in
  if off =? 0 then
    if dlab u then mk_uart lcr ier v dlm fcr mcr tx wire lost hf al t
    else if Nat.ltb (List.length tx) (capacity u)
    then mk_uart lcr ier dll dlm fcr mcr (tx ++ [v]) wire lost hf al t
    else mk_uart lcr ier dll dlm fcr mcr tx wire (lost ++ [v]) hf al t
  else if off =? 1 then
    if dlab u then mk_uart lcr ier dll v fcr mcr tx wire lost hf al t
    else mk_uart lcr v dll dlm fcr mcr tx wire lost hf al t
  else if off =? 2 then
    if Bool.eqb (N.testbit v 0) (N.testbit fcr 0)
    then mk_uart lcr ier dll dlm v mcr tx wire lost hf al t
    else mk_uart lcr ier dll dlm v mcr [] wire (lost ++ tx) hf al t
  else if off =? 3 then mk_uart v ier dll dlm fcr mcr tx wire lost hf al t
  else if off =? 4 then mk_uart lcr ier dll dlm fcr v tx wire lost hf al t
  else u.
(** Reading a register: IIR (no interrupt pending), LCR, LSR. *)
Definition port_in (off : N) (u : uart) : N :=
  if off =? 2 then (if fifo_on u || (u_has_fifo u && u_always u) then 192 else 0) + 1
  else if off =? 3 then u_lcr u
  else if off =? 5 then (match u_tx u with [] => 96 | _ => 0 end)
  else 0.

(** ** The driver *)
(** [fifo_depth], [fifo_used] (serial.c:100-101) *)
Record drv := mk_drv { fifo_depth : nat; fifo_used : nat }.
Section Driver.
Variable speed : nat -> nat.
Definition out8 (off v : N) (u : uart) : uart := port_out off v (transmit (speed (u_time u)) u).
Definition in8 (off : N) (u : uart) : N * uart :=
  let u' := transmit (speed (u_time u)) u in (port_in off u', u').

(** serial.c:148-202: register offsets (serial.c:21-31) *)
Definition write_thr := out8 0.
Definition write_latch_low := out8 0.
Definition write_latch_high := out8 1.
Definition write_ier := out8 1.
Definition write_fcr := out8 2.
Definition write_lcr := out8 3.
Definition write_mcr := out8 4.
Definition read_iir := in8 2.
Definition read_lcr := in8 3.
Definition read_lsr := in8 5.

(** serial.c:229-236; LCR_DLAB is bit 7 *)
Definition set_dlab (v : bool) (u : uart) : uart :=
  let (lcr, u) := read_lcr u in
  if v then write_lcr (N.lor lcr 128) u else write_lcr (N.ldiff lcr 128) u.
(** serial.c:134-140 *)
Definition write_latch (val : N) (u : uart) : uart :=
  let u := set_dlab true u in
  let u := write_latch_high (val / 256) u in
  let u := write_latch_low (N.land val 255) u in
  set_dlab false u.
(** serial.c:238-249 *)
Definition disable_interrupt (u : uart) : uart := write_ier 0 u.
Definition disable_fifo (u : uart) : uart := write_fcr 0 (write_fcr 6 u).
(** serial.c:251-257 *)
Definition set_baud_rate (baud : N) (u : uart) : uart := write_latch (115200 / baud) u.
(** serial.c:265-275 *)
Definition enable_fifo (s : drv) (u : uart) : drv * uart :=
  let (info, u) := read_iir u in
  if N.land info 192 =? 192 then (mk_drv 16 (fifo_used s), write_fcr 1 u)
  else (mk_drv 1 (fifo_used s), u).
(** serial.c:277-291 *)
Definition enable_interrupt (u : uart) : uart := write_ier 1 u.
Definition reset_lcr (u : uart) : uart := write_lcr 3 u.
Definition reset_mcr (u : uart) : uart := write_mcr 15 u.
(** serial.c:206-227, 259-263 [reset_state]; [clear_iir] (serial.c:320-337) reads the IIR once if
    nothing is pending *)
Definition serial_init (s : drv) (u : uart) : drv * uart :=
  let u := set_dlab false u in
  let u := disable_interrupt u in
  let u := disable_fifo u in
  let u := reset_lcr u in
  let u := reset_mcr u in
  let (_, u) := read_iir u in
  let u := set_baud_rate 115200 u in
  let s := mk_drv (fifo_depth s) 0 in
  let (s, u) := enable_fifo s u in
  let u := enable_interrupt u in
  let (_, u) := read_iir u in
  (s, u).

(** serial.c:293-297: the loop, left when it has been repeated [fuel] times *)
Fixpoint wait_for_fifo (fuel : nat) (s : drv) (u : uart) : option (drv * uart) :=
  match fuel with
  | O => None
  | S fuel =>
      let (lsr, u) := read_lsr u in
      if N.land lsr 96 =? 0 then wait_for_fifo fuel s u
      else Some (mk_drv (fifo_depth s) 0, u)
  end.
(** serial.c:340-349 *)
Definition serial_output_via_fifo (fuel : nat) (c : N) (s : drv) (u : uart) : option (drv * uart) :=
  match (if Nat.eqb (fifo_used s) (fifo_depth s) then wait_for_fifo fuel s u else Some (s, u)) with
  | None => None
  | Some (s, u) => Some (mk_drv (fifo_depth s) (S (fifo_used s)), write_thr c u)
  end.
(** serial.c:352-359 *)
Definition serial_putchar (fuel : nat) (c : N) (s : drv) (u : uart) : option (drv * uart) :=
  match (if c =? 10 then serial_output_via_fifo fuel 13 s u else Some (s, u)) with
  | None => None
  | Some (s, u) => serial_output_via_fifo fuel c s u
  end.
(** serial.c:386-390: the loop of gdb_printf *)
Fixpoint put_text (fuel : nat) (text : list N) (s : drv) (u : uart) : option (drv * uart) :=
  match text with
  | [] => Some (s, u)
  | c :: text =>
      match serial_putchar fuel c s u with
      | None => None
      | Some (s, u) => put_text fuel text s u
      end
  end.
End Driver.
