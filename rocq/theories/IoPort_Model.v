(** Model of access to IO ports: camkes/templates/seL4HardwareIOPort.template.c and
    libsel4camkes/src/arch/x86/io.c.

    Simplifications.
    - Attributes are given as the two numbers of "start:end".
    - The device is any state with functions for reading and writing; the kernel does an access if the
      capability covers all bytes of it and answers with an error otherwise, in which case the result is
      whatever the registers hold ([junk]).
    - The error handlers are those of the standard configuration (error.h:229-249); an interface is
      identified by its position, and so is its error handler.
    - The regions are in the linker section in the order of the interfaces. *)
From Coq Require Import NArith List Bool.
From Verif Require Import Prelude.
Import ListNotations.
Open Scope N_scope.

(** camkes/io.h:48-55; the region is also the place of its interface *)
Record region := Region { r_start : N; r_end : N; r_cap : nat; r_interface : nat }.
Definition u16 (x : N) : N := x mod 65536.

(** seL4HardwareIOPort.template.c:21-33, :42-50: a region of every interface; start and end are stored in
    16 bits.  The capability covers the ports from start to end (end_port is exclusive). *)
Definition regions (attrs : list (N * N)) : list region :=
  map (fun '(i, (s, e)) => Region (u16 s) (u16 e) i i) (combine (seq 0 (List.length attrs)) attrs).
Definition cap_range (attrs : list (N * N)) (c : nat) : option (N * N) :=
  match nth_error attrs c with Some (s, e) => Some (s, e + 1) | None => None end.

(** io.c:22-31 *)
Definition find_io_port_region (rs : list region) (port : N) : option region :=
  find (fun r => (r_start r <=? port) && (port <=? r_end r)) rs.

(** What the handler of an interface says about an error (error.h:234-247) *)
Inductive answer := Discard | Ignore | Halt | Abort.

(** Bytes of an access *)
Inductive iosize := IOSIZE_8 | IOSIZE_16 | IOSIZE_32.
Definition bytes (z : iosize) : N := match z with IOSIZE_8 => 1 | IOSIZE_16 => 2 | IOSIZE_32 => 4 end.

Record device := Device {
  state : Type;
  dev_in : N -> iosize -> state -> N * state;
  dev_out : N -> iosize -> N -> state -> state }.

(** The kernel: does the capability cover the access? *)
Definition allowed (attrs : list (N * N)) (cap : nat) (port : N) (z : iosize) : bool :=
  match cap_range attrs cap with
  | Some (first, bound) => (first <=? port) && (port + bytes z <=? bound)
  | None => false
  end.

(** Result of a call: stopped, or returned a value; with the device afterwards and the interfaces whose
    handlers were called, last first. *)
Inductive outcome {D : Type} := Stopped (d : D) (log : list nat) | Returned (v : N) (d : D) (log : list nat).
Arguments outcome : clear implicits.

(** io.c:34-47: None stops, Some false is -1 *)
Definition syscall_error_handler (handler : nat -> answer) (r : region) : option bool :=
  match handler (r_interface r) with
  | Discard => Some false
  | Ignore => Some true
  | _ => None
  end.

(** io.c:127-143 with :49-88, as a function of the port that was asked for.  The value is None for
    an error. *)
Inductive call {D : Type} := CStop (d : D) (log : list nat) | CRet (v : option N) (d : D) (log : list nat).
Arguments call : clear implicits.
Definition truncate (z : iosize) (v : N) : N := v mod 2 ^ (8 * bytes z).
Definition arch_in (V : device) (attrs : list (N * N)) (handler : nat -> answer) (junk : N)
  (port : N) (z : iosize) (d : state V) : call (state V) :=
  match find_io_port_region (regions attrs) (u16 port) with
  | None => CRet None d []
  | Some r =>
    if allowed attrs (r_cap r) (u16 port) z then
      let (v, d') := dev_in V (u16 port) z d in CRet (Some (truncate z v)) d' []
    else match syscall_error_handler handler r with
         | None => CStop d [r_interface r]
         | Some false => CRet None d [r_interface r]
         | Some true => CRet (Some (truncate z junk)) d [r_interface r]
         end
  end.
(** io.c:145-161 with :90-125; the value written is cut to the size *)
Definition arch_out (V : device) (attrs : list (N * N)) (handler : nat -> answer)
  (port : N) (z : iosize) (v : N) (d : state V) : call (state V) :=
  match find_io_port_region (regions attrs) (u16 port) with
  | None => CRet None d []
  | Some r =>
    if allowed attrs (r_cap r) (u16 port) z then CRet (Some 0) (dev_out V (u16 port) z (truncate z v) d) []
    else match syscall_error_handler handler r with
         | None => CStop d [r_interface r]
         | Some false => CRet None d [r_interface r]
         | Some true => CRet (Some 0) d [r_interface r]
         end
  end.

(** seL4HardwareIOPort.template.c:30-32 *)
Definition in_range (s e port : N) : bool := (s <=? port) && (port <=? e).

(** seL4HardwareIOPort.template.c:65-110: <interface>_in8_offset, .. of interface [i]; [off] is below
    65536.  An assertion that fails stops. *)
Definition in_offset (V : device) (attrs : list (N * N)) (handler : nat -> answer) (junk : N)
  (i : nat) (z : iosize) (off : N) (d : state V) : outcome (state V) :=
  match nth_error attrs i with
  | None => Stopped d []
  | Some (s, e) =>
    if in_range s e (s + off) then
      match arch_in V attrs handler junk (s + off) z d with
      | CStop d' l => Stopped d' l
      | CRet (Some v) d' l => Returned (truncate z v) d' l
      | CRet None d' l => Returned 0 d' l
      end
    else Stopped d []
  end.
(** seL4HardwareIOPort.template.c:112-143: <interface>_out8_offset, .. ; the parameter has the size of
    the access *)
Definition out_offset (V : device) (attrs : list (N * N)) (handler : nat -> answer)
  (i : nat) (z : iosize) (off v : N) (d : state V) : outcome (state V) :=
  match nth_error attrs i with
  | None => Stopped d []
  | Some (s, e) =>
    if in_range s e (s + off) then
      match arch_out V attrs handler (s + off) z (truncate z v) d with
      | CStop d' l => Stopped d' l
      | CRet _ d' l => Returned 0 d' l
      end
    else Stopped d []
  end.
