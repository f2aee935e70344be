(** What a GDB user expects when a thread stops and goes on. *)
From Coq Require Import String Ascii List NArith.
From Verif Require Import Gdb_Model Gdb_Spec GdbStop_Model.
Import ListNotations.
Open Scope N_scope.

(** Why a thread can stop, and the kernel's message for it. *)
Inductive cause := Watchpoint (addr : N) | Breakpoint | Stepped | SoftwareBreak.
Definition debug_message (t ip : N) (c : cause) (number : N) : message :=
  mk_message t DebugException
    (match c with
     | Watchpoint a => [ip; 0; a; number]
     | Breakpoint => [ip; 1; ip; number]
     | Stepped => [ip; 2; ip; number]
     | SoftwareBreak => [ip; 3; ip; number]
     end).

(** An address as text, the highest digit first. *)
Definition hex_address (a : N) : list N :=
  flat_map hex_of_byte [a / 16777216 mod 256; a / 65536 mod 256; a / 256 mod 256; a mod 256].
(** The stop reply: trap signal, thread, cause. *)
Definition report (c : cause) : list N :=
  bytes "T05thread:01;" ++
  match c with
  | Watchpoint a => bytes "watch:" ++ hex_address a ++ bytes ";"
  | Breakpoint => bytes "hwbreak:;"
  | Stepped => []
  | SoftwareBreak => bytes "swbreak:;"
  end.
(** The instruction that stopped: the kernel's pointer is past a software breakpoint. *)
Definition stopped_at (c : cause) (ip : N) : N := match c with SoftwareBreak => ip - 1 | _ => ip end.

(** Nothing but the debugger's own records and the output changes. *)
Definition same_machine (s s' : st) : Prop :=
  mem s' = mem s /\ table s' = table s /\ kslots s' = kslots s /\ stepping s' = stepping s /\ posted s' = posted s.

(** One round: the thread stops, commands that do not let it run, and one that does. *)
Inductive resumption := Step | Continue.
Definition letter (r : resumption) : list N := match r with Step => bytes "s" | Continue => bytes "c" end.
Definition round (m : message) (cs : list (list N)) (r : resumption) (s : st) : run (option N * st) :=
  match stop m s with
  | Done s1 =>
      match commands cs s1 with
      | Done s2 =>
          match handle_command (letter r) s2 with
          | Done s3 => Done (restart m s3)
          | Crash f => Crash f
          end
      | Crash f => Crash f
      end
  | Crash f => Crash f
  end.
Definition stays (cs : list (list N)) : Prop :=
  Forall (fun c => ~ resumes c /\ forall r, c <> bytes "vCont" ++ r) cs.
(** Of how many instructions the thread is to be executed before it stops. *)
Definition asked (r : resumption) : option N := match r with Step => Some 1 | Continue => None end.

(** A session with one thread: what happens in each round, and how far the thread is let run. *)
Record event := mk_event { e_ip : N; e_cause : cause; e_number : N; e_commands : list (list N); e_then : resumption }.
Fixpoint session (t : N) (es : list event) (s : st) : run (list (option N) * st) :=
  match es with
  | [] => Done ([], s)
  | e :: es =>
      match round (debug_message t (e_ip e) (e_cause e) (e_number e)) (e_commands e) (e_then e) s with
      | Done (n, s) => match session t es s with Done (ns, s) => Done (n :: ns, s) | Crash f => Crash f end
      | Crash f => Crash f
      end
  end.
(** After a step the thread stops because it has stepped, and otherwise for another cause. *)
Fixpoint consistent (r : resumption) (es : list event) : Prop :=
  match es with
  | [] => True
  | e :: es => (e_cause e = Stepped <-> r = Step) /\ consistent (e_then e) es
  end.
