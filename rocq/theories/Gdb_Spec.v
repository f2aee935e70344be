(** What a GDB client expects of the server: the remote serial protocol. *)
From Coq Require Import String Ascii List NArith.
From Verif Require Import Gdb_Model.
Import ListNotations.
Open Scope N_scope.

(** ** Hexadecimal text *)
(** A character that is a digit of the value. *)
Definition hex_value (c v : N) : Prop :=
  nth_error (bytes "0123456789abcdef") (N.to_nat v) = Some c \/ nth_error (bytes "0123456789ABCDEF") (N.to_nat v) = Some c.
Definition number (base : N) (ds : list N) : N := fold_left (fun a d => base * a + d) ds 0.
Definition hex_text (t : list N) (v : N) : Prop := t <> [] /\ exists ds, Forall2 hex_value t ds /\ v = number 16 ds.
Definition dec_text (t : list N) (v : N) : Prop :=
  t <> [] /\ exists ds, Forall2 hex_value t ds /\ Forall (fun d => d < 10) ds /\ v = number 10 ds.
(** Two digits for each byte. *)
Definition hex_of_byte (v : N) : list N :=
  [nth (N.to_nat (v / 16)) (bytes "0123456789abcdef") 0; nth (N.to_nat (v mod 16)) (bytes "0123456789abcdef") 0].
Definition hex_bytes (t vs : list N) : Prop := Forall2 hex_value t (flat_map (fun v => [v / 16; v mod 16]) vs).

(** ** Packets *)
Definition sum (l : list N) : N := fold_right N.add 0 l.
(** The stream ends with the packet $p#xy. *)
Definition ends_with_packet (s p : list N) (x y : N) : Prop :=
  (exists before, s = before ++ [ch "$"] ++ p ++ [ch "#"; x; y]) /\
  ~ In (ch "$") p /\ ~ In (ch "#") p /\ x <> ch "$" /\ y <> ch "$".
Definition ack : list N := [ch "+"; 13; 10].
Definition nack : list N := [ch "-"; 13; 10].
(** A reply on the wire: the checksum in two digits, the line ended. *)
Definition frame (m : list N) : list N :=
  [ch "$"] ++ m ++ [ch "#"] ++
  [nth (N.to_nat (sum m mod 256 / 16)) (bytes "0123456789ABCDEF") 0; nth (N.to_nat (sum m mod 16)) (bytes "0123456789ABCDEF") 0] ++ [13; 10].
(** Only characters that can stand in a packet as they are. *)
Definition plain (m : list N) : Prop := Forall (fun c => 32 <= c < 127 /\ c <> ch "$" /\ c <> ch "#") m.

(** Commands that are answered by a reply. *)
Definition answered (c : list N) : Prop :=
  (exists x r, c = x :: r /\ In x (bytes "?gGHmMpPqXzZ")) \/
  (exists r, c = bytes "vCont?" ++ r) \/ (exists r, c = bytes "vKill" ++ r) \/ (exists r, c = bytes "vMustReplyEmpty" ++ r).
(** Commands that let the thread run; the answer comes when it stops again. *)
Definition resumes (c : list N) : Prop := exists x r, c = x :: r /\ In x (bytes "cs").

(** ** States that differ in what is sent only *)
Definition only_sends (m : list N) (s s' : st) : Prop := s' = put (frame m) s.

(** ** Memory *)
(** Every byte of the range is mapped, and, when to be written, writable. *)
Definition mapped (s : st) (a n : N) : Prop := forall x, a <= x < a + n -> exists v w, mem s x = Some (v, w).
Definition writable (s : st) (a n : N) : Prop := forall x, a <= x < a + n -> exists v, mem s x = Some (v, true).
Definition contents (s : st) (a : N) (vs : list N) : Prop :=
  forall i v, nth_error vs i = Some v -> v < 256 /\ exists w, mem s (a + N.of_nat i) = Some (v, w).
(** The bytes are written at the address, and nothing else changes but for the reply. *)
Record memory_written (a : N) (vs m : list N) (s s' : st) : Prop := {
  inside : forall i v, nth_error vs i = Some v -> mem s' (a + N.of_nat i) = Some (v, true);
  outside : forall x, x < a \/ a + N.of_nat (List.length vs) <= x -> mem s' x = mem s x;
  mw_out : out s' = out s ++ frame m;
  mw_rest : regs s' = regs s /\ table s' = table s /\ kslots s' = kslots s /\ stepping s' = stepping s /\ tcb s' = tcb s /\
            pc s' = pc s /\ step_mode s' = step_mode s /\ stopped s' = stopped s /\ posted s' = posted s }.

(** ** Registers *)
(** GDB's numbering for i386, and the members of the kernel's seL4_UserContext. *)
Definition gdb_registers : list string :=
  ["eax"; "ecx"; "edx"; "ebx"; "esp"; "ebp"; "esi"; "edi"; "eip"; "eflags"; "cs"; "ss"; "ds"; "es"; "fs_base"; "gs_base"]%string.
Definition context_registers : list string :=
  ["eip"; "esp"; "eflags"; "eax"; "ebx"; "ecx"; "edx"; "esi"; "edi"; "ebp"; "fs_base"; "gs_base"]%string.
(** The value of a register by its name; one that is not in the context reads as zero. *)
Definition register (context : list N) (name : string) : N :=
  match find (fun p => String.eqb (fst p) name) (combine context_registers context) with
  | Some (_, v) => v
  | None => 0
  end.
(** The bytes of a word, the lowest first. *)
Definition little_endian (w : N) : list N := [w mod 256; w / 256 mod 256; w / 65536 mod 256; w / 16777216 mod 256].
Definition hex_word (w : N) : list N := flat_map hex_of_byte (little_endian w).

(** ** Breakpoints *)
Definition execute_at (a : N) : bp := mk_bp a 1 0 0.
Definition break_of (type a size : N) : bp :=
  match type with
  | 1 => execute_at a
  | 2 => mk_bp a 0 size 1      (* written *)
  | 3 => mk_bp a 0 size 0      (* read *)
  | _ => mk_bp a 0 size 2      (* read or written *)
  end.
(** One place changes from one content to another. *)
Definition exchanged (x y : option bp) (l l' : list (option bp)) : Prop :=
  exists u v, l = u ++ x :: v /\ l' = u ++ y :: v.
Fixpoint commands (cs : list (list N)) (s : st) : run st :=
  match cs with
  | [] => Done s
  | c :: cs => match handle_command c s with Done s => commands cs s | Crash f => Crash f end
  end.
(** Another thread stops. *)
Definition switch (t : N) (s : st) : st :=
  mk_st (mem s) (regs s) (table s) (kslots s) (accepts s) (stepping s) t (pc s) (step_mode s) (stopped s) (watch_addr s) (posted s) (junk s) (uninit s) (out s).
(** Nothing changes but the breakpoints of the current thread and what is sent. *)
Record breaks_changed (x y : option bp) (m : list N) (s s' : st) : Prop := {
  bc_table : exchanged x y (table s) (table s');
  bc_others : forall t, t <> tcb s -> kslots s' t = kslots s t;
  bc_out : out s' = out s ++ frame m;
  bc_rest : mem s' = mem s /\ regs s' = regs s /\ stepping s' = stepping s /\ tcb s' = tcb s /\
            pc s' = pc s /\ step_mode s' = step_mode s /\ stopped s' = stopped s /\ posted s' = posted s }.
