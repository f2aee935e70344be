(** Model of how the delegate of the debugger tests an address (check_read_memory and
    check_write_memory, camkes/templates/component.debug.c) and of the component that handles the
    faults this causes (camkes/templates/seL4GDBMem-to.template.c), instruction by instruction.

    Addresses have 32 bits.  Memory maps a byte address to contents and whether it is writable.
    Lengths of instructions are those of their encoding: b8 imm32, 89 /r, 8b /r and 89 /r; code
    does not wrap around.
    Not modelled: other threads; a fault of the handler itself. *)
From Coq Require Import List NArith Bool.
Import ListNotations.
Open Scope N_scope.
Open Scope list_scope.

Definition memory := N -> option (N * bool).
Definition wrap (x : N) : N := x mod 2 ^ 32.

(** The registers used; [addr] and [result] are the operands the compiler chooses. *)
Record cpu := Cpu { eax : N; ebx : N; ecx : N; eip : N; addr : N; result : N }.

(** The instructions of the two fragments, and the first one after them. *)
Inductive instruction := MovZeroEax | MovAddrEbx | LoadEcx | StoreEcx | MovEaxResult.
Definition size (i : instruction) : N := match i with MovZeroEax => 5 | _ => 2 end.

(** component.debug.c:23-34 *)
Definition check_read : list instruction := [MovZeroEax; MovAddrEbx; LoadEcx; MovEaxResult].
(** component.debug.c:41-53 *)
Definition check_write : list instruction :=
  [MovZeroEax; MovAddrEbx; LoadEcx; StoreEcx; MovEaxResult].

(** The instruction at an address, the program being at [base].  None: not the start of an
    instruction of the program. *)
Fixpoint fetch (p : list instruction) (base pc : N) : option instruction :=
  match p with
  | [] => None
  | i :: p => if pc =? base then Some i else fetch p (base + size i) pc
  end.
Fixpoint code_size (p : list instruction) : N :=
  match p with [] => 0 | i :: p => size i + code_size p end.

(** A word in memory, little endian; None if a byte is not mapped. *)
Definition byte (m : memory) (a : N) : option N := option_map fst (m (wrap a)).
Definition load (m : memory) (a : N) : option N :=
  match byte m a, byte m (a + 1), byte m (a + 2), byte m (a + 3) with
  | Some b0, Some b1, Some b2, Some b3 => Some (b0 + 256 * (b1 + 256 * (b2 + 256 * b3)))
  | _, _, _, _ => None
  end.
Definition may_write (m : memory) (a : N) : bool :=
  match m (wrap a) with Some (_, w) => w | None => false end.
Definition put (m : memory) (a v : N) : memory :=
  fun x => if x =? wrap a then Some (v, true) else m x.
Definition store (m : memory) (a v : N) : option memory :=
  if may_write m a && may_write m (a + 1) && may_write m (a + 2) && may_write m (a + 3)
  then Some (put (put (put (put m a (v mod 256)) (a + 1) (v / 256 mod 256))
                    (a + 2) (v / 256 / 256 mod 256)) (a + 3) (v / 256 / 256 / 256 mod 256))
  else None.

(** What the delegate is doing: running; waiting for an answer to a fault; waiting without
    anyone knowing; having left the program; at an address within an instruction or elsewhere. *)
Inductive status := Running | Faulted | Forgotten | Left | Astray.
Record machine := Machine { m_cpu : cpu; m_mem : memory; m_status : status }.

Definition next (c : cpu) (i : instruction) : N := eip c + size i.

(** One instruction. *)
Definition execute (i : instruction) (c : cpu) (m : memory) : machine :=
  match i with
  | MovZeroEax => Machine (Cpu 0 (ebx c) (ecx c) (next c i) (addr c) (result c)) m Running
  | MovAddrEbx => Machine (Cpu (eax c) (addr c) (ecx c) (next c i) (addr c) (result c)) m Running
  | LoadEcx =>
      match load m (ebx c) with
      | Some v => Machine (Cpu (eax c) (ebx c) v (next c i) (addr c) (result c)) m Running
      | None => Machine c m Faulted
      end
  | StoreEcx =>
      match store m (ebx c) (ecx c) with
      | Some m' => Machine (Cpu (eax c) (ebx c) (ecx c) (next c i) (addr c) (result c)) m' Running
      | None => Machine c m Faulted
      end
  | MovEaxResult => Machine (Cpu (eax c) (ebx c) (ecx c) (next c i) (addr c) (eax c)) m Running
  end.

(** seL4GDBMem-to.template.c:30-49, for one message.  Without an answer the next message to arrive
    takes the place of this one. *)
Definition handle (c : cpu) (m : memory) : machine :=
  if eax c =? 0
  then Machine (Cpu 1 (ebx c) (ecx c) (eip c + 2) (addr c) (result c)) m Running
  else Machine c m Forgotten.

(** A step of delegate and handler; [base] is where the program is. *)
Definition step (p : list instruction) (base : N) (s : machine) : machine :=
  match m_status s with
  | Running =>
      if eip (m_cpu s) =? base + code_size p then Machine (m_cpu s) (m_mem s) Left
      else match fetch p base (eip (m_cpu s)) with
           | Some i => execute i (m_cpu s) (m_mem s)
           | None => Machine (m_cpu s) (m_mem s) Astray
           end
  | Faulted => handle (m_cpu s) (m_mem s)
  | Forgotten | Left | Astray => s
  end.
Fixpoint steps (n : nat) (p : list instruction) (base : N) (s : machine) : machine :=
  match n with
  | O => s
  | S n => steps n p base (step p base s)
  end.

(** A call of the fragment for an address, with anything in the other registers. *)
Definition enter (base a x y z r : N) (m : memory) : machine :=
  Machine (Cpu x y z base a r) m Running.
