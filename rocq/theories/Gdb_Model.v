(** The GDB server of a debugged component: the serial input buffer and output
    (libsel4camkes/src/sel4_arch/ia32/gdb_server/serial.c), the packets and commands
    (libsel4camkes/src/sel4_arch/ia32/gdb_server/gdb.c) and the delegate in the debugged
    component (camkes/templates/component.debug.c).

    Bytes and 32-bit words are N.  A C string is the list of its characters, without the
    terminating zero.  Not modelled: the serial port's registers and interrupts, locking, log
    messages, the fault loop (seL4GDB-to.template.c).  CONFIG_HARDWARE_DEBUG_API is on. *)
From Coq Require Import String Ascii List Bool NArith ZArith.
Import ListNotations.
Open Scope N_scope.

Definition bytes (s : string) : list N := map N_of_ascii (list_ascii_of_string s).
Definition ch (c : ascii) : N := N_of_ascii c.

(** How the C program can go wrong.  [Hang]: the delegate waits for ever. *)
Inductive fault := NullPointer | OutOfBounds | PageFault | Hang.
Inductive run (A : Type) := Done (a : A) | Crash (f : fault).
Arguments Done {A} a.
Arguments Crash {A} f.
Definition andthen {A B} (r : run A) (f : A -> run B) : run B :=
  match r with Done a => f a | Crash f => Crash f end.
Notation "x <~ m ; k" := (andthen m (fun x => k)) (at level 61, m at next level, right associativity).

(** ** The input buffer (serial.c) *)
(** gdb.h:59-64; GETCHAR_BUFSIZ is 512 *)
Definition BUFSIZ : N := 512.
Record buffer := mk_buffer { data : list N; length : N; checksum_count : N; checksum_index : N; command_wait : bool }.
(** The buffer is a zeroed global. *)
Definition start : buffer := mk_buffer (repeat 0 (N.to_nat BUFSIZ)) 0 0 0 false.

Fixpoint set_nth (i : nat) (v : N) (l : list N) : list N :=
  match l, i with
  | [], _ => []
  | _ :: l, O => v :: l
  | a :: l, S i => a :: set_nth i v l
  end.

(** serial.c:113-122 [push_buffer]; the result is ignored by its caller *)
Definition push_buffer (c : N) (b : buffer) : buffer :=
  if length b =? BUFSIZ then b
  else mk_buffer (set_nth (N.to_nat (length b)) c (data b)) (length b + 1) (checksum_count b) (checksum_index b) (command_wait b).

(** serial.c:106-111, 124-131 [initialise_buffer], [clear_buffer] *)
Fixpoint zero_first (n : nat) (l : list N) : list N :=
  match n, l with
  | O, l => l
  | S n, _ :: l => 0 :: zero_first n l
  | S n, [] => []
  end.
Definition clear_buffer (b : buffer) : buffer :=
  mk_buffer (zero_first (N.to_nat (length b)) (data b)) 0 0 0 (command_wait b).

(** serial.c:300-318 [handle_char]: has a whole packet arrived? *)
Definition handle_char (c : N) (b : buffer) : bool * buffer :=
  let b :=
    if c =? ch "$" then
      let b := clear_buffer b in mk_buffer (data b) (length b) (checksum_count b) (checksum_index b) true
    else if negb (checksum_index b =? 0) then
      mk_buffer (data b) (length b) (checksum_count b + 1) (checksum_index b) (command_wait b)
    else if c =? ch "#" then
      mk_buffer (data b) (length b) (checksum_count b) (length b) (command_wait b)
    else b in
  let b := push_buffer c b in
  ((checksum_count b =? 2) && command_wait b, b).

(** serial.c:369-375: after the packet has been handled *)
Definition after_packet (b : buffer) : buffer :=
  let b := clear_buffer b in mk_buffer (data b) (length b) (checksum_count b) (checksum_index b) false.

(** ** Numbers in strings *)
Definition is_space (c : N) : bool := (c =? 32) || ((9 <=? c) && (c <=? 13)).
Definition digit_value (c : N) : option N :=
  if (48 <=? c) && (c <=? 57) then Some (c - 48)
  else if (97 <=? c) && (c <=? 122) then Some (c - 97 + 10)
  else if (65 <=? c) && (c <=? 90) then Some (c - 65 + 10)
  else None.
Definition digit_in (base c : N) : option N :=
  match digit_value c with Some d => if d <? base then Some d else None | None => None end.

(** The characters are read from memory; the end of the list is the end of the object. *)
Fixpoint digits (base : N) (acc : Z) (l : list N) : run Z :=
  match l with
  | [] => Crash OutOfBounds
  | c :: l =>
      match digit_in base c with
      | Some d => digits base (acc * Z.of_N base + Z.of_N d)%Z l
      | None => Done acc
      end
  end.
Fixpoint skip_spaces (l : list N) : list N :=
  match l with c :: l' => if is_space c then skip_spaces l' else l | [] => [] end.
Definition sign (l : list N) : bool * list N :=
  match l with
  | c :: l' => if c =? ch "-" then (true, l') else if c =? ch "+" then (false, l') else (false, l)
  | [] => (false, [])
  end.
Definition prefix (base : N) (l : list N) : run (list N) :=
  match l with
  | z :: x :: l' =>
      if (base =? 16) && (z =? ch "0") && ((x =? ch "x") || (x =? ch "X")) then
        match l' with
        | [] => Crash OutOfBounds
        | d :: _ => match digit_in 16 d with Some _ => Done l' | None => Done l end
        end
      else Done l
  | l => Done l
  end.
Definition magnitude (base : N) (l : list N) : run (bool * Z) :=
  let '(neg, l) := sign (skip_spaces l) in
  l <~ prefix base l ; z <~ digits base 0%Z l ; Done (neg, z).

(** The C library's [strtol] and [strtoul] with a 32-bit [long]. *)
Definition strtol_mem (base : N) (l : list N) : run Z :=
  r <~ magnitude base l ;
  Done (if fst r then Z.max (- snd r) (- 2 ^ 31) else Z.min (snd r) (2 ^ 31 - 1))%Z.
Definition strtoul_mem (base : N) (l : list N) : run Z :=
  r <~ magnitude base l ;
  Done (if (2 ^ 32 - 1 <? snd r)%Z then (2 ^ 32 - 1)%Z
        else if fst r then ((- snd r) mod 2 ^ 32)%Z else snd r).
(** On a pointer to a C string, or a null pointer. *)
Definition strtol (base : N) (s : option (list N)) : run Z :=
  match s with Some s => strtol_mem base (s ++ [0]) | None => Crash NullPointer end.
Definition word (z : Z) : N := Z.to_N (z mod 2 ^ 32).

(** ** The C library's [strtok_r]: the token and what follows its delimiter *)
Definition mem_N (c : N) (l : list N) : bool := existsb (N.eqb c) l.
Fixpoint strspn_drop (delims l : list N) : list N :=
  match l with c :: l' => if mem_N c delims then strspn_drop delims l' else l | [] => [] end.
Fixpoint split_at (delims l : list N) : list N * list N :=
  match l with
  | [] => ([], [])
  | c :: l => if mem_N c delims then ([], l) else let '(a, b) := split_at delims l in (c :: a, b)
  end.
Definition strtok (delims : list N) (s : list N) : option (list N) * list N :=
  match strspn_drop delims s with
  | [] => (None, [])
  | s => let '(a, b) := split_at delims s in (Some a, b)
  end.

(** ** State *)
Inductive reason := stop_none | stop_sw_break | stop_hw_break | stop_step | stop_watch.
Record bp := mk_bp { b_addr : N; b_type : N; b_size : N; b_rw : N }.
Record st := mk_st {
  mem : N -> option (N * bool);      (* the bytes of the debugged component, and whether writable *)
  regs : N -> list N;                (* the registers of each thread, as a seL4_UserContext *)
  table : list (option bp);          (* component.debug.c: breakpoints *)
  kslots : N -> list (option bp);    (* the kernel's breakpoints of each thread *)
  accepts : bp -> bool;              (* whether the kernel accepts a breakpoint *)
  stepping : N -> bool;              (* the kernel's single-step mode of each thread *)
  tcb : N; pc : N; step_mode : bool; stopped : reason; watch_addr : N;     (* gdb.h:68-81 *)
  posted : nat;                      (* calls of sem_post *)
  junk : list N;                     (* what lies behind an array on the stack *)
  uninit : list N;                   (* an uninitialised seL4_UserContext *)
  out : list N }.                    (* what has been written to the serial line *)

Definition set_mem m s := mk_st m (regs s) (table s) (kslots s) (accepts s) (stepping s) (tcb s) (pc s) (step_mode s) (stopped s) (watch_addr s) (posted s) (junk s) (uninit s) (out s).
Definition set_regs r s := mk_st (mem s) r (table s) (kslots s) (accepts s) (stepping s) (tcb s) (pc s) (step_mode s) (stopped s) (watch_addr s) (posted s) (junk s) (uninit s) (out s).
Definition set_bps t k s := mk_st (mem s) (regs s) t k (accepts s) (stepping s) (tcb s) (pc s) (step_mode s) (stopped s) (watch_addr s) (posted s) (junk s) (uninit s) (out s).
Definition set_stepping f s := mk_st (mem s) (regs s) (table s) (kslots s) (accepts s) f (tcb s) (pc s) (step_mode s) (stopped s) (watch_addr s) (posted s) (junk s) (uninit s) (out s).
Definition set_pc p s := mk_st (mem s) (regs s) (table s) (kslots s) (accepts s) (stepping s) (tcb s) p (step_mode s) (stopped s) (watch_addr s) (posted s) (junk s) (uninit s) (out s).
Definition set_step_mode b s := mk_st (mem s) (regs s) (table s) (kslots s) (accepts s) (stepping s) (tcb s) (pc s) b (stopped s) (watch_addr s) (posted s) (junk s) (uninit s) (out s).
Definition post s := mk_st (mem s) (regs s) (table s) (kslots s) (accepts s) (stepping s) (tcb s) (pc s) (step_mode s) (stopped s) (watch_addr s) (S (posted s)) (junk s) (uninit s) (out s).
Definition put l s := mk_st (mem s) (regs s) (table s) (kslots s) (accepts s) (stepping s) (tcb s) (pc s) (step_mode s) (stopped s) (watch_addr s) (posted s) (junk s) (uninit s) (out s ++ l).

(** ** Output *)
Definition hex_digit (upper : bool) (d : N) : N := if d <? 10 then d + 48 else d - 10 + (if upper then 65 else 97).
Definition hex2 (upper : bool) (b : N) : list N := [hex_digit upper (b / 16 mod 16); hex_digit upper (b mod 16)].
(** %08x *)
Definition hex8 (w : N) : list N :=
  map (fun k => hex_digit false (w / 16 ^ k mod 16)) [7; 6; 5; 4; 3; 2; 1; 0].

(** serial.c:378-392 [gdb_printf]: MAX_PRINTF_LENGTH is 256, and [vsnprintf] writes a zero at
    the end; serial.c:352-359 [serial_putchar] *)
Definition gdb_printf (text : list N) (s : st) : st :=
  put (flat_map (fun c => if c =? 10 then [13; 10] else [c]) (firstn 255 text)) s.

(** gdb.c:95-102 [compute_checksum] *)
Definition checksum (l : list N) : N := fold_left (fun a c => (a + c) mod 256) l 0.

(** gdb.c:211-226 [send_message]; the terminating zero adds nothing to the checksum *)
Definition send (m : list N) (s : st) : st :=
  gdb_printf (ch "$" :: m ++ ch "#" :: hex2 true (checksum m) ++ [10]) s.
Definition say (m : string) (s : st) : st := send (bytes m) s.

(** ** The delegate (component.debug.c) *)
Definition MAX_MEM_RANGE : N := 100.
Definition at_ (s : st) (a : N) : option (N * bool) := mem s (a mod 2 ^ 32).
(** component.debug.c:20-36, 38-55: a word at the address is read (and written back); the
    instructions and the handler of their faults are in GdbMem_Model.v *)
Definition can_read (s : st) (a : N) : bool :=
  forallb (fun i => match at_ s (a + i) with Some _ => true | None => false end) [0; 1; 2; 3].
Definition can_write (s : st) (a : N) : bool :=
  forallb (fun i => match at_ s (a + i) with Some (_, w) => w | None => false end) [0; 1; 2; 3].

Fixpoint copy_out (s : st) (a : N) (n : nat) : run (list N) :=
  match n with
  | O => Done []
  | S n =>
      match at_ s a with
      | Some (v, _) => l <~ copy_out s (a + 1) n ; Done (v :: l)
      | None => Crash PageFault
      end
  end.
Fixpoint copy_in (a : N) (l : list N) (s : st) : run st :=
  match l with
  | [] => Done s
  | v :: l =>
      match at_ s a with
      | Some (_, true) =>
          copy_in (a + 1) l (set_mem (fun x => if x =? a mod 2 ^ 32 then Some (v, true) else mem s x) s)
      | _ => Crash PageFault
      end
  end.

(** component.debug.c:133-144; None is an error *)
Definition delegate_read_memory (a len : N) (s : st) : run (option (list N)) :=
  if (len =? 0) || (MAX_MEM_RANGE <? len) then Done None
  else if negb (can_read s a) then Done None
  else l <~ copy_out s a (N.to_nat len) ; Done (Some l).
(** component.debug.c:146-158: [l] are the first [len] bytes of the range.  If the word cannot be
    read, the second fault is never answered (C129_write_refuted) *)
Definition delegate_write_memory (a len : N) (l : list N) (s : st) : run (bool * st) :=
  if (len =? 0) || (MAX_MEM_RANGE <? len) then Done (false, s)
  else if negb (can_read s a) then Crash Hang
  else if negb (can_write s a) then Done (false, s)
  else s <~ copy_in a l s ; Done (true, s).

(** component.debug.c:167-176 [delegate_read_register], 160-165; a register context has 12 words *)
Definition delegate_read_register (t n : N) (s : st) : N := nth (N.to_nat n) (regs s t) 0.
Definition set_thread_regs (t : N) (l : list N) (s : st) : st :=
  set_regs (fun x => if x =? t then l else regs s x) s.
(** component.debug.c:178-195: the registers are copied onto themselves; the error is ignored *)
Definition delegate_write_registers (t : N) (l : list N) (len : N) (s : st) : st :=
  set_thread_regs t (regs s t) s.
(** component.debug.c:197-211 *)
Definition delegate_write_register (t v n : N) (s : st) : st :=
  set_thread_regs t (set_nth (N.to_nat n) v (regs s t)) s.

(** component.debug.c:74-87 [find_free_breakpoint] *)
Fixpoint find_free (i : nat) (l : list (option bp)) : option nat :=
  match l with
  | [] => None
  | None :: _ => Some i
  | Some _ :: l => find_free (S i) l
  end.
Definition bp_eqb (a b : bp) : bool :=
  (b_addr a =? b_addr b) && (b_type a =? b_type b) && (b_size a =? b_size b) && (b_rw a =? b_rw b).
(** component.debug.c:89-105 [get_breakpoint_num] *)
Fixpoint find_bp (b : bp) (i : nat) (l : list (option bp)) : option nat :=
  match l with
  | [] => None
  | Some b' :: l => if bp_eqb b' b then Some i else find_bp b (S i) l
  | None :: l => find_bp b (S i) l
  end.
Fixpoint set_slot (i : nat) (v : option bp) (l : list (option bp)) : list (option bp) :=
  match l, i with
  | [], _ => []
  | _ :: l, O => v :: l
  | a :: l, S i => a :: set_slot i v l
  end.
(** The kernel's seL4_TCB_SetBreakpoint and seL4_TCB_UnsetBreakpoint. *)
Definition kset (t : N) (i : nat) (v : option bp) (k : N -> list (option bp)) : N -> list (option bp) :=
  fun x => if x =? t then set_slot i v (k x) else k x.

(** component.debug.c:213-236 [delegate_insert_break]; true is success *)
Definition delegate_insert_break (t : N) (b : bp) (s : st) : bool * st :=
  match find_free 0 (table s) with
  | None => (false, s)
  | Some i =>
      if accepts s b then (true, set_bps (set_slot i (Some b) (table s)) (kset t i (Some b) (kslots s)) s)
      else (false, s)
  end.
(** component.debug.c:239-260 [delegate_remove_break]: without a match, breakpoint 0xffff is
    unset, which the kernel refuses *)
Definition delegate_remove_break (t : N) (b : bp) (s : st) : bool * st :=
  match find_bp b 0 (table s) with
  | None => (false, s)
  | Some i => (true, set_bps (set_slot i None (table s)) (kset t i None (kslots s)) s)
  end.

(** component.debug.c:263-291: succeed with the hardware debug API *)
Definition delegate_single_step (t : N) (on : bool) (s : st) : st :=
  set_stepping (fun x => if x =? t then on else stepping s x) s.

(** ** Commands (gdb.c) *)
(** gdb.c:231-272 [GDB_read_memory] *)
Definition GDB_read_memory (c : list N) (s : st) : run st :=
  let '(addr, r) := strtok (bytes "m,") c in
  let '(len, r) := strtok (bytes ",") r in
  a <~ strtol 16 addr ; n <~ strtol 10 len ;
  let a := word a in let n := word n in
  if MAX_MEM_RANGE <=? n then Done (say "E01" s)
  else if a =? 0 then Done (say "E01" s)
  else
    d <~ delegate_read_memory a n s ;
    match d with
    | None => Done (say "E01" s)
    | Some d => Done (send (flat_map (fun b => hex2 false (b mod 256)) d) s)
    end.

(** [sscanf(data_string, "%2hhx", ...)] on pairs of characters.  Simplified: blanks, signs and
    a prefix in the data are taken for wrong digits; what follows the string is zero. *)
Definition pair_value (a b : N) : N :=
  match digit_in 16 a with
  | Some x => match digit_in 16 b with Some y => 16 * x + y | None => x end
  | None => 0
  end.
Fixpoint read_pairs (n : nat) (l : list N) : list N :=
  match n with
  | O => []
  | S n => match l with
           | a :: b :: l => pair_value a b :: read_pairs n l
           | [a] => pair_value a 0 :: read_pairs n []
           | [] => 0 :: read_pairs n []
           end
  end.

(** gdb.c:276-315 [GDB_write_memory] *)
Definition GDB_write_memory (c : list N) (s : st) : run st :=
  let '(addr, r) := strtok (bytes "M,") c in
  let '(len, r) := strtok (bytes ",:") r in
  let '(d, r) := strtok (bytes ":") r in
  a <~ strtol 16 addr ; n <~ strtol 10 len ;
  let a := word a in let n := word n in
  if MAX_MEM_RANGE <=? n then Done (say "E01" s)
  else if a =? 0 then Done (say "E01" s)
  else
    d <~ (match d with
          | Some d => Done (read_pairs (N.to_nat n) d)
          | None => if n =? 0 then Done [] else Crash NullPointer
          end) ;
    r <~ delegate_write_memory a n d s ;
    Done (say (if fst r then "OK" else "E01") (snd r)).

(** gdb.c:319-352 [GDB_write_memory_binary]; the delimiter after the data has become a zero, and
    what follows the command is zero *)
Definition GDB_write_memory_binary (c : list N) (s : st) : run st :=
  let '(addr, r) := strtok (bytes "X,") c in
  let '(len, r) := strtok (bytes ",:") r in
  a <~ strtol 16 addr ; n <~ strtol 10 len ;
  let a := word a in let n := word n in
  if n =? 0 then Done (say "OK" s)
  else
    match strtok (bytes ":") r with
    | (None, _) => Done (say "E01" s)
    | (Some d, r) =>
        if MAX_MEM_RANGE <? n then Crash OutOfBounds
        else
          let src := firstn (N.to_nat n) (d ++ 0 :: r ++ repeat 0 (N.to_nat n)) in
          w <~ delegate_write_memory a n src s ;
          Done (say (if fst w then "OK" else "E01") (snd w))
    end.

Fixpoint list_eqb (a b : list N) : bool :=
  match a, b with
  | [], [] => true
  | x :: a, y :: b => (x =? y) && list_eqb a b
  | _, _ => false
  end.
(** gdb.c:356-384 [GDB_query] *)
Definition queries : list (string * string) :=
  [("Supported", "swbreak+;hwbreak+;PacketSize=100"); ("TStatus", ""); ("TfV", ""); ("C", "QC1"); ("Attached", "");
   ("fThreadInfo", "m01"); ("sThreadInfo", "l"); ("Symbol", ""); ("Offsets", "")]%string.
Definition GDB_query (c : list N) (s : st) : run st :=
  match fst (strtok (bytes "q:") c) with
  | None => Crash NullPointer
  | Some q => Done (match List.find (fun p => list_eqb (bytes (fst p)) q) queries with
                    | Some p => say (snd p) s
                    | None => say "E01" s
                    end)
  end.

(** gdb.c:393-405 [GDB_stop_reason] *)
Definition GDB_stop_reason (s : st) : st :=
  match stopped s with
  | stop_hw_break => say "T05thread:01;hwbreak:;" s
  | stop_sw_break => say "T05thread:01;swbreak:;" s
  | _ => say "T05thread:01;" s
  end.

(** gdb.c:37-91: the place of each GDB register (eax ecx edx ebx esp ebp esi edi eip eflags cs
    ss ds es fs_base gs_base) in a seL4_UserContext (eip esp eflags eax ebx ecx edx esi edi ebp
    fs_base gs_base, from libsel4) *)
Definition context_index (n : N) : option N :=
  nth (N.to_nat n)
    [Some 3; Some 5; Some 6; Some 4; Some 1; Some 9; Some 7; Some 8; Some 0; Some 2; None; None; None; None; Some 10; Some 11] None.
Definition byte_of (w k : N) : N := w / 256 ^ k mod 256.
(** BSWAP_WORD *)
Definition bswap (w : N) : N :=
  byte_of w 0 * 256 ^ 3 + byte_of w 1 * 256 ^ 2 + byte_of w 2 * 256 + byte_of w 3.

(** gdb.c:407-430 [GDB_read_general_registers]; x86_MAX_REGISTERS is 16 *)
Definition GDB_read_general_registers (s : st) : st :=
  send (flat_map (fun n => hex8 (bswap (match context_index n with
                                        | Some i => nth (N.to_nat i) (regs s (tcb s)) 0
                                        | None => 0
                                        end)))
         [0; 1; 2; 3; 4; 5; 6; 7; 8; 9; 10; 11; 12; 13; 14; 15]) s.

(** [strtok_r(&command\[1\], "", ...)] *)
Definition rest_of (c : list N) : option (list N) := match tl c with [] => None | l => Some l end.

(** gdb.c:434-465 [GDB_read_register]; x86_INVALID_REGISTER is 10 *)
Definition GDB_read_register (c : list N) (s : st) : run st :=
  match rest_of c with
  | None => Done (say "E00" s)
  | Some r =>
      n <~ strtol 16 (Some r) ;
      let n := word n in
      if 10 <=? n then Done (say "E00" s)
      else match context_index n with
           | None => Done (say "E00" s)
           | Some i => Done (send (hex8 (bswap (delegate_read_register (tcb s) i s))) s)
           end
  end.

(** gdb.c:104-109 [string_to_word_data]: eight characters are copied, without a terminating zero
    if there are as many *)
Definition string_to_word (d junk : list N) : run N :=
  z <~ strtoul_mem 16 (firstn 8 (d ++ repeat 0 8) ++ junk) ; Done (word z).

(** gdb.c:467-488 [GDB_write_general_registers]: place -1 is in front of the array *)
Fixpoint fill_context (todo : nat) (n : N) (d : list N) (ctx : list N) (junk : list N) : run (list N) :=
  match todo with
  | O => Done ctx
  | S todo =>
      v <~ string_to_word (firstn 8 d) junk ;
      match context_index n with
      | None => Crash OutOfBounds
      | Some i => fill_context todo (n + 1) (skipn 8 d) (set_nth (N.to_nat i) (bswap v) ctx) junk
      end
  end.
Definition GDB_write_general_registers (c : list N) (s : st) : run st :=
  match rest_of c with
  | None => Crash NullPointer
  | Some d =>
      let n := Nat.min 12 (Nat.div (List.length d) 8) in
      ctx <~ fill_context n 0 d (uninit s) (junk s) ;
      Done (say "OK" (set_pc (nth 0 ctx 0) (delegate_write_registers (tcb s) ctx (N.of_nat n) s)))
  end.

(** gdb.c:492-517 [GDB_write_register]; x86_GDB_REGISTERS is 13 *)
Definition GDB_write_register (c : list N) (s : st) : run st :=
  let '(reg, r) := strtok (bytes "=") (tl c) in
  let d := match r with [] => None | r => Some r end in
  n <~ strtol 16 reg ;
  let n := word n in
  if n <? 13 then
    match d with
    | None => Crash NullPointer
    | Some d =>
        v <~ string_to_word d (junk s) ;
        let v := bswap v in
        match context_index n with
        | None => Done (say "OK" s)
        | Some i =>
            let s := delegate_write_register (tcb s) v i s in
            Done (say "OK" (if n =? 8 then set_pc v s else s))
        end
    end
  else Done (say "OK" s).

(** gdb.c:530-545 [GDB_continue]; resuming does not fail *)
Definition GDB_continue (s : st) : st :=
  let s := if step_mode s && negb (match stopped s with stop_step => true | _ => false end)
           then delegate_single_step (tcb s) false s else s in
  post (set_step_mode false s).
(** gdb.c:547-563 [GDB_step] *)
Definition GDB_step (s : st) : st :=
  let s := if negb (step_mode s) && negb (match stopped s with stop_step => true | _ => false end)
           then delegate_single_step (tcb s) true s else s in
  post (set_step_mode true s).
(** gdb.c:519-528 [GDB_vcont]: character 7 of the command *)
Definition GDB_vcont (c : list N) (s : st) : st :=
  match nth_error c 7 with
  | Some x => if x =? ch "c" then GDB_continue s else if x =? ch "s" then GDB_step s else say "" s
  | None => say "" s
  end.

(** gdb.c:111-144 [get_breakpoint_format]: seL4_InstructionBreakpoint is 1, seL4_DataBreakpoint 0;
    seL4_BreakOnRead 0, seL4_BreakOnWrite 1, seL4_BreakOnReadWrite 2 *)
Definition breakpoint_format (type : N) : option (N * N) :=
  if type =? 1 then Some (1, 0)
  else if type =? 2 then Some (0, 1)
  else if type =? 3 then Some (0, 0)
  else if type =? 4 then Some (0, 2)
  else None.

(** gdb.c:568-613 [GDB_breakpoint] *)
Definition GDB_breakpoint (insert : bool) (c : list N) (s : st) : run st :=
  let '(type, r) := strtok (bytes ",") (tl c) in
  let '(addr, r) := strtok (bytes ",") r in
  let '(size, r) := strtok (bytes ",") r in
  t <~ strtol 16 type ; a <~ strtol 16 addr ; z <~ strtol 16 size ;
  let t := word t in let a := word a in let z := word z in
  if t =? 0 then Done (say "" s)
  else
    match breakpoint_format t with
    | None => Done (say "E01" s)
    | Some (bt, rw) =>
        let b := mk_bp a bt (if t =? 1 then 0 else z) rw in
        let '(ok, s) := if insert then delegate_insert_break (tcb s) b s else delegate_remove_break (tcb s) b s in
        Done (say (if ok then "OK" else "E01") s)
    end.

Definition starts (p : string) (l : list N) : bool := list_eqb (bytes p) (firstn (String.length p) l).

(** gdb.c:616-757 [handle_command]; the other letters are not answered *)
Definition handle_command (c : list N) (s : st) : run st :=
  match c with
  | [] => Done s
  | x :: r =>
      if x =? ch "?" then Done (GDB_stop_reason s)
      else if x =? ch "c" then Done (GDB_continue s)
      else if x =? ch "g" then Done (GDB_read_general_registers s)
      else if x =? ch "G" then GDB_write_general_registers c s
      else if x =? ch "H" then Done (say "OK" s)
      else if x =? ch "m" then GDB_read_memory c s
      else if x =? ch "M" then GDB_write_memory c s
      else if x =? ch "p" then GDB_read_register c s
      else if x =? ch "P" then GDB_write_register c s
      else if x =? ch "q" then GDB_query c s
      else if x =? ch "s" then Done (GDB_step s)
      else if x =? ch "v" then
        Done (if starts "Cont?" r then say "vCont;c;s" s
              else if starts "Cont" r then GDB_vcont c s
              else if starts "Kill" r then say "" s
              else if starts "MustReplyEmpty" r then say "" s
              else s)
      else if x =? ch "X" then GDB_write_memory_binary c s
      else if x =? ch "z" then GDB_breakpoint false c s
      else if x =? ch "Z" then GDB_breakpoint true c s
      else Done s
  end.

(** ** Packets *)
(** [strncpy] of at most [n] characters *)
Fixpoint strncpy (n : nat) (l : list N) : list N :=
  match n, l with
  | S n, c :: l => if c =? 0 then [] else c :: strncpy n l
  | _, _ => []
  end.
(** gdb.c:178-207 [handle_gdb] *)
Definition handle_gdb (b : buffer) (s : st) : run st :=
  let c := strncpy (N.to_nat (checksum_index b) - 1) (skipn 1 (data b)) in
  r <~ strtol_mem 16 (skipn (N.to_nat (checksum_index b) + 1) (data b)) ;
  if checksum c =? Z.to_N (r mod 256) then
    handle_command c (gdb_printf (bytes "+" ++ [10]) s)
  else Done (gdb_printf (bytes "-" ++ [10]) s).

(** serial.c:320-337, 362-376 [serial_irq_handle], for each character that arrives *)
Definition receive (c : N) (bs : buffer * st) : run (buffer * st) :=
  let '(got, b) := handle_char c (fst bs) in
  if got then s <~ handle_gdb b (snd bs) ; Done (after_packet b, s)
  else Done (b, snd bs).
Fixpoint receive_all (l : list N) (bs : buffer * st) : run (buffer * st) :=
  match l with
  | [] => Done bs
  | c :: l => bs <~ receive c bs ; receive_all l bs
  end.
