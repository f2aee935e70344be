(** System calls of a component: which functions are installed for which numbers
    (/repo/libsel4camkes/src/vsyscall.c, sys_io.c:146-156), names of the machine (sys_uname.c), the
    clock (sys_clock.c) and giving up the processor (sys_yield.c). *)
From Coq Require Import List String Ascii Bool NArith ZArith.
From Verif Require Import Prelude.
Import ListNotations.
Open Scope string_scope. Open Scope list_scope.

(** ** Installing functions *)
(** A target: which macros for numbers of system calls the C library defines, and with which numbers;
    whether _BSD_SOURCE (or an old _XOPEN_SOURCE) is defined; whether it is IA-32. *)
Record target := mk_target { tg_nr : string -> option nat; tg_bsd : bool; tg_ia32 : bool }.
(** The preprocessor conditions around a line of the table *)
Inductive cond := Always | Ifdef (m : string) | Ifndef (m : string) | IfBsd | IfNotIa32.
Definition holds (tg : target) (c : cond) : bool :=
  match c with
  | Always => true
  | Ifdef m => match tg_nr tg m with Some _ => true | None => false end
  | Ifndef m => match tg_nr tg m with Some _ => false | None => true end
  | IfBsd => tg_bsd tg
  | IfNotIa32 => negb (tg_ia32 tg)
  end.
(** A line: condition, the macro for the number (without __NR_), the function *)
Definition line := (cond * string * string)%type.
(** vsyscall.c:17-63 *)
Definition syscalls : list line :=
  [ (Always, "set_tid_address", "camkes_sys_set_tid_address");
    (Always, "sched_yield", "camkes_sys_sched_yield");
    (Always, "exit", "camkes_sys_exit");
    (Always, "gettid", "camkes_sys_gettid");
    (Always, "getpid", "camkes_sys_getpid");
    (Always, "getppid", "camkes_sys_getppid");
    (Always, "tgkill", "camkes_sys_tgkill");
    (Always, "mlock", "camkes_sys_mlock");
    (Always, "munlock", "camkes_sys_munlock");
    (Always, "mlockall", "camkes_sys_mlockall");
    (Always, "munlockall", "camkes_sys_munlockall");
    (Always, "madvise", "camkes_sys_madvise");
    (Always, "mincore", "camkes_sys_mincore");
    (Ifdef "pause", "pause", "camkes_sys_pause");
    (Ifdef "clock_gettime64", "clock_gettime64", "camkes_sys_clock_gettime");
    (Ifndef "clock_gettime64", "clock_gettime", "camkes_sys_clock_gettime");
    (Ifdef "_newselect", "_newselect", "camkes_sys__newselect");
    (Ifdef "sigcation", "sigaction", "camkes_sys_sigaction");
    (Always, "rt_sigaction", "camkes_sys_rt_sigaction");
    (Always, "uname", "camkes_sys_uname");
    (IfBsd, "sethostname", "camkes_sys_sethostname");
    (IfBsd, "setdomainname", "camkes_sys_setdomainname");
    (IfNotIa32, "socket", "camkes_sys_socket");
    (IfNotIa32, "bind", "camkes_sys_bind");
    (IfNotIa32, "connect", "camkes_sys_connect");
    (IfNotIa32, "listen", "camkes_sys_listen");
    (IfNotIa32, "accept", "camkes_sys_accept");
    (IfNotIa32, "setsockopt", "camkes_sys_setsockopt");
    (Always, "tkill", "camkes_sys_tkill") ].
(** The table the compiler makes of it; a number that is not defined is a compile error. *)
Definition compiled (tg : target) : res (list (nat * string)) :=
  mapM (fun l : line => match tg_nr tg (snd (fst l)) with
                        | Some n => Ok (n, snd l)
                        | None => Err OtherException
                        end)
       (filter (fun l : line => holds tg (fst (fst l))) syscalls).

(** The state: the functions of the C library by number, and the variables original_sys_close,
    original_sys_read and original_sys_write of sys_io.c *)
Record table := mk_table { tb_calls : dict nat string; tb_close : option string; tb_read : option string;
  tb_write : option string }.
(** muslcsys_install_syscall of libsel4muslcsys, which is not in /repo: replaces the function and returns
    the one before *)
Definition install (d : dict nat string) (n : nat) (f : string) : dict nat string * option string :=
  (dset d n f, dget d n).
(** sys_io.c:146-156 [camkes_install_io_syscalls] *)
Definition install_io (tg : target) (t : table) : res table :=
  match tg_nr tg "close", tg_nr tg "read", tg_nr tg "write" with
  | Some c, Some r, Some w =>
      let '(d, o) := install (tb_calls t) c "camkes_sys_close" in
      match o with
      | None => Err AssertionError
      | Some _ =>
          let '(d, p) := install d r "camkes_sys_read" in
          match p with
          | None => Err AssertionError
          | Some _ =>
              let '(d, q) := install d w "camkes_sys_write" in
              let d := match tg_nr tg "fcntl64" with
                       | Some n => fst (install d n "camkes_sys_fcntl64")
                       | None => d
                       end in
              Ok (mk_table d o p q)
          end
      end
  | _, _, _ => Err OtherException
  end.
(** vsyscall.c:65-72 [camkes_install_syscalls] *)
Definition install_syscalls (tg : target) (t : table) : res table :=
  l <- compiled tg ;;
  t <- install_io tg t ;;
  Ok (mk_table (fold_left (fun d p => fst (install d (fst p) (snd p))) l (tb_calls t))
               (tb_close t) (tb_read t) (tb_write t)).

(** ** Names *)
Definition NUL : ascii := "000".
(** [strncpy(dst, src, n)] of the C library: the [n] bytes of [dst] afterwards.  [src] is the memory from
    the pointer on that may be read; [None]: something behind it was read. *)
Fixpoint strncpy (n : nat) (src : list ascii) : option (list ascii) :=
  match n with
  | O => Some []
  | S m => match src with
           | [] => None
           | c :: r => if Ascii.eqb c NUL then Some (repeat NUL n) else option_map (cons c) (strncpy m r)
           end
  end.
(** [a[i] = c] *)
Fixpoint store (a : list ascii) (i : nat) (c : ascii) : list ascii :=
  match a, i with
  | [], _ => []
  | _ :: r, O => c :: r
  | b :: r, S j => b :: store r j c
  end.
(** [sizeof] of the fields of struct utsname, which are alike *)
Definition size : nat := 65.
(** [snprintf(dst, n, "%s", text)], the text being given: at most [n - 1] bytes and a NUL; the bytes
    behind it are kept *)
Definition snprintf (dst : list ascii) (n : nat) (text : list ascii) : list ascii :=
  let k := firstn (n - 1) text in k ++ NUL :: skipn (S (List.length k)) dst.

(** struct utsname; [nodename] and [domainname] (sys_uname.c:22-27) *)
Record utsname := mk_utsname { u_sysname : list ascii; u_nodename : list ascii; u_release : list ascii;
  u_version : list ascii; u_machine : list ascii; u_domainname : list ascii }.
Record names := mk_names { nm_node : list ascii; nm_domain : list ascii }.
Definition boot : names := mk_names (repeat NUL size) (repeat NUL size).
(** CONFIG_PLAT and the architecture (sys_uname.c:53-82); the strings are CONFIG_SEL4_ARCH *)
Inductive machine := ArmV7a | ArmV7ve | ArmV8a (sel4_arch : string) | Riscv (sel4_arch : string) | X86 (sel4_arch : string).
Definition arch_text (m : machine) : string :=
  match m with
  | ArmV7a => "ARM" ++ "v7a"
  | ArmV7ve => "ARM" ++ "v7a-ve"
  | ArmV8a s => "ARM" ++ "v8a, " ++ s
  | Riscv s => "RISC-V" ++ ", " ++ s
  | X86 s => s ++ ""
  end.
(** sys_uname.c:29-92 [camkes_sys_uname] *)
Definition uname (plat : string) (m : machine) (st : names) (b : utsname) : option utsname :=
  match strncpy size (list_ascii_of_string "CAmkES/seL4" ++ [NUL]) with
  | None => None
  | Some s => Some (mk_utsname (store s (size - 1) NUL) (nm_node st) (store (u_release b) 0 NUL)
      (store (u_version b) 0 NUL)
      (snprintf (u_machine b) size (list_ascii_of_string (plat ++ " (" ++ arch_text m ++ ")")))
      (nm_domain st))
  end.
Inductive code := Zero | EFAULT | EINVAL | ENOSYS | Undefined.
(** sys_uname.c:94-116 and 118-141 without the assignment: the new array *)
Definition set_name (old : list ascii) (name : option (list ascii)) (len : N) : code * list ascii :=
  match name with
  | None => (EFAULT, old)
  | Some src =>
      if (N.of_nat size - 1 <? len)%N then (EINVAL, old)
      else match strncpy size src with
           | None => (Undefined, old)
           | Some a => (Zero, store a (size - 1) NUL)
           end
  end.
(** Calls of a program; [None]: a null pointer *)
Inductive call :=
| SetHost (name : option (list ascii)) (len : N)
| SetDomain (name : option (list ascii)) (len : N)
| Uname (buf : option utsname).
(** What a call does: its result, the structure it stored, and the names afterwards *)
Definition step (plat : string) (m : machine) (st : names) (c : call) : code * option utsname * names :=
  match c with
  | SetHost p n => let '(r, a) := set_name (nm_node st) p n in (r, None, mk_names a (nm_domain st))
  | SetDomain p n => let '(r, a) := set_name (nm_domain st) p n in (r, None, mk_names (nm_node st) a)
  | Uname None => (EFAULT, None, st)
  | Uname (Some b) => match uname plat m st b with Some u => (Zero, Some u, st) | None => (Undefined, None, st) end
  end.
Definition after (plat : string) (m : machine) (cs : list call) : names :=
  fold_left (fun st c => snd (step plat m st c)) cs boot.

(** ** Time *)
(** sys_clock.c:15-32 [camkes_sys_clock_gettime].  [source]: the function clk_get_time of the component,
    if there is one: the value it returns now (an int).  CLOCK_REALTIME is 0.  A failed assertion; with
    NDEBUG it is ENOSYS. *)
Inductive time_result := Time (sec nsec : Z) | Failed (assertions : bool).
Definition uint32 (z : Z) : Z := (z mod 2 ^ 32)%Z.
Definition clock_gettime (assertions : bool) (source : option Z) (clk : Z) (ts : bool) : time_result :=
  match source with
  | Some t => if (clk =? 0)%Z && ts then
                let curtime := uint32 t in
                Time (curtime / 1000)%Z (uint32 (curtime mod 1000 * 1000000))%Z
              else Failed assertions
  | None => Failed assertions
  end.

(** sys_yield.c:16-24 [camkes_sys_sched_yield]: the result and whether the kernel is asked *)
Definition sched_yield (mcs : bool) : code * bool := if mcs then (ENOSYS, false) else (Zero, true).
