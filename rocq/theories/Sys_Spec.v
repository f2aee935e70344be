(** System calls: what users rely on. *)
From Coq Require Import List String Ascii Bool NArith ZArith.
From Verif Require Import Prelude Sys_Model.
Import ListNotations.
Open Scope string_scope. Open Scope list_scope.

(** ** Installed functions *)
(** The target has these macros. *)
Definition defined (tg : target) (name : string) : Prop := tg_nr tg name <> None.
(** Different system calls have different numbers. *)
Definition distinct_numbers (tg : target) : Prop :=
  forall a b n, tg_nr tg a = Some n -> tg_nr tg b = Some n -> a = b.
(** The system calls that a component implements.  Those in the last three lines only if the target has
    them. *)
Definition basic : list string :=
  [ "set_tid_address"; "sched_yield"; "exit"; "gettid"; "getpid"; "getppid"; "tgkill"; "tkill"; "mlock"; "munlock";
    "mlockall"; "munlockall"; "madvise"; "mincore"; "rt_sigaction"; "uname"; "close"; "read"; "write" ].
Inductive offered (tg : target) : string -> Prop :=
| OBasic name : In name basic -> offered tg name
| OSocket name : tg_ia32 tg = false -> In name ["socket"; "bind"; "connect"; "listen"; "accept"; "setsockopt"] -> offered tg name
| OName name : tg_bsd tg = true -> In name ["sethostname"; "setdomainname"] -> offered tg name
| OTime : ~ defined tg "clock_gettime64" -> offered tg "clock_gettime"
| OTime64 : defined tg "clock_gettime64" -> offered tg "clock_gettime64"
| OMore name : defined tg name -> In name ["pause"; "_newselect"; "fcntl64"] -> offered tg name.
(** The name of the function for a system call *)
Definition function (name : string) : string :=
  if String.eqb name "clock_gettime64" then "camkes_sys_clock_gettime" else "camkes_sys_" ++ name.

(** ** Names *)
(** An array holds a text. *)
Definition holds_text (a : list ascii) (text : string) : Prop :=
  exists rest, a = list_ascii_of_string text ++ NUL :: rest /\ ~ In NUL (list_ascii_of_string text).
(** The text at a pointer: with the NUL behind it, and whatever follows *)
Definition text_at (p : option (list ascii)) (text : string) : Prop :=
  exists a, p = Some a /\ holds_text a text.
(** The calls that do not set the name of the machine: others, and those that must fail *)
Definition keeps_host (c : call) : Prop :=
  match c with SetHost (Some _) len => (64 < len)%N | _ => True end.
Definition keeps_domain (c : call) : Prop :=
  match c with SetDomain (Some _) len => (64 < len)%N | _ => True end.
(** The arrays of a structure have the size of the type. *)
Definition sized (u : utsname) : Prop :=
  List.length (u_release u) = 65 /\ List.length (u_version u) = 65 /\ List.length (u_machine u) = 65.
