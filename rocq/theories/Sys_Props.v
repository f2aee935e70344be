(** System calls: C112 (names and time) and C113 (which functions are called). *)
From Coq Require Import List String Ascii Bool NArith ZArith.
From Verif Require Import Prelude Sys_Model Sys_Spec Sys_Proofs Sys_Proofs2.
Import ListNotations.
Open Scope string_scope. Open Scope list_scope.

(** ** C112: names and time *)
(** The names of the machine and of the domain always are texts: the invariant of sys_uname.c:19-21. *)
Theorem C112_invariant : forall plat m h,
  (exists t, holds_text (nm_node (after plat m h)) t) /\ (exists t, holds_text (nm_domain (after plat m h)) t).
Proof. exact after_inv. Qed.
Print Assumptions C112_invariant.
(** The name of the machine is the one that was set last: whatever was done before, and after it any calls
    that do not set it, among them those that fail.  Partial: the text ends with a NUL. *)
Theorem C112_host_partial : forall plat m h h' p text len, text_at p text -> (N.of_nat (String.length text) <= 64)%N ->
  (len <= 64)%N -> Forall keeps_host h' -> holds_text (nm_node (after plat m (h ++ SetHost p len :: h'))) text.
Proof. exact host_set. Qed.
Print Assumptions C112_host_partial.
Theorem C112_domain_partial : forall plat m h h' p text len, text_at p text -> (N.of_nat (String.length text) <= 64)%N ->
  (len <= 64)%N -> Forall keeps_domain h' -> holds_text (nm_domain (after plat m (h ++ SetDomain p len :: h'))) text.
Proof. exact domain_set. Qed.
Print Assumptions C112_domain_partial.
(** Reading them: a program gets these two names, and the description of the system, cut off after 64
    characters.  The rest of the structure are texts too. *)
Theorem C112_uname : forall plat m st b, sized b -> ~ In NUL (list_ascii_of_string plat) ->
  ~ In NUL (list_ascii_of_string (arch_text m)) ->
  exists u, step plat m st (Uname (Some b)) = (Zero, Some u, st) /\
    holds_text (u_sysname u) "CAmkES/seL4" /\ u_nodename u = nm_node st /\ u_domainname u = nm_domain st /\
    holds_text (u_release u) "" /\ holds_text (u_version u) "" /\
    holds_text (u_machine u) (substring 0 64 (plat ++ " (" ++ arch_text m ++ ")")%string).
Proof. exact uname_gives. Qed.
Print Assumptions C112_uname.
(** An array holds one text only. *)
Theorem C112_one_text : forall a s t, holds_text a s -> holds_text a t -> s = t.
Proof. exact holds_det. Qed.
Print Assumptions C112_one_text.
(** The calls that fail: a null pointer, and a name that is too long. *)
Theorem C112_errors : forall plat m st p len,
  fst (fst (step plat m st (SetHost p len))) = fst (fst (step plat m st (SetDomain p len))) /\
  (fst (fst (step plat m st (SetHost p len))) = EFAULT <-> p = None) /\
  (fst (fst (step plat m st (SetHost p len))) = EINVAL <-> p <> None /\ (64 < len)%N).
Proof. exact set_codes. Qed.
Print Assumptions C112_errors.
Definition c (s : string) : list ascii := list_ascii_of_string s.
Example host_case : let h := [SetHost (Some (c "old" ++ [NUL])) 3; SetHost (Some (c "box" ++ [NUL])) 3;
    SetDomain (Some (c "org" ++ [NUL])) 3; SetHost None 2; SetHost (Some (c "x")) 65] in
  firstn 4 (nm_node (after "spike" (Riscv "riscv64") h)) = c "box" ++ [NUL] /\
  firstn 4 (nm_domain (after "spike" (Riscv "riscv64") h)) = c "org" ++ [NUL] /\
  text_at (Some (c "box" ++ [NUL])) "box" /\ Forall keeps_host (skipn 2 h).
Proof.
  cbn zeta. split; [reflexivity|]. split; [reflexivity|]. split.
  - eexists. split; [reflexivity|]. exists []. split; [reflexivity|]. cbn. intuition discriminate.
  - repeat constructor.
Qed.
Example uname_case : let b := mk_utsname (repeat NUL 65) (repeat NUL 65) (repeat "x"%char 65) (repeat NUL 65)
    (repeat NUL 65) (repeat NUL 65) in
  sized b /\ option_map (fun u => firstn 24 (u_machine u)) (snd (fst (step "spike" (Riscv "riscv64") boot (Uname (Some b))))) =
    Some (c "spike (RISC-V, riscv64)" ++ [NUL]).
Proof. split; [repeat split|]; reflexivity. Qed.

(** But the length is not used for anything else.  A name with a NUL behind more characters than the
    length says is taken as a whole ... *)
Theorem C112_length_ignored : forall old s r len len', ~ In NUL s -> (len <= 64)%N -> (len' <= 64)%N ->
  set_name old (Some (s ++ NUL :: r)) len = set_name old (Some (s ++ NUL :: r)) len'.
Proof. exact length_ignored. Qed.
Print Assumptions C112_length_ignored.
Theorem C112_length_refuted : exists plat m s len, ~ In NUL s /\ (len <= 64)%N /\
  ~ holds_text (nm_node (after plat m [SetHost (Some (s ++ [NUL])) len])) (substring 0 (N.to_nat len) (string_of_list_ascii s)).
Proof.
  exists "spike", (Riscv "riscv64"), (c "box"), 1%N. split; [cbn; intuition discriminate|]. split; [discriminate|].
  intros (rest & E & _). vm_compute in E. discriminate E.
Qed.
Print Assumptions C112_length_refuted.
(** ... and a name without a NUL, which POSIX allows, makes the call read memory behind it. *)
Theorem C112_unterminated_refuted : forall old s, ~ In NUL s -> (N.of_nat (List.length s) <= 64)%N ->
  fst (set_name old (Some s) (N.of_nat (List.length s))) = Undefined.
Proof. exact unterminated. Qed.
Print Assumptions C112_unterminated_refuted.

(** Time: what is stored is the time of the component's clock, which counts milliseconds, in seconds and
    nanoseconds.  Partial: up to 2^32 milliseconds. *)
Open Scope Z_scope.
Theorem C112_time_partial : forall assertions t sec nsec clk ts, 0 <= t < 2 ^ 32 ->
  clock_gettime assertions (Some t) clk ts = Time sec nsec ->
  0 <= nsec < 1000000000 /\ sec * 1000000000 + nsec = t * 1000000.
Proof. exact clock_exact. Qed.
Print Assumptions C112_time_partial.
(** It is stored for the real time only, if the component has a clock; otherwise the call fails. *)
Theorem C112_time_when : forall assertions source clk ts,
  (exists sec nsec, clock_gettime assertions source clk ts = Time sec nsec) <-> source <> None /\ clk = 0 /\ ts = true.
Proof. exact clock_when. Qed.
Print Assumptions C112_time_when.
Example time_case : clock_gettime true (Some 61234) 0 true = Time 61 234000000.
Proof. reflexivity. Qed.
(** Whatever the clock returns, the nanoseconds are less than a second, and the time is less than 50 days:
    after that it starts again from zero. *)
Theorem C112_time_range : forall assertions t sec nsec clk ts,
  clock_gettime assertions (Some t) clk ts = Time sec nsec -> 0 <= nsec < 1000000000 /\ 0 <= sec <= 4294967.
Proof. exact clock_range. Qed.
Print Assumptions C112_time_range.
Theorem C112_monotone_refuted : exists t t' sec nsec sec' nsec', t < t' /\
  clock_gettime true (Some t) 0 true = Time sec nsec /\ clock_gettime true (Some t') 0 true = Time sec' nsec' /\ sec' < sec.
Proof.
  exact (ex_intro _ 4294967295 (ex_intro _ 4294967296 (ex_intro _ 4294967 (ex_intro _ 295000000 (ex_intro _ 0 (ex_intro _ 0
    (conj eq_refl (conj (proj1 clock_back) (conj (proj2 clock_back) eq_refl))))))))).
Qed.
Print Assumptions C112_monotone_refuted.
Close Scope Z_scope.
(** Giving up the processor reports success only if it is done, which is on kernels without MCS. *)
Theorem C112_yield : forall mcs, (fst (sched_yield mcs) = Zero <-> snd (sched_yield mcs) = true) /\
  (snd (sched_yield mcs) = true <-> mcs = false).
Proof. intros []; repeat split; intros; congruence || reflexivity || discriminate. Qed.
Print Assumptions C112_yield.

(** ** C113: which functions are called *)
(** After the installation each system call that a component implements is directed to its function. *)
Theorem C113_reaches : forall tg, distinct_numbers tg -> forall t t', install_syscalls tg t = Ok t' ->
  forall name n, offered tg name -> tg_nr tg name = Some n -> dget (tb_calls t') n = Some (function name).
Proof. exact reaches. Qed.
Print Assumptions C113_reaches.
(** All others are as before. *)
Theorem C113_others : forall tg t t', install_syscalls tg t = Ok t' -> ~ defined tg "sigcation" ->
  forall n, (forall name, offered tg name -> tg_nr tg name <> Some n) -> dget (tb_calls t') n = dget (tb_calls t) n.
Proof. exact others_kept. Qed.
Print Assumptions C113_others.
(** The functions for files, which hand over what they do not do themselves, know those that were there
    before. *)
Theorem C113_originals : forall tg, distinct_numbers tg -> forall t t' n r w, install_syscalls tg t = Ok t' ->
  tg_nr tg "close" = Some n -> tg_nr tg "read" = Some r -> tg_nr tg "write" = Some w ->
  tb_close t' = dget (tb_calls t) n /\ tb_read t' = dget (tb_calls t) r /\ tb_write t' = dget (tb_calls t) w /\
  tb_close t' <> None /\ tb_read t' <> None.
Proof. exact originals. Qed.
Print Assumptions C113_originals.
(** The installation succeeds if the C library has the numbers, and functions for closing and reading. *)
Theorem C113_succeeds : forall tg t,
  (forall l, In l syscalls -> holds tg (fst (fst l)) = true -> defined tg (snd (fst l))) ->
  forall n r, tg_nr tg "close" = Some n -> tg_nr tg "read" = Some r -> defined tg "write" ->
  dget (tb_calls t) n <> None -> dget (tb_calls t) r <> None -> exists t', install_syscalls tg t = Ok t'.
Proof. exact succeeds. Qed.
Print Assumptions C113_succeeds.
(** Installing twice is a mistake: then they hand over to themselves. *)
Theorem C113_twice_refuted : forall tg, distinct_numbers tg -> forall t t' t'', install_syscalls tg t = Ok t' ->
  install_syscalls tg t' = Ok t'' -> tb_close t'' = Some "camkes_sys_close" /\
  tb_read t'' = Some "camkes_sys_read" /\ tb_write t'' = Some "camkes_sys_write".
Proof. exact twice. Qed.
Print Assumptions C113_twice_refuted.

(** A target that has all system calls of the table, numbered in its order, and sigaction, but not the
    64-bit clock and fcntl64. *)
Fixpoint index (s : string) (l : list string) (k : nat) : option nat :=
  match l with [] => None | x :: l => if String.eqb s x then Some k else index s l (S k) end.
Definition some_names : list string :=
  ["close"; "read"; "write"; "sigaction"; "fcntl"; "set_tid_address"; "sched_yield"; "exit"; "gettid"; "getpid"; "getppid";
   "tgkill"; "mlock"; "munlock"; "mlockall"; "munlockall"; "madvise"; "mincore"; "pause"; "clock_gettime"; "_newselect";
   "rt_sigaction"; "uname"; "sethostname"; "setdomainname"; "socket"; "bind"; "connect"; "listen"; "accept"; "setsockopt";
   "tkill"].
Definition some_target : target := mk_target (fun s => index s some_names 0) true false.
Definition some_table : table :=
  mk_table (map (fun n => (n, "musl")) (seq 0 5)) None None None.
Lemma index_ge s l : forall k n, index s l k = Some n -> k <= n.
Proof.
  induction l as [|x l IH]; intros k n; cbn; [discriminate|]. destruct (String.eqb s x).
  - intros [= <-]. apply le_n.
  - intros H. apply IH in H. exact (le_S_n _ _ (le_S _ _ H)).
Qed.
Example target_case : distinct_numbers some_target /\ ~ defined some_target "sigcation".
Proof.
  split; [|intros H; apply H; reflexivity]. unfold distinct_numbers, some_target. cbn [tg_nr].
  generalize 0. induction some_names as [|x l IH]; intros k a b n; cbn [index]; [discriminate|].
  destruct (String.eqb_spec a x) as [->|A], (String.eqb_spec b x) as [->|B]; intros Ea Eb; try reflexivity.
  - injection Ea as <-. apply index_ge in Eb. exfalso. exact (PeanoNat.Nat.nle_succ_diag_l _ Eb).
  - injection Eb as <-. apply index_ge in Ea. exfalso. exact (PeanoNat.Nat.nle_succ_diag_l _ Ea).
  - exact (IH (S k) a b n Ea Eb).
Qed.
Example installed_case : exists t, install_syscalls some_target some_table = Ok t /\
  map (fun s => match tg_nr some_target s with Some n => dget (tb_calls t) n | None => None end)
    ["mlock"; "clock_gettime"; "socket"; "close"; "sigaction"; "fcntl"] =
  [Some "camkes_sys_mlock"; Some "camkes_sys_clock_gettime"; Some "camkes_sys_socket"; Some "camkes_sys_close"; Some "musl"; Some "musl"] /\
  tb_close t = Some "musl".
Proof. eexists. split; [vm_compute; reflexivity|]. split; reflexivity. Qed.
(** The function for sigaction, which exists, is not installed, because of a misspelt condition. *)
Theorem C113_sigaction_refuted : exists tg t t' n, distinct_numbers tg /\ tg_nr tg "sigaction" = Some n /\
  install_syscalls tg t = Ok t' /\ dget (tb_calls t') n <> Some (function "sigaction").
Proof.
  exists some_target, some_table. eexists. exists 3. split; [exact (proj1 target_case)|]. split; [reflexivity|].
  split; [vm_compute; reflexivity|]. discriminate.
Qed.
Print Assumptions C113_sigaction_refuted.
