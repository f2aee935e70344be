(** System calls of the C library that libsel4camkes provides: memory locking and advice
    (libsel4camkes/src/sys_madvise.c) and select (libsel4camkes/src/sys_select.c). *)
From Coq Require Import List Bool ZArith.
Import ListNotations.
Open Scope Z_scope.

(** ** Memory *)
(** struct camkes_vma (vma.h:14-40) without its name and the cached attribute.  Addresses are
    integers; the word size is a parameter. *)
Record vma := mk_vma { v_start : Z; v_end : Z; v_read : bool; v_write : bool; v_execute : bool }.
Definition inside (addr : Z) (v : vma) : bool := (v_start v <=? addr) && (addr <? v_end v).

(** sys_madvise.c:40-65, the loop of covered.  Every round moves to the end of a region, so that
    there are fewer rounds than regions (None: out of fuel). *)
Fixpoint covered_loop (fuel : nat) (vmas : list vma) (addr len : Z) : option bool :=
  match fuel with
  | O => None
  | S fuel =>
      match find (inside addr) vmas with
      | None => Some false
      | Some v =>
          if negb (v_read v) && negb (v_write v) && negb (v_execute v) then Some false
          else if len <? v_end v - addr then Some true
          else covered_loop fuel vmas (v_end v) (len - (v_end v - addr))
      end
  end.
(** sys_madvise.c:27-66 [covered] *)
Definition covered (w : Z) (vmas : list vma) (addr len : Z) : option bool :=
  if 2 ^ w - 1 - len <? addr then Some false
  else covered_loop (S (length vmas)) vmas addr len.

(** What the calls return: 0, a negative error number, or (which does not happen) no result. *)
Inductive outcome := Zero | EINVAL | ENOMEM | EFAULT | Stuck.
Definition if_covered (c : option bool) : outcome :=
  match c with Some true => Zero | Some false => ENOMEM | None => Stuck end.
(** MADV_NORMAL, MADV_SEQUENTIAL, MADV_RANDOM, MADV_WILLNEED, MADV_DONTNEED, and anything else *)
Inductive advice := Normal | Sequential | Random | WillNeed | DontNeed | OtherAdvice.
(** sys_madvise.c:85-122 [camkes_sys_madvise]; [page] is the page size, 0 if it is not known *)
Definition madvise (w page : Z) (vmas : list vma) (addr len : Z) (a : advice) : outcome :=
  if page =? 0 then EINVAL
  else if negb (addr mod page =? 0) then EINVAL
  else if len =? 0 then EINVAL
  else match a with
       | OtherAdvice => EINVAL
       | _ => if_covered (covered w vmas addr len)
       end.
(** sys_madvise.c:124-171 [camkes_sys_mincore]; the second result is the bytes stored at [vec] *)
Definition mincore (w page : Z) (vmas : list vma) (addr len vec : Z) : outcome * list Z :=
  if page =? 0 then (EINVAL, [])
  else if negb (addr mod page =? 0) then (EINVAL, [])
  else if 2 ^ w - 1 - len <? addr then (ENOMEM, [])
  else
    let pages := if negb (len mod page =? 0) then len / page + 1 else len / page in
    if (vec =? 0) || ((vec + pages) mod 2 ^ w <? vec) then (EFAULT, [])
    else match covered w vmas addr len with
         | Some true => (Zero, repeat 1 (Z.to_nat pages))
         | Some false => (ENOMEM, [])
         | None => (Stuck, [])
         end.
(** sys_madvise.c:182-223 [mlock_internal], [camkes_sys_mlock], [camkes_sys_munlock] *)
Definition mlock (w page : Z) (vmas : list vma) (addr len : Z) : outcome :=
  if (addr + len) mod 2 ^ w <? addr then EINVAL
  else if page =? 0 then EINVAL
  else if negb (addr mod page =? 0) then EINVAL
  else if_covered (covered w vmas addr len).

(** ** select *)
Open Scope nat_scope.
(** A set of file descriptors (fd_set). *)
Definition fds := nat -> bool.
Definition fd_clr (i : nat) (s : fds) : fds := fun j => if Nat.eqb j i then false else s j.
Definition fd_set (i : nat) (s : fds) : fds := fun j => if Nat.eqb j i then true else s j.
(** The descriptor table: the number of the socket behind a descriptor, if it is a socket. *)
Definition table := nat -> option nat.

Section Select.
  (** FIRST_USER_FD, of another library *)
  Context (first : nat) (t : table).
  (** sys_select.c:18-37 [fdset_to_sockset], sys_select.c:39-58 [sockset_to_fdset]: the loops over
      the descriptors from [i] *)
  Fixpoint to_sock (n i : nat) (s : fds) : fds :=
    match n with
    | O => s
    | S n =>
        to_sock n (S i)
          match t i with
          | Some k => if s i then fd_set k (fd_clr i s) else s
          | None => s
          end
    end.
  Fixpoint from_sock (n i : nat) (s : fds) : fds :=
    match n with
    | O => s
    | S n =>
        from_sock n (S i)
          match t i with
          | Some k => if s k then fd_set i (fd_clr k s) else s
          | None => s
          end
    end.
  Definition fdset_to_sockset (maxfd : nat) (s : fds) : fds := to_sock (maxfd - first) first s.
  Definition sockset_to_fdset (maxfd : nat) (s : fds) : fds := from_sock (maxfd - first) first s.
  (** sys_select.c:60-77 [find_max_sockfd] *)
  Fixpoint max_sock (n i max : nat) : nat :=
    match n with
    | O => max
    | S n => max_sock n (S i) match t i with Some k => if max <? k then k else max | None => max end
    end.
  Definition find_max_sockfd (nfds : nat) : nat := max_sock (nfds - first) first 0.

  (** The buffer shared with the server, and the server. *)
  Record shared := mk_shared { b_read : fds; b_write : fds; b_except : fds }.
  Context (server : nat -> shared -> Z * shared).
  Definition put (o : option fds) (old : fds) : fds := match o with Some s => s | None => old end.
  Definition get (o : option fds) (b : fds) : option fds := match o with Some _ => Some b | None => None end.
  (** sys_select.c:80-138 [camkes_sys__newselect] without the timeout; None is NULL *)
  Definition newselect (nfds : nat) (r w e : option fds) (b : shared) : Z * (option fds * option fds * option fds) * shared :=
    let into := option_map (fdset_to_sockset nfds) in
    let out := option_map (sockset_to_fdset nfds) in
    let '(r, w, e) := (into r, into w, into e) in
    let b := mk_shared (put r (b_read b)) (put w (b_write b)) (put e (b_except b)) in
    let '(ret, b) := server (find_max_sockfd nfds + 1) b in
    (ret, (out (get r (b_read b)), out (get w (b_write b)), out (get e (b_except b))), b).
End Select.
