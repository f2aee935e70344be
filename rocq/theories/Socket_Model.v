(** Model of the system calls on sockets: libsel4camkes/src/sys_io.c and libsel4camkes/src/sys_socket.c.

    Simplifications.
    - The server is any state machine: it gets a request, the page shared with it (sock_data) and its state
      and gives a number, the page and its state.  All its functions are connected (the weak symbols are
      defined) and so is sock_data.
    - The table of descriptors belongs to another library.  A descriptor is closed, a socket with the number
      the server gave it, or another file; [pick] is allocate_fd and may give a negative number.
      valid_fd says that a descriptor is open.
    - read, write and close of other files are those of the other library ([Passed]); it also closes
      sockets, which succeeds.
    - Lengths are those of the lists of bytes the program passes; int has 32 bits, and lengths as of
      addresses are below 2^31, so that none of them becomes negative. *)
From Coq Require Import ZArith NArith List Bool.
From Verif Require Import Prelude.
Import ListNotations.
Open Scope Z_scope.

Definition PAGE_SIZE_4K : nat := 4096.
Definition byte := N.

Inductive file := Socket (k : Z) | OtherFile.
(** What is asked of the server; lengths are arguments, the bytes are in the page. *)
Inductive request :=
| RSocket (domain type protocol : Z)
| RBind (k : Z) (len : nat)
| RConnect (k : Z) (len : nat)
| RListen (k backlog : Z)
| RAccept (k : Z)
| RSetsockopt (k level optname : Z) (len : nat)
| RRead (k : Z) (count : nat)
| RWrite (k : Z) (count : nat)
| RFcntl (k cmd val : Z)
| RClose (k : Z).

Record server := Server {
  sstate : Type;
  serve : request -> list byte -> sstate -> Z * list byte * sstate }.

Record world (V : server) := World { fds : Z -> option file; sock_data : list byte; srv : sstate V }.
Arguments World {V}. Arguments fds {V}. Arguments sock_data {V}. Arguments srv {V}.

(** Memory outside of an object is touched ([Fault]), an assertion fails ([Stopped]), the call is left to
    the other library, or it returns a number, together with [A]. *)
Inductive result {V : server} {A : Type} := Fault | Stopped | Passed | Ret (v : Z) (a : A) (w : world V).
Arguments result : clear implicits.

(** memcpy into the page *)
Definition to_page (page data : list byte) : option (list byte) :=
  if Nat.leb (List.length data) PAGE_SIZE_4K then Some (data ++ skipn (List.length data) page) else None.
(** memcpy of n bytes of the page into an object; n becomes a size_t *)
Definition from_page (page : list byte) (n : Z) (object : list byte) : option (list byte) :=
  if (0 <=? n) && (n <=? Z.of_nat PAGE_SIZE_4K) && (n <=? Z.of_nat (List.length object))
  then Some (firstn (Z.to_nat n) page ++ skipn (Z.to_nat n) object)
  else None.

Section Calls.
Context (V : server).
(** allocate_fd *)
Context (pick : (Z -> option file) -> Z).

Definition call (r : request) (w : world V) : Z * world V :=
  let '(v, p, s) := serve V r (sock_data w) (srv w) in (v, World (fds w) p s).
Definition set_fd (fd : Z) (f : option file) (w : world V) : world V :=
  World (fun x => if x =? fd then f else fds w x) (sock_data w) (srv w).

(** sys_socket.c:29-34 and :142-148; get_fd_struct of a negative number fails an assertion *)
Definition new_fd (k : Z) (w : world V) : result V unit :=
  let fd := pick (fds w) in
  if fd <? 0 then Stopped else Ret fd tt (set_fd fd (Some (Socket k)) w).

(** sys_socket.c:20-40; the descriptor is allocated before the server is asked, which is not visible to
    the server *)
Definition sys_socket (domain type protocol : Z) (w : world V) : result V unit :=
  if pick (fds w) <? 0 then Stopped else
  let (k, w) := call (RSocket domain type protocol) w in new_fd k w.

(** The number of the server in the data of a descriptor, where the type is not looked at: a closed
    descriptor and another file have no such number behind their data. *)
Definition sockfd (w : world V) (fd : Z) : option Z :=
  match fds w fd with Some (Socket k) => Some k | _ => None end.

(** sys_socket.c:54-55, :76-77, :172-173 *)
Definition with_data (data : list byte) (r : request) (w : world V) : result V unit :=
  match to_page (sock_data w) data with
  | None => Fault
  | Some p => let (v, w) := call r (World (fds w) p (srv w)) in Ret v tt w
  end.
(** sys_socket.c:43-61 *)
Definition sys_bind (fd : Z) (addr : list byte) (w : world V) : result V unit :=
  match sockfd w fd with
  | None => Fault
  | Some k => with_data addr (RBind k (List.length addr)) w
  end.
(** sys_socket.c:64-83 *)
Definition sys_connect (fd : Z) (addr : list byte) (w : world V) : result V unit :=
  match sockfd w fd with
  | None => Fault
  | Some k => with_data addr (RConnect k (List.length addr)) w
  end.
(** sys_socket.c:157-179 *)
Definition sys_setsockopt (fd level optname : Z) (optval : list byte) (w : world V) : result V unit :=
  match sockfd w fd with
  | None => Fault
  | Some k => with_data optval (RSetsockopt k level optname (List.length optval)) w
  end.
(** sys_socket.c:86-102 *)
Definition sys_listen (fd backlog : Z) (w : world V) : result V unit :=
  match sockfd w fd with
  | None => Fault
  | Some k => let (v, w) := call (RListen k backlog) w in Ret v tt w
  end.

(** sys_socket.c:105-154.  [addr] is the struct sockaddr (16 bytes) and the socklen_t (4 bytes) of the
    caller, if given.  With the result go the error number, if the call sets it (the first four bytes of
    the page), and what is in the objects of the caller afterwards. *)
Definition sys_accept (fd : Z) (addr : option (list byte * list byte)) (w : world V)
  : result V (option (list byte) * option (list byte * list byte)) :=
  match sockfd w fd with
  | None => Fault
  | Some k =>
      let filled := match addr with
                    | Some (a, l) => to_page (sock_data w) (a ++ l)
                    | None => Some (sock_data w)
                    end in
      match filled with
      | None => Fault
      | Some p =>
          let (v, w) := call (RAccept k) (World (fds w) p (srv w)) in
          if v =? -1 then Ret v (Some (firstn 4 (sock_data w)), addr) w
          else
            let addr := match addr with
                        | Some _ => Some (firstn 16 (sock_data w), firstn 4 (skipn 16 (sock_data w)))
                        | None => None
                        end in
            match new_fd v w with
            | Ret fd _ w => Ret fd (None, addr) w
            | Stopped => Stopped | Passed => Passed | Fault => Fault
            end
      end
  end.

(** sys_io.c:62-97; the call to writev for want of an original system call is left out *)
Definition sys_write (fd : Z) (buf : list byte) (w : world V) : result V unit :=
  match fds w fd with
  | Some (Socket k) =>
      let count := List.length buf in
      let size := if Nat.ltb PAGE_SIZE_4K count then PAGE_SIZE_4K else count in
      match to_page (sock_data w) (firstn size buf) with
      | None => Fault
      | Some p => let (v, w) := call (RWrite k size) (World (fds w) p (srv w)) in Ret v tt w
      end
  | _ => Passed
  end.
(** sys_io.c:100-125; [buf] is the object of the caller, [count] long.  The result of the server is
    taken as it is. *)
Definition sys_read (fd : Z) (buf : list byte) (w : world V) : result V (list byte) :=
  match fds w fd with
  | Some (Socket k) =>
      let count := List.length buf in
      let size := if Nat.ltb PAGE_SIZE_4K count then PAGE_SIZE_4K else count in
      let (v, w) := call (RRead k size) w in
      match from_page (sock_data w) v buf with
      | None => Fault
      | Some b => Ret v b w
      end
  | _ => Passed
  end.
(** sys_io.c:128-144; the descriptor is not checked *)
Definition sys_fcntl (fd cmd val : Z) (w : world V) : result V unit :=
  match fds w fd with
  | Some (Socket k) => let (v, w) := call (RFcntl k cmd val) w in Ret v tt w
  | _ => Stopped
  end.
(** sys_io.c:40-59; the result of the server is not looked at *)
Definition sys_close (fd : Z) (w : world V) : result V unit :=
  match fds w fd with
  | Some (Socket k) => let (_, w) := call (RClose k) w in Ret 0 tt (set_fd fd None w)
  | _ => Passed
  end.
End Calls.
