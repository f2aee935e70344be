(** What programs rely on when they use sockets. *)
From Coq Require Import ZArith NArith List Bool.
From Verif Require Import Prelude Socket_Model.
Import ListNotations.
Open Scope Z_scope.

Section Spec.
Context {V : server}.

(** The server was asked [r], once, while the page began with [data] and was as before behind it; it
    answered [v].  No descriptor changed. *)
Definition asked (w : world V) (r : request) (data : list byte) (v : Z) (w' : world V) : Prop :=
  serve V r (data ++ skipn (List.length data) (sock_data w)) (srv w) = (v, sock_data w', srv w') /\ fds w' = fds w.

(** Descriptor [fd] is socket [k] from now on; nothing else has changed. *)
Definition opens (w : world V) (fd k : Z) (w' : world V) : Prop :=
  fds w fd = None /\ fds w' fd = Some (Socket k) /\ (forall x, x <> fd -> fds w' x = fds w x) /\
  sock_data w' = sock_data w /\ srv w' = srv w.

(** allocate_fd gives a descriptor that is closed, or fails *)
Definition allocator (pick : (Z -> option file) -> Z) : Prop := forall t, 0 <= pick t -> t (pick t) = None.

(** ** Streams *)

(** Whatever the page holds, it has the size of a page. *)
Definition paged (w : world V) : Prop := List.length (sock_data w) = 4096%nat.
Definition keeps_page : Prop := forall r p s v p' s', List.length p = 4096%nat -> serve V r p s = (v, p', s') -> List.length p' = 4096%nat.

(** A server that takes some of the bytes that are written, and appends them to what it took before. *)
Definition takes (taken : sstate V -> Z -> list byte) : Prop :=
  forall k n p s v p' s', serve V (RWrite k n) p s = (v, p', s') ->
    v <= Z.of_nat n /\
    (forall j, taken s' j = if (j =? k) && (0 <? v) then taken s j ++ firstn (Z.to_nat v) p else taken s j).
(** It never refuses. *)
Definition willing : Prop := forall k n p s v p' s', (0 < n)%nat -> serve V (RWrite k n) p s = (v, p', s') -> 0 < v.

(** A server that has bytes for its sockets and gives some of them when it is read. *)
Definition gives (pending : sstate V -> Z -> list byte) : Prop :=
  forall k n p s v p' s', List.length p = 4096%nat -> serve V (RRead k n) p s = (v, p', s') ->
    0 <= v <= Z.of_nat n /\ v <= Z.of_nat (List.length (pending s k)) /\
    firstn (Z.to_nat v) p' = firstn (Z.to_nat v) (pending s k) /\
    (forall j, pending s' j = if j =? k then skipn (Z.to_nat v) (pending s j) else pending s j).

(** The usual loop of a program that writes all its data: it stops at the first error. *)
Fixpoint write_all (fuel : nat) (fd : Z) (data : list byte) (w : world V) : option (nat * world V) :=
  match fuel with
  | O => Some (0%nat, w)
  | S fuel =>
      match data with
      | [] => Some (0%nat, w)
      | _ =>
          match sys_write V fd data w with
          | Ret v _ w =>
              if 0 <? v then
                match write_all fuel fd (skipn (Z.to_nat v) data) w with
                | Some (n, w) => Some ((Z.to_nat v + n)%nat, w)
                | None => None
                end
              else Some (0%nat, w)
          | _ => None
          end
      end
  end.

(** And of one that reads until nothing comes, into buffers of the sizes given. *)
Fixpoint read_all (sizes : list nat) (fd : Z) (w : world V) : option (list byte * world V) :=
  match sizes with
  | [] => Some ([], w)
  | n :: sizes =>
      match sys_read V fd (repeat 0%N n) w with
      | Ret v b w =>
          match read_all sizes fd w with
          | Some (d, w) => Some (firstn (Z.to_nat v) b ++ d, w)
          | None => None
          end
      | _ => None
      end
  end.
End Spec.
Arguments asked : clear implicits. Arguments opens : clear implicits.
Arguments paged : clear implicits. Arguments keeps_page : clear implicits.
Arguments takes : clear implicits. Arguments gives : clear implicits. Arguments willing : clear implicits.
Arguments write_all : clear implicits. Arguments read_all : clear implicits.

(** ** Many calls *)

(** All calls of a program, with their arguments *)
Inductive syscall :=
| Socket_ (domain type protocol : Z)
| Bind (fd : Z) (addr : list byte)
| Connect (fd : Z) (addr : list byte)
| Setsockopt (fd level optname : Z) (optval : list byte)
| Listen (fd backlog : Z)
| Accept (fd : Z) (addr : option (list byte * list byte))
| Write (fd : Z) (buf : list byte)
| Read (fd : Z) (buf : list byte)
| Fcntl (fd cmd val : Z)
| Close (fd : Z).

Definition state_of {V A} (r : result V A) : option (world V) := match r with Ret _ _ w => Some w | _ => None end.
Definition perform (V : server) (pick : (Z -> option file) -> Z) (c : syscall) (w : world V) : option (world V) :=
  match c with
  | Socket_ d t p => state_of (sys_socket V pick d t p w)
  | Bind fd a => state_of (sys_bind V fd a w)
  | Connect fd a => state_of (sys_connect V fd a w)
  | Setsockopt fd l o v => state_of (sys_setsockopt V fd l o v w)
  | Listen fd b => state_of (sys_listen V fd b w)
  | Accept fd a => state_of (sys_accept V pick fd a w)
  | Write fd b => state_of (sys_write V fd b w)
  | Read fd b => state_of (sys_read V fd b w)
  | Fcntl fd c v => state_of (sys_fcntl V fd c v w)
  | Close fd => state_of (sys_close V fd w)
  end.
Fixpoint performs (V : server) (pick : (Z -> option file) -> Z) (l : list syscall) (w : world V) : option (world V) :=
  match l with
  | [] => Some w
  | c :: l => match perform V pick c w with Some w => performs V pick l w | None => None end
  end.

(** A server that keeps its sockets apart: a new one has a number that was not in use, one that is closed
    is not in use any more, and nothing else changes which are.  Requests for new sockets do not fail
    with a number other than -1, and [socket] does not fail at all. *)
Definition keeps_apart (V : server) (used : sstate V -> Z -> Prop) : Prop :=
  forall r p s v p' s', serve V r p s = (v, p', s') ->
  match r with
  | RSocket _ _ _ => ~ used s v /\ forall k, used s' k <-> used s k \/ k = v
  | RAccept _ => if v =? -1 then forall k, used s' k <-> used s k
                 else ~ used s v /\ forall k, used s' k <-> used s k \/ k = v
  | RClose k => forall j, used s' j <-> used s j /\ j <> k
  | _ => forall k, used s' k <-> used s k
  end.
(** Every socket of the server that is in use is behind exactly one descriptor, and descriptors have
    no others behind them. *)
Definition one_to_one (V : server) (used : sstate V -> Z -> Prop) (w : world V) : Prop :=
  (forall k, used (srv w) k <-> exists fd, fds w fd = Some (Socket k)) /\
  (forall fd fd' k, fds w fd = Some (Socket k) -> fds w fd' = Some (Socket k) -> fd = fd').
