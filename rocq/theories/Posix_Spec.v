(** Memory locking and select: what programs rely on. *)
From Coq Require Import List Bool ZArith.
From Verif Require Import Posix_Model.
Import ListNotations.
Open Scope Z_scope.

(** An address is mapped when a region contains it that allows some access. *)
Definition accessible (v : vma) : Prop := v_read v = true \/ v_write v = true \/ v_execute v = true.
Definition mapped (vmas : list vma) (x : Z) : Prop :=
  exists v, In v vmas /\ v_start v <= x < v_end v /\ accessible v.
(** It is left unmapped on purpose when a region contains it that allows none. *)
Definition unmapped (vmas : list vma) (x : Z) : Prop :=
  exists v, In v vmas /\ v_start v <= x < v_end v /\ ~ accessible v.
Definition whole (vmas : list vma) (addr len : Z) : Prop := forall x, addr <= x < addr + len -> mapped vmas x.

(** ** select *)
Open Scope nat_scope.
(** The descriptors from [first] below [nfds] that are sockets. *)
Definition socket (first nfds : nat) (t : table) (i k : nat) : Prop := first <= i < nfds /\ t i = Some k.
(** Different descriptors are different sockets, and the numbers of sockets are not numbers of
    descriptors. *)
Definition separate (first nfds : nat) (t : table) : Prop :=
  (forall i j k, socket first nfds t i k -> socket first nfds t j k -> i = j) /\
  (forall i k, socket first nfds t i k -> k < first).
(** The set of sockets that a set of descriptors stands for. *)
Definition stands_for (first nfds : nat) (t : table) (s s' : fds) : Prop :=
  forall k, k < first -> (s' k = true <-> exists i, socket first nfds t i k /\ s i = true).
(** What select does for one of its sets: the server is asked about the sockets that the set stands
    for, and the caller is told what the server answers about them. *)
Definition served (first nfds : nat) (t : table) (o o' : option fds) (seen reply : fds) : Prop :=
  match o with
  | None => o' = None
  | Some s => stands_for first nfds t s seen /\
              exists s', o' = Some s' /\ forall i k, socket first nfds t i k -> (s' i = true <-> reply k = true)
  end.
(** Only descriptors from [first] on are in the set. *)
Definition user_only (first : nat) (o : option fds) : Prop :=
  forall s k, o = Some s -> k < first -> s k = false.
(** A server does not add numbers that it was not asked about. *)
Definition modest (server : nat -> shared -> Z * shared) : Prop :=
  forall n b j, n <= j ->
    (b_read (snd (server n b)) j = true -> b_read b j = true) /\
    (b_write (snd (server n b)) j = true -> b_write b j = true) /\
    (b_except (snd (server n b)) j = true -> b_except b j = true).
