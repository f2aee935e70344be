(** Specification of the thread list. *)
From Coq Require Import List String NArith.
From Verif Require Import Prelude Threads_Model.
Import ListNotations.

(** The interfaces at which an instance is connected, with the thread count of each. *)
Definition ifaces_of (inst : string) (cs : list tconn) : list (string * N) :=
  flat_map (fun c =>
    map (fun e => (snd e, tc_from_threads c)) (filter (fun e => String.eqb (fst e) inst) (tc_from c)) ++
    map (fun e => (snd e, tc_to_threads c)) (filter (fun e => String.eqb (fst e) inst) (tc_to c))) cs.

(** No interface of the instance is connected twice (enforced when the composition is
    frozen, camkes/ast/objects.py:278-294). *)
Definition connected_once (inst : string) (cs : list tconn) : Prop :=
  NoDup (map fst (ifaces_of inst cs)).

(** Number of threads serving an interface. *)
Definition serving (ts : list thread) (iface : string) : nat :=
  List.length (filter (fun t => match t_iface t with Some i => String.eqb i iface | None => false end) ts).
