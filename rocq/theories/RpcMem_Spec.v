(** Vocabulary for the statements about heap memory in remote procedure calls:
    which blocks of memory a variable refers to, and how two states of the
    memory differ. *)
From Coq Require Import List NArith.
From Verif Require Import Prelude Marshal_Model RpcMem_Model.
Import ListNotations.
Open Scope N_scope.
Open Scope list_scope.

(** Addresses not handed out yet are not in use. *)
Definition sane (m : mem) : Prop :=
  forall b, (m_next m <= b)%nat -> m_live m b = None.

(** A variable of the given type is in order, and these are the blocks it
    refers to: one for a string, one for an array, the array and every element
    for an array of strings. *)
Inductive owns (m : mem) : ptype -> cell -> list nat -> Prop :=
| owns_scalar k c : owns m (PScalar k) c []
| owns_string c b s :
    c_ptr c = Blk b -> m_live m b = Some (BBytes s) -> owns m PString c [b]
| owns_array k c n b bs :
    c_sz c = Some n -> c_ptr c = Blk b -> m_live m b = Some (BBytes bs) ->
    owns m (PArray k) c [b]
| owns_no_array k c :
    c_sz c = Some 0 -> c_ptr c = Null -> owns m (PArray k) c []
| owns_strings c b qs :
    c_sz c = Some (N.of_nat (length qs)) -> c_ptr c = Blk b ->
    m_live m b = Some (BPtrs (map Blk qs)) ->
    (forall q, In q qs -> exists s, m_live m q = Some (BBytes s)) ->
    owns m PStrArray c (b :: qs)
| owns_no_strings c :
    c_sz c = Some 0 -> c_ptr c = Null -> owns m PStrArray c [].

(** The same for the variables of several parameters, and for the result. *)
Definition slot_owns (m : mem) (s : slot) (bs : list nat) : Prop :=
  owns m (s_type s) (s_cell s) bs.
Definition ret_owns (m : mem) (ret : option ptype) (c : cell)
    (bs : list nat) : Prop :=
  match ret with None => bs = [] | Some t => owns m t c bs end.

(** The blocks [bs] are gone, the rest of the memory is as before. *)
Definition released (m : mem) (bs : list nat) (m' : mem) : Prop :=
  forall b, (In b bs -> m_live m' b = None) /\
            (~ In b bs -> m_live m' b = m_live m b).
(** Nothing has changed. *)
Definition unchanged (m m' : mem) : Prop :=
  forall b, m_live m' b = m_live m b.
(** The blocks [bs], none of which was in use, are the only change. *)
Definition acquired (m : mem) (bs : list nat) (m' : mem) : Prop :=
  forall b, (In b bs -> m_live m b = None) /\
            (~ In b bs -> m_live m' b = m_live m b).

(** Return values are scalars or strings. *)
Definition returnable (ret : option ptype) : Prop :=
  match ret with
  | Some (PArray _) | Some PStrArray => False
  | _ => True
  end.

(** The variables an implementation is called with: those of its input
    parameters are in order, no block being referred to twice, and the pointers
    of output parameters are NULL. *)
Definition arguments (ps : list (dir * ptype)) (ss : list slot) (m : mem)
    (ins : list (list nat)) : Prop :=
  map (fun s => (s_dir s, s_type s)) ss = ps /\
  Forall2 (slot_owns m) (filter is_input ss) ins /\ NoDup (concat ins) /\
  (forall s, In s ss -> s_dir s = DOut ->
     match s_type s with PScalar _ => True | _ => c_ptr (s_cell s) = Null end).

(** The server's variables once the implementation [before |-> after] has
    returned: it was given copies of those only passed in and the addresses of
    the others. *)
Definition variables (before after : list slot) : list slot :=
  map (fun x => match s_dir (fst x) with
                | DIn => fst x
                | d => Slot d (s_type (fst x)) (s_cell (snd x))
                end) (combine before after)
  ++ skipn (length after) before.

(** What an implementation has to do: leave all variables and its result in
    order, no block being referred to twice. *)
Definition orderly (ret : option ptype) (ps : list (dir * ptype))
    (impl : implementation) : Prop :=
  forall ss m ins, sane m -> arguments ps ss m ins ->
    let '(rc, after, m') := impl ss m in
    exists rb outs,
      ret_owns m' ret rc rb /\
      Forall2 (slot_owns m') (variables ss after) outs /\
      NoDup (rb ++ concat outs).

(** ... and keep nothing for itself: apart from what the variables and the
    result refer to afterwards, only input blocks have changed, and those are
    gone. *)
Definition tidy (ret : option ptype) (ps : list (dir * ptype))
    (impl : implementation) : Prop :=
  forall ss m ins, sane m -> arguments ps ss m ins ->
    let '(rc, after, m') := impl ss m in
    forall rb outs,
      ret_owns m' ret rc rb ->
      Forall2 (slot_owns m') (variables ss after) outs ->
      forall b,
        (In b (rb ++ concat outs) -> In b (concat ins) \/ m_live m b = None) /\
        (~ In b (rb ++ concat outs) ->
         In b (concat ins) /\ m_live m' b = None \/
         ~ In b (concat ins) /\ m_live m' b = m_live m b).

(** The variables of a caller: those passed in are in order; of those that come
    back, the ones passed both ways refer to the blocks [olds], none twice. *)
Definition caller (ss : list slot) (m : mem) (olds : list (list nat)) : Prop :=
  (exists ins, Forall2 (slot_owns m) (filter is_input ss) ins) /\
  Forall2 (fun s o => match s_dir s with
                      | DInout => slot_owns m s o | _ => o = [] end)
    (filter is_output ss) olds /\
  NoDup (concat olds).
