(** Model of the badge and id allocators: camkes/templates/macros.py
    (global_endpoint_badges, global_rpc_endpoint_badges, virtqueue_get_client_id)
    and the allocate_badges macro of camkes/templates/rpc-connector.c. *)
From Coq Require Import List String Bool NArith.
From Verif Require Import Prelude.
Import ListNotations.
Open Scope N_scope.

(** A connection end: its identity (Python's [is]), the instance it belongs to, and
    for a hardware end with [generate_interrupts] the number of interrupts of its
    device tree node ([None] when the setting is off).  Simplified from
    camkes.ast.ConnectionEnd and the configuration. *)
Record cend := mk_end { e_id : N; e_inst : string; e_irqs : option N }.
(** The parts of a connection consulted: whether its type is one of the two
    seL4DTBHardware threadless types, and the truth of its four *_global_*
    attributes' defaults. *)
Record conn := mk_conn { c_dtb : bool; c_from_ge : bool; c_to_ge : bool;
  c_from_rpc : bool; c_to_rpc : bool; c_from : list cend; c_to : list cend }.

(** Outcome of a loop body: [return v] or fall through with the loop state. *)
Inductive flow (A S : Type) := Return (v : A) | Continue (s : S).
Arguments Return {A S} v. Arguments Continue {A S} s.

Section notification.
(** seL4_Value_BadgeBits; base; mask; the end asked about. *)
Variables (bits base mask : N) (e : cend).

(** set_next_badge (macros.py:545-554); each call doubles, so [bits + 2] calls
    always suffice. *)
Fixpoint set_next_badge (fuel : nat) (next : N) : res N :=
  match fuel with
  | O => Err OutOfFuel
  | S fuel =>
    if 2 ^ bits <=? next then Err OtherException
    else
      let next := if next =? 0 then 1 else N.shiftl next 1 in
      if N.land next mask =? 0 then set_next_badge fuel next else Ok next
  end.
Definition snb (next : N) : res N := set_next_badge (N.to_nat bits + 3) next.

(** [for i in irqs: irq_badges.append(next_badge | base); ...] (macros.py:569-571). *)
Fixpoint take_irqs (n : nat) (next : N) : res (list N * N) :=
  match n with
  | O => Ok ([], next)
  | S n =>
    next' <- snb next ;;
    ' r <- take_irqs n next' ;;
    Ok (N.lor next base :: fst r, snd r)
  end.

(** The interrupt loop over the to ends (macros.py:563-573). *)
Fixpoint irq_loop (l : list cend) (next : N) : res (flow (list N) N) :=
  match l with
  | [] => Ok (Continue next)
  | t :: l =>
    match e_irqs t with
    | None => irq_loop l next
    | Some n =>
      ' r <- take_irqs (N.to_nat n) next ;;
      if N.eqb (e_id e) (e_id t) then Ok (Return (fst r)) else irq_loop l (snd r)
    end
  end.

(** The from/to loops (macros.py:575-579 and 581-585). *)
Fixpoint ge_loop (l : list cend) (next : N) : res (flow (list N) N) :=
  match l with
  | [] => Ok (Continue next)
  | i :: l =>
    if String.eqb (e_inst i) (e_inst e) then
      if N.eqb (e_id e) (e_id i) then Ok (Return [N.lor next base])
      else next <- snb next ;; ge_loop l next
    else ge_loop l next
  end.

(** One connection (macros.py:561-585). *)
Definition andthen (m : res (flow (list N) N)) (k : N -> res (flow (list N) N)) :=
  r <- m ;; match r with Return v => Ok (Return v) | Continue s => k s end.
Definition ge_conn (c : conn) (next : N) : res (flow (list N) N) :=
  andthen (if c_dtb c && existsb (fun t => String.eqb (e_inst t) (e_inst e)) (c_to c)
           then irq_loop (c_to c) next else Ok (Continue next)) (fun next =>
  andthen (if c_from_ge c then ge_loop (c_from c) next else Ok (Continue next)) (fun next =>
  if c_to_ge c then ge_loop (c_to c) next else Ok (Continue next))).
Fixpoint ge_conns (cs : list conn) (next : N) : res (list N) :=
  match cs with
  | [] => Err OtherException
  | c :: cs =>
    r <- ge_conn c next ;;
    match r with Return v => Ok v | Continue next => ge_conns cs next end
  end.
(** The body of global_endpoint_badges once base and mask are known
    (macros.py:560-587).  A single badge is returned as a one element list. *)
Definition global_endpoint_badges (cs : list conn) : res (list N) :=
  next <- snb 0 ;; ge_conns cs next.
End notification.

(** Defaults of base and mask (macros.py:557-559). *)
Definition default_base : N := 1.
Definition default_mask (bits base : N) : N := N.ldiff (2 ^ bits - 1) base.

Section rpc.
Variables (bits base mask : N) (e : cend).

(** set_next_badge of global_rpc_endpoint_badges (macros.py:611-619);
    [~mask & next_badge] is [ldiff next mask]. *)
Fixpoint rpc_set_next (fuel : nat) (next : N) : res N :=
  match fuel with
  | O => Err OutOfFuel
  | S fuel =>
    if N.min (2 ^ bits) mask <=? next then Err OtherException
    else if N.land next mask =? next then Ok next
    else rpc_set_next fuel (N.ldiff next mask + next)
  end.
Definition rsnb (next : N) : res N := rpc_set_next (N.to_nat bits + 2) next.

(** [for i2 in c.to_ends: badges.append(...)] (macros.py:630-632, 639-641). *)
Fixpoint take_rpc (n : nat) (next : N) : res (list N * N) :=
  match n with
  | O => Ok ([], next)
  | S n =>
    next' <- rsnb (next + 1) ;;
    ' r <- take_rpc n next' ;;
    Ok (N.lor next base :: fst r, snd r)
  end.
(** macros.py:628-635 and 637-644; [badges] is reset for every end of the instance,
    so the list returned is the one just built. *)
Fixpoint rpc_loop (l : list cend) (others : nat) (next : N) : res (flow (list N) N) :=
  match l with
  | [] => Ok (Continue next)
  | i :: l =>
    if String.eqb (e_inst i) (e_inst e) then
      ' r <- take_rpc others next ;;
      if N.eqb (e_id e) (e_id i) then Ok (Return (fst r)) else rpc_loop l others (snd r)
    else rpc_loop l others next
  end.
Definition rpc_conn (c : conn) (next : N) : res (flow (list N) N) :=
  andthen (if c_from_rpc c then rpc_loop (c_from c) (List.length (c_to c)) next
           else Ok (Continue next)) (fun next =>
  if c_to_rpc c then rpc_loop (c_to c) (List.length (c_from c)) next else Ok (Continue next)).
Fixpoint rpc_conns (cs : list conn) (next : N) : res (list N) :=
  match cs with
  | [] => Err OtherException
  | c :: cs =>
    r <- rpc_conn c next ;;
    match r with Return v => Ok v | Continue next => rpc_conns cs next end
  end.
(** global_rpc_endpoint_badges (macros.py:621-646). *)
Definition global_rpc_endpoint_badges (cs : list conn) : res (list N) :=
  next <- rsnb 1 ;; rpc_conns cs next.
End rpc.
(** macros.py:622-624 *)
Definition default_rpc_base : N := 0.
Definition default_rpc_mask (bits : N) : N := 2 ^ bits - 2.

(** [x in list] for lists with None. *)
Definition has (x : N) (l : list (option N)) : bool :=
  existsb (fun o => match o with Some y => N.eqb x y | None => false end) l.
(** [l[i] = v] *)
Fixpoint set_at {A} (i : nat) (v : A) (l : list A) : list A :=
  match l, i with
  | [], _ => []
  | _ :: l, O => v :: l
  | x :: l, S i => x :: set_at i v l
  end.

(** The inner loop of allocate_badges (rpc-connector.c:53-57). *)
Fixpoint skip_used (n : nat) (badges : list (option N)) (next : N) : N :=
  match n with
  | O => next
  | S n => skip_used n badges (if has next badges then next + 1 else next)
  end.
(** The outer loop (rpc-connector.c:51-60); [is] are the remaining indices. *)
Fixpoint fill_badges (is : list nat) (badges : list (option N)) (next : N) : list (option N) :=
  match is with
  | [] => badges
  | i :: is =>
    match nth i badges None with
    | Some _ => fill_badges is badges next
    | None =>
      let next := skip_used (List.length badges) badges next in
      fill_badges is (set_at i (Some next) badges) next
    end
  end.
(** allocate_badges (rpc-connector.c:30-62) on the list of explicitly configured
    badges ([None] where none is given). *)
Definition allocate_badges (explicit : list (option N)) : list (option N) :=
  fill_badges (seq 0 (List.length explicit)) explicit 1.

(** virtqueue_get_client_id: inner search (macros.py:678-683): the value to assign
    if one was found, and the new [current_id]. *)
Fixpoint find_id (n : nat) (ids : list (option N)) (cur : N) : option N * N :=
  match n with
  | O => (None, cur)
  | S n => if has cur ids then find_id n ids (cur + 1) else (Some cur, cur + 1)
  end.
(** outer loop (macros.py:676-683) *)
Fixpoint fill_ids (is : list nat) (ids : list (option N)) (cur : N) : list (option N) :=
  match is with
  | [] => ids
  | i :: is =>
    match nth i ids None with
    | Some _ => fill_ids is ids cur
    | None =>
      match find_id (List.length ids) ids cur with
      | (Some v, cur) => fill_ids is (set_at i (Some v) ids) cur
      | (None, cur) => fill_ids is ids cur
      end
    end
  end.
Definition assign_ids (configured : list (option N)) : list (option N) :=
  fill_ids (seq 0 (List.length configured)) configured 0.

(** The end collection (macros.py:667-673): [vq] says whether a connection is of
    type seL4VirtQueues. *)
Record vconn := mk_vconn { v_vq : bool; v_from : list cend; v_to : list cend }.
Definition vq_ends (inst : string) (cs : list vconn) : list cend :=
  flat_map (fun c => if v_vq c
    then filter (fun i => String.eqb (e_inst i) inst) (v_from c ++ v_to c) else []) cs.
(** [connections.index(end)] *)
Fixpoint index_of (e : N) (l : list cend) : option nat :=
  match l with
  | [] => None
  | i :: l => if N.eqb e (e_id i) then Some O else option_map S (index_of e l)
  end.
(** virtqueue_get_client_id (macros.py:652-684); [conf] gives the configured id of
    an end's interface. *)
Definition virtqueue_get_client_id (conf : cend -> option N) (cs : list vconn) (e : cend)
  : res (option N) :=
  let ends := vq_ends (e_inst e) cs in
  let ids := assign_ids (map conf ends) in
  match index_of (e_id e) ends with
  | Some i => Ok (nth i ids None)
  | None => Err ValueError
  end.
