(** Specification of the badge allocators. *)
From Coq Require Import List String Bool NArith.
From Verif Require Import Prelude Badges_Model.
Import ListNotations.
Open Scope N_scope.

(** ** Notification badges *)
(** Every user of the instance's notification in the order of the composition:
    (end, is it an interrupt source, number of badges it needs). *)
Definition user : Type := N * bool * N.
Definition u_end (u : user) : N := fst (fst u).
Definition u_irq (u : user) : bool := snd (fst u).
Definition u_count (u : user) : N := snd u.
Definition of_inst (inst : string) (l : list cend) : list cend :=
  filter (fun i => String.eqb (e_inst i) inst) l.
Definition irq_users (l : list cend) : list user :=
  flat_map (fun t => match e_irqs t with Some n => [(e_id t, true, n)] | None => [] end) l.
Definition conn_users (inst : string) (c : conn) : list user :=
  (if c_dtb c && existsb (fun t => String.eqb (e_inst t) inst) (c_to c)
   then irq_users (c_to c) else []) ++
  (if c_from_ge c then map (fun i => (e_id i, false, 1)) (of_inst inst (c_from c)) else []) ++
  (if c_to_ge c then map (fun i => (e_id i, false, 1)) (of_inst inst (c_to c)) else []).
Definition users (inst : string) (cs : list conn) : list user := flat_map (conn_users inst) cs.

(** Badges needed by a list of users. *)
Definition demand (l : list user) : N := fold_right (fun u a => u_count u + a) 0 l.

(** The bits of the mask, lowest first, among the first [bits]. *)
Definition mask_bits (bits mask : N) : list N :=
  filter (N.testbit mask) (map N.of_nat (seq 0 (N.to_nat bits))).

(** ** RPC badges *)
Definition rpc_users (inst : string) (cs : list conn) : list user :=
  flat_map (fun c =>
    (if c_from_rpc c then map (fun i => (e_id i, true, N.of_nat (List.length (c_to c))))
        (of_inst inst (c_from c)) else []) ++
    (if c_to_rpc c then map (fun i => (e_id i, true, N.of_nat (List.length (c_from c))))
        (of_inst inst (c_to c)) else [])) cs.

(** [x] uses only bits of [mask]. *)
Definition within (mask x : N) : Prop := forall i, N.testbit x i = true -> N.testbit mask i = true.

(** Executable form of [within], and the values the RPC allocator may hand out in
    order: non-zero, within the mask, below the badge width and below the mask. *)
Definition sub (mask x : N) : bool := N.land x mask =? x.
Definition psub (mask : N) (k : nat) : bool := sub mask (N.of_nat k).
Definition rpc_limit (bits mask : N) : nat := N.to_nat (N.min (2 ^ bits) mask).
Definition rpc_enum (bits mask : N) : list N :=
  map N.of_nat (filter (psub mask) (seq 1 (rpc_limit bits mask - 1))).

(** ** Virtqueue ids: the interfaces of an instance that take part, those at either side
    of a connection of the virtqueue type. *)
Definition vq_interfaces (inst : string) (cs : list vconn) : list cend :=
  of_inst inst (flat_map (fun c => v_from c ++ v_to c) (filter v_vq cs)).
