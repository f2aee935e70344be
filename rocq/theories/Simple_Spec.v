(** What a component relies on that uses the simple interface. *)
From Coq Require Import ZArith NArith List Bool.
From Verif Require Import Prelude Simple_Model.
Import ListNotations.
Open Scope N_scope.

(** 0, 1, .. , n-1 *)
Definition below (n : N) : list N := map N.of_nat (seq 0 (N.to_nat n)).

(** The untypeds of the pools, in order *)
Definition pool_objects (c : settings) : list object :=
  flat_map (fun '(bits, n) => map (OUntyped bits) (below n)) (c_pools c).
(** The frames of a region: as many as are needed to cover it *)
Definition region_objects (r : N * N * N) : list object :=
  let '(paddr, size, bits) := r in
  map (fun i => OFrame (paddr + i * 2 ^ bits) bits) (below ((size + 2 ^ bits - 1) / 2 ^ bits)).
Definition iospace_objects (c : settings) : list object :=
  map (fun '(d, b, v, f) => OIospace d b v f) (c_iospaces c) ++ map OSmmu (c_smmu c).
Definition device_objects (c : settings) : list object := map (fun '(p, b) => ODeviceUntyped p b) (c_untyped_mmios c).

(** All objects a component is given through the enumeration, in order. *)
Definition expected (c : settings) : list object :=
  [OCnode; OPd] ++ pool_objects c ++ flat_map region_objects (c_mmios c) ++
  map (fun '(s, e) => OIoports s e) (c_ioports c) ++ iospace_objects c ++ device_objects c ++ [ONothing].

(** The object a capability is for. *)
Fixpoint find_object (cap : N) (l : list (N * object)) : option object :=
  match l with [] => None | (k, o) :: l' => if k =? cap then Some o else find_object cap l' end.
Definition object_of (s : alloc_state) (cap : N) : option object := find_object cap (behind s).

(** Sensible settings: *)

(** no pool has untypeds smaller than a page; *)
Definition no_small (c : settings) : Prop := forall bits n, In (bits, n) (c_pools c) -> 12 <= bits.
(** frames of different sizes do not begin at the same address; *)
Definition frames_agree (c : settings) : Prop :=
  forall r r' p b b', In r (c_mmios c) -> In r' (c_mmios c) ->
    In (OFrame p b) (region_objects r) -> In (OFrame p b') (region_objects r') -> b = b'.
(** device untypeds of different sizes do not begin at the same address; *)
Definition untypeds_agree (c : settings) : Prop :=
  forall p b b', In (p, b) (c_untyped_mmios c) -> In (p, b') (c_untyped_mmios c) -> b = b'.
(** devices are PCI devices. *)
Definition pci (d b v f : N) : Prop := d < 65536 /\ b < 256 /\ v < 32 /\ f < 8.
Definition devices_pci (c : settings) : Prop := forall d b v f, In (d, b, v, f) (c_iospaces c) -> pci d b v f.
Definition sensible (c : settings) : Prop := frames_agree c /\ untypeds_agree c /\ devices_pci c.

(** No region reaches the top of the address space of [w] bits. *)
Definition no_wrap (w : N) (c : settings) : Prop := forall p z b, In (p, z, b) (c_mmios c) -> p + z < 2 ^ w.

(** A region contains an address. *)
Definition inside (paddr base size : N) : Prop := base <= paddr < base + size.

(** The labels of a switch do not overlap. *)
Fixpoint apart (l : list case_label) : Prop :=
  match l with
  | [] => True
  | (lo, hi, _) :: l' =>
      (forall n lo' hi' f, In (lo', hi', f) l' -> ~ (lo <= n <= hi /\ lo' <= n <= hi')%Z) /\ apart l'
  end.

(** Settings the kernel has objects for: untypeds between 16 bytes and 2^47 (2^29 on 32 bit platforms) and
    frames of 4 KiB, 1 MiB or 2 MiB. *)
Definition sizes_exist (b64 : bool) (c : settings) : Prop :=
  (forall bits n, In (bits, n) (c_pools c) -> 0 < n -> 4 <= bits <= (if b64 then 47 else 29)) /\
  (forall p z bits, In (p, z, bits) (c_mmios c) -> bits = 12 \/ bits = 20 \/ bits = 21).
