(** Model of camkes/templates/component.simple.c: the capabilities that are allocated for a
    component with the setting simple, and the functions of the simple interface that hand
    them to the component.

    Simplifications.
    - The settings are given parsed (the numbers of "start:end" and so on).
    - The names given to alloc are elements of [key]; the formats (simple_untyped_%d_pool_%d,
      ioport%d_%d, mmio_frame_%d, untyped_cap_0x%x, iospace_%d, smmu_%d, irq_%d) are
      injective and differ from each other in their letters.
    - alloc and alloc_cap are guarded (runner/Context.py:386-444, Context_Model.v): a name that was
      used before gives the capability made then.  New capabilities get the next slot.
    - The arrays mmio_cap_lookup_* are kept with their regions.  In C their names are made of the address
      and the size, so that regions that agree in both do not compile.
    - A switch whose labels overlap does not compile; here the first matching label is taken, and a
      theorem says that they do not overlap.
    - seL4_CNode_Copy does not fail and is represented by the capability that is copied.
    - Left out: scheduling contexts, print, init_cap, ASID assignment. *)
From Coq Require Import ZArith NArith List Bool.
From Verif Require Import Prelude.
Import ListNotations.
Open Scope N_scope.

(** ** Allocation of capabilities *)
Inductive key :=
| KCnode | KPd | KUntyped (bits i : N) | KIoport (first last : N) | KFrame (paddr : N) | KMmioUntyped (paddr : N)
| KIospace (devid : N) | KSmmu (n : N) | KAsidPool | KNotification | KIrq (n : N) | KHolding.
Lemma key_eq_dec (a b : key) : {a = b} + {a <> b}.
Proof. decide equality; apply N.eq_dec. Defined.

(** Kernel objects; ONothing is an empty slot. *)
Inductive object :=
| OCnode | OPd
| OUntyped (bits i : N)                     (* the i-th untyped of a pool *)
| OIoports (first last : N)                 (* ports from first to last *)
| OFrame (paddr bits : N)
| ODeviceUntyped (paddr bits : N)
| OIospace (domain bus dev fn : N)
| OSmmu (n : N) | OAsidPool | ONotification | OIrq (n : N) | ONothing.

Record alloc_state := AState { made : list (key * N); next : N; behind : list (N * object) }.

(** Context.py:386-396, :413-444 *)
Fixpoint made_before (k : key) (l : list (key * N)) : option N :=
  match l with
  | [] => None
  | (k', c) :: l' => if key_eq_dec k k' then Some c else made_before k l'
  end.
Definition alloc (k : key) (o : object) (s : alloc_state) : alloc_state * N :=
  match made_before k (made s) with
  | Some c => (s, c)
  | None => (AState ((k, next s) :: made s) (next s + 1) ((next s, o) :: behind s), next s)
  end.
Fixpoint allocs (l : list (key * object)) (s : alloc_state) : alloc_state * list N :=
  match l with
  | [] => (s, [])
  | (k, o) :: l' => let (s1, c) := alloc k o s in let (s2, cs) := allocs l' s1 in (s2, c :: cs)
  end.

(** ** Settings *)
Record settings := Settings {
  c_pools : list (N * N);                   (* simple_untyped<bits>_pool = number *)
  c_ioports : list (N * N);                 (* start, end *)
  c_mmios : list (N * N * N);               (* paddr, size, bits *)
  c_untyped_mmios : list (N * N);           (* paddr, bits *)
  c_iospaces : list (N * N * N * N);        (* domain, bus, dev, fun *)
  c_smmu : list N;
  c_asid_pool : bool;
  c_irqs : list N;
  c_bootinfo : list N }.                    (* types of extended bootinfo *)

(** six.moves.range(0, n) *)
Definition range (n : N) : list N := map N.of_nat (seq 0 (N.to_nat n)).
(** six.moves.range(0, size, 2 ** bits) *)
Definition offsets (size bits : N) : list N := map (fun i => i * 2 ^ bits) (range ((size + (2 ^ bits - 1)) / 2 ^ bits)).

(** arch_helpers.py:24-32 *)
Definition min_untyped_size : N := 4.
Definition max_untyped_size (is_64_bit : bool) : N := if is_64_bit then 47 else 29.

(** What the template knows when it writes the functions *)
Record simple := Simple {
  self_cnode : N; self_pd : N;
  untyped_obj_list : list (N * N);          (* capability, bits *)
  ioports : list (N * N * N);               (* capability, start, end *)
  mmio_regions : list (N * N * N * list N); (* paddr, size, bits, and mmio_cap_lookup_* *)
  untyped_mmio : list (N * N * N);          (* paddr, bits, capability *)
  iospaces : list (N * N);                  (* devid, capability *)
  irqs : list (N * N);                      (* irq, capability *)
  holding_slot : N;
  extrabi_list : list (N * nat) }.          (* type, number of the frame *)

(** component.simple.c:50-64.  A size is only checked if the pool is not empty. *)
Definition pool_requests (c : settings) : list (key * object * N) :=
  flat_map (fun '(bits, n) => map (fun i => (KUntyped bits i, OUntyped bits i, bits)) (range n)) (c_pools c).
Definition pools_legal (is_64_bit : bool) (c : settings) : bool :=
  forallb (fun '(bits, n) => (n =? 0) || ((min_untyped_size <=? bits) && (bits <=? max_untyped_size is_64_bit))) (c_pools c).
(** component.simple.c:70-78 *)
Definition ioport_requests (c : settings) : list (key * object) :=
  map (fun '(s, e) => (KIoport s e, OIoports s e)) (c_ioports c).
(** component.simple.c:94-109; other sizes than those of bits_to_frame_type are undefined *)
Definition frame_bits (bits : N) : bool := (bits =? 12) || (bits =? 20) || (bits =? 21).
Definition frame_requests (paddr size bits : N) : list (key * object) :=
  map (fun off => (KFrame (paddr + off), OFrame (paddr + off) bits)) (offsets size bits).
Fixpoint alloc_regions (l : list (N * N * N)) (s : alloc_state) : alloc_state * list (N * N * N * list N) :=
  match l with
  | [] => (s, [])
  | (paddr, size, bits) :: l' =>
      let (s1, caps) := allocs (frame_requests paddr size bits) s in
      let (s2, rs) := alloc_regions l' s1 in (s2, (paddr, size, bits, caps) :: rs)
  end.
(** component.simple.c:114-121 *)
Definition untyped_mmio_requests (c : settings) : list (key * object) :=
  map (fun '(p, b) => (KMmioUntyped p, ODeviceUntyped p b)) (c_untyped_mmios c).
(** component.simple.c:127-138 *)
Definition device_id (domain bus dev fn : N) : N := domain * 65536 + (bus * 256 + dev * 8 + fn).
Definition iospace_requests (c : settings) : list (key * object) :=
  map (fun '(d, b, v, f) => (KIospace (device_id d b v f), OIospace d b v f)) (c_iospaces c).
(** component.simple.c:142-145 *)
Definition smmu_requests (c : settings) : list (key * object) := map (fun n => (KSmmu n, OSmmu n)) (c_smmu c).
(** component.simple.c:152-161 *)
Definition irq_requests (c : settings) : list (key * object) := map (fun n => (KIrq n, OIrq n)) (c_irqs c).

(** component.simple.c:29-165; [first] is the first free slot *)
Definition template (is_64_bit : bool) (c : settings) (first : N) : res (alloc_state * simple) :=
  let s := AState [] first [] in
  let (s, cnode) := alloc KCnode OCnode s in
  let (s, pd) := alloc KPd OPd s in
  if negb (pools_legal is_64_bit c) then Err OtherException else
  let (s, uts) := allocs (map fst (pool_requests c)) s in
  let (s, ports) := allocs (ioport_requests c) s in
  if negb (forallb (fun '(_, _, b) => frame_bits b) (c_mmios c)) then Err OtherException else
  let (s, regions) := alloc_regions (c_mmios c) s in
  let (s, devs) := allocs (untyped_mmio_requests c) s in
  let (s, spaces) := allocs (iospace_requests c) s in
  let (s, smmus) := allocs (smmu_requests c) s in
  let s := if c_asid_pool c then fst (alloc KAsidPool OAsidPool s) else s in
  let s := fst (alloc KNotification ONotification s) in
  let (s, irqcaps) := allocs (irq_requests c) s in
  let (s, holding) := alloc KHolding ONothing s in
  Ok (s, Simple cnode pd
    (combine uts (map snd (pool_requests c)))
    (map (fun '(cap, (st, e)) => (cap, st, e)) (combine ports (c_ioports c)))
    regions
    (map (fun '(cap, (p, b)) => (p, b, cap)) (combine devs (c_untyped_mmios c)))
    (map (fun '(cap, (d, b, v, f)) => (device_id d b v f, cap)) (combine spaces (c_iospaces c)) ++
     map (fun '(cap, n) => (n, cap)) (combine smmus (c_smmu c)))
    (map (fun '(cap, n) => (n, cap)) (combine irqcaps (c_irqs c)))
    holding
    (combine (c_bootinfo c) (seq 0 (List.length (c_bootinfo c))))).

(** ** The functions *)

(** simple_data.untyped as filled by camkes_make_simple, :489-496; the array is zero before.
    [where_is] is what the kernel says about the physical address, :405-437. *)
Record untyped := Untyped { u_cptr : N; u_paddr : N; u_bits : N; u_device : bool }.
Definition untyped_table (where_is : N -> N) (s : simple) : list untyped :=
  map (fun '(cap, bits) => if 12 <=? bits then Untyped cap (where_is cap) bits false else Untyped 0 0 0 false)
      (untyped_obj_list s) ++
  map (fun '(p, b, cap) => Untyped cap p b true) (untyped_mmio s).
(** :201-203 *)
Definition untyped_count (s : simple) : nat := List.length (untyped_obj_list s) + List.length (untyped_mmio s).
(** :210-222 *)
Definition nth_untyped (where_is : N -> N) (s : simple) (n : nat) : option untyped := nth_error (untyped_table where_is s) n.

(** :91-96, :104-105, :206 *)
Definition mmio_caps_len (s : simple) : nat := List.length (flat_map snd (mmio_regions s)).
(** :205-208 *)
Definition cap_count (s : simple) : nat :=
  List.length (untyped_obj_list s) + mmio_caps_len s + List.length (ioports s) + List.length (iospaces s) +
  List.length (untyped_mmio s) + 3.

(** The labels of the switch of simple_camkes_nth_cap, :236-278: first and last value, and
    what is returned for n. *)
Definition case_label := (Z * Z * (Z -> option N))%type.
Definition single (n : nat) (cap : N) : case_label := (Z.of_nat n, Z.of_nat n, fun _ => Some cap).
Fixpoint singles (n : nat) (l : list N) : list case_label :=
  match l with [] => [] | c :: l' => single n c :: singles (S n) l' end.
Definition table_label (lo : nat) (hi : Z) (a : list N) : case_label :=
  (Z.of_nat lo, hi, fun n => nth_error a (Z.to_nat (n - Z.of_nat lo))).
Fixpoint region_labels (start : nat) (l : list (N * N * N * list N)) : list case_label :=
  match l with
  | [] => []
  | (_, size, bits, caps) :: l' =>
      let len := List.length (offsets size bits) in
      table_label start (Z.of_nat (start + len) - 1) caps :: region_labels (start + len) l'
  end.
Definition nth_cap_labels (where_is : N -> N) (s : simple) : list case_label :=
  let uts := List.length (untyped_obj_list s) in
  let mmio := mmio_caps_len s in
  [single 0 (self_cnode s); single 1 (self_pd s)] ++
  (if Nat.ltb 0 uts then [table_label 2 (Z.of_nat (uts + 1)) (map u_cptr (untyped_table where_is s))] else []) ++
  region_labels (2 + uts) (mmio_regions s) ++
  singles (2 + uts + mmio) (map (fun '(cap, _, _) => cap) (ioports s)) ++
  singles (2 + uts + mmio + List.length (ioports s)) (map snd (iospaces s)) ++
  singles (2 + uts + mmio + List.length (ioports s) + List.length (iospaces s)) (map snd (untyped_mmio s)) ++
  [single (uts + mmio + List.length (ioports s) + List.length (iospaces s) + List.length (untyped_mmio s) + 2) (holding_slot s)].
Fixpoint switch (l : list case_label) (n : Z) : option N :=
  match l with
  | [] => None
  | (lo, hi, f) :: l' => if ((lo <=? n) && (n <=? hi))%Z then f n else switch l' n
  end.
(** None: the assertion "Invalid cap requested" fails *)
Definition nth_cap (where_is : N -> N) (s : simple) (n : Z) : option N := switch (nth_cap_labels where_is s) n.

(** :224-234.  [w] is the number of bits of an address.  None: seL4_FailedLookup *)
Fixpoint frame_cap (w : N) (l : list (N * N * N * list N)) (paddr size_bits : N) : option N :=
  match l with
  | [] => None
  | (base, size, bits, caps) :: l' =>
      if (base <=? paddr) && (paddr <? (base + size) mod 2 ^ w) && (size_bits =? bits)
      then nth_error caps (N.to_nat (N.shiftr (paddr - base) bits))
      else frame_cap w l' paddr size_bits
  end.
Definition get_frame_cap (w : N) (s : simple) := frame_cap w (mmio_regions s).

(** :308-327; capability 0 is seL4_CapNull.  Requests with start > end stop at the
    assertion. *)
Definition get_ioport_cap (s : simple) (start_port end_port : N) : option N :=
  let cap := fold_left (fun c '(cap, st, e) => if (st <=? start_port) && (end_port <=? e) then cap else c) (ioports s) 0 in
  if cap =? 0 then None else Some cap.

(** :330-347, :390-403 *)
Fixpoint label_lookup (l : list (N * N)) (n : N) : option N :=
  match l with [] => None | (k, c) :: l' => if k =? n then Some c else label_lookup l' n end.
Definition get_iospace (s : simple) (domain device : N) : option N :=
  label_lookup (iospaces s) (N.lor (N.shiftl domain 16) device).
Definition get_irq (s : simple) (irq : N) : option N := label_lookup (irqs s) irq.

(** :299-306, :481-487 when the size is not configured: number of bits of the holding slot,
    plus one *)
Definition cnode_size (s : simple) : N := N.size (holding_slot s) + 1.

(** :39-48, :449-462.  A frame has 4096 bytes; the header tells the length, None being -1 (nothing
    there).  Reading behind the frame is an error of the model. *)
Definition extended_bootinfo (s : simple) (len_of : nat -> option N) (content : nat -> list N) (type max_len : N) :
  res (option (list N)) :=
  let mapping := fold_left (fun m '(t, f) => if type =? t then Some f else m) (extrabi_list s) None in
  match mapping with
  | None => Ok None
  | Some f =>
      match len_of f with
      | None => Ok None
      | Some len => let len := N.min len max_len in
                    if 4096 <? len then Err OtherException
                    else Ok (Some (firstn (N.to_nat len) (content f)))
      end
  end.
