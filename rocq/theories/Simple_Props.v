(** C102, C103: the simple interface of a component. *)
From Coq Require Import ZArith NArith List Bool Lia.
From Verif Require Import Prelude Simple_Model Simple_Spec Simple_Proofs Simple_Proofs2.
Import ListNotations.
Open Scope N_scope.

(** * C102: enumeration of capabilities *)

(** The settings are accepted if and only if there are objects of the sizes given. *)
Theorem C102_accepted b64 c first : (exists s m, template b64 c first = Ok (s, m)) <-> sizes_exist b64 c.
Proof. exact (accepted_ok b64 c first). Qed.
Print Assumptions C102_accepted.

(** The number of capabilities that is reported is the number of the objects of the
    settings: CNode, address space, untypeds, frames, ports, IO spaces, device untypeds and the
    free slot. *)
Theorem C102_count_partial b64 c first s m : template b64 c first = Ok (s, m) -> sensible c -> no_small c ->
  cap_count m = List.length (expected c).
Proof. exact (count_ok b64 c first s m). Qed.
Print Assumptions C102_count_partial.

(** Each number below it gives a capability to the object of that number, in the order of
    the settings.  What is missing: pools of untypeds smaller than a page, see
    [C102_small_refuted]. *)
Theorem C102_enumeration_partial where_is b64 c first s m i : template b64 c first = Ok (s, m) -> sensible c -> no_small c ->
  (i < cap_count m)%nat ->
  exists cap, nth_cap where_is m (Z.of_nat i) = Some cap /\ object_of s cap = nth_error (expected c) i.
Proof. exact (enumeration_ok where_is b64 c first s m i). Qed.
Print Assumptions C102_enumeration_partial.

(** All other numbers are refused. *)
Theorem C102_outside where_is b64 c first s m n : template b64 c first = Ok (s, m) -> sensible c ->
  (n < 0 \/ Z.of_nat (cap_count m) <= n)%Z -> nth_cap where_is m n = None.
Proof. exact (outside_ok where_is b64 c first s m n). Qed.
Print Assumptions C102_outside.

(** The switch is one that compiles: no two of its labels overlap. *)
Theorem C102_compiles where_is b64 c first s m : template b64 c first = Ok (s, m) -> sensible c ->
  apart (nth_cap_labels where_is m).
Proof. exact (compiles_ok where_is b64 c first s m). Qed.
Print Assumptions C102_compiles.

(** No capability is given out under two numbers if no object is listed twice. *)
Theorem C102_distinct_partial where_is b64 c first s m i j cap : template b64 c first = Ok (s, m) -> sensible c -> no_small c ->
  NoDup (expected c) -> nth_cap where_is m i = Some cap -> nth_cap where_is m j = Some cap -> i = j.
Proof. exact (distinct_ok where_is b64 c first s m i j cap). Qed.
Print Assumptions C102_distinct_partial.

(** The enumeration of untypeds: those of the pools and then those of devices, with size,
    physical address, and whether it is memory of a device. *)
Theorem C102_untyped_partial where_is b64 c first s m i : template b64 c first = Ok (s, m) -> sensible c -> no_small c ->
  (i < untyped_count m)%nat ->
  exists u, nth_untyped where_is m i = Some u /\
  match nth_error (pool_objects c ++ device_objects c) i with
  | Some (OUntyped bits k) => object_of s (u_cptr u) = Some (OUntyped bits k) /\ u_bits u = bits /\ u_device u = false /\ u_paddr u = where_is (u_cptr u)
  | Some (ODeviceUntyped p bits) => object_of s (u_cptr u) = Some (ODeviceUntyped p bits) /\ u_bits u = bits /\ u_device u = true /\ u_paddr u = p
  | _ => False
  end.
Proof. exact (untyped_ok where_is b64 c first s m i). Qed.
Print Assumptions C102_untyped_partial.

(** The last capability is the greatest that was given out, and all fit into a CNode of the
    reported size, even in the lower half of it. *)
Theorem C102_last b64 c first s m cap o : template b64 c first = Ok (s, m) -> sensible c -> object_of s cap = Some o ->
  cap <= holding_slot m /\ cap < 2 ^ (cnode_size m - 1).
Proof. exact (holding_ok b64 c first s m cap o). Qed.
Print Assumptions C102_last.

(** The size that is reported when none is configured is always one bit more than needed. *)
Theorem C102_cnode m : 0 < holding_slot m -> 2 ^ (cnode_size m - 2) <= holding_slot m < 2 ^ (cnode_size m - 1).
Proof. exact (cnode_ok m). Qed.
Print Assumptions C102_cnode.

(** Untypeds smaller than a page are counted, but appear as the null capability of size 0. *)
Theorem C102_small_refuted : exists c s m, sensible c /\ template true c 2 = Ok (s, m) /\
  exists i, (i < cap_count m)%nat /\ nth_cap (fun x => x) m (Z.of_nat i) = Some 0 /\ object_of s 0 = None /\
  exists u, nth_untyped (fun x => x) m 0 = Some u /\ u_bits u = 0 /\ nth_error (pool_objects c) 0 = Some (OUntyped 4 0).
Proof. exact small_bad. Qed.
Print Assumptions C102_small_refuted.

(** Two pools of the same size (simple_untyped12_pool and simple_untyped012_pool) share
    their capabilities. *)
Theorem C102_distinct_refuted : exists c s m, sensible c /\ no_small c /\ template true c 2 = Ok (s, m) /\
  exists i j cap, i <> j /\ nth_cap (fun x => x) m i = Some cap /\ nth_cap (fun x => x) m j = Some cap.
Proof. exact twice_bad. Qed.
Print Assumptions C102_distinct_refuted.

(** * C103: lookups *)

(** A frame that is found contains the address and has the size that was asked for; if
    none is found then no region of that size contains the address. *)
Theorem C103_frame_partial w b64 c first s m paddr bits : template b64 c first = Ok (s, m) -> sensible c -> no_wrap w c ->
  match get_frame_cap w m paddr bits with
  | Some cap => exists base, object_of s cap = Some (OFrame base bits) /\ base <= paddr < base + 2 ^ bits
  | None => forall base size, In (base, size, bits) (c_mmios c) -> ~ inside paddr base size
  end.
Proof. exact (frame_ok w b64 c first s m paddr bits). Qed.
Print Assumptions C103_frame_partial.

(** Frames of different sizes at one address: the capability is for the other frame. *)
Theorem C103_mixed_refuted : exists c s m paddr bits cap, template true c 2 = Ok (s, m) /\ no_wrap 48 c /\
  get_frame_cap 48 m paddr bits = Some cap /\ forall base, object_of s cap <> Some (OFrame base bits).
Proof. exact mixed_bad. Qed.
Print Assumptions C103_mixed_refuted.

(** A region at the top of the address space is never found. *)
Theorem C103_wrap_refuted : exists c s m base size bits paddr, sensible c /\ template true c 2 = Ok (s, m) /\
  In (base, size, bits) (c_mmios c) /\ inside paddr base size /\ paddr < 2 ^ 32 /\ get_frame_cap 32 m paddr bits = None.
Proof. exact top_bad. Qed.
Print Assumptions C103_wrap_refuted.

(** IO ports: a capability that is found covers the requested ports; if none is found then
    none of the configured ranges does. *)
Theorem C103_ioport b64 c first s m a e : template b64 c first = Ok (s, m) -> sensible c -> 0 < first ->
  match get_ioport_cap m a e with
  | Some cap => exists st en, In (st, en) (c_ioports c) /\ object_of s cap = Some (OIoports st en) /\ st <= a /\ e <= en
  | None => forall st en, In (st, en) (c_ioports c) -> ~ (st <= a /\ e <= en)
  end.
Proof. exact (ioport_ok b64 c first s m a e). Qed.
Print Assumptions C103_ioport.

(** Interrupts *)
Theorem C103_irq b64 c first s m n : template b64 c first = Ok (s, m) -> sensible c ->
  match get_irq m n with
  | Some cap => In n (c_irqs c) /\ object_of s cap = Some (OIrq n)
  | None => ~ In n (c_irqs c)
  end.
Proof. exact (irq_ok b64 c first s m n). Qed.
Print Assumptions C103_irq.

(** IO spaces of PCI devices, and the labels of that switch *)
Theorem C103_iospace b64 c first s m d b v f : template b64 c first = Ok (s, m) -> sensible c -> c_smmu c = [] -> pci d b v f ->
  match get_iospace m d (b * 256 + v * 8 + f) with
  | Some cap => In (d, b, v, f) (c_iospaces c) /\ object_of s cap = Some (OIospace d b v f)
  | None => ~ In (d, b, v, f) (c_iospaces c)
  end.
Proof. exact (iospace_ok b64 c first s m d b v f). Qed.
Print Assumptions C103_iospace.
Theorem C103_iospace_compiles b64 c first s m : template b64 c first = Ok (s, m) -> sensible c -> c_smmu c = [] ->
  NoDup (c_iospaces c) -> NoDup (map fst (iospaces m)).
Proof. exact (iospace_labels b64 c first s m). Qed.
Print Assumptions C103_iospace_compiles.

(** Extended bootinfo of the type, cut to the length that was asked for; -1 only if there
    is none.  What is missing: structures longer than a page. *)
Theorem C103_bootinfo_partial b64 c first s m len_of content t max_len : template b64 c first = Ok (s, m) ->
  (forall f n, len_of f = Some n -> n <= 4096) ->
  match extended_bootinfo m len_of content t max_len with
  | Ok (Some bytes) => exists f n, nth_error (c_bootinfo c) f = Some t /\ len_of f = Some n /\ bytes = firstn (N.to_nat (N.min n max_len)) (content f)
  | Ok None => forall f, nth_error (c_bootinfo c) f = Some t -> (forall f', nth_error (c_bootinfo c) f' = Some t -> f' = f) -> len_of f = None
  | Err _ => False
  end.
Proof. exact (bootinfo_ok b64 c first s m len_of content t max_len). Qed.
Print Assumptions C103_bootinfo_partial.
Theorem C103_bootinfo_refuted : exists c s m, sensible c /\ template true c 2 = Ok (s, m) /\
  extended_bootinfo m (fun _ => Some 5000) (fun _ => []) 1 10000 = Err OtherException.
Proof. exact info_bad. Qed.
Print Assumptions C103_bootinfo_refuted.

(** ** Examples *)
Definition machine : settings :=
  Settings [(20, 2); (12, 1)] [(1016, 1023); (96, 100)] [(8192, 8192, 12); (4194304, 3000000, 21)] [(65536, 14)]
           [(0, 0, 2, 0); (0, 3, 0, 1)] [] true [7; 33] [1; 5].
Definition made_simple := the (template true machine 2).
Example machine_made : template true machine 2 = Ok made_simple. Proof. vm_compute. reflexivity. Qed.
Example machine_sensible : sensible machine /\ no_small machine /\ no_wrap 48 machine.
Proof.
  split; [split; [|split]|split].
  - intros r r' p b b' [<-|[<-|[]]] [<-|[<-|[]]] H H'; vm_compute in H, H';
      repeat match goal with X : _ \/ _ |- _ => destruct X as [X|X] end; congruence || contradiction.
  - intros p b b' [[= <- <-]|[]] [[= <-]|[]]. reflexivity.
  - intros d b v f [[= <- <- <- <-]|[[= <- <- <- <-]|[]]]; unfold pci; lia.
  - intros b n [[= <- <-]|[[= <- <-]|[]]]; lia.
  - intros p z b [[= <- <- <-]|[[= <- <- <-]|[]]]; vm_compute; reflexivity.
Qed.
Example machine_all : cap_count (snd made_simple) = 15%nat /\
  map (fun i => match nth_cap (fun x => x) (snd made_simple) (Z.of_nat i) with Some cap => object_of (fst made_simple) cap | None => None end) (seq 0 16) =
  map Some [OCnode; OPd; OUntyped 20 0; OUntyped 20 1; OUntyped 12 0; OFrame 8192 12; OFrame 12288 12; OFrame 4194304 21; OFrame 6291456 21;
            OIoports 1016 1023; OIoports 96 100; OIospace 0 0 2 0; OIospace 0 3 0 1; ODeviceUntyped 65536 14; ONothing] ++ [None].
Proof. vm_compute. split; reflexivity. Qed.
Example machine_nodup : NoDup (expected machine).
Proof. repeat constructor; vm_compute; intuition congruence. Qed.
Example machine_lookups :
  get_frame_cap 48 (snd made_simple) 12289 12 = Some 10 /\ get_frame_cap 48 (snd made_simple) 12289 21 = None /\
  get_ioport_cap (snd made_simple) 1016 1017 = Some 7 /\ get_ioport_cap (snd made_simple) 100 101 = None /\
  get_irq (snd made_simple) 33 = Some 19 /\ get_iospace (snd made_simple) 0 769 = Some 15 /\ cnode_size (snd made_simple) = 6.
Proof. vm_compute. repeat split. Qed.
Example machine_bootinfo :
  extended_bootinfo (snd made_simple) (fun f => if Nat.eqb f 1 then Some 4 else None) (fun _ => [5; 0; 4; 9; 8; 8]) 5 3 = Ok (Some [5; 0; 4]) /\
  extended_bootinfo (snd made_simple) (fun f => if Nat.eqb f 1 then Some 4 else None) (fun _ => [5; 0; 4; 9; 8; 8]) 1 3 = Ok None.
Proof. vm_compute. split; reflexivity. Qed.
