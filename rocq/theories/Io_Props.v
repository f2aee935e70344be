(** Device memory and driver initialisation: the properties. *)
From Coq Require Import String List Bool ZArith Lia.
From Verif Require Import Io_Model Io_Spec Io_Proofs Io_Proofs2.
Import ListNotations.
Open Scope Z_scope.

(** ** C75: mapping device memory *)
(** Two frames of one dataport and one of another. *)
Definition two_and_one : list frame :=
  [ mk_frame 0xfe000000 0x500000 0x1000; mk_frame 0xfe001000 0x501000 0x1000; mk_frame 0xff000000 0x600000 0x1000 ].

(** The whole range that is returned is the device memory that was asked for.  Partial: frames that
    follow each other in the list and in physical memory must do so in virtual memory. *)
Theorem C75_right_memory_partial : forall w frames paddr size d, 0 <= w -> 0 <= paddr < 2 ^ w ->
  Forall (valid w) frames -> adjacent frames ->
  camkes_io_map w frames paddr size <> 0 -> 0 <= d < size ->
  maps frames (paddr + d) (camkes_io_map w frames paddr size + d).
Proof. exact io_map_sound. Qed.
Print Assumptions C75_right_memory_partial.
Example right_memory_case : Forall (valid 32) two_and_one /\ adjacent two_and_one /\
  camkes_io_map 32 two_and_one 0xfe000000 0x2000 = 0x500000.
Proof.
  split; [|split; [cbn; lia|reflexivity]].
  repeat constructor; unfold f_paddr, f_vaddr, f_size; change (2 ^ 32) with 4294967296; lia.
Qed.

(** A range that a run of frames covers is found.  Partial: no frame before the run may contain its
    start. *)
Theorem C75_found_partial : forall w pre run post paddr size, 0 <= w -> 0 < size ->
  (paddr mod 4096 = 0 \/ size mod 4096 = 0) -> Forall (valid w) (pre ++ run ++ post) ->
  Forall (fun f => ~ contains f paddr) pre -> covers run paddr size ->
  camkes_io_map w (pre ++ run ++ post) paddr size <> 0.
Proof. exact io_map_complete. Qed.
Print Assumptions C75_found_partial.
Example found_case : covers (firstn 2 two_and_one) 0xfe000000 0x1800.
Proof.
  eexists _, _. split; [reflexivity|]. split; [unfold contains; cbn; lia|]. split; cbn; lia.
Qed.

(** Without the hypothesis the memory may belong to something else: two dataports that follow each
    other in physical memory only. *)
Theorem C75_other_memory_refuted : exists frames paddr size d,
  Forall (valid 32) frames /\ paddr mod 4096 = 0 /\ size mod 4096 = 0 /\ 0 <= d < size /\
  camkes_io_map 32 frames paddr size <> 0 /\
  maps frames (paddr + d) 0x700000 /\ ~ maps frames (paddr + d) (camkes_io_map 32 frames paddr size + d) /\
  maps frames 0xee000000 (camkes_io_map 32 frames paddr size + d).
Proof.
  exists [ mk_frame 0xfe000000 0x500000 0x1000; mk_frame 0xfe001000 0x700000 0x1000; mk_frame 0xee000000 0x501000 0x1000 ],
    0xfe000000, 0x2000, 0x1000.
  replace (camkes_io_map _ _ _ _) with 0x500000 by reflexivity.
  repeat split; try lia.
  - repeat constructor; unfold f_paddr, f_vaddr, f_size; change (2 ^ 32) with 4294967296; lia.
  - exists (mk_frame 0xfe001000 0x700000 0x1000), 0. cbn. intuition lia.
  - intros (f & d & H & Hd & E1 & E2). cbn [In] in H.
    destruct H as [<-|[<-|[<-|[]]]]; unfold f_paddr, f_vaddr, f_size in *; lia.
  - exists (mk_frame 0xee000000 0x501000 0x1000), 0. cbn. intuition lia.
Qed.
Print Assumptions C75_other_memory_refuted.

(** A range may not be found although a run of frames covers it, and a shorter list has it found:
    when a run is broken, the frame at which it breaks is not considered as a beginning. *)
Theorem C75_found_refuted : exists f run paddr size,
  Forall (valid 32) (f :: run) /\ adjacent (f :: run) /\ paddr mod 4096 = 0 /\ size mod 4096 = 0 /\ 0 < size /\
  covers run paddr size /\ camkes_io_map 32 run paddr size <> 0 /\
  camkes_io_map 32 (f :: run) paddr size = 0.
Proof.
  exists (mk_frame 0xfe000000 0x500000 0x1000), [mk_frame 0xfe000000 0x600000 0x2000], 0xfe000000, 0x2000.
  repeat split; try reflexivity; try discriminate; try (cbn; lia).
  - repeat constructor; unfold f_paddr, f_vaddr, f_size; change (2 ^ 32) with 4294967296; lia.
  - exists (mk_frame 0xfe000000 0x600000 0x2000), []. repeat split; cbn; lia.
Qed.
Print Assumptions C75_found_refuted.

(** ** C76: unmapping *)
(** Unmapping is diagnosed exactly when the pointer is not mapped any more. *)
Theorem C76_diagnosed : forall os i,
  nth_error (fst (track_all os [])) i = Some true <->
  exists p, nth_error os i = Some (UnmapOp p) /\ outstanding p (firstn i os) 0 = O.
Proof. intros os i. exact (track_all_spec os [] i). Qed.
Print Assumptions C76_diagnosed.
Example diagnosed_case :
  fst (track_all [MapOp 4096 true; MapOp 8192 true; UnmapOp 4096; UnmapOp 8192; UnmapOp 4096; UnmapOp 0] [])
  = [false; false; false; false; true; true].
Proof. reflexivity. Qed.

(** ** C77: drivers *)
Definition tree (p : string) : option node :=
  if String.eqb p "/soc/gpio" then Some (mk_node true (fun s => if String.eqb s "gpio" then Match else NoMatch))
  else if String.eqb p "/soc/uart" then Some (mk_node true (fun s => if String.eqb s "uart" then Match else NoMatch))
  else if String.eqb p "/soc/odd" then Some (mk_node true (fun s => NoMatch))
  else None.
Definition modules : list driver := [mk_driver ["serial"; "uart"] 0; mk_driver ["gpio"] 1; mk_driver ["uart"] 2]%string.
(** The driver of the serial port needs the one of the pins. *)
Definition start (f : nat) (p : string) (w : list nat) : answer * list nat :=
  match f with
  | 0%nat => if existsb (Nat.eqb 1) w then (Success, 0%nat :: w) else (Defer, w)
  | _ => (Success, f :: w)
  end.

(** Every device is given to the driver that was chosen for it until that does not defer any more,
    and then no more; a device without driver is left alone. *)
Theorem C77_each : forall W (init : nat -> string -> W -> answer * W) fuel tree ds paths w calls stale w' i p,
  call_hardware_init_modules init fuel tree ds paths false w = Finished calls stale w' ->
  nth_error paths i = Some p ->
  ((exists f, chosen tree ds p f) -> settled (answers i calls)) /\
  ((forall f, ~ chosen tree ds p f) -> answers i calls = []) /\
  (forall c, In c calls -> t_index (c_token c) = i -> t_path (c_token c) = p /\ chosen tree ds p (t_init (c_token c))).
Proof. exact @call_settled. Qed.
Print Assumptions C77_each.

(** The calls are made in rounds: first all devices in order, then those that deferred. *)
Theorem C77_rounds : forall W (init : nat -> string -> W -> answer * W) fuel tree ds paths w calls stale w',
  call_hardware_init_modules init fuel tree ds paths false w = Finished calls stale w' ->
  exists ts rs, calls = concat rs /\ all_devices tree ds paths ts /\ in_rounds ts rs.
Proof. exact @call_rounds. Qed.
Print Assumptions C77_rounds.
Example rounds_case :
  let uart := mk_token 0 0 "/soc/uart" in
  call_hardware_init_modules start 5 tree modules ["/soc/uart"; "/soc/odd"; "/soc/gpio"; "/soc/none"]%string false []
  = Finished [mk_call uart Defer; mk_call (mk_token 2 1 "/soc/gpio") Success; mk_call uart Success] true [0%nat; 1%nat].
Proof. reflexivity. Qed.

(** When the dependencies among the devices have no cycle, initialisation ends with all ready. *)
Theorem C77_progress : forall W (init : nat -> string -> W -> answer * W)
    (ready : W -> string -> Prop) (deps : string -> list string) (rank : string -> nat),
  (forall f p w, fst (init f p w) = Success \/ fst (init f p w) = Defer) ->
  (forall f p w, fst (init f p w) = Success -> ready (snd (init f p w)) p) ->
  (forall f p q w, ready w q -> ready (snd (init f p w)) q) ->
  (forall f p w, (forall q, In q (deps p) -> ready w q) -> fst (init f p w) = Success) ->
  (forall p q, In q (deps p) -> (rank q < rank p)%nat) ->
  forall tree ds paths w,
  (forall p q f, In p paths -> chosen tree ds p f -> In q (deps p) -> In q paths /\ exists g, chosen tree ds q g) ->
  exists fuel calls stale w',
    call_hardware_init_modules init fuel tree ds paths false w = Finished calls stale w' /\
    forall p f, In p paths -> chosen tree ds p f -> ready w' p.
Proof. exact @call_progress. Qed.
Print Assumptions C77_progress.
(** The hypotheses are met by drivers that look at what has been initialised. *)
Definition start_by_path (needs : string -> list string) (f : nat) (p : string) (w : list string) : answer * list string :=
  if forallb (fun q => existsb (String.eqb q) w) (needs p) then (Success, p :: w) else (Defer, w).
Definition needs (p : string) : list string := if String.eqb p "/soc/uart" then ["/soc/gpio"%string] else [].
Example progress_case :
  (forall f p w, fst (start_by_path needs f p w) = Success \/ fst (start_by_path needs f p w) = Defer) /\
  (forall f p w, fst (start_by_path needs f p w) = Success -> In p (snd (start_by_path needs f p w))) /\
  (forall f p q w, In q w -> In q (snd (start_by_path needs f p w))) /\
  (forall f p w, (forall q, In q (needs p) -> In q w) -> fst (start_by_path needs f p w) = Success) /\
  (forall p q, In q (needs p) -> ((if String.eqb q "/soc/uart" then 1 else 0) < (if String.eqb p "/soc/uart" then 1 else 0))%nat) /\
  call_hardware_init_modules (start_by_path needs) 2 tree modules ["/soc/uart"; "/soc/gpio"]%string false []
  = Finished [mk_call (mk_token 0 0 "/soc/uart") Defer; mk_call (mk_token 1 1 "/soc/gpio") Success;
              mk_call (mk_token 0 0 "/soc/uart") Success] true ["/soc/uart"; "/soc/gpio"]%string.
Proof.
  split; [|split; [|split; [|split; [|split; [|reflexivity]]]]]; unfold start_by_path.
  - intros f p w. destruct (forallb _ _); auto.
  - intros f p w. destruct (forallb _ _); cbn; [auto|discriminate].
  - intros f p q w. destruct (forallb _ _); cbn; auto.
  - intros f p w H. replace (forallb _ _) with true; [reflexivity|]. symmetry. apply forallb_forall.
    intros q Q. apply existsb_exists. exists q. split; [auto|apply String.eqb_refl].
  - intros p q. unfold needs. destruct (String.eqb_spec p "/soc/uart") as [->|E]; [|intros []].
    intros [<-|[]]. cbn. lia.
Qed.

(** Two drivers that wait for each other keep the component busy for ever. *)
Theorem C77_cycle_refuted : exists (init : nat -> string -> list string -> answer * list string) tree ds paths,
  (exists f, chosen tree ds "/soc/uart" f) /\ In "/soc/uart"%string paths /\
  forall fuel, call_hardware_init_modules init fuel tree ds paths false [] = Running.
Proof.
  exists (start_by_path (fun p => if String.eqb p "/soc/uart" then ["/soc/gpio"%string] else ["/soc/uart"%string])),
    tree, modules, ["/soc/uart"; "/soc/gpio"]%string.
  split; [|split; [now left|]].
  - exists 0%nat. unfold chosen. eexists _, [], _, _, ["serial"%string], "uart"%string, [].
    repeat split; try reflexivity; repeat constructor.
  - intros fuel. unfold call_hardware_init_modules. cbn.
    enough (H : rounds (start_by_path (fun p => if String.eqb p "/soc/uart" then ["/soc/gpio"%string] else ["/soc/uart"%string]))
      fuel [mk_token 0 0 "/soc/uart"; mk_token 1 1 "/soc/gpio"] [] = None) by now rewrite H.
    induction fuel as [|fuel IH]; [reflexivity|]. cbn in *. now rewrite IH.
Qed.
Print Assumptions C77_cycle_refuted.

(** Once a driver has deferred, a second call of the function uses memory that has been freed. *)
Theorem C77_twice_refuted : exists (init : nat -> string -> list nat -> answer * list nat) tree ds paths calls stale w,
  call_hardware_init_modules init 5 tree ds paths false [] = Finished calls stale w /\
  call_hardware_init_modules init 5 tree ds paths stale w = UseAfterFree.
Proof.
  exists start, tree, modules, ["/soc/uart"; "/soc/gpio"]%string. eexists _, _, _. split; [reflexivity|reflexivity].
Qed.
Print Assumptions C77_twice_refuted.
