(** C18, C19: device-tree cells, and translation of registers. *)
From Coq Require Import List Bool String NArith Lia.
From Verif Require Import Prelude Fdt_Model Fdt_Spec Fdt_Proofs
  Fdt_Proofs2.
Import ListNotations.
Open Scope string_scope.
Open Scope list_scope.

(** ** C18 *)

(** Packing writes the number with exactly that many cells... *)
Theorem C18_pack : forall x n ws, pack x n = Ok ws <-> written x n ws.
Proof. exact pack_written. Qed.
Print Assumptions C18_pack.

(** ... whenever it fits, and fails otherwise. *)
Theorem C18_pack_fits : forall x n, (x < base ^ N.of_nat n)%N ->
  exists ws, pack x n = Ok ws.
Proof. exact pack_fits. Qed.
Print Assumptions C18_pack_fits.

Theorem C18_pack_overflow : forall x n, (base ^ N.of_nat n <= x)%N ->
  pack x n = Err OtherException.
Proof. exact pack_overflow. Qed.
Print Assumptions C18_pack_overflow.

(** Unpacking reads the numbers written with the same cell counts, and leaves
    the rest. *)
Theorem C18_unpack : forall sizes xs ws rest, tuple sizes xs ws ->
  unpack (ws ++ rest) sizes = (xs, rest).
Proof. exact unpack_tuple. Qed.
Print Assumptions C18_unpack.

(** And so for a whole table of tuples. *)
Theorem C18_unpacker : forall A (each : list N -> res A) sizes t ws rs fuel,
  table sizes t ws -> 0 < list_sum sizes \/ t = [] ->
  List.length ws <= fuel ->
  Forall2 (fun xs r => each xs = Ok r) t rs ->
  unpacker each fuel ws sizes = Ok rs.
Proof. exact @unpacker_table. Qed.
Print Assumptions C18_unpacker.

(** The loop ends if a tuple takes any cell... *)
Theorem C18_unpacker_ends : forall A (each : list N -> res A) sizes ws fuel,
  (forall r, each r <> Err OutOfFuel) ->
  0 < list_sum sizes -> List.length ws <= fuel ->
  unpacker each fuel ws sizes <> Err OutOfFuel.
Proof. exact @unpacker_total. Qed.
Print Assumptions C18_unpacker_ends.

(** ... and never if not: a non-empty property below a node with
    #address-cells and #size-cells zero. *)
Theorem C18_zero_cells_refuted : forall fuel ws, ws <> [] ->
  unpacker (fun r => Ok r) fuel ws [0; 0] = Err OutOfFuel.
Proof. exact unpacker_forever. Qed.
Print Assumptions C18_zero_cells_refuted.

(** A property whose length is not a multiple of the tuple's is not rejected:
    the last tuple is made up from what there is. *)
Theorem C18_short_refuted : exists b ws ws',
  xlat_regs 9 ws [b] = Ok ws' /\ List.length ws = 3 /\ List.length ws' = 4.
Proof. exact short_table. Qed.
Print Assumptions C18_short_refuted.

Example C18_ex :
  pack 4294967298 2 = Ok [1; 2]%N /\ pack 4294967298 1 = Err OtherException /\
  unpack [1; 2; 7; 9]%N [2; 1] = ([4294967298; 7]%N, [9]%N).
Proof. repeat split. Qed.
Example C18_ex_hyp : tuple [2; 1] [4294967298; 7]%N [1; 2; 7]%N.
Proof.
  apply (tuple_cons 2 _ [1; 2]%N).
  - repeat split. repeat constructor.
  - apply (tuple_cons 1 _ [7]%N); [|constructor].
    repeat split. repeat constructor.
Qed.

(** ** C19 *)

(** A translation succeeds exactly along a path on which the region crosses
    every bus, inside a range or outside all... *)
Theorem C19_translation : forall buses a s b,
  xlat_reg a s buses = Ok b <-> reaches s (tables buses) a b.
Proof. exact xlat_reg_iff. Qed.
Print Assumptions C19_translation.

(** ... at most one result... *)
Theorem C19_unique : forall rs a s b c,
  crosses rs a s b -> crosses rs a s c -> b = c.
Proof. exact crosses_unique. Qed.
Print Assumptions C19_unique.

(** ... and fails exactly if it overruns the range it starts in. *)
Theorem C19_overrun : forall rs a s,
  (exists b, xlat_bus a s rs = Ok b /\ crosses rs a s b) \/
  (xlat_bus a s rs = Err OtherException /\ overruns rs a s).
Proof. exact xlat_bus_spec. Qed.
Print Assumptions C19_overrun.

Theorem C19_overrun_only : forall rs a s b,
  crosses rs a s b -> ~ overruns rs a s.
Proof. exact crosses_not_overruns. Qed.
Print Assumptions C19_overrun_only.

(** For a node: its registers, written with its parent's cell counts, are
    replaced by the translated ones, each written with these counts; other
    properties stay. *)
Theorem C19_node : forall node ancestors names fuel b bs rss regs regs' ws,
  resolve_buses ancestors = Ok (b :: bs) ->
  chain (b :: bs) rss ->
  dget node "reg" = Some ws ->
  table [b_addr b; b_size b] (map pair regs) ws ->
  0 < b_addr b + b_size b ->
  List.length ws <= fuel -> Forall (fun b => cells_of b <= fuel) (b :: bs) ->
  Forall2 (fun r r' => reaches (snd r) rss (fst r) (fst r') /\
             snd r' = snd r /\ (fst r' < base ^ N.of_nat (b_addr b))%N)
    regs regs' ->
  exists r ws', resolve_fdt_node fuel node ancestors names = Ok r /\
    dget (r_props r) "reg" = Some ws' /\
    table [b_addr b; b_size b] (map pair regs') ws' /\
    forall k, k <> "reg"%string -> k <> "this-address-cells"%string ->
      k <> "this-size-cells"%string -> dget (r_props r) k = dget node k.
Proof. exact node_resolved. Qed.
Print Assumptions C19_node.

(** If some register overruns a range on the way, or its address does not fit
    into the cells, the node is rejected. *)
Theorem C19_node_rejected :
  forall node ancestors names fuel b bs rss regs ws r,
  resolve_buses ancestors = Ok (b :: bs) ->
  chain (b :: bs) rss ->
  dget node "reg" = Some ws ->
  table [b_addr b; b_size b] (map pair regs) ws ->
  0 < b_addr b + b_size b ->
  List.length ws <= fuel -> Forall (fun b => cells_of b <= fuel) (b :: bs) ->
  In r regs ->
  (forall a, reaches (snd r) rss (fst r) a ->
     (base ^ N.of_nat (b_addr b) <= a)%N) ->
  resolve_fdt_node fuel node ancestors names = Err OtherException.
Proof. exact node_rejected. Qed.
Print Assumptions C19_node_rejected.

(** The result says how its registers are written, and where it was found. *)
Theorem C19_node_fields : forall node ancestors names fuel r,
  resolve_fdt_node fuel node ancestors names = Ok r ->
  exists b bs, resolve_buses ancestors = Ok (b :: bs) /\
    dget (r_props r) "this-address-cells" = Some [N.of_nat (b_addr b)] /\
    dget (r_props r) "this-size-cells" = Some [N.of_nat (b_size b)] /\
    r_path r = node_path names "" /\
    (dget node "reg" = None -> dget (r_props r) "reg" = None).
Proof. exact node_fields. Qed.
Print Assumptions C19_node_fields.

(** A node without registers is never rejected for its ancestors' ranges. *)
Theorem C19_node_no_reg : forall node ancestors names fuel b bs,
  resolve_buses ancestors = Ok (b :: bs) -> dget node "reg" = None ->
  exists r, resolve_fdt_node fuel node ancestors names = Ok r /\
    forall k, k <> "this-address-cells" -> k <> "this-size-cells" ->
      dget (r_props r) k = dget node k.
Proof. exact node_no_reg. Qed.
Print Assumptions C19_node_no_reg.

(** The buses are the nodes above, with default cell counts 2 and 1; the root, which has
    none above, is taken to be on a bus without properties. *)
Theorem C19_buses : forall ps bs,
  resolve_buses ps = Ok bs <-> Forall2 describes (match ps with [] => [[]] | _ => ps end) bs.
Proof. exact resolve_buses_all. Qed.
Print Assumptions C19_buses.

Theorem C19_path : forall names, names <> [] ->
  Forall (fun n => n <> "") names ->
  node_path names "" = slashed (rev names).
Proof. exact node_path_slashed. Qed.
Print Assumptions C19_path.

(** Every byte of a region goes where the region goes, if on no bus the
    region starts outside all ranges and reaches into one. *)
Theorem C19_bytes_partial : forall s rss a b d,
  well_placed s rss a -> reaches s rss a b -> (d < s)%N ->
  reaches 1 rss (a + d) (b + d)%N.
Proof. exact reaches_byte. Qed.
Print Assumptions C19_bytes_partial.

(** In that case it is not rejected, and some bytes go elsewhere. *)
Theorem C19_bytes_refuted : exists rs a s b d,
  xlat_reg a s [Bus 1 1 None (Some rs)] = Ok b /\ (d < s)%N /\
  disjoint rs /\
  exists c, xlat_reg (a + d) 1 [Bus 1 1 None (Some rs)] = Ok c /\
    c <> (b + d)%N.
Proof. exact reaching_into. Qed.
Print Assumptions C19_bytes_refuted.

(** Two buses: 0x10 in the inner is 0x1010 in the middle, 0x7e001010 above. *)
Definition ex_root : props := [("#address-cells", [1%N]); ("#size-cells", [1%N])].
Definition ex_soc : props :=
  [("#address-cells", [1%N]); ("#size-cells", [1%N]);
   ("ranges", [0; 2113929216; 65536]%N)].
Definition ex_bus : props :=
  [("#address-cells", [1%N]); ("#size-cells", [1%N]);
   ("ranges", [0; 4096; 256]%N)].
Example C19_ex :
  resolve_fdt_node 9 [("reg", [16; 32; 64; 4]%N); ("x", [5%N])]
    [ex_bus; ex_soc; ex_root] ["dev"; "bus"; "soc"] =
  Ok (Resolved
        [("reg", [2113933328; 32; 2113933376; 4]%N); ("x", [5%N]);
         ("this-address-cells", [1%N]); ("this-size-cells", [1%N])]
        "/soc/bus/dev").
Proof. reflexivity. Qed.
(** 32 bytes at 0xf0 overrun the 256 bytes of the inner bus. *)
Example C19_ex_overrun :
  resolve_fdt_node 9 [("reg", [240; 32]%N)] [ex_bus; ex_soc; ex_root]
    ["dev"; "bus"; "soc"] = Err OtherException.
Proof. reflexivity. Qed.
Example C19_ex_hyp : exists b bs,
  resolve_buses [ex_bus; ex_soc; ex_root] = Ok (b :: bs) /\
  chain (b :: bs) [[Range 0 4096 256]; [Range 0 2113929216 65536]; []].
Proof.
  do 2 eexists. split; [reflexivity|].
  repeat (apply chain_bus; [reflexivity|cbn; split; [|intros; lia]|]).
  3: now apply chain_root.
  all: apply (table_cons _ _ [_; _; _] [] []); [|constructor].
  all: apply (tuple_cons 1 _ [_]); [repeat split; repeat constructor|].
  all: apply (tuple_cons 1 _ [_]); [repeat split; repeat constructor|].
  all: apply (tuple_cons 1 _ [_]); [repeat split; repeat constructor|].
  all: constructor.
Qed.
Example C19_ex_placed :
  well_placed 32 [[Range 0 4096 256]; []] 16.
Proof.
  apply (wp_bus _ _ _ _ 4112).
  - intros [|[|i]] [|[|j]] r q a; cbn; try discriminate; reflexivity.
  - intros H. inversion H as [|? ? H0 _]. exfalso. apply H0. split; cbn; lia.
  - apply (cross_range [Range 0 4096 256] 16 32 (Range 0 4096 256)).
    + exists [], []. split; [reflexivity|]. split; [split; cbn; lia|constructor].
    + cbn. lia.
  - apply (wp_bus _ _ _ _ 4112); [| | |constructor].
    + intros [|i] j r q a; cbn; discriminate.
    + intros _ d _. constructor.
    + apply cross_pass. constructor.
Qed.
