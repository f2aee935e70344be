(** Cells and address translation, independently of the code. *)
From Coq Require Import List Bool String NArith.
From Verif Require Import Prelude Fdt_Model.
Import ListNotations.
Open Scope list_scope.

(** The number denoted by a list of cells, most significant first. *)
Definition base : N := 4294967296.
Fixpoint number (ws : list N) : N :=
  match ws with
  | [] => 0
  | w :: ws => w * base ^ N.of_nat (List.length ws) + number ws
  end%N.
Definition cells (ws : list N) : Prop := Forall (fun w => w < base)%N ws.
(** [x] is written with exactly [n] cells. *)
Definition written (x : N) (n : nat) (ws : list N) : Prop :=
  List.length ws = n /\ cells ws /\ number ws = x.
(** A tuple of numbers is written with the cell counts [sizes]. *)
Inductive tuple : list nat -> list N -> list N -> Prop :=
| tuple_nil : tuple [] [] []
| tuple_cons n x ws sizes xs rest :
    written x n ws -> tuple sizes xs rest ->
    tuple (n :: sizes) (x :: xs) (ws ++ rest).
(** A table is a sequence of such tuples. *)
Inductive table (sizes : list nat) : list (list N) -> list N -> Prop :=
| table_nil : table sizes [] []
| table_cons xs ws t rest :
    tuple sizes xs ws -> table sizes t rest ->
    table sizes (xs :: t) (ws ++ rest).

(** The range maps address [a]. *)
Definition holds (r : range) (a : N) : Prop :=
  (from_start r <= a /\ a < from_start r + r_size r)%N.
(** [r] is the first range that holds [a]. *)
Definition selects (rs : list range) (a : N) (r : range) : Prop :=
  exists before after, rs = before ++ r :: after /\ holds r a /\
    Forall (fun q => ~ holds q a) before.

(** Region [a], [s] crosses a bus: it lies in the selected range and keeps
    its offset, or no range holds its address and it is passed on. *)
Inductive crosses (rs : list range) (a s : N) : N -> Prop :=
| cross_range r : selects rs a r ->
    (a + s <= from_start r + r_size r)%N ->
    crosses rs a s (to_start r + (a - from_start r))%N
| cross_pass : Forall (fun r => ~ holds r a) rs -> crosses rs a s a.
(** It overruns the range that holds its address. *)
Definition overruns (rs : list range) (a s : N) : Prop :=
  exists r, selects rs a r /\ (from_start r + r_size r < a + s)%N.

(** Crossing all buses up to the root. *)
Inductive reaches (s : N) : list (list range) -> N -> N -> Prop :=
| reach_root a : reaches s [] a a
| reach_bus rs up a b c :
    crosses rs a s b -> reaches s up b c -> reaches s (rs :: up) a c.

(** The tables of a chain of buses; a bus without one maps nothing. *)
Definition tables (buses : list bus) : list (list range) :=
  map (fun b => match b_trans b with Some ts => ts | None => [] end) buses.

(** Single-valued ranges: no address is held twice. *)
Definition disjoint (rs : list range) : Prop :=
  forall i j r q a, nth_error rs i = Some r -> nth_error rs j = Some q ->
    holds r a -> holds q a -> i = j.
(** No region starts outside all ranges and reaches into one. *)
Definition aligned (rs : list range) (a s : N) : Prop :=
  Forall (fun r => ~ holds r a) rs ->
  forall d, (d < s)%N -> Forall (fun r => ~ holds r (a + d)%N) rs.
Inductive well_placed (s : N) : list (list range) -> N -> Prop :=
| wp_root a : well_placed s [] a
| wp_bus rs up a b : disjoint rs -> aligned rs a s -> crosses rs a s b ->
    well_placed s up b -> well_placed s (rs :: up) a.

(** The chain of buses has these range tables: those of a bus are written in
    its [ranges] property, with its own and its parent's cell counts. *)
Definition triple (r : range) : list N :=
  [from_start r; to_start r; r_size r].
Inductive chain : list bus -> list (list range) -> Prop :=
| chain_root b : b_ranges b = None -> b_trans b = None -> chain [b] [[]]
| chain_bus b p up rs rss :
    b_trans b = None ->
    match b_ranges b with
    | None => rs = []
    | Some ws => table [b_addr b; b_addr p; b_size b] (map triple rs) ws /\
        (rs <> [] -> 0 < b_addr b + b_addr p + b_size b)
    end ->
    chain (p :: up) rss -> chain (b :: p :: up) (rs :: rss).
Definition pair (r : N * N) : list N := [fst r; snd r].

(** What a bus node says: a cell count, or its default. *)
Definition counts (p : props) (key : string) (default n : nat) : Prop :=
  match dget p key with
  | None => n = default
  | Some ws => exists w rest, ws = w :: rest /\ n = N.to_nat w
  end.
Definition describes (p : props) (b : bus) : Prop :=
  counts p "#address-cells" 2 (b_addr b) /\
  counts p "#size-cells" 1 (b_size b) /\
  b_ranges b = dget p "ranges" /\ b_trans b = None.

(** Path from the root: names joined by slashes. *)
Fixpoint slashed (names : list string) : string :=
  match names with
  | [] => ""
  | n :: r => ("/" ++ n ++ slashed r)%string
  end.

(** Length of the [ranges] property. *)
Definition cells_of (b : bus) : nat :=
  match b_ranges b with Some ws => List.length ws | None => 0 end.
