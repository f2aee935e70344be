(** Specifications for the size/page helpers. *)
From Coq Require Import List String NArith.
From Verif Require Import Prelude Pages_Model.
Import ListNotations.
Open Scope N_scope.

(** [partition start size l]: the pieces (address, bits) of [l], in order, cover
    exactly [start, start+size), each naturally aligned. *)
Inductive partition : N -> N -> list (N * N) -> Prop :=
| part_done a : partition a 0 []
| part_cons a size bits l : 2 ^ bits <= size -> (2 ^ bits | a) ->
    partition (a + 2 ^ bits) (size - 2 ^ bits) l ->
    partition a size ((a, bits) :: l).

(** Largest admissible page size for [size]. *)
Definition largest_page (sizes : list N) (size best : N) : Prop :=
  In best sizes /\ best <= size /\ (best | size) /\
  forall p, In p sizes -> p <= size -> (p | size) -> p <= best.

(** Bytes provided by a list of frames. *)
Definition total_size (fs : list frame) : N := fold_right (fun f a => fr_size f + a) 0 fs.
