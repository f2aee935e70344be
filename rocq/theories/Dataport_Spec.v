(** Vocabulary for the statements about dataports. *)
From Coq Require Import List ZArith Bool.
From Verif Require Import Prelude Dataport_Model.
Import ListNotations.
Open Scope Z_scope.

Definition word_size (w : Z) : Prop := w = 32 \/ w = 64.

(** The address lies in the dataport. *)
Definition inside (d : port) (x : Z) : Prop := d_base d <= x < d_base d + d_size d.

(** The dataports that a component has: connected ones, each with room in the address
    space. *)
Definition connected (ds : list port) (d : port) : Prop := In d ds /\ d_linked d = true.
Definition placed (w : Z) (d : port) : Prop :=
  0 < d_base d /\ 0 < d_size d /\ d_base d + d_size d < 2 ^ w.
Definition layout (w : Z) (ds : list port) : Prop :=
  (forall d, connected ds d -> placed w d /\ 0 <= d_id d) /\
  (forall d e x, connected ds d -> connected ds e -> inside d x -> inside e x -> d_id d = d_id e /\ d_base d = d_base e).

(** Excluded: a hardware dataport whose size is written as a number, on a 64-bit machine. *)
Definition range_checked (w : Z) (d : port) : Prop := ~ (w = 64 /\ d_kind d = Hardware true).

(** One connection, one dataport. *)
Definition one_end (es : list port) (e : port) : Prop :=
  forall e', connected es e' -> d_id e' = d_id e -> d_base e' = d_base e.

(** The frames of one dataport as the template lays them out: in order, all of one size,
    the first at the start of the dataport, enough for its size. *)
Definition laid_out (fs : list frame) (page start dsize : Z) : Prop :=
  0 < page /\ (forall n f, nth_error fs n = Some f -> f_size f = page /\ f_vaddr f = start + Z.of_nat n * page) /\
  dsize <= Z.of_nat (List.length fs) * page.

(** Byte [b] is in the part of frame [f] from offset [s] to offset [e]. *)
Definition covers_to (f : frame) (s e b : Z) : Prop := f_vaddr f + s <= b <= f_vaddr f + e.
Definition covers_before (f : frame) (s e b : Z) : Prop := f_vaddr f + s <= b < f_vaddr f + e.
