(** What the properties of a device-tree node mean. *)
From Coq Require Import String List Bool NArith ZArith.
From Verif Require Import Prelude Pages_Model Dtb_Model.
Import ListNotations.

(** * Interrupts in the three-cell format *)
Record irq_spec := mk_irq { i_type : Z; i_id : Z; i_flags : Z }.
Definition cells_of (e : irq_spec) : list cell := [CInt (i_type e); CInt (i_id e); CInt (i_flags e)].

(** Bits 0 and 1 of the flags: triggered by an edge. *)
Definition edge (flags : Z) : bool := Z.testbit flags 0 || Z.testbit flags 1.

(** The descriptor an interrupt should get: on ARM the numbers of shared peripheral
    interrupts (type 0) are offset by 32. *)
Definition describes (arm : bool) (e : irq_spec) : descriptor :=
  mk_descr (CInt (if arm && (i_type e =? 0)%Z then i_id e + 32 else i_id e)%Z)
           (if edge (i_flags e) then 1%Z else 0%Z).

(** Exactly one of the four trigger bits and no CPU mask. *)
Definition plain_flags (e : irq_spec) : Prop :=
  i_flags e = 1%Z \/ i_flags e = 2%Z \/ i_flags e = 4%Z \/ i_flags e = 8%Z.

(** Room for [n] interrupts. *)
Definition room (max : option nat) (n : nat) : Prop :=
  match max with Some m => (n <= m)%nat | None => True end.

(** * Registers *)
Open Scope N_scope.

(** Cells of 32 bits, most significant first. *)
Definition big_endian (l : list N) : N := fold_left (fun v c => v * 2 ^ 32 + c) l 0.

(** A region: the cells of its address and of its size. *)
Definition reg_cells (r : list N * list N) : list N := fst r ++ snd r.

(** The frames cover the bytes from [a] to [b]. *)
Definition covers (fs : list frame) (a b : N) : Prop :=
  forall x, a <= x < b -> exists f p, In f fs /\ fr_paddr f = Some p /\ p <= x < p + fr_size f.
