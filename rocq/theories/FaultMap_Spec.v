(** The picture of an address space, from top to bottom. *)
From Coq Require Import String List Bool ZArith Sorted Permutation.
From Verif Require Import Prelude FaultMap_Model.
Import ListNotations.
Open Scope Z_scope.

Definition within (a : Z) (r : region) : Prop := r_start r <= a <= r_end r.

(** What stands above the name of a region: at the top of the picture its last address; nothing if the
    region follows on the one above it, whose first address has just been printed; else a gap. *)
Inductive upper : option Z -> region -> list line -> Prop :=
| up_first r : upper None r [Bound (r_end r)]
| up_adjacent r : upper (Some (r_end r + 1)) r []
| up_gap a r : a <> r_end r + 1 -> upper (Some a) r [Undescribed; Bound (r_end r)].
(** The fault is marked in the region that holds its address. *)
Inductive marked (address : Z) (r : region) : list line -> Prop :=
| mark_in : within address r -> marked address r [FaultAt address]
| mark_out : ~ within address r -> marked address r [].
(** The lines for regions listed from top to bottom *)
Inductive picture (address : Z) : option Z -> list region -> list line -> Prop :=
| pic_nil above : picture address above [] []
| pic_cons above r rs t m ls :
    upper above r t -> marked address r m -> picture address (Some (r_start r)) rs ls ->
    picture address above (r :: rs) (t ++ Name (r_name r) :: m ++ Bound (r_start r) :: ls).

Definition higher (a b : region) : Prop := r_end b < r_end a.

(** A list of regions as it is handed over: w-bit addresses, and the regions before the sentinel *)
Definition word_regions (w : Z) (rs : list region) : Prop :=
  Forall (fun r => 0 <= r_start r < 2 ^ w /\ 0 <= r_end r < 2 ^ w) rs.
Definition sentinel (r : region) : Prop := r_start r = 0 /\ r_end r = 0.
Definition terminated (rs rest : list region) (map : list region) : Prop :=
  exists s, map = rs ++ s :: rest /\ sentinel s /\ Forall (fun r => ~ sentinel r) rs.
Definition upright (r : region) : Prop := r_start r <= r_end r.
(** The names in a picture, from top to bottom *)
Fixpoint names (ls : list line) : list string :=
  match ls with [] => [] | Name s :: ls => s :: names ls | _ :: ls => names ls end.

(** The faults that the kernel reports, and the messages it sends for them: a label and the message
    registers in order (seL4 manual, section 6.2). *)
Inductive lookup_failure :=
| NoRoot
| Missing (bits_left : Z)
| Depth (bits_left bits_found : Z)
| Guard (bits_left guard guard_size : Z).
Inductive fault :=
| CapFault (pc slot : Z) (receiving : bool) (failure : lookup_failure)
| UnknownSyscall (registers : list Z)
| UserException (pc sp flags number code : Z)
| VMFault (pc address : Z) (fetch : bool) (fsr : Z).
Definition flag (b : bool) : Z := if b then 1 else 0.
Definition message (f : fault) : Z * list Z :=
  match f with
  | CapFault pc slot receiving failure =>
      (1, pc :: slot :: flag receiving ::
          match failure with
          | NoRoot => [1]
          | Missing bits_left => [2; bits_left]
          | Depth bits_left bits_found => [3; bits_left; bits_found]
          | Guard bits_left guard guard_size => [4; bits_left; guard; guard_size]
          end)
  | UnknownSyscall registers => (2, registers)
  | UserException pc sp flags number code => (3, [pc; sp; flags; number; code])
  | VMFault pc address fetch fsr => (5, [pc; address; flag fetch; fsr])
  end.
Definition carries (mr : nat -> Z) (ms : list Z) : Prop :=
  forall i x, nth_error ms i = Some x -> mr i = x.
(** Counts of bits are small; numbers and codes of exceptions are printed as C integers. *)
Definition c_int (n : Z) : Prop := - 2 ^ 31 <= n < 2 ^ 31.
Definition count (n : Z) : Prop := 0 <= n < 2 ^ 32.
Definition small (f : fault) : Prop :=
  match f with
  | CapFault _ _ _ (Missing b) => count b
  | CapFault _ _ _ (Depth b d) => count b /\ count d
  | CapFault _ _ _ (Guard b _ d) => count b /\ count d
  | UserException _ _ _ n c => c_int n /\ c_int c
  | _ => True
  end.
(** What the developer should read *)
Definition reports (f : fault) (rep : report) : Prop :=
  match f with
  | CapFault pc slot receiving NoRoot => rep = InvalidRoot receiving pc slot
  | CapFault pc slot _ (Missing b) => rep = MissingCapability b pc slot
  | CapFault pc slot _ (Depth b d) => rep = DepthMismatch b d pc slot
  | CapFault pc slot _ (Guard b g d) => rep = GuardMismatch b d g pc slot
  | UnknownSyscall _ => rep = SyscallReport
  | UserException pc sp flags n c => rep = ExceptionReport n c pc sp flags
  | VMFault pc address fetch fsr => exists m, rep = MemoryFault fetch address pc fsr m
  end.
