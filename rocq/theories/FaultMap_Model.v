(** What is printed about a fault (libsel4camkes/src/fault.c).

    Lines are data, not text; the prefix of the lines and the register dump are left out.  Addresses
    are integers; the word size is a parameter. *)
From Coq Require Import String List Bool ZArith.
From Verif Require Import Prelude.
Import ListNotations.
Open Scope Z_scope.

(** camkes_memory_region_t (fault.h:14-18) *)
Record region := mk_region { r_start : Z; r_end : Z; r_name : string }.
Inductive line := Undescribed | Bound (a : Z) | Name (s : string) | FaultAt (a : Z).

(** The map ends before the first region from 0 to 0 (fault.c:30-33). *)
Fixpoint entries (map : list region) : list region :=
  match map with
  | [] => []
  | r :: map => if (r_start r =? 0) && (r_end r =? 0) then [] else r :: entries map
  end.

(** fault.c:54-66: the search for the uppermost region that has not been printed; an inverted region
    is an assertion failure *)
Fixpoint uppermost (limit : Z) (current : option region) (rs : list region) : res (option region) :=
  match rs with
  | [] => Ok current
  | r :: rs =>
      if r_end r <? r_start r then Err AssertionError
      else uppermost limit
             (if (r_end r <=? limit) && match current with None => true | Some c => r_end c <? r_end r end
              then Some r else current) rs
  end.

(** fault.c:43-85: the loop; [n] regions are still to be printed *)
Fixpoint show (w address : Z) (rs : list region) (n : nat) (limit last_start : Z) : res (list line) :=
  match n with
  | O => Ok []
  | S n =>
      c <- uppermost limit None rs ;;
      match c with
      | None => Err AssertionError
      | Some c =>
          let top := if r_end c =? (last_start - 1) mod 2 ^ w then []
                     else (if limit =? 2 ^ w - 1 then [] else [Undescribed]) ++ [Bound (r_end c)] in
          let fault := if (r_start c <=? address) && (address <=? r_end c) then [FaultAt address] else [] in
          rest <- show w address rs n ((r_end c - 1) mod 2 ^ w) (r_start c) ;;
          Ok (top ++ [Name (r_name c)] ++ fault ++ [Bound (r_start c)] ++ rest)
      end
  end.
(** fault.c:24-86 [show_fault_location] *)
Definition show_fault_location (w : Z) (map : list region) (address : Z) : res (list line) :=
  show w address (entries map) (length (entries map)) (2 ^ w - 1) 0.

(** The conversions of message registers to [int] and [unsigned] *)
Definition u32 (x : Z) : Z := x mod 2 ^ 32.
Definition i32 (x : Z) : Z := if u32 x <? 2 ^ 31 then u32 x else u32 x - 2 ^ 32.

(** What camkes_show_fault says (fault.c:88-198); [mr] are the message registers.  Left out: the names
    of the instance and the thread, the register dump, and what the architecture specific code prints
    for an unknown system call. *)
Inductive report :=
| InvalidRoot (receive : bool) (pc slot : Z)
| MissingCapability (unresolved pc slot : Z)
| DepthMismatch (unresolved resolved pc slot : Z)
| GuardMismatch (unresolved size guard pc slot : Z)
| UnknownCause (number pc slot : Z)
| MemoryFault (instruction : bool) (address pc fsr : Z) (map : option (list line))
| SyscallReport
| ExceptionReport (number code pc sp flags : Z)
| UnknownMessage.
(** The numbers seL4_Fault_* and seL4_LookupFailureType are those of libsel4; they are not in /repo. *)
Definition show_fault (w : Z) (lab : Z) (mr : nat -> Z) (map : option (list region)) : res report :=
  let lab := i32 lab in
  let pc := mr 0%nat in
  if lab =? 1 then
    let slot := mr 1%nat in
    let receive := mr 2%nat =? 1 in
    let cause := i32 (mr 3%nat) in
    Ok (if cause =? 1 then InvalidRoot receive pc slot
        else if cause =? 2 then MissingCapability (u32 (mr 4%nat)) pc slot
        else if cause =? 3 then DepthMismatch (u32 (mr 4%nat)) (u32 (mr 5%nat)) pc slot
        else if cause =? 4 then GuardMismatch (u32 (mr 4%nat)) (u32 (mr 6%nat)) (mr 5%nat) pc slot
        else UnknownCause lab pc slot)
  else if lab =? 5 then
    let addr := mr 1%nat in
    m <- match map with
         | Some m => ls <- show_fault_location w m addr ;; Ok (Some ls)
         | None => Ok None
         end ;;
    Ok (MemoryFault (mr 2%nat =? 1) addr pc (mr 3%nat) m)
  else if lab =? 2 then Ok SyscallReport
  else if lab =? 3 then Ok (ExceptionReport (i32 (mr 3%nat)) (i32 (mr 4%nat)) pc (mr 1%nat) (mr 2%nat))
  else Ok UnknownMessage.
