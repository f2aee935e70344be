(** What the calls that fill an address space mean (C85), and the access rights a
    user may write (C86).  The arguments of the calls are taken from the model; what
    they amount to is said here. *)
From Coq Require Import List String Ascii Bool NArith.
From Verif Require Import Prelude Layout_Model.
Import ListNotations.
Open Scope N_scope.

(** What is found at an address: nothing (an access faults), a byte of a frame with
    rights, or memory of the program image that the call says nothing about. *)
Inductive found :=
| Nothing
| ByteOf (c : cap) (offset : N)
| Image.

(** The capability of each position is mapped at the sum of the sizes before it.
    This is what capDL's add_symbol_with_caps does with its arguments. *)
Fixpoint look (sizes : list N) (caps : list (option cap)) (x : N) : found :=
  match sizes, caps with
  | s :: sizes, c :: caps =>
      if x <? s then match c with None => Nothing | Some c => ByteOf c x end
      else look sizes caps (x - s)
  | _, _ => Image
  end.
(** What is found [x] bytes after the start of the symbol. *)
Definition at_offset (m : mapping) (x : N) : found := look (fst m) (snd m) x.

Definition read_write (m : mapping) (x : N) : Prop :=
  exists c k, at_offset m x = ByteOf c k /\ c_read c = true /\ c_write c = true.
Definition faults (m : mapping) (x : N) : Prop := at_offset m x = Nothing.

(** Two addresses are backed by the same memory. *)
Definition same_memory (m m' : mapping) (x y : N) : Prop :=
  exists c k c' k', at_offset m x = ByteOf c k /\ at_offset m' y = ByteOf c' k' /\
    f_name (c_frame c) = f_name (c_frame c') /\ k = k'.

(** The contents a frame is given by its fill: bytes [fl_from], [fl_from + 1], ... of
    the source, placed from [fl_at] on. *)
Definition filled (memory : string -> N -> N) (f : frame) (k : N) : option N :=
  match f_fill f with
  | Some l => if (fl_at l <=? k) && (k <? fl_at l + fl_len l)
              then Some (memory (fl_source l) (fl_from l + (k - fl_at l))) else None
  | None => None
  end.
Definition contents (memory : string -> N -> N) (m : mapping) (x : N) : option N :=
  match at_offset m x with
  | ByteOf c k => filled memory (c_frame c) k
  | _ => None
  end.
(** The address can be read but not written. *)
Definition read_only (m : mapping) (x : N) : Prop :=
  exists c k, at_offset m x = ByteOf c k /\ c_read c = true /\ c_write c = false.

(** A string of letters, as the manual describes it (docs/index.md:1954-1962). *)
Inductive letters_of (ok : ascii -> Prop) : string -> Prop :=
| no_letter : letters_of ok EmptyString
| a_letter c s : ok c -> letters_of ok s -> letters_of ok (String c s).
Definition documented (s : string) : Prop :=
  letters_of (fun c => c = "R"%char \/ c = "W"%char \/ c = "X"%char) s.
Inductive occurs (c : ascii) : string -> Prop :=
| occurs_here s : occurs c (String c s)
| occurs_later d s : occurs c s -> occurs c (String d s).
