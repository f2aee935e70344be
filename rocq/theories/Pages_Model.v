(** Model of the size/page helpers of camkes/templates/macros.py and
    camkes/runner/Context.py. *)
From Coq Require Import List String Bool NArith.
From Verif Require Import Prelude DecStr.
Import ListNotations.
Open Scope N_scope.

(** capdl.util.ctz (used at macros.py:98-99; the capdl package is not part of the
    repository): number of trailing zero bits; taken to be an assertion failure
    for 0. *)
Fixpoint ctz_pos (p : positive) : N :=
  match p with
  | xO p => 1 + ctz_pos p
  | _ => 0
  end.
Definition ctz (n : N) : res N :=
  match n with 0 => Err AssertionError | Npos p => Ok (ctz_pos p) end.

(** Inner loop [while ut_size > 0 ... ut_size //= 2] (macros.py:107-110). *)
Fixpoint shrink (fuel : nat) (ut_size remaining : N) : res N :=
  match fuel with
  | O => Err OutOfFuel
  | S fuel =>
    if ut_size =? 0 then Ok 0
    else if ut_size <=? remaining then Ok ut_size
    else shrink fuel (ut_size / 2) remaining
  end.

(** Outer loop of get_untypeds_from_range (macros.py:94-115). *)
Fixpoint untypeds (fuel : nat) (current remaining : N) : res (list (N * N)) :=
  if remaining =? 0 then Ok [] else
  match fuel with
  | O => Err OutOfFuel
  | S fuel =>
    c <- ctz current ;;
    u <- shrink (N.to_nat c + 2) (2 ^ c) remaining ;;
    b <- ctz u ;;
    l <- untypeds fuel (current + u) (remaining - u) ;;
    Ok ((current, b) :: l)
  end.
Definition get_untypeds_from_range (start size : N) : res (list (N * N)) :=
  untypeds (2 * N.size_nat size)%nat start size.

(** next_page_multiple (macros.py:74-82); [p0] is [page_sizes(arch)[0]]. *)
Fixpoint bump (fuel : nat) (multiple size : N) : res N :=
  if size <=? multiple then Ok multiple else
  match fuel with
  | O => Err OutOfFuel
  | S fuel => bump fuel (multiple + 4096) size
  end.
Definition next_page_multiple (p0 size : N) : res N :=
  bump (N.to_nat (size / 4096 + 1)) p0 size.

(** align_page_address (macros.py:89-91): [address & ~(page_size-1)]. *)
Definition align_page_address (p0 address : N) : N := N.ldiff address (p0 - 1).

(** get_page_size (macros.py:122-134); [sizes] is [page_sizes(arch)].  Zero when
    no page size fits. *)
Definition fits (size sz : N) : bool := (sz <=? size) && (size mod sz =? 0).
Definition get_page_size (sizes : list N) (size : N) : N :=
  match find (fits size) (rev sizes) with Some sz => sz | None => 0 end.

(** ROUND_UP, ROUND_DOWN (macros.py:343-352) on non-negative x. *)
Definition round_up (x y : N) : res N :=
  if y =? 0 then Err AssertionError else Ok ((x + y - 1) / y * y).
Definition round_down (x y : N) : res N :=
  if y =? 0 then Err AssertionError else Ok (x / y * y).

(** calc_frame_size (Context.py:445-452); an explicit size of [None] or 0 asks
    for the search. *)
Definition calc_frame_size (sizes : list N) (size : N) (frame_size : option N) : res N :=
  let fs := match frame_size with
            | Some f => if f =? 0 then get_page_size sizes size else f
            | None => get_page_size sizes size
            end in
  if fs =? 0 then Err AssertionError else Ok fs.

(** The frames behind a shared variable: (name, size, physical address), as in
    register_shared_variable / get_shared_variable_backing_frames
    (Context.py:486-499, 538-545). *)
Record frame := mk_frame { fr_name : string; fr_size : N; fr_paddr : option N }.
Definition frame_name (global : string) (digits : nat) (i : N) : string :=
  (global ++ "_" ++ decpad digits i ++ "_obj")%string.
Definition digits_of (num : N) : nat := String.length (dec (num - 1)).
Definition nseq (n : N) : list N := map N.of_nat (seq 0 (N.to_nat n)).
Definition shared_frames (sizes : list N) (global : string) (size : N)
  (frame_size : option N) (paddr : option N) : res (list frame) :=
  fs <- calc_frame_size sizes size frame_size ;;
  let num := size / fs in
  Ok (map (fun i => mk_frame (frame_name global (digits_of num) i) fs
                      (option_map (fun p => p + i * fs) paddr)) (nseq num)).

(** type_to_fit_integer (macros.py:163-174): width in bits of the type chosen. *)
Definition type_to_fit_integer (value : N) : res N :=
  if value <=? 2 ^ 8 then Ok 8
  else if value <=? 2 ^ 16 then Ok 16
  else if value <=? 2 ^ 32 then Ok 32
  else if value <=? 2 ^ 64 then Ok 64
  else Err OtherException.
