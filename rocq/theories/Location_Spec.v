(** What a reported location should be: line markers as text, and the
    position relative to the markers before it. *)
From Coq Require Import List Bool String Ascii NArith.
From Verif Require Import Prelude.
Import ListNotations.
Open Scope string_scope.
Open Scope list_scope.

Fixpoint every (p : ascii -> bool) (s : string) : Prop :=
  match s with
  | EmptyString => True
  | String c r => p c = true /\ every p r
  end.
(** White space among the first 256 characters: tab, newline, vertical tab,
    form feed, carriage return, the four separators, space, next line and
    no-break space. *)
Definition white (c : ascii) : bool :=
  existsb (N.eqb (N_of_ascii c))
    [9; 10; 11; 12; 13; 28; 29; 30; 31; 32; 133; 160]%N.
Definition digit (c : ascii) : bool :=
  existsb (Ascii.eqb c) ["0"; "1"; "2"; "3"; "4"; "5"; "6"; "7"; "8"; "9"]%char.
Definition not_quote (c : ascii) : bool := negb (Ascii.eqb c """").
Definition not_newline (c : ascii) : bool := negb (Ascii.eqb c "010").

(** Decimal place value. *)
Fixpoint value (ds : string) : N :=
  match ds with
  | EmptyString => 0
  | String c r =>
      (N_of_ascii c - 48) * 10 ^ N.of_nat (String.length r) + value r
  end%N.

(** [s] goes on with the quoted file name [f], after some space. *)
Definition names (s f : string) : Prop :=
  exists w t, s = (w ++ """" ++ f ++ """" ++ t)%string /\
    w <> "" /\ every white w /\ every not_quote f.

(** The line is a marker for line [n] and, possibly, a file:
    [# n "file" ...] or [#line n "file" ...]. *)
Definition marker (line : string) (n : N) (file : option string) : Prop :=
  exists w1 w2 kw w3 ds rest,
    line = (w1 ++ "#" ++ w2 ++ kw ++ w3 ++ ds ++ rest)%string /\
    every white w1 /\ every white w2 /\ every white w3 /\
    (kw = "" \/ kw = "line") /\
    ds <> "" /\ every digit ds /\ n = value ds /\
    (forall c r, rest = String c r -> digit c = false) /\
    match file with
    | Some f => names rest f
    | None => forall f, ~ names rest f
    end.
Definition is_marker (line : string) : Prop :=
  exists n file, marker line n file.
Definition names_file (line : string) : Prop :=
  exists n f, marker line n (Some f).

(** Lines put together to a text. *)
Fixpoint unlines (ls : list string) : string :=
  match ls with
  | [] => ""
  | [l] => l
  | l :: ls => (l ++ String "010" (unlines ls))%string
  end.

(** The line number of line [k] (counted from 0): that of the latest marker
    before it plus the number of lines since, or k + 1 if there is none. *)
Definition line_number (lines : list string) (k : nat) (n : N) : Prop :=
  (n = (N.of_nat k + 1)%N /\
   forall i l, i < k -> nth_error lines i = Some l -> ~ is_marker l)
  \/
  (exists j l m f, j < k /\ nth_error lines j = Some l /\ marker l m f /\
   (forall i l, j < i -> i < k -> nth_error lines i = Some l ->
      ~ is_marker l) /\
   n = (m + N.of_nat (k - j - 1))%N).

(** The file of line [k]: the one named by the latest marker that names one,
    or the initial one. *)
Definition file_name (start : option string) (lines : list string) (k : nat)
  (f : option string) : Prop :=
  (f = start /\
   forall i l, i < k -> nth_error lines i = Some l -> ~ names_file l)
  \/
  (exists j l m g, j < k /\ nth_error lines j = Some l /\
   marker l m (Some g) /\ f = Some g /\
   (forall i l, j < i -> i < k -> nth_error lines i = Some l ->
      ~ names_file l)).

(** Occurrences of the newline character. *)
Fixpoint newlines (s : string) : N :=
  match s with
  | EmptyString => 0
  | String c r => (if Ascii.eqb c "010" then 1 else 0) + newlines r
  end%N.
