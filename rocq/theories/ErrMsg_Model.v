(** Model of the messages of errors with a location: camkes/internal/exception.py,
    camkes/parser/exception.py:17-31, camkes/ast/exception.py:16-28,
    camkes/templates/exception.py:17-27. *)
From Coq Require Import List String Ascii Bool NArith ZArith.
From Verif Require Import Prelude DecStr Location_Model.
Import ListNotations.
Open Scope string_scope.
Open Scope list_scope.

(** The lines of a file opened as text, each with the newline that ends it; the last
    may lack one.  Files are given by their contents after the translation of
    newlines. *)
Fixpoint file_lines (s : string) : list string :=
  match s with
  | EmptyString => []
  | String c s =>
      if Ascii.eqb c newline then String c "" :: file_lines s
      else match file_lines s with
           | [] => [String c ""]
           | l :: ls => String c l :: ls
           end
  end.
(** _get_line (exception.py:17-29): [None] for the contents if there is no file. *)
Definition get_line (contents : option string) (lineno : N) : option string :=
  match contents with
  | None => None
  | Some s => if (lineno =? 0)%N then None else nth_error (file_lines s) (N.to_nat (lineno - 1))
  end.

(** Slices [s[:i]] and [s[i:]] *)
Fixpoint take (n : nat) (s : string) : string :=
  match n, s with
  | S n, String c s => String c (take n s)
  | _, _ => ""
  end.
Fixpoint drop (n : nat) (s : string) : string :=
  match n, s with
  | S n, String _ s => drop n s
  | _, _ => s
  end.
Definition index (s : string) (i : Z) : nat :=
  Z.to_nat (if (i <? 0)%Z then Z.of_nat (String.length s) + i else i).
Definition slice_to (s : string) (i : Z) : string := take (index s i) s.
Definition slice_from (s : string) (i : Z) : string := drop (index s i) s.
(** [s[i:j]] *)
Definition slice (s : string) (i j : Z) : string := drop (index s i) (take (index s j) s).

(** [c * n] *)
Fixpoint times (c : ascii) (n : nat) : string :=
  match n with O => "" | S n => String c (times c n) end.

(** camkes/internal/terminal.py:23-25 *)
Definition esc : ascii := ascii_of_nat 27.
Definition BOLD : string := String esc "[1m".
Definition RED : string := String esc "[31m".
Definition RESET : string := String esc "[0m".

(** CAmkESError._format_message (exception.py:40-83).  [colour] is the answer of
    terminal_supports_colour; [files] gives the contents of files. *)
Section Format.
  Variable files : string -> option string.
  Variable colour : bool.
  Definition head (filename : option string) (lineno min_col : option N) : string :=
    let msg :=
      (match filename with Some f => f ++ ":" | None => "" end ++
       match lineno with
       | Some n => dec n ++ ":" ++ match min_col with Some c => dec c ++ ":" | None => "" end
       | None => ""
       end)%string in
    match msg with EmptyString => "" | _ => (msg ++ " ")%string end.
  Definition source_line (filename : option string) (lineno : option N) : option string :=
    match filename, lineno with
    | Some f, Some n => get_line (files f) n
    | _, _ => None
    end.
  Definition format_message (message : string) (filename : option string)
      (lineno min_col max_col : option N) : list string :=
    let msg := head filename lineno min_col in
    let indent := String.length msg in
    let shown :=
      match source_line filename lineno with
      | None => ""
      | Some line =>
        (match min_col, max_col with
         | Some a, Some b =>
           let a := Z.of_N a in let b := Z.of_N b in
           (slice_to line (a - 1) ++
            (if colour then RED ++ BOLD else "") ++
            slice line (a - 1) b ++
            (if colour then RESET else "") ++
            slice_from line b)%string
         | _, _ => line
         end ++
         match min_col with
         | Some a =>
           times " " (Z.to_nat (Z.of_nat indent + Z.of_N a - 1)) ++ "^" ++
           match max_col with
           | Some b => times "^" (Z.to_nat (Z.of_N b - Z.of_N a))
           | None => ""
           end ++ String newline ""
         | None => ""
         end)%string
      end in
    split_lines (msg ++ shown ++ message).
End Format.

(** The arguments of the exception classes: ParseError (parser/exception.py:17-31)
    takes the location if it is given, else the file name and line; ASTError and
    TemplateError take the location of the entity if it has one. *)
Record place := mk_place { p_file : option string; p_line : option N; p_min : option N; p_max : option N }.
Definition parse_error (files : string -> option string) (colour : bool) (content : string)
    (location : option place) (filename : option string) (lineno : option N) : list string :=
  match location with
  | Some l => format_message files colour content (p_file l) (p_line l) (p_min l) (p_max l)
  | None => format_message files colour content filename lineno None None
  end.
Definition ast_error (files : string -> option string) (colour : bool) (content : string)
    (location : option place) : list string :=
  match location with
  | Some l => format_message files colour content (p_file l) (p_line l) (p_min l) (p_max l)
  | None => format_message files colour content None None None None
  end.
Definition template_error (files : string -> option string) (colour : bool) (content : string)
    (location : option place) : list string :=
  match location with
  | Some l => format_message files colour content (p_file l) (p_line l) (p_min l) (p_max l)
  | None => format_message files colour content None None None None
  end.
