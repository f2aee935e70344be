(** Dependency rules as the C preprocessor writes them and make reads them. *)
From Coq Require Import List String Ascii Bool Sorted Permutation.
Import ListNotations.
Open Scope string_scope.
Open Scope list_scope.

Definition newline : string := String (ascii_of_nat 10) "".
Definition backslash : ascii := ascii_of_nat 92.
Definition continued : string := String " " (String backslash newline).

(** How the name of a file is written in a rule: a dollar is doubled, blanks and
    number signs get a backslash. *)
Fixpoint quoted (s : string) : string :=
  match s with
  | EmptyString => ""
  | String c s =>
      if Ascii.eqb c "$" then String c (String c (quoted s))
      else if Ascii.eqb c " " || Ascii.eqb c "#" || Ascii.eqb c (ascii_of_nat 9)
      then String backslash (String c (quoted s))
      else String c (quoted s)
  end.

Fixpoint chars (f : ascii -> bool) (s : string) : bool :=
  match s with EmptyString => true | String c s => f c && chars f s end.
(** Control characters and blanks *)
Definition blank (c : ascii) : bool := Nat.leb (nat_of_ascii c) 32.
(** A name that can be written as it is *)
Definition simple (s : string) : Prop :=
  s <> "" /\ chars (fun c => negb (blank c || Ascii.eqb c "$" || Ascii.eqb c "#" || Ascii.eqb c backslash)) s = true.
Definition no_colon (s : string) : Prop := chars (fun c => negb (Ascii.eqb c ":")) s = true.

(** The names after the colon, each after blanks, with lines continued anywhere
    between them; then the end of the line and anything else, or the end of the
    file. *)
Inductive layout : list string -> string -> Prop :=
| l_end rest : layout [] (newline ++ rest)
| l_eof : layout [] ""
| l_blank ds s : layout ds s -> layout ds (String " " s)
| l_continued d ds s : layout (d :: ds) s -> layout (d :: ds) (continued ++ s)
| l_name d ds s : layout ds s -> layout (d :: ds) (String " " (quoted d ++ s)).
Definition rule (target : string) (ds : list string) (text : string) : Prop :=
  exists s, layout ds s /\ text = (target ++ ":" ++ s)%string.

(** In the order of the characters *)
Definition ordered (l : list string) : Prop := StronglySorted (fun a b => String.leb a b = true) l.

(** A line of printable characters with something on it *)
Definition printable (l : string) : Prop := chars (fun c => Nat.leb 32 (nat_of_ascii c)) l = true.
Definition nonblank (l : string) : Prop := chars (Ascii.eqb " ") l = false.
