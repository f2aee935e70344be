(** Model of the dependency rules read from the C preprocessor and written for make:
    camkes/parser/stage0.py, 118-138, camkes/parser/__main__.py, 100-102, and
    camkes/runner/__main__.py, 305-309. *)
From Coq Require Import List String Ascii Bool.
From Verif Require Import Prelude.
Import ListNotations.
Open Scope string_scope.
Open Scope list_scope.

Definition code_in (c : ascii) (l : list nat) : bool := existsb (Nat.eqb (nat_of_ascii c)) l.
(** The characters removed by strip() and at which split() splits.  Characters beyond
    ASCII are taken not to be whitespace. *)
Definition is_space (c : ascii) : bool := code_in c [9; 10; 11; 12; 13; 28; 29; 30; 31; 32].
(** The characters at which the reader of the codecs module breaks lines. *)
Definition is_break (c : ascii) : bool := code_in c [10; 11; 12; 13; 28; 29; 30].
Definition bslash : ascii := ascii_of_nat 92.

(** Iterating over the file (stage0.py:124): the lines, without the characters that
    end them, as these are stripped. *)
Fixpoint lines_from (s line : string) : list string :=
  match s with
  | EmptyString => [line]
  | String c s => if is_break c then line :: lines_from s ""
                  else lines_from s (line ++ String c "")%string
  end.
Definition lines (s : string) : list string := lines_from s "".

(** str.strip() *)
Fixpoint lstrip (s : string) : string :=
  match s with
  | EmptyString => ""
  | String c s' => if is_space c then lstrip s' else s
  end.
Fixpoint rstrip (s : string) : string :=
  match s with
  | EmptyString => ""
  | String c s => match rstrip s with
                  | EmptyString => if is_space c then "" else String c ""
                  | s' => String c s'
                  end
  end.
Definition strip (s : string) : string := rstrip (lstrip s).

(** str.split() *)
Definition flush (w : string) (l : list string) : list string :=
  match w with EmptyString => l | _ => w :: l end.
Fixpoint split_from (s w : string) : list string :=
  match s with
  | EmptyString => flush w []
  | String c s => if is_space c then flush w (split_from s "") else split_from s (w ++ String c "")%string
  end.
Definition split (s : string) : list string := split_from s "".

(** The match of the first line (stage0.py:129): what is after the first colon. *)
Fixpoint after_colon (s : string) : option string :=
  match s with
  | EmptyString => None
  | String c s => if Ascii.eqb c ":" then Some s else after_colon s
  end.
(** [line.endswith] of a backslash (stage0.py:137) *)
Fixpoint ends_with (d : ascii) (s : string) : bool :=
  match s with
  | EmptyString => false
  | String c EmptyString => Ascii.eqb c d
  | String _ s => ends_with d s
  end.

(** parse_makefile_rule (stage0.py:118-138); the dependencies yielded. *)
Fixpoint rule_loop (ls : list string) (in_deps : bool) : res (list string) :=
  match ls with
  | [] => Ok []
  | l :: ls =>
    let line := strip l in
    if String.eqb line "" then rule_loop ls in_deps
    else
      line <- (if in_deps then Ok line
               else match after_colon line with
                    | None => Err ParseError
                    | Some rest => Ok rest
                    end) ;;
      let deps := filter (fun d => negb (String.eqb d (String bslash ""))) (split line) in
      if ends_with bslash line then
        rest <- rule_loop ls true ;; Ok (deps ++ rest)
      else Ok deps
  end.
Definition parse_makefile_rule (f : string) : res (list string) := rule_loop (lines f) false.

(** sorted() of a set of strings *)
Fixpoint insert (x : string) (l : list string) : list string :=
  match l with
  | [] => [x]
  | y :: l' => if String.leb x y then x :: l else y :: insert x l'
  end.
Definition sorted (l : list string) : list string := fold_right insert [] l.

(** The rule written for make (parser/__main__.py:101-102, runner/__main__.py:308-309):
    name and sorted names, with continued lines. *)
Definition cont : string := (" " ++ String bslash (String (ascii_of_nat 10) "  "))%string.
Fixpoint join (l : list string) : string :=
  match l with
  | [] => ""
  | [s] => s
  | s :: l => (s ++ cont ++ join l)%string
  end.
Definition write_rule (name : string) (read : list string) : string :=
  (name ++ ":" ++ cont ++ join (sorted read) ++ String (ascii_of_nat 10) "")%string.

(** CPP.parse_file (stage0.py:65-67): the files on which the input depends. *)
Definition dependencies (filename : string) (f : string) : res (list string) :=
  read <- parse_makefile_rule f ;; Ok (nodup string_dec (filename :: read)).
