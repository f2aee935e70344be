(** Model of camkes/parser/stage2.py: resolution of import statements. *)
From Coq Require Import List String Bool.
From Verif Require Import Prelude.
Import ListNotations.
Open Scope string_scope. Open Scope list_scope.

(** A top level statement of the raw AST: an import, an empty statement or anything
    else (here just a text). *)
Inductive stmt := Quoted (s : string) | Angle (s : string) | Empty | Item (x : string).

(** The environment of a run: path functions and existence test of the operating
    system, the import path of the parser, the stage 1 parser ([None]: it raises) and
    the files it reports as read (the file itself with the plain reader, also included
    files with the C preprocessor; camkes/parser/stage0.py). *)
Record env := mk_env {
  abspath : string -> string;
  join : string -> string -> string;
  dirname : string -> string;
  exists_ : string -> bool;
  importpath : list string;
  content : string -> option (list stmt);
  reads : string -> list string }.

(** Target of an import in [filename] (stage2.py:56-77); [filename = None]: the input
    is a string. *)
Definition quoted_target (E : env) (filename : option string) (s : string) : option string :=
  let target := match filename with
                | None => abspath E s
                | Some f => abspath E (join E (dirname E f) s) end in
  if exists_ E target then Some target else None.
Fixpoint angle_target (E : env) (prefixes : list string) (s : string) : option string :=
  match prefixes with
  | [] => None
  | prefix :: prefixes =>
    let target := abspath E (join E prefix s) in
    if exists_ E target then Some target else angle_target E prefixes s
  end.

Definition entry : Type := option string * stmt.   (* filename, statement *)
Definition tag (f : option string) (l : list stmt) : list entry := map (fun s => (f, s)) l.

(** One import (stage2.py:79-94) given its target. *)
Definition sets_union (a b : list string) : list string := b ++ a.

(** The loop of _resolve (stage2.py:38-99).  [acc] in order. *)
Fixpoint loop (E : env) (fuel : nat) (queue : list entry) (read : list string)
    (acc : list (option string * string)) : res (list (option string * string) * list string) :=
  match fuel with
  | O => Err OutOfFuel
  | S fuel =>
    match queue with
    | [] => Ok (acc, read)
    | (filename, item) :: queue =>
      let import t :=
        match t with
        | None => Err ParseError
        | Some target =>
          if memb target read then loop E fuel queue read acc
          else match content E target with
               | None => Err ParseError
               | Some l => loop E fuel (tag (Some target) l ++ queue) (sets_union read (reads E target)) acc
               end
        end in
      match item with
      | Empty => loop E fuel queue read acc
      | Quoted s => import (quoted_target E filename s)
      | Angle s => import (angle_target E (importpath E) s)
      | Item x => loop E fuel queue read (acc ++ [(filename, x)])
      end
    end
  end.

(** parse_file (stage2.py:101-103) *)
Definition parse_file (E : env) (fuel : nat) (filename : string) :=
  match content E filename with
  | None => Err ParseError
  | Some l => loop E fuel (tag (Some filename) l) (reads E filename) []
  end.
