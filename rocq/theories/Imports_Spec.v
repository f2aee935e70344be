(** Specification of imports. *)
From Coq Require Import List String Bool Relation_Operators.
From Verif Require Import Prelude Imports_Model.
Import ListNotations.
Open Scope string_scope. Open Scope list_scope.

(** What an import statement of file [f] refers to: a quoted one to a file relative to
    the directory of [f], one in angle brackets to the first existing file among those
    relative to the directories of the import path. *)
Definition target_of (E : env) (f : string) (s : stmt) : option string :=
  match s with
  | Quoted s => find (exists_ E) [abspath E (join E (dirname E f) s)]
  | Angle s => find (exists_ E) (map (fun d => abspath E (join E d s)) (importpath E))
  | _ => None
  end.
Definition is_import (s : stmt) : bool := match s with Quoted _ | Angle _ => true | _ => false end.
Definition stmts (E : env) (f : string) : list stmt := match content E f with Some l => l | None => [] end.
(** File [f] imports file [g]. *)
Definition imports (E : env) (f g : string) : Prop := exists s, In s (stmts E f) /\ target_of E f s = Some g.
Definition reaches (E : env) : string -> string -> Prop := clos_refl_trans_1n _ (imports E).

(** The statements that are neither imports nor empty. *)
Definition items_in (l : list stmt) : list string :=
  flat_map (fun s => match s with Item x => [x] | _ => [] end) l.
Definition items (E : env) (f : string) : list string := items_in (stmts E f).
(** The part of the output that comes from file [f]. *)
Definition of_file (f : string) (out : list (option string * string)) : list string :=
  map snd (filter (fun e => eqb (fst e) (Some f)) out).

(** The plain reader: reading a file reads that file only. *)
Definition plain (E : env) : Prop := forall f, reads E f = [f].
(** All imports of reachable files are found and all reachable files parse. *)
Definition healthy (E : env) (root : string) : Prop := forall f, reaches E root f ->
  content E f <> None /\ forall s, In s (stmts E f) -> is_import s = true -> target_of E f s <> None.
(** Finitely many files are reachable. *)
Definition finite_from (E : env) (root : string) (U : list string) : Prop :=
  forall f, reaches E root f -> In f U.
