(** Names of a specification. *)
From Coq Require Import String Ascii List Bool NArith.
From Verif Require Import Prelude DecStr.
Import ListNotations.
Open Scope string_scope.
Open Scope list_scope.

(** Characters of an identifier of the language. *)
Definition word_char (c : ascii) : bool :=
  let n := N_of_ascii c in
  ((65 <=? n) && (n <=? 90) || (97 <=? n) && (n <=? 122) || (48 <=? n) && (n <=? 57) || (n =? 95))%N.
Definition word_start (c : ascii) : bool := word_char c && negb (is_digit c).
Definition identifier (s : string) : bool :=
  match s with EmptyString => false | String c s => word_start c && all_chars word_char s end.

(** A hierarchical name: identifiers joined by dots. *)
Definition hierarchical (s : string) : Prop :=
  exists i l, identifier i = true /\ Forall (fun x => identifier x = true) l /\
    s = fold_left (fun a b => (a ++ "." ++ b)%string) l i.

(** Characters that Isabelle allows in an identifier. *)
Definition isabelle_char (c : ascii) : bool := word_char c || Ascii.eqb c "'".

(** The type of a dataport: a C type name or a sized buffer. *)
Definition sized_buffer (n : N) : string := ("Buf(" ++ dec n ++ ")")%string.
Definition dataport_type (s : string) : Prop :=
  identifier s = true \/ exists n, s = sized_buffer n.

(** The kinds of named things. *)
Definition named_kinds : list string :=
  ["component"; "instance"; "connector"; "connection"; "procedure"; "event"; "dataport"].
(** Letters. *)
Definition letter (c : ascii) : bool := word_start c && negb (Ascii.eqb c "_").

(** The letters, one by one. *)
Definition letters : list ascii :=
  list_ascii_of_string "ABCDEFGHIJKLMNOPQRSTUVWXYZabcdefghijklmnopqrstuvwxyz".
