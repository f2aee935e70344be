(** Model of the mangling of names into Isabelle identifiers
    (camkes/templates/macros.py:452-470, camkes/runner/Context.py:204-217). *)
From Coq Require Import String Ascii List Bool NArith.
From Verif Require Import Prelude DecStr.
Import ListNotations.
Open Scope string_scope.
Open Scope list_scope.

Definition is_letter (c : ascii) : bool :=
  let n := N_of_ascii c in
  ((65 <=? n) && (n <=? 90) || (97 <=? n) && (n <=? 122))%N.

(** [s.replace(x, y)] for single characters. *)
Fixpoint replace (x y : ascii) (s : string) : string :=
  match s with
  | EmptyString => EmptyString
  | String c s => String (if Ascii.eqb c x then y else c) (replace x y s)
  end.

(** macros.py:455: the regular expression is a letter or underscore, then an optional
    group, and no end anchor, so it matches as soon as the first character does. *)
Definition ident_pattern (n : string) : bool :=
  match n with
  | EmptyString => false
  | String c _ => is_letter c || Ascii.eqb c "_"
  end.

(** macros.py:452-456 [isabelle_ident]. *)
Definition isabelle_ident (n : string) : res string :=
  if ident_pattern n then Ok (replace "." "'" n) else Err AssertionError.

(** macros.py:463-466 [isabelle_ADL_ident]. *)
Definition isabelle_adl_ident (kind n : string) : res string :=
  i <- isabelle_ident n ;; Ok (kind ++ "__" ++ i)%string.

(** Context.py:206-212, the kinds. *)
Definition kinds : list string :=
  ["component"; "instance"; "connector"; "connection"; "procedure"; "event"; "dataport"].

(** The substitution of Context.py:215 for a text without line breaks: the text between the
    first opening and the last closing parenthesis loses them and gets an underscore in
    front.  [last_close s] splits [s] at its last closing parenthesis. *)
Fixpoint last_close (s : string) : option (string * string) :=
  match s with
  | EmptyString => None
  | String c s =>
      match last_close s with
      | Some (a, b) => Some (String c a, b)
      | None => if Ascii.eqb c ")" then Some ("", s) else None
      end
  end.
Fixpoint sub_parens (s : string) : string :=
  match s with
  | EmptyString => EmptyString
  | String c s' =>
      if Ascii.eqb c "(" then
        match last_close s' with
        | Some (a, b) => ("_" ++ a ++ b)%string
        | None => String c (sub_parens s')
        end
      else String c (sub_parens s')
  end.

(** Context.py:212-215 [isabelle_dataport]. *)
Definition isabelle_dataport (n : string) : res string :=
  isabelle_adl_ident "dataport" (sub_parens n).
