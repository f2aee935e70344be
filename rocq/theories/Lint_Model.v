(** Model of the checker for templates, tools/jinja_lint.py.  The two scanners that
    find the markers and the directives in the text (jinja_lint.py:18-84) are not
    modelled: the checks are given what the scanners yield, without line numbers. *)
From Coq Require Import List String Ascii Bool.
From Verif Require Import Prelude.
Import ListNotations.
Open Scope string_scope.
Open Scope list_scope.

(** The markers yielded by low_tokeniser: start or end of a block, a variable or a
    comment.  The strings for them are taken to be different. *)
Inductive kind := KBlock | KVar | KComment.
Inductive marker := Start (k : kind) | End (k : kind).
Definition kind_eqb (a b : kind) : bool :=
  match a, b with KBlock, KBlock | KVar, KVar | KComment, KComment => true | _, _ => false end.

(** The first check (jinja_lint.py:126-144); [last] is the marker seen last, if it is
    a start.  SyntaxError is [ParseError]. *)
Fixpoint check_markers (ts : list marker) (last : option kind) : res unit :=
  match ts with
  | [] => Ok tt
  | Start k :: ts =>
      match last with
      | Some _ => Err ParseError
      | None => check_markers ts (Some k)
      end
  | End k :: ts =>
      match last with
      | None => Err ParseError
      | Some l => if kind_eqb l k then check_markers ts None else Err ParseError
      end
  end.

(** A directive yielded by high_tokeniser: its name and the stripped rest. *)
Definition directive := (string * string)%type.

(** [\w] and [\s], for ASCII *)
Definition between (a b c : ascii) : bool :=
  Nat.leb (nat_of_ascii a) (nat_of_ascii c) && Nat.leb (nat_of_ascii c) (nat_of_ascii b).
Definition word_char (c : ascii) : bool :=
  between "a" "z" c || between "A" "Z" c || between "0" "9" c || Ascii.eqb c "_".
Definition is_space (c : ascii) : bool :=
  Nat.eqb (nat_of_ascii c) 32 || (Nat.leb 9 (nat_of_ascii c) && Nat.leb (nat_of_ascii c) 13)
  || (Nat.leb 28 (nat_of_ascii c) && Nat.leb (nat_of_ascii c) 31).
(** DO_WORD_MATCH (jinja_lint.py:155): the content is a word or empty.  The content is
    stripped, so that there is no newline at the end. *)
Fixpoint do_word_match (s : string) : bool :=
  match s with EmptyString => true | String c s => word_char c && do_word_match s end.
(** SET_MATCH (jinja_lint.py:156): in the first line, a character that is not blank,
    then blanks, an equals sign, blanks and another character. *)
Fixpoint skip_space (s : string) : string :=
  match s with
  | String c s' => if is_space c then skip_space s' else s
  | EmptyString => ""
  end.
Definition equals_tail (s : string) : bool :=
  match skip_space s with
  | String "=" s' => match skip_space s' with EmptyString => false | _ => true end
  | _ => false
  end.
Fixpoint set_match (s : string) : bool :=
  match s with
  | EmptyString => false
  | String c s' =>
      (negb (is_space c) && equals_tail s') ||
      (if Nat.eqb (nat_of_ascii c) 10 then false else set_match s')
  end.

Definition mem (x : string) (l : list string) : bool := existsb (String.eqb x) l.

(** A directive that ends a block (jinja_lint.py:161-171 and the like) *)
Definition close (k : string) (content : string) (stack : list string) : res (list string) :=
  match stack with
  | [] => Err ParseError
  | context :: stack =>
      if String.eqb context k then
        if String.eqb content "" then Ok stack else Err ParseError
      else Err ParseError
  end.
(** One step of the second check (jinja_lint.py:158-249): the stack afterwards. *)
Definition step (d : directive) (stack : list string) : res (list string) :=
  let '(token, content) := d in
  if mem token ["if"; "for"; "macro"; "call"] then Ok (token :: stack)
  else if String.eqb token "endif" then close "if" content stack
  else if String.eqb token "elif" then
    match stack with
    | context :: _ => if String.eqb context "if" then Ok stack else Err ParseError
    | [] => Err ParseError
    end
  else if String.eqb token "else" then
    match stack with
    | context :: _ =>
        if mem context ["if"; "for"] then
          if String.eqb content "" then Ok stack else Err ParseError
        else Err ParseError
    | [] => Err ParseError
    end
  else if String.eqb token "endfor" then close "for" content stack
  else if String.eqb token "endmacro" then close "macro" content stack
  else if String.eqb token "endcall" then close "call" content stack
  else if mem token ["break"; "continue"] then
    if mem "for" stack then
      if String.eqb content "" then Ok stack else Err ParseError
    else Err ParseError
  else if String.eqb token "do" then
    if do_word_match content then Err ParseError else Ok stack
  else if String.eqb token "set" then
    if set_match content then Ok stack else Err ParseError
  else if mem token ["import"; "include"; "from"] then Ok stack
  else Err ParseError.
Fixpoint check_directives (ds : list directive) (stack : list string) : res unit :=
  match ds with
  | [] => match stack with [] => Ok tt | _ => Err ParseError end
  | d :: ds => stack <- step d stack ;; check_directives ds stack
  end.

(** main (jinja_lint.py:86-255) *)
Definition lint (ts : list marker) (ds : list directive) : res unit :=
  _ <- check_markers ts None ;; check_directives ds [].
