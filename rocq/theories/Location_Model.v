(** Model of camkes/ast/location.py: where a term was in the source.

    Characters are those of Latin-1 (code points up to 255); for them the
    classes below are those of Python's [re.UNICODE]. *)
From Coq Require Import List Bool String Ascii NArith.
From Verif Require Import Prelude.
Import ListNotations.
Open Scope string_scope.
Open Scope list_scope.

(** [\s]: tab, newline, VT, FF, CR, FS, GS, RS, US, space, NEL, NBSP. *)
Definition is_space (c : ascii) : bool :=
  let n := N_of_ascii c in
  ((9 <=? n) && (n <=? 13) || (28 <=? n) && (n <=? 32)
   || (n =? 133) || (n =? 160))%N.
(** [\d]. *)
Definition is_digit (c : ascii) : bool :=
  let n := N_of_ascii c in ((48 <=? n) && (n <=? 57))%N.
Definition newline : ascii := "010"%char.
Definition quote : ascii := "034"%char.

(** [str.split('\n')], location.py:89. *)
Fixpoint split_lines (s : string) : list string :=
  match s with
  | EmptyString => [""]
  | String c r =>
      if Ascii.eqb c newline then "" :: split_lines r
      else match split_lines r with
           | l :: ls => String c l :: ls
           | [] => [String c ""]
           end
  end.

(** Longest prefix of characters satisfying [p], and the rest. *)
Fixpoint span (p : ascii -> bool) (s : string) : string * string :=
  match s with
  | EmptyString => ("", "")
  | String c r =>
      if p c then let '(a, b) := span p r in (String c a, b) else ("", s)
  end.

(** [int(m.group('lineno'))]. *)
Fixpoint int_of (acc : N) (s : string) : N :=
  match s with
  | EmptyString => acc
  | String c r => int_of (10 * acc + (N_of_ascii c - 48)) r
  end.

(** [(?:line)?]. *)
Definition skip_line (s : string) : string :=
  match s with
  | String "l" (String "i" (String "n" (String "e" r))) => r
  | _ => s
  end.

(** The optional group of LINE_DIRECTIVE: space, a double quote, characters
    other than the double quote (the group [filename]), a double quote. *)
Definition filename_group (s : string) : option string :=
  let '(w, r) := span is_space s in
  match w, r with
  | EmptyString, _ => None
  | _, String c r =>
      if Ascii.eqb c quote then
        let '(f, t) := span (fun c => negb (Ascii.eqb c quote)) r in
        match t with EmptyString => None | _ => Some f end
      else None
  | _, EmptyString => None
  end.

(** LINE_DIRECTIVE.match, location.py:18-20.  No choice of the regular
    expression ever has to be undone: the repeated classes are followed by
    something outside the class, and [.*$] matches any rest of a line. *)
Definition line_directive (line : string) : option (N * option string) :=
  let '(_, s) := span is_space line in
  match s with
  | String "#" s =>
      let '(_, s) := span is_space s in
      let '(_, s) := span is_space (skip_line s) in
      let '(ds, s) := span is_digit s in
      match ds with
      | EmptyString => None
      | _ => Some (int_of 0 ds, filename_group s)
      end
  | _ => None
  end.

(** The loop of SourceLocation._locate, location.py:86-108; [i] is
    [line_index]. *)
Fixpoint scan (target : N) (i : N) (file : option string) (lineno : N)
  (lines : list string) : res (option string * N) :=
  match lines with
  | [] => Err AssertionError
  | line :: rest =>
      if (i + 1 =? target)%N then Ok (file, lineno)
      else match line_directive line with
           | Some (n, Some f) => scan target (i + 1) (Some f) n rest
           | Some (n, None) => scan target (i + 1) file n rest
           | None => scan target (i + 1) file (lineno + 1) rest
           end
  end.

(** What plyplus says about a term or error, location.py:50-74: line and
    columns, each possibly unknown.  Simplification: the extraction of these
    numbers from the text of a plyplus error (62-74) is not modelled. *)
Record term := Term {
  t_line : option N;
  t_min_col : option N;
  t_max_col : option N
}.

(** SourceLocation, location.py:34-45. *)
Record location := Loc {
  l_filename : option string;
  l_lineno : option N;
  l_min_col : option N;
  l_max_col : option N;
  l_term : term;
  l_source : option string;
  l_precise : bool
}.
Definition new_location (file : option string) (t : term)
  (source : option string) : location :=
  Loc file None None None t source false.

(** SourceLocation._locate, location.py:47-108: the columns are stored
    first, whatever happens then. *)
Definition locate (l : location) : location * res unit :=
  let t := l_term l in
  let with_ f n p := Loc f n (t_min_col t) (t_max_col t) t (l_source l) p in
  match t_line t with
  | None => (with_ (l_filename l) (l_lineno l) true, Ok tt)
  | Some line =>
      match l_source l with
      | None => (with_ (l_filename l) (Some line) true, Ok tt)
      | Some src =>
          match scan line 0 (l_filename l) 1 (split_lines src) with
          | Ok (f, n) => (with_ f (Some n) true, Ok tt)
          | Err e => (with_ (l_filename l) (l_lineno l) false, Err e)
          end
      end
  end.

(** The four properties, location.py:110-132. *)
Inductive ask := Filename | Lineno | MinCol | MaxCol.
Inductive answer := Name (f : option string) | Number (n : option N).
Definition read (l : location) (q : ask) : answer :=
  match q with
  | Filename => Name (l_filename l)
  | Lineno => Number (l_lineno l)
  | MinCol => Number (l_min_col l)
  | MaxCol => Number (l_max_col l)
  end.
Definition get (l : location) (q : ask) : location * res answer :=
  if l_precise l then (l, Ok (read l q))
  else let '(l', r) := locate l in
       (l', _ <- r ;; Ok (read l' q)).

(** Any sequence of accesses. *)
Fixpoint gets (l : location) (qs : list ask) : list (res answer) :=
  match qs with
  | [] => []
  | q :: qs => let '(l', r) := get l q in r :: gets l' qs
  end.
