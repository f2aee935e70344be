(** C17: reported locations are those of the original source. *)
From Coq Require Import List Bool String Ascii NArith Lia.
From Verif Require Import Prelude Location_Model Location_Spec Location_Proofs.
Import ListNotations.
Open Scope string_scope.
Open Scope list_scope.

(** For a term on line [k] (from 0) of a text: the file and the line follow
    from the line markers before it. *)
Theorem C17_location : forall start lines k t, lines <> [] ->
  Forall (every not_newline) lines -> k < List.length lines ->
  t_line t = Some (N.of_nat k + 1)%N ->
  exists f n,
    snd (get (new_location start t (Some (unlines lines))) Filename) =
      Ok (Name f) /\
    snd (get (new_location start t (Some (unlines lines))) Lineno) =
      Ok (Number (Some n)) /\
    file_name start lines k f /\ line_number lines k n.
Proof. exact located. Qed.
Print Assumptions C17_location.

(** This determines them. *)
Theorem C17_line_unique : forall lines k n m,
  k <= List.length lines ->
  line_number lines k n -> line_number lines k m -> n = m.
Proof. exact line_number_unique. Qed.
Print Assumptions C17_line_unique.

Theorem C17_file_unique : forall start lines k f g,
  file_name start lines k f -> file_name start lines k g -> f = g.
Proof. exact file_name_unique. Qed.
Print Assumptions C17_file_unique.

(** Lines are recognised as markers by their form alone. *)
Theorem C17_marker : forall line n f,
  line_directive line = Some (n, f) <-> marker line n f.
Proof. exact directive_marker. Qed.
Print Assumptions C17_marker.

(** A line outside the text is an internal error, never a made-up location. *)
Theorem C17_outside : forall start src t line q, t_line t = Some line ->
  (line = 0 \/ newlines src + 1 < line)%N ->
  snd (get (new_location start t (Some src)) q) = Err AssertionError.
Proof. exact located_outside. Qed.
Print Assumptions C17_outside.

(** Without a source text, the parser's own line is reported. *)
Theorem C17_no_source : forall start t line, t_line t = Some line ->
  snd (get (new_location start t None) Filename) = Ok (Name start) /\
  snd (get (new_location start t None) Lineno) = Ok (Number (Some line)).
Proof. exact no_source. Qed.
Print Assumptions C17_no_source.

(** Nor is one made up for a term without a position. *)
Theorem C17_no_line : forall start t src, t_line t = None ->
  snd (get (new_location start t src) Filename) = Ok (Name start) /\
  snd (get (new_location start t src) Lineno) = Ok (Number None).
Proof. exact no_line. Qed.
Print Assumptions C17_no_line.

(** The columns are those of the parser. *)
Theorem C17_columns : forall start t src q a,
  snd (get (new_location start t src) q) = Ok a ->
  match q with
  | MinCol => a = Number (t_min_col t)
  | MaxCol => a = Number (t_max_col t)
  | _ => True
  end.
Proof. exact columns. Qed.
Print Assumptions C17_columns.

(** The answers do not depend on what was asked before, or how often. *)
Theorem C17_stable : forall l qs,
  gets l qs = map (fun q => snd (get l q)) qs.
Proof. exact gets_same. Qed.
Print Assumptions C17_stable.

Definition ex_text : string := unlines
  ["x"; "# 7 ""b.camkes"" 2"; "y"; "  #line 40"; "component A {"; "}"].
Example C17_ex :
  gets (new_location (Some "m") (Term (Some 6%N) None None) (Some ex_text))
    [Lineno; Filename; Lineno] =
  [Ok (Number (Some 41%N)); Ok (Name (Some "b.camkes"));
   Ok (Number (Some 41%N))].
Proof. reflexivity. Qed.
Example C17_ex_hyp : Forall (every not_newline)
  ["x"; "# 7 ""b.camkes"" 2"; "y"; "  #line 40"; "component A {"; "}"].
Proof. repeat constructor. Qed.
