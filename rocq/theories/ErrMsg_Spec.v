(** What a message with a location should show. *)
From Coq Require Import List String Ascii Bool NArith.
From Verif Require Import DecStr ErrMsg_Model.
Import ListNotations.
Open Scope string_scope.
Open Scope list_scope.

Definition nl : ascii := ascii_of_nat 10.
(** The lines of a text, each ended by a newline *)
Fixpoint text (ls : list string) : string :=
  match ls with [] => "" | l :: ls => (l ++ String nl (text ls))%string end.
(** A text in lines, for messages: newlines between the lines only *)
Fixpoint lines_text (l : string) (ls : list string) : string :=
  match ls with [] => l | l' :: ls => (l ++ String nl (lines_text l' ls))%string end.
Fixpoint one_line (s : string) : Prop :=
  match s with EmptyString => True | String c s => c <> nl /\ one_line s end.

(** [marks] has a caret exactly in columns [first] to [last], counted from 0, and
    blanks before. *)
Definition marks_columns (marks : string) (first last : nat) : Prop :=
  forall i, String.get i marks =
    if Nat.ltb i first then Some " "%char
    else if Nat.leb i last then Some "^"%char else None.
(** What stands before the source line: file, line and column. *)
Definition before_line (f : string) (n a : N) : string := (f ++ ":" ++ dec n ++ ":" ++ dec a ++ ": ")%string.

(** Escapes of terminals: red, bold, and back to normal. *)
Definition red : string := String (ascii_of_nat 27) "[31m".
Definition bold : string := String (ascii_of_nat 27) "[1m".
Definition normal : string := String (ascii_of_nat 27) "[0m".

(** The lines of an error raised with a message and a location, of any of the three
    kinds *)
Inductive raised (files : string -> option string) (colour : bool) (message : string) (p : place)
  : list string -> Prop :=
| by_parser f n : raised files colour message p (parse_error files colour message (Some p) f n)
| by_line f n : p = mk_place f n None None -> raised files colour message p (parse_error files colour message None f n)
| by_ast : raised files colour message p (ast_error files colour message (Some p))
| by_template : raised files colour message p (template_error files colour message (Some p)).
Definition at_columns (f : string) (n a b : N) : place := mk_place (Some f) (Some n) (Some a) (Some b).
(** Lines of a message: [m] and [ms] are the lines of [message]. *)
Definition lines_of (message m : string) (ms : list string) : Prop :=
  message = lines_text m ms /\ Forall one_line (m :: ms).
(** The file has the line [l] at number [n]. *)
Definition has_line (contents : option string) (n : N) (l : string) : Prop :=
  exists before after, contents = Some (text before ++ l ++ String nl after)%string /\
    Forall one_line before /\ one_line l /\ n = N.of_nat (S (List.length before)).
(** Its last line is [l], without a newline at the end. *)
Definition ends_with_line (contents : option string) (n : N) (l : string) : Prop :=
  exists before, contents = Some (text before ++ l)%string /\ l <> "" /\
    Forall one_line before /\ one_line l /\ n = N.of_nat (S (List.length before)).
