(** C90: an error message shows the place of the error. *)
From Coq Require Import List String Ascii Bool NArith.
From Verif Require Import Prelude DecStr ErrMsg_Model ErrMsg_Spec ErrMsg_Proofs.
Import ListNotations.
Open Scope string_scope.
Open Scope list_scope.

(** C90.  An error located at columns [a] to [b] of a line shows that line after the
    names of file, line and column; below it there are carets under exactly these
    columns; then comes the message.  Missing: the last line of a file without a
    newline, see [C90_last_refuted]. *)
Theorem C90_shown_partial : forall files message m ms f n a b l r,
  raised files false message (at_columns f n a b) r -> lines_of message m ms -> one_line f ->
  has_line (files f) n l -> (1 <= a <= b)%N ->
  exists marks, r = (before_line f n a ++ l)%string :: marks :: m :: ms /\
    marks_columns marks (String.length (before_line f n a) + N.to_nat a - 1)
                        (String.length (before_line f n a) + N.to_nat b - 1).
Proof. exact plain_ok. Qed.
Print Assumptions C90_shown_partial.

Definition ex_files (f : string) : option string :=
  if String.eqb f "a.camkes" then Some (text ["component A {"; "  uses Foo f;"; "}"]) else None.
Example C90_shown_ex :
  has_line (ex_files "a.camkes") 2 "  uses Foo f;" /\
  parse_error ex_files false "unknown reference" (Some (at_columns "a.camkes" 2 8 10)) None None =
  ["a.camkes:2:8:   uses Foo f;";
   "                     ^^^";
   "unknown reference"].
Proof.
  split; [|vm_compute; reflexivity].
  exists ["component A {"], (text ["}"]). split; [vm_compute; reflexivity|].
  split; [repeat constructor; discriminate|]. split; [repeat split; discriminate|reflexivity].
Qed.

(** C90.  On a terminal with colours, the columns are also in red, and only they. *)
Theorem C90_colour_partial : forall files message m ms f n a b l r,
  raised files true message (at_columns f n a b) r -> lines_of message m ms -> one_line f ->
  has_line (files f) n l -> (1 <= a <= b)%N -> N.to_nat b <= String.length l ->
  exists marks x y z,
    r = (before_line f n a ++ x ++ red ++ bold ++ y ++ normal ++ z)%string :: marks :: m :: ms /\
    l = (x ++ y ++ z)%string /\ String.length x = N.to_nat a - 1 /\
    String.length y = N.to_nat b - N.to_nat a + 1 /\
    marks_columns marks (String.length (before_line f n a) + N.to_nat a - 1)
                        (String.length (before_line f n a) + N.to_nat b - 1).
Proof. exact colour_ok. Qed.
Print Assumptions C90_colour_partial.

(** C90.  Without columns, the line is shown without marks; if the file is gone, the
    place is named; without a place there is the message alone. *)
Theorem C90_line : forall files colour message m ms f n l r,
  raised files colour message (mk_place (Some f) (Some n) None None) r -> lines_of message m ms -> one_line f ->
  has_line (files f) n l -> r = (f ++ ":" ++ dec n ++ ": " ++ l)%string :: m :: ms.
Proof. exact line_ok. Qed.
Print Assumptions C90_line.
Theorem C90_missing : forall files colour message m ms f n a b r,
  raised files colour message (at_columns f n a b) r -> lines_of message m ms -> one_line f ->
  files f = None -> r = (before_line f n a ++ m)%string :: ms.
Proof. exact missing_ok. Qed.
Print Assumptions C90_missing.
Theorem C90_nowhere : forall files colour message m ms, lines_of message m ms ->
  parse_error files colour message None None None = m :: ms /\
  ast_error files colour message None = m :: ms /\
  template_error files colour message None = m :: ms.
Proof. exact nowhere_ok. Qed.
Print Assumptions C90_nowhere.

Example C90_message_ex : lines_of ("two" ++ String nl "lines") "two" ["lines"].
Proof. split; [reflexivity|]. repeat constructor; discriminate. Qed.

(** C90 is false in general: if the line is the last of its file and no newline
    follows it, the marks stand behind it on the same line and not below it. *)
Theorem C90_last_refuted : forall files message m ms f n a b l r,
  raised files false message (at_columns f n a b) r -> lines_of message m ms -> one_line f ->
  ends_with_line (files f) n l -> (1 <= a <= b)%N ->
  exists marks, r = (before_line f n a ++ l ++ marks)%string :: m :: ms /\
    marks_columns marks (String.length (before_line f n a) + N.to_nat a - 1)
                        (String.length (before_line f n a) + N.to_nat b - 1).
Proof. exact last_ok. Qed.
Print Assumptions C90_last_refuted.

Example C90_last_ex :
  ends_with_line (Some "assembly {") 1 "assembly {" /\
  ast_error (fun _ => Some "assembly {") false "no" (Some (at_columns "b" 1 1 8)) =
    ["b:1:1: assembly {       ^^^^^^^^"; "no"].
Proof.
  split; [|vm_compute; reflexivity]. exists []. split; [reflexivity|]. split; [discriminate|].
  split; [constructor|]. split; [repeat split; discriminate|reflexivity].
Qed.
