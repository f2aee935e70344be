(** Well-formed templates. *)
From Coq Require Import List String Ascii Bool.
From Verif Require Import Prelude Lint_Model.
Import ListNotations.
Open Scope string_scope.
Open Scope list_scope.

(** Markers: pairs, one after the other *)
Inductive paired : list marker -> Prop :=
| p_nil : paired []
| p_pair k ts : paired ts -> paired (Start k :: End k :: ts).

(** Directives that can be anywhere.  An assignment has an equals sign with something
    before it and after it; an expression statement is not a single word. *)
Definition white (c : ascii) : Prop := In (nat_of_ascii c) [9; 10; 11; 12; 13; 28; 29; 30; 31; 32].
Definition blank (s : string) : Prop := forall c, In c (list_ascii_of_string s) -> white c.
Definition visible (s : string) : Prop := exists c, In c (list_ascii_of_string s) /\ ~ white c.
Definition no_newline (s : string) : Prop := ~ In (ascii_of_nat 10) (list_ascii_of_string s).
Definition assignment (s : string) : Prop :=
  exists p x w y, s = (p ++ String x (w ++ String "=" y))%string /\
    no_newline p /\ ~ white x /\ blank w /\ visible y.
Definition in_words (c : ascii) : Prop :=
  In c (list_ascii_of_string "abcdefghijklmnopqrstuvwxyzABCDEFGHIJKLMNOPQRSTUVWXYZ0123456789_").
Definition single_word (s : string) : Prop := forall c, In c (list_ascii_of_string s) -> in_words c.
Inductive plain : directive -> Prop :=
| pl_do c : ~ single_word c -> plain ("do", c)
| pl_set c : assignment c -> plain ("set", c)
| pl_import t c : In t ["import"; "include"; "from"] -> plain (t, c).
Inductive jump : directive -> Prop :=
| j_break : jump ("break", "")
| j_continue : jump ("continue", "").

(** Well-formed sequences of directives; [loop] tells whether it is inside a loop. *)
Inductive template : bool -> list directive -> Prop :=
| t_nil loop : template loop []
| t_plain loop d ds : plain d -> template loop ds -> template loop (d :: ds)
| t_jump d ds : jump d -> template true ds -> template true (d :: ds)
| t_if loop c b bs ds : template loop b -> branches loop bs -> template loop ds ->
    template loop (("if", c) :: b ++ bs ++ ("endif", "") :: ds)
| t_for loop c b ds : template true b -> template loop ds ->
    template loop (("for", c) :: b ++ ("endfor", "") :: ds)
| t_for_else loop c b e ds : template true b -> template loop e -> template loop ds ->
    template loop (("for", c) :: b ++ ("else", "") :: e ++ ("endfor", "") :: ds)
| t_macro loop c b ds : template false b -> template loop ds ->
    template loop (("macro", c) :: b ++ ("endmacro", "") :: ds)
| t_call loop c b ds : template false b -> template loop ds ->
    template loop (("call", c) :: b ++ ("endcall", "") :: ds)
with branches : bool -> list directive -> Prop :=
| b_none loop : branches loop []
| b_else loop b : template loop b -> branches loop (("else", "") :: b)
| b_elif loop c b bs : template loop b -> branches loop bs -> branches loop (("elif", c) :: b ++ bs).

(** What is guaranteed of a sequence that is accepted: the blocks are nested, each
    ended by its own directive, and [elif], [else], [break] and [continue] are inside
    blocks they can belong to.  [enclosing] are the blocks around the sequence,
    innermost first. *)
Definition ends (k : string) : directive := (("end" ++ k)%string, "").
Inductive nested : list string -> list directive -> Prop :=
| n_nil e : nested e []
| n_plain e d ds : plain d -> nested e ds -> nested e (d :: ds)
| n_jump e d ds : jump d -> In "for" e -> nested e ds -> nested e (d :: ds)
| n_elif e c ds : nested ("if" :: e) ds -> nested ("if" :: e) (("elif", c) :: ds)
| n_else k e ds : k = "if" \/ k = "for" -> nested (k :: e) ds -> nested (k :: e) (("else", "") :: ds)
| n_block k e c b ds : In k ["if"; "for"; "macro"; "call"] -> nested (k :: e) b -> nested e ds ->
    nested e ((k, c) :: b ++ ends k :: ds).
