(** C92: the checker for templates accepts well-formed templates, and what it accepts
    is nested. *)
From Coq Require Import List String Ascii Bool.
From Verif Require Import Prelude Lint_Model Lint_Spec Lint_Proofs.
Import ListNotations.
Open Scope string_scope.
Open Scope list_scope.

(** Well-formed templates are accepted. *)
Theorem C92_accepted : forall ts ds, paired ts -> template false ds -> lint ts ds = Ok tt.
Proof. exact lint_ok. Qed.
Print Assumptions C92_accepted.

Example C92_accepted_ex :
  paired [Start KBlock; End KBlock; Start KVar; End KVar] /\
  template false [("for", "i in xs"); ("if", "i"); ("do", "l.append(i)"); ("elif", "j"); ("break", "");
                  ("else", ""); ("set", "a = 1"); ("endif", ""); ("endfor", "");
                  ("macro", "m(x)"); ("include", "'a.c'"); ("endmacro", "")].
Proof.
  split; [repeat constructor|].
  apply (t_for false _ [_; _; _; _; _; _; _]); [|apply (t_macro false _ [_])].
  - apply (t_if true _ [_] [_; _; _; _]); [| |apply t_nil].
    + apply t_plain; [|apply t_nil]. constructor. intros h. specialize (h "."%char (or_intror (or_introl eq_refl))).
      apply word_spec in h. discriminate.
    + apply (b_elif true _ [_] [_; _]).
      * apply t_jump; constructor.
      * apply b_else. apply t_plain; [|apply t_nil]. constructor.
        exists "", "a"%char, " ", " 1". repeat split; try now apply space_false.
        -- intros [].
        -- intros c [<-|[]]. now apply space_spec.
        -- exists "1"%char. split; [right; now left|now apply space_false].
  - apply t_plain; [|apply t_nil]. constructor. cbn. auto.
  - apply t_nil.
Qed.

(** What is accepted: markers come in pairs, only the last can be missing; directives
    are nested. *)
Theorem C92_markers_partial : forall ts, check_markers ts None = Ok tt <->
  exists ps, paired ps /\ (ts = ps \/ exists k, ts = ps ++ [Start k]).
Proof. exact markers_iff. Qed.
Print Assumptions C92_markers_partial.
Theorem C92_nested_partial : forall ds, check_directives ds [] = Ok tt <-> nested [] ds.
Proof. exact directives_iff. Qed.
Print Assumptions C92_nested_partial.
Theorem C92_checked_partial : forall ts ds, lint ts ds = Ok tt ->
  (exists ps, paired ps /\ (ts = ps \/ exists k, ts = ps ++ [Start k])) /\ nested [] ds.
Proof. exact lint_sound. Qed.
Print Assumptions C92_checked_partial.
(** The check always ends, and a template not accepted is refused as wrong. *)
Theorem C92_refused : forall ts ds, lint ts ds = Ok tt \/ lint ts ds = Err ParseError.
Proof. exact lint_total. Qed.
Print Assumptions C92_refused.

Example C92_refused_ex :
  lint [Start KBlock; End KVar] [] = Err ParseError /\
  lint [] [("if", "a"); ("for", "b"); ("endif", ""); ("endfor", "")] = Err ParseError /\
  lint [] [("break", "")] = Err ParseError /\ lint [] [("macro", "m")] = Err ParseError /\
  lint [] [("set", "a")] = Err ParseError /\ lint [] [("do", "a")] = Err ParseError.
Proof. repeat split. Qed.

(** C92 is false in general: more than one [else], [elif] behind [else], and [break] in
    a macro inside a loop are accepted, which are no templates. *)
Theorem C92_else_refuted : exists ds1 ds2 ds3,
  ds1 = [("if", "a"); ("else", ""); ("else", ""); ("endif", "")] /\
  ds2 = [("if", "a"); ("else", ""); ("elif", "b"); ("endif", "")] /\
  ds3 = [("for", "x in y"); ("macro", "m()"); ("break", ""); ("endmacro", ""); ("endfor", "")] /\
  (lint [] ds1 = Ok tt /\ ~ template false ds1) /\
  (lint [] ds2 = Ok tt /\ ~ template false ds2) /\
  (lint [] ds3 = Ok tt /\ ~ template false ds3).
Proof. exact wrong_directives. Qed.
Print Assumptions C92_else_refuted.
(** C92 is false in general: a start marker without end is accepted if it is the last. *)
Theorem C92_open_refuted : forall ds k, template false ds -> lint [Start k] ds = Ok tt /\ ~ paired [Start k].
Proof. exact wrong_markers. Qed.
Print Assumptions C92_open_refuted.
