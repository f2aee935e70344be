(** C91: the dependencies of an input are read from the rule of the preprocessor and
    written as a rule for make. *)
From Coq Require Import List String Ascii Bool Sorted Permutation.
From Verif Require Import Prelude MkDeps_Model MkDeps_Spec MkDeps_Proofs.
Import ListNotations.
Open Scope string_scope.
Open Scope list_scope.

(** C91.  From any rule in which the names can be written as they are, however its
    lines are broken and whatever follows it, exactly its dependencies are read, in
    order.  Missing: other names, see [C91_quoted_refuted] and [C91_colon_refuted]. *)
Theorem C91_read_partial : forall target ds text,
  rule target ds text -> simple target -> no_colon target -> Forall simple ds ->
  parse_makefile_rule text = Ok ds.
Proof. exact read_ok. Qed.
Print Assumptions C91_read_partial.

Definition ex_text : string :=
  ("out.o: /usr/include/a.h" ++ continued ++ " b.camkes  c.camkes" ++ newline ++ "b.camkes:" ++ newline)%string.
Example C91_read_ex :
  rule "out.o" ["/usr/include/a.h"; "b.camkes"; "c.camkes"] ex_text /\
  parse_makefile_rule ex_text = Ok ["/usr/include/a.h"; "b.camkes"; "c.camkes"].
Proof.
  split; [|vm_compute; reflexivity].
  eexists. split; [|reflexivity].
  apply (l_name "/usr/include/a.h"), l_continued, (l_name "b.camkes"), l_blank, (l_name "c.camkes"), l_end.
Qed.

(** C91.  So an input depends on itself and on the files named in the rule, and on
    nothing else. *)
Theorem C91_files_partial : forall filename target ds text,
  rule target ds text -> simple target -> no_colon target -> Forall simple ds ->
  exists read, dependencies filename text = Ok read /\ NoDup read /\
    forall f, In f read <-> f = filename \/ In f ds.
Proof. exact dependencies_ok. Qed.
Print Assumptions C91_files_partial.

(** C91.  A first line with something on it that has no colon is an error. *)
Theorem C91_refused : forall l rest,
  printable l -> nonblank l -> no_colon l ->
  parse_makefile_rule (l ++ newline ++ rest) = Err ParseError.
Proof. exact refused_ok. Qed.
Print Assumptions C91_refused.

Example C91_refused_ex : printable "cpp failed" /\ nonblank "cpp failed" /\ no_colon "cpp failed".
Proof. repeat split; reflexivity. Qed.

(** C91.  What is written for make is a rule with these dependencies, each once, in
    order; and it is read back as such. *)
Theorem C91_written_partial : forall name read,
  read <> [] -> Forall simple read ->
  exists ds, Permutation ds read /\ ordered ds /\ rule name ds (write_rule name read).
Proof. exact write_ok. Qed.
Print Assumptions C91_written_partial.
Theorem C91_again_partial : forall name read,
  read <> [] -> Forall simple read -> simple name -> no_colon name ->
  exists ds, parse_makefile_rule (write_rule name read) = Ok ds /\ Permutation ds read.
Proof. exact write_read. Qed.
Print Assumptions C91_again_partial.

Example C91_written_ex :
  Forall simple ["b.h"; "a.camkes"] /\
  parse_makefile_rule (write_rule "ast.pickle" ["b.h"; "a.camkes"]) = Ok ["a.camkes"; "b.h"].
Proof. split; [repeat constructor; discriminate|vm_compute; reflexivity]. Qed.

(** C91 is false in general: names that the preprocessor writes with backslashes or
    doubled dollars are taken apart or kept as written. *)
Theorem C91_quoted_refuted :
  (exists text, rule "t" ["a b"] text /\ parse_makefile_rule text = Ok ["a\"; "b"]) /\
  (exists text, rule "t" ["a$b"] text /\ parse_makefile_rule text = Ok ["a$$b"]) /\
  (exists text, rule "t" ["a#b"] text /\ parse_makefile_rule text = Ok ["a\#b"]).
Proof. exact escape_wrong. Qed.
Print Assumptions C91_quoted_refuted.

(** C91 is false in general: a colon in the path of the target, such as that of the
    directory for temporary files, ends the target. *)
Theorem C91_colon_refuted :
  exists text, rule "/tmp/a:b/out" ["x"] text /\ parse_makefile_rule text = Ok ["b/out:"; "x"].
Proof. exact colon_wrong. Qed.
Print Assumptions C91_colon_refuted.

(** C91 is false in general: names are written for make as they are, so that a file
    with a blank in its name becomes two. *)
Theorem C91_blank_refuted : rule "t" ["a"; "b"] (write_rule "t" ["a b"]).
Proof. exact write_wrong. Qed.
Print Assumptions C91_blank_refuted.
