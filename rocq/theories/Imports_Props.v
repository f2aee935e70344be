(** C01: import statements. *)
From Coq Require Import List String.
From Verif Require Import Prelude Imports_Model Imports_Spec Imports_Proofs.
Import ListNotations.
Open Scope string_scope. Open Scope list_scope.

(** Whatever the (possibly cyclic) import graph, as long as finitely many files are
    reachable parsing comes to an end: it succeeds when every reachable file can be
    parsed and every import in them refers to an existing file, and raises ParseError
    otherwise. *)
Theorem C01_terminates E root U : plain E -> finite_from E root U ->
  exists n, forall fuel, n <= fuel ->
    (healthy E root /\ exists o, parse_file E fuel root = Ok o) \/
    (~ healthy E root /\ parse_file E fuel root = Err ParseError).
Proof. intros PL. exact (parse_terminates E PL root U). Qed.
Print Assumptions C01_terminates.

(** The files read are the files reachable through imports. *)
Theorem C01_reads_reachable E fuel root out read : plain E -> parse_file E fuel root = Ok (out, read) ->
  forall f, In f read <-> reaches E root f.
Proof. intros PL P. exact (proj2 (read_exact E PL fuel root out read P)). Qed.
Print Assumptions C01_reads_reachable.

(** Each of them contributes each of its statements once and in order, other files
    contribute nothing. *)
Theorem C01_statements_once E fuel root out read : plain E -> parse_file E fuel root = Ok (out, read) ->
  forall f, (In f read -> of_file f out = items E f) /\ (~ In f read -> of_file f out = []).
Proof. intros PL. exact (items_exact' E PL fuel root out read). Qed.
Print Assumptions C01_statements_once.

Theorem C01_statements_from_files E fuel root out read : plain E -> parse_file E fuel root = Ok (out, read) ->
  forall e, In e out -> exists f, fst e = Some f /\ In f read.
Proof.
  intros PL P. destruct (parse_Exp E PL fuel root out read P) as [l [_ X]].
  exact (out_files E _ _ _ _ X (known_root root l)).
Qed.
Print Assumptions C01_statements_from_files.

(** When [c] imports [b] and [b] does not lead back to [c], everything in [b] comes
    before what [c] says after the import. *)
Theorem C01_import_before_use E fuel root out read : plain E -> parse_file E fuel root = Ok (out, read) ->
  forall c before s b after, reaches E root c -> stmts E c = before ++ s :: after ->
  target_of E c s = Some b -> ~ reaches E b c ->
  exists o1 o2, out = o1 ++ o2 /\
    of_file c o1 = items_in before /\ of_file c o2 = items_in after /\
    of_file b o1 = items E b /\ of_file b o2 = [].
Proof. intros PL. exact (parse_order E PL fuel root out read). Qed.
Print Assumptions C01_import_before_use.

(** A file can be read under two names (a relative root file that is imported again): *)
Theorem C01_two_names_refuted : exists E fuel root out read,
  plain E /\ (forall p, abspath E (abspath E p) = abspath E p) /\
  (forall p, content E (abspath E p) = content E p) /\
  parse_file E fuel root = Ok (out, read) /\
  exists f g, In f read /\ In g read /\ abspath E f = abspath E g /\ f <> g.
Proof. exact relative_twice. Qed.
Print Assumptions C01_two_names_refuted.

(** but not when the name of the root file is absolute. *)
Theorem C01_one_name_partial E fuel root out read : plain E ->
  (forall p, abspath E (abspath E p) = abspath E p) -> abspath E root = root ->
  parse_file E fuel root = Ok (out, read) ->
  forall f g, In f read -> In g read -> abspath E f = abspath E g -> f = g.
Proof. exact (canonical_once E fuel root out read). Qed.
Print Assumptions C01_one_name_partial.

(** A cyclic example with a diamond. *)
Definition ex_env : env := {|
  abspath := fun p => p; join := fun d s => (d ++ "/" ++ s)%string; dirname := fun _ => "/d";
  exists_ := fun f => memb f ["/d/root"; "/d/x"; "/std/y"; "/d/y"]; importpath := ["/usr"; "/std"];
  content := fun f =>
    if eqb f "/d/root" then Some [Item "r1"; Quoted "x"; Empty; Item "r2"; Angle "y"; Item "r3"]
    else if eqb f "/d/x" then Some [Item "x1"; Angle "y"; Item "x2"; Quoted "root"]
    else if eqb f "/std/y" then Some [Item "y1"] else None;
  reads := fun f => [f] |}.
Example ex_parse : parse_file ex_env 20 "/d/root" =
  Ok ([(Some "/d/root", "r1"); (Some "/d/x", "x1"); (Some "/std/y", "y1"); (Some "/d/x", "x2");
       (Some "/d/root", "r2"); (Some "/d/root", "r3")], ["/std/y"; "/d/x"; "/d/root"]).
Proof. reflexivity. Qed.
Example ex_plain : plain ex_env.
Proof. intro; reflexivity. Qed.
Example ex_finite : finite_from ex_env "/d/root" ["/std/y"; "/d/x"; "/d/root"].
Proof. intros f R. exact (proj2 (C01_reads_reachable ex_env 20 _ _ _ ex_plain ex_parse f) R). Qed.
Example ex_acyclic_edge : target_of ex_env "/d/x" (Angle "y") = Some "/std/y" /\ ~ reaches ex_env "/std/y" "/d/x".
Proof.
  split; [reflexivity|]. intros R. inversion R as [|y z [s [Hs Ts]] R1]; subst.
  simpl in Hs. destruct Hs as [<-|[]]. discriminate.
Qed.
