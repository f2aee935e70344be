(** C48: Isabelle identifiers. *)
From Coq Require Import String Ascii List Bool NArith.
From Verif Require Import Prelude DecStr Isabelle_Model Isabelle_Spec Isabelle_Proofs.
Import ListNotations.
Open Scope string_scope.

(** Every hierarchical name has an identifier, and different names have different ones. *)
Theorem C48_accepted n : hierarchical n -> exists i, isabelle_ident n = Ok i.
Proof. exact (accepted n). Qed.
Print Assumptions C48_accepted.
Theorem C48_injective a b i : hierarchical a -> hierarchical b ->
  isabelle_ident a = Ok i -> isabelle_ident b = Ok i -> a = b.
Proof. exact (ident_inj a b i). Qed.
Print Assumptions C48_injective.

(** Accepted is exactly what starts with a letter or an underscore; dots become quotes. *)
Theorem C48_start n : (exists i, isabelle_ident n = Ok i) <->
  exists c r, n = String c r /\ (c = "_"%char \/ In c letters).
Proof. exact (start_iff n). Qed.
Print Assumptions C48_start.
Theorem C48_dots n i : isabelle_ident n = Ok i -> String.length i = String.length n /\
  forall k c, String.get k n = Some c -> String.get k i = Some (if Ascii.eqb c "." then "'"%char else c).
Proof. exact (dots n i). Qed.
Print Assumptions C48_dots.

(** The prefixed identifiers of components, connections and so on differ when the kinds or
    the names differ. *)
Theorem C48_kinds k1 k2 a b i : In k1 named_kinds -> In k2 named_kinds -> hierarchical a -> hierarchical b ->
  isabelle_adl_ident k1 a = Ok i -> isabelle_adl_ident k2 b = Ok i -> k1 = k2 /\ a = b.
Proof. exact (adl_inj k1 k2 a b i). Qed.
Print Assumptions C48_kinds.

(** They start with a letter and contain only characters that Isabelle allows. *)
Theorem C48_valid k a : In k named_kinds -> hierarchical a ->
  exists c r, isabelle_adl_ident k a = Ok (String c r) /\ letter c = true /\
    all_chars isabelle_char (String c r) = true.
Proof. exact (adl_valid k a). Qed.
Print Assumptions C48_valid.

Example C48_example : hierarchical "a.b_c.d1" /\ isabelle_ident "a.b_c.d1" = Ok "a'b_c'd1" /\
  isabelle_adl_ident "component" "a.b" = Ok "component__a'b".
Proof.
  split; [|split; reflexivity].
  exists "a", ["b_c"; "d1"]. repeat split; repeat constructor.
Qed.

(** Dataport types: the only clash is between a sized buffer and a type name made to look
    like it. *)
Theorem C48_dataports_partial a b i : dataport_type a -> dataport_type b ->
  isabelle_dataport a = Ok i -> isabelle_dataport b = Ok i ->
  a = b \/ exists n, (a = sized_buffer n /\ b = "Buf_" ++ dec n \/
                      b = sized_buffer n /\ a = "Buf_" ++ dec n)%string.
Proof. exact (dataport_inj a b i). Qed.
Print Assumptions C48_dataports_partial.
(** In the name of a dataport's type the outermost pair of parentheses is replaced; a name
    without such a pair is left as it is. *)
Theorem C48_parentheses a b c : ~ In "("%char (list_ascii_of_string a) -> ~ In ")"%char (list_ascii_of_string c) ->
  isabelle_dataport (a ++ "(" ++ b ++ ")" ++ c) = isabelle_adl_ident "dataport" (a ++ "_" ++ b ++ c).
Proof. exact (parentheses a b c). Qed.
Print Assumptions C48_parentheses.
Theorem C48_no_parentheses a b : ~ In "("%char (list_ascii_of_string a) -> ~ In ")"%char (list_ascii_of_string b) ->
  isabelle_dataport (a ++ b) = isabelle_adl_ident "dataport" (a ++ b).
Proof. exact (no_parentheses a b). Qed.
Print Assumptions C48_no_parentheses.
Example C48_dataport_example : dataport_type "Buf(4096)" /\ dataport_type "Buf" /\
  isabelle_dataport "Buf(4096)" = Ok "dataport__Buf_4096" /\
  isabelle_dataport "Buf" = Ok "dataport__Buf".
Proof. repeat split; [right; exists 4096%N; reflexivity|left; reflexivity]. Qed.

(** Finding: that clash exists. *)
Theorem C48_dataports_refuted : exists a b i, dataport_type a /\ dataport_type b /\ a <> b /\
  isabelle_dataport a = Ok i /\ isabelle_dataport b = Ok i.
Proof. exact dataport_clash. Qed.
Print Assumptions C48_dataports_refuted.

(** Finding: the assertion that guards the mangling has no end anchor, so it lets names
    through that are no identifiers. *)
Theorem C48_assertion_refuted : exists i,
  isabelle_ident "a b!" = Ok i /\ all_chars isabelle_char i = false.
Proof. exact pattern_lax. Qed.
Print Assumptions C48_assertion_refuted.
