(** C116: the generated theory about the architecture of an assembly. *)
From Coq Require Import List String Ascii Bool NArith Permutation.
From Verif Require Import Prelude Isabelle_Model Isabelle_Spec Arch_Model Arch_Spec Arch_Proofs Arch_Proofs3 Arch_Proofs4.
Import ListNotations.
Open Scope string_scope. Open Scope list_scope.

(** Every constant is defined before it is mentioned, whatever the names are. *)
Theorem C116_in_order a th : arch_theory a = Ok th -> in_order [] th.
Proof. exact (ordered a th). Qed.
Print Assumptions C116_in_order.

(** No constant is defined twice, if nothing is named like the constants that the template makes. *)
Theorem C116_once_partial a th : arch_theory a = Ok th -> named a -> own_names a -> NoDup (map fst th).
Proof. exact (once_all a th). Qed.
Print Assumptions C116_once_partial.
Theorem C116_default_names a : as_name a = None -> as_composition a = None -> as_configuration a = None -> own_names a.
Proof. exact (default_names a). Qed.
Print Assumptions C116_default_names.
Theorem C116_once_refuted : exists a th, named a /\ printable a /\ connected a /\ ends_exist a /\
  arch_theory a = Ok th /\ ~ NoDup (map fst th).
Proof. exact names_clash. Qed.
Print Assumptions C116_once_refuted.

(** Followed from the constant of the assembly, the definitions are the assembly: its instances in order with the interfaces,
    types and attributes of their components, its connections with their ends and connectors, its groups and its settings.
    Two events have one number if and only if they are of one type. *)
Theorem C116_describes_partial a th : named a -> own_names a -> arch_theory a = Ok th ->
  exists es, NoDup es /\ describes_assembly th es a (assembly_name a).
Proof. exact (described_some a th). Qed.
Print Assumptions C116_describes_partial.

(** The theory is generated if all types can be printed, and not if there is an array of another type. *)
Theorem C116_generated a : named a -> printable a -> exists th, arch_theory a = Ok th.
Proof. exact (accepted_all a). Qed.
Print Assumptions C116_generated.
Theorem C116_refused a q m x th : In q (all_procs a) -> In m (pr_methods q) -> In x (me_params m) -> pa_array x = true ->
  ~ In (pa_type x) ["int"; "unsigned int"; "real"; "char"; "character"; "boolean"] -> arch_theory a <> Ok th.
Proof. exact (refused a q m x th). Qed.
Print Assumptions C116_refused.

(** What the theory claims of connections: an interface that has to be connected is at an end of exactly one connection, ... *)
Theorem C116_required a th n c i q : arch_theory a = Ok th -> connected a -> In (n, c) (as_instances a) -> In (i, false, q) (own_uses c) ->
  exists x k f t, In (x, VConnection k f t) th /\ In (n, i) (f ++ t) /\
    forall x' k' f' t', In (x', VConnection k' f' t') th -> In (n, i) (f' ++ t') -> (x', k', f', t') = (x, k, f, t).
Proof. exact (required_once a th n c i q). Qed.
Print Assumptions C116_required.
(** ... and an end of a connection is an interface that is listed for exactly one component. *)
Theorem C116_ends a th x k f t n i : arch_theory a = Ok th -> named a -> own_names a -> ends_exist a ->
  In (x, VConnection k f t) th -> In (n, i) (f ++ t) ->
  exists js cs gs r r' d, dget (th : dict string value) (composition_name a) = Some (VComposition js cs gs) /\
    In (n, r) js /\ (forall s, In (n, s) js -> s = r) /\ dget (th : dict string value) r = Some (VSame r') /\
    dget (th : dict string value) r' = Some (VComponent d) /\ In i (listed d).
Proof. exact (ends_valid a th x k f t n i). Qed.
Print Assumptions C116_ends.

(** The last lemma is about constants that exist if the assembly has no name, and not for every assembly with a name. *)
Theorem C116_last_partial a th : arch_theory a = Ok th -> as_name a = None -> incl (last_lemma a) (map fst th).
Proof. exact (last_ok a th). Qed.
Print Assumptions C116_last_partial.
Theorem C116_last_refuted : exists a th x, named a /\ own_names a /\ printable a /\ connected a /\ ends_exist a /\
  arch_theory a = Ok th /\ In x (last_lemma a) /\ ~ In x (map fst th).
Proof. exact last_broken. Qed.
Print Assumptions C116_last_refuted.

(** A dataport that stands for one further inside is listed, although procedures of that kind are left out. *)
Theorem C116_exported_refuted : exists a th n c i r d, named a /\ own_names a /\ printable a /\ connected a /\ ends_exist a /\
  arch_theory a = Ok th /\ In (n, c) (as_instances a) /\ In i (co_exports c) /\
  isabelle_adl_ident "instance" (co_name c) = Ok r /\ In (r, VComponent d) th /\ In i (listed d).
Proof. exact exported_kept. Qed.
Print Assumptions C116_exported_refuted.
(** The theory claims that some component has a thread of control: not so for every system. *)
Theorem C116_control_refuted : exists a th, named a /\ own_names a /\ printable a /\ ends_exist a /\ as_instances a <> [] /\
  arch_theory a = Ok th /\ forall n d, In (n, VComponent d) th -> c_control d = false.
Proof. exact no_control. Qed.
Print Assumptions C116_control_refuted.

(** A system with two components and two connections meets all hypotheses. *)
Example C116_case_names n c : named (small n c) /\ printable (small n c) /\ connected (small n c) /\ ends_exist (small n c).
Proof. exact (conj (small_named n c) (conj (small_printable n c) (conj (small_connected n c) (small_ends n c)))). Qed.
Example C116_case_theory : exists th, arch_theory (small None None) = Ok th /\ map fst th =
  ["connector__seL4RPCCall"; "connector__seL4SharedData"; "procedure__Greet"; "event__Tick"; "event__Tock"; "dataport__Buf_4096";
   "dataport__Ring"; "instance__Client"; "instance__Server"; "component__c1"; "component__s'one"; "connection__r"; "connection__s'm";
   "composition'"; "configuration'"; "assembly'"] /\
  dget (th : dict string value) "procedure__Greet" = Some (VProcedure [(Some (Primitive Integer), "hello",
    [(Primitive String_, InParameter, "who"); (SizedArray Integer, InOutParameter, "n"); (CType "time_t", OutParameter, "t")])]) /\
  dget (th : dict string value) "instance__Client" = Some (VComponent (mk_component true false
    [("p", (true, "procedure__Greet")); ("q", (false, "procedure__Greet"))] [] [("d", "dataport__Buf_4096")] [("e", "event__Tick")] []
    [("speed", Primitive UnsignedInteger)])).
Proof. eexists. split; [vm_compute; reflexivity|]. split; [reflexivity|]. split; reflexivity. Qed.
Example C116_case_refused : arch_theory unprintable = Err TemplateError.
Proof. vm_compute. reflexivity. Qed.
