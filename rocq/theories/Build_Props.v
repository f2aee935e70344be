(** C117: the build generates, for every instance with code, the glue code of each of its connection ends once, from the template
    of the connector and into the directory of the instance.
    C118: every instance with code is part of one binary, the one of its address space, and direct calls are bound to the
    method of the other end. *)
From Coq Require Import List String Ascii Bool NArith ZArith.
From Verif Require Import Prelude DecStr Chars Build_Model Build_Spec Build_Proofs Build_Proofs2 Build_Proofs3 Build_Proofs4.
From Verif Require Runner_Model.
Import ListNotations.
Open Scope string_scope. Open Scope list_scope.

(** ** C117 *)
Theorem C117_from : forall bin s gs c id e i, legal s -> files bin s = Ok gs ->
  In c (s_conns s) -> nth_error (c_from c) id = Some e -> built s i -> e_inst e = i_name i ->
  let item := ("connector/" ++ c_name c ++ "/from/" ++ dec (N.of_nat id))%string in
  let name := (e_iface e ++ "_" ++ k_name (c_type c) ++ "_" ++ dec (N.of_nat id))%string in
  generated gs item true = [((bin ++ "/" ++ i_name i ++ "/" ++ name ++ ".c")%string, k_from (c_type c))] /\
  generated gs item false = (if string_dec (k_from_header (c_type c)) "" then [] else
    [((bin ++ "/" ++ i_name i ++ "/include/" ++ name ++ ".h")%string, k_from_header (c_type c))]).
Proof. exact from_lemma. Qed.
Print Assumptions C117_from.

Theorem C117_to : forall bin s gs c id e i, legal s -> files bin s = Ok gs ->
  In c (s_conns s) -> nth_error (c_to c) id = Some e -> built s i -> e_inst e = i_name i -> i_env i <> "cakeml" ->
  let item := ("connector/" ++ c_name c ++ "/to/" ++ dec (N.of_nat id))%string in
  let name := (e_iface e ++ "_" ++ k_name (c_type c) ++ "_" ++ dec (N.of_nat id))%string in
  generated gs item true = [((bin ++ "/" ++ i_name i ++ "/" ++ name ++ ".c")%string, k_to (c_type c))] /\
  generated gs item false = (if string_dec (k_to_header (c_type c)) "" then [] else
    [((bin ++ "/" ++ i_name i ++ "/include/" ++ name ++ ".h")%string, k_to_header (c_type c))]).
Proof. exact to_lemma. Qed.
Print Assumptions C117_to.

(** Of an instance written in CakeML, the `to' ends have a template of their own if the connector has one. *)
Theorem C117_to_cakeml : forall bin s gs c id e i, legal s -> files bin s = Ok gs ->
  In c (s_conns s) -> nth_error (c_to c) id = Some e -> built s i -> e_inst e = i_name i -> i_env i = "cakeml" ->
  let item := ("connector/" ++ c_name c ++ "/to/" ++ dec (N.of_nat id))%string in
  generated gs item false = [] /\
  generated gs item true = if string_dec (k_cakeml_to (c_type c)) ""
    then [((bin ++ "/" ++ i_name i ++ "/" ++ e_iface e ++ "_" ++ k_name (c_type c) ++ "_" ++ dec (N.of_nat id) ++ ".c")%string, k_to (c_type c))]
    else [((bin ++ "/" ++ i_name i ++ "/connectorScript.sml")%string, k_cakeml_to (c_type c))].
Proof. exact to_cakeml_lemma. Qed.
Print Assumptions C117_to_cakeml.

(** Nothing else is generated: every item is the assembly, an instance with code, or an end of a connection at one; the output
    is in the directory of that instance, and rendering the item is done in its address space. *)
Theorem C117_only : forall bin s gs g pyint, legal s -> (forall n, pyint (dec (N.of_nat n)) = Ok (Z.of_nat n)) -> files bin s = Ok gs -> In g gs ->
  g_item g = "assembly/" /\ g_out g = (bin ++ "/graph.dot")%string \/
  exists i, built s i /\ (exists rest, g_out g = (bin ++ "/" ++ i_name i ++ "/" ++ rest)%string) /\
    exists entity, Runner_Model.resolve pyint (assembly_of s) (g_item g) = Ok (entity, Some (i_space i)) /\
      (entity = Runner_Model.EInst (runner_inst i) \/
       exists c to n e, In c (s_conns s) /\ nth_error (if to : bool then c_to c else c_from c) n = Some e /\ e_inst e = i_name i /\
         entity = Runner_Model.EEnd (runner_conn s c) to (runner_inst i)).
Proof. exact only_lemma. Qed.
Print Assumptions C117_only.

(** The files of the component itself *)
Theorem C117_component : forall bin s gs i, legal s -> files bin s = Ok gs -> built s i ->
  let gen n t source := In (mk_gen (bin ++ "/" ++ i_name i ++ "/" ++ n)%string ("component/" ++ i_name i)%string t source) gs in
  gen "camkes.c" "component.common.c" true /\ gen ("include/camkes-component-" ++ i_name i ++ ".h")%string "component.template.h" false /\
  gen "linker.lds" "linker.lds" false /\ (i_env i = "c" -> gen "camkes.environment.c" "component.environment.c" true) /\
  (i_env i = "cakeml" -> gen "camkesStartScript.sml" "component.environment.start.cakeml" true /\ gen "camkesConstants.sml" "camkesConstants.sml" true /\
     gen "camkesEndScript.sml" "component.environment.end.cakeml" true) /\
  (forall t, In t (i_sources i) -> gen (basename t) t true) /\ (forall t, In t (i_headers i) -> gen ("include/" ++ basename t)%string t false) /\
  (i_single i = true -> gen "seL4SingleThreadedComponent.template.c" "seL4SingleThreadedComponent.template.c" true) /\
  (i_debug i = true -> gen "camkes.debug.c" "component.debug.c" true) /\ (i_simple i = true -> gen "camkes.simple.c" "component.simple.c" true) /\
  (i_rump i = true -> gen "camkes.rumprun.c" "component.rumprun.c" true).
Proof. exact component_lemma. Qed.
Print Assumptions C117_component.
Theorem C117_optional : forall bin s gs i, legal s -> files bin s = Ok gs -> built s i -> i_sources i = [] ->
  let there n := In (bin ++ "/" ++ i_name i ++ "/" ++ n)%string (outputs gs) in
  (there "camkes.environment.c" -> i_env i = "c") /\ (there "camkesEndScript.sml" -> i_env i = "cakeml") /\
  (there "seL4SingleThreadedComponent.template.c" -> i_single i = true) /\ (there "camkes.debug.c" -> i_debug i = true) /\
  (there "camkes.simple.c" -> i_simple i = true) /\ (there "camkes.rumprun.c" -> i_rump i = true).
Proof. exact component_only_lemma. Qed.
Print Assumptions C117_optional.

(** Generation is given up iff an instance with code has an unknown environment. *)
Theorem C117_environment : forall bin s, files bin s = Err TemplateError <->
  exists i, built s i /\ i_env i <> "c" /\ i_env i <> "cakeml".
Proof. exact environment_lemma. Qed.
Print Assumptions C117_environment.
Theorem C117_succeeds : forall bin s, (forall i, built s i -> i_env i = "c" \/ i_env i = "cakeml") -> exists gs, files bin s = Ok gs.
Proof. exact succeeds_lemma. Qed.
Print Assumptions C117_succeeds.

(** The headers in the directory of an instance are those that its camkes.h includes. *)
Theorem C117_included : forall bin s gs i x, legal s -> files bin s = Ok gs -> built s i ->
  In x (includes (s_conns s) i) <-> In (bin ++ "/" ++ i_name i ++ "/include/" ++ x)%string (outputs gs).
Proof. exact included_lemma. Qed.
Print Assumptions C117_included.

(** No file is generated twice: for types of connectors without underscores in their names, components without templates of
    their own, and at most one CakeML end for an instance. *)
Theorem C117_distinct_partial : forall bin s gs, legal s -> files bin s = Ok gs ->
  (forall c, In c (s_conns s) -> no_underscore (k_name (c_type c))) ->
  (forall i, built s i -> i_sources i = [] /\ i_headers i = []) ->
  (forall i c c' e e', built s i -> i_env i = "cakeml" -> In c (s_conns s) -> In c' (s_conns s) -> In e (c_to c) -> In e' (c_to c') ->
    e_inst e = i_name i -> e_inst e' = i_name i -> k_cakeml_to (c_type c) <> "" -> k_cakeml_to (c_type c') <> "" -> e_iface e = e_iface e') ->
  NoDup (outputs gs).
Proof. exact distinct_lemma. Qed.
Print Assumptions C117_distinct_partial.

(** The name of a file joins the interface and the type of the connector with an underscore: two ends of an instance may share
    a file.  So may two ends of an instance that is written in CakeML. *)
Theorem C117_distinct_refuted : exists bin s gs c c', legal s /\ files bin s = Ok gs /\ In c (s_conns s) /\ In c' (s_conns s) /\ c_name c <> c_name c' /\
  (forall i, In i (s_insts s) -> i_env i = "c" /\ i_sources i = [] /\ i_headers i = []) /\ exists o t t',
  generated gs ("connector/" ++ c_name c ++ "/from/0")%string true = [(o, t)] /\ generated gs ("connector/" ++ c_name c' ++ "/from/0")%string true = [(o, t')] /\ t <> t'.
Proof. exact distinct_refuted_lemma. Qed.
Print Assumptions C117_distinct_refuted.
Theorem C117_cakeml_refuted : exists bin s gs c c', legal s /\ files bin s = Ok gs /\ In c (s_conns s) /\ In c' (s_conns s) /\ c_name c <> c_name c' /\
  (forall c, In c (s_conns s) -> no_underscore (k_name (c_type c))) /\ exists o t,
  generated gs ("connector/" ++ c_name c ++ "/to/0")%string true = [(o, t)] /\ generated gs ("connector/" ++ c_name c' ++ "/to/0")%string true = [(o, t)].
Proof. exact cakeml_refuted_lemma. Qed.
Print Assumptions C117_cakeml_refuted.

(** ** C118 *)
(** Every instance with code is in the binary of its address space and in no other; instances of hardware are in none. *)
Theorem C118_groups : forall s, NoDup (map group_bin (groups s)) /\
  (forall i, built s i -> In (i_space i) (groups s)) /\
  (forall g i, In g (groups s) -> (In i (members s g) <-> built s i /\ i_space i = g)) /\
  (forall g, In g (groups s) -> members s g <> []).
Proof. exact groups_lemma. Qed.
Print Assumptions C118_groups.

(** The binaries of instances are relocatable iff they are linked together with others: unless hardware has the same address space. *)
Theorem C118_relocatable_partial : forall s i, NoDup (map i_name (s_insts s)) -> built s i ->
  (forall h, In h (s_insts s) -> i_hardware h = true -> i_space h <> i_space i) ->
  relocatable s i = linked s (i_space i).
Proof. exact relocatable_lemma. Qed.
Print Assumptions C118_relocatable_partial.
Theorem C118_relocatable_refuted : exists s i, legal s /\ built s i /\ relocatable s i = true /\ linked s (i_space i) = false.
Proof. exact relocatable_refuted_lemma. Qed.
Print Assumptions C118_relocatable_refuted.

(** The symbols of an instance stay private to it, except the methods that it offers for direct calls. *)
Theorem C118_private : forall s tables cs i t y, tables_ok s tables -> copies s tables = Ok cs -> In (i, t) cs -> In y t -> y_binding y = Global ->
  exists c e m, In c (s_conns s) /\ direct c /\ In e (c_to c) /\ e_inst e = i_name i /\ In m (e_methods e) /\
    y_old y = (e_iface e ++ "_" ++ m)%string /\ y_new y = ("camkes connection " ++ c_name c ++ "_" ++ m)%string.
Proof. exact private_lemma. Qed.
Print Assumptions C118_private.

(** The copies have all the symbols of the binaries. *)
Theorem C118_copies : forall s tables cs i, tables_ok s tables -> copies s tables = Ok cs -> built s i ->
  exists t, In (i, t) cs /\ map y_old t = map y_name (tables i) /\
    forall y, In y t -> (y_binding y = Undefined <-> In (mk_sym (y_old y) false) (tables i)).
Proof. exact copies_lemma. Qed.
Print Assumptions C118_copies.

(** A direct call: the reference of the caller is bound to the method of the other end, the only definition in the group. *)
Theorem C118_direct_partial : forall s tables cs c f t m x y, legal s -> clear s -> tables_ok s tables -> copies s tables = Ok cs ->
  In c (s_conns s) -> direct c -> In f (c_from c) -> c_to c = [t] -> In m (e_methods f) -> In m (e_methods t) ->
  built s x -> built s y -> e_inst f = i_name x -> e_inst t = i_name y -> i_space x = i_space y ->
  In (mk_sym (e_iface f ++ "_" ++ m)%string false) (tables x) -> In (mk_sym (e_iface t ++ "_" ++ m)%string true) (tables y) ->
  exists sx r, In (x, sx) cs /\ In (mk_csym (e_iface f ++ "_" ++ m)%string r Undefined) sx /\
    definitions cs (i_space x) r = [(i_name y, (e_iface t ++ "_" ++ m)%string)].
Proof. exact direct_lemma. Qed.
Print Assumptions C118_direct_partial.

(** Names without underscores can be told apart. *)
Theorem C118_clear : forall s, (forall c e m, In c (s_conns s) -> direct c -> In e (ends c) -> In m (e_methods e) -> no_underscore m) ->
  (forall c e, In c (s_conns s) -> direct c -> In e (c_to c) -> no_underscore (e_iface e)) -> clear s.
Proof. exact clear_lemma. Qed.
Print Assumptions C118_clear.

(** objcopy accepts the arguments. *)
Theorem C118_accepted : forall s tables, legal s -> clear s -> proper s -> exists cs, copies s tables = Ok cs.
Proof. exact accepted_lemma. Qed.
Print Assumptions C118_accepted.

(** Names that cannot be told apart: the method is not offered, or there are two. *)
Theorem C118_lost_refuted : exists s tables cs c f t m x y, legal s /\ proper s /\ tables_ok s tables /\ copies s tables = Ok cs /\
  In c (s_conns s) /\ direct c /\ In f (c_from c) /\ c_to c = [t] /\ In m (e_methods f) /\ In m (e_methods t) /\
  built s x /\ built s y /\ e_inst f = i_name x /\ e_inst t = i_name y /\ i_space x = i_space y /\
  In (mk_sym (e_iface f ++ "_" ++ m)%string false) (tables x) /\ In (mk_sym (e_iface t ++ "_" ++ m)%string true) (tables y) /\
  forall sx r, In (x, sx) cs -> In (mk_csym (e_iface f ++ "_" ++ m)%string r Undefined) sx -> definitions cs (i_space x) r = [].
Proof. exact lost_refuted_lemma. Qed.
Print Assumptions C118_lost_refuted.
Theorem C118_double_refuted : exists s tables cs c f t m x y, legal s /\ proper s /\ tables_ok s tables /\ copies s tables = Ok cs /\
  In c (s_conns s) /\ direct c /\ In f (c_from c) /\ c_to c = [t] /\ In m (e_methods f) /\ In m (e_methods t) /\
  built s x /\ built s y /\ e_inst f = i_name x /\ e_inst t = i_name y /\ i_space x = i_space y /\
  In (mk_sym (e_iface f ++ "_" ++ m)%string false) (tables x) /\ In (mk_sym (e_iface t ++ "_" ++ m)%string true) (tables y) /\
  forall sx r, In (x, sx) cs -> In (mk_csym (e_iface f ++ "_" ++ m)%string r Undefined) sx -> List.length (definitions cs (i_space x) r) = 2.
Proof. exact double_refuted_lemma. Qed.
Print Assumptions C118_double_refuted.

(** The hypotheses are met by a system with two callers of an instance in one address space, a further connection, and hardware. *)
Example C117_met : legal good /\ (forall c, In c (s_conns good) -> no_underscore (k_name (c_type c))) /\ built good (mk "y" "g") /\
  match files "bin" good with
  | Ok gs => generated gs "connector/k/from/1" true = [("bin/w/p_seL4DirectCall_1.c", "direct-from.c")] /\
      generated gs "connector/l/from/0" false = [("bin/z/include/o_seL4RPCCall_0.h", "from.template.h")] /\
      generated gs "connector/l/to/0" true = [("bin/y/i_seL4RPCCall_0.c", "to.template.c")] /\
      generated gs "component/d" true = [] /\ NoDup (outputs gs)
  | Err _ => False
  end.
Proof.
  assert (L : legal good) by (apply legalb_ok; vm_compute; reflexivity).
  assert (U : forall c, In c (s_conns good) -> no_underscore (k_name (c_type c))) by (intros c [<-|[<-|[]]]; vm_compute; intuition discriminate).
  split; [exact L|]. split; [exact U|]. split; [split; [right; right; left; reflexivity|reflexivity]|].
  destruct (files "bin" good) as [gs|] eqn:F; [|vm_compute in F; discriminate].
  assert (G : gs = match files "bin" good with Ok gs => gs | Err _ => [] end) by now rewrite F. split; [|split; [|split; [|split]]].
  1-4: rewrite G; vm_compute; reflexivity.
  apply (C117_distinct_partial "bin" good); auto.
  - intros i (I & _). cbn [good s_insts In] in I. intuition subst; reflexivity.
  - intros i c c' e e' (I & _) E. cbn [good s_insts In] in I. intuition subst; discriminate.
Qed.
Example C117_cakeml_met : legal cake /\ i_env (nth 1 (s_insts cake) (mk "" "")) = "cakeml".
Proof. split; [apply legalb_ok; vm_compute; reflexivity|reflexivity]. Qed.
Example C117_unknown_met : files "bin" (mk_sys [mk_inst "b" "T" false "b" "rust" false false false false [] []] []) = Err TemplateError.
Proof. reflexivity. Qed.
Example C118_met : legal good /\ clear good /\ proper good /\ tables_ok good good_tables /\
  match copies good good_tables with
  | Ok cs => definitions cs "g" "camkes connection k_run" = [("y", "r_run")] /\ definitions cs "h" "camkes connection k_run" = []
  | Err _ => False
  end /\ linked good "g" = true /\ linked good "h" = false /\ relocatable good (mk "x" "g") = true /\ groups good = ["g"; "h"].
Proof.
  split; [apply legalb_ok; vm_compute; reflexivity|]. split; [apply clearb_ok; vm_compute; reflexivity|].
  split; [apply properb_ok; vm_compute; reflexivity|]. split; [apply tablesb_ok; vm_compute; reflexivity|].
  vm_compute. repeat split; reflexivity.
Qed.
