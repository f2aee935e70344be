(** The properties of the runner: C46 (address spaces) and C47 (argument lists). *)
From Coq Require Import List Bool Arith NArith ZArith String Ascii.
From Verif Require Import Prelude DecStr Chars Context_Model Runner_Model Runner_Spec Runner_Proofs.
Import ListNotations.
Open Scope string_scope.
Open Scope list_scope.

(** One capability space, one page directory and one address space per address space of the
    software instances, and no others. *)
Theorem C46_exactly_one : forall pd a, let s := setup pd a in
  NoDup (dkeys (rs_cspaces s)) /\ dkeys (rs_pds s) = dkeys (rs_cspaces s) /\ dkeys (rs_addr s) = dkeys (rs_cspaces s) /\
  forall k, In k (dkeys (rs_cspaces s)) <-> is_space a k.
Proof. exact setup_keys_lemma. Qed.
Print Assumptions C46_exactly_one.

(** Different address spaces get different kernel objects. *)
Theorem C46_distinct : forall pd a, let s := setup pd a in forall k k', k <> k' -> is_space a k -> is_space a k' ->
  exists c c' p p' n n', dget (rs_cspaces s) k = Some c /\ dget (rs_cspaces s) k' = Some c' /\
    dget (rs_pds s) k = Some p /\ dget (rs_pds s) k' = Some p' /\
    dget (rs_addr s) k = Some (n, p) /\ dget (rs_addr s) k' = Some (n', p') /\
    NoDup [c; c'; p; p'].
Proof. exact setup_distinct_lemma. Qed.
Print Assumptions C46_distinct.

(** The objects are a CNode and a page directory labelled with the address space. *)
Theorem C46_objects : forall pd a, let s := setup pd a in forall k c,
  (dget (rs_cspaces s) k = Some c -> nth_error (rs_objs s) c = Some (mk_kobj (k ++ "_cnode")%string "seL4_CapTableObject" k)) /\
  (dget (rs_pds s) k = Some c -> nth_error (rs_objs s) c = Some (mk_kobj (k ++ "_group_bin_pd")%string pd k)).
Proof. exact setup_objects_lemma. Qed.
Print Assumptions C46_objects.

(** Whatever is rendered for an instance is rendered with the spaces of its address space. *)
Theorem C46_rendered_with : forall pyint pd a item out template c i,
  render_item pyint a (Some (setup pd a)) item out template = Ok c ->
  entity_inst (ca_entity c) = Some i -> in_space i <> "" ->
  exists cs ad p, ca_cspace c = Some cs /\ ca_addr c = Some ad /\ ca_pd c = Some p /\
    dget (rs_cspaces (setup pd a)) (in_space i) = Some cs /\
    dget (rs_addr (setup pd a)) (in_space i) = Some ad /\ dget (rs_pds (setup pd a)) (in_space i) = Some p /\
    snd ad = p.
Proof. exact render_spaces_lemma. Qed.
Print Assumptions C46_rendered_with.

(** An item of a software address space is always rendered. *)
Theorem C46_rendered : forall pyint pd a item out template e i key, resolve pyint a item = Ok (e, key) ->
  entity_inst e = Some i -> is_space a (in_space i) ->
  exists c, render_item pyint a (Some (setup pd a)) item out template = Ok c.
Proof. exact render_software_lemma. Qed.
Print Assumptions C46_rendered.

(** The name of an address space in the address-space allocator, and its page directory. *)
Theorem C46_space_name : forall pd a k n p, dget (rs_addr (setup pd a)) k = Some (n, p) ->
  mangled (k ++ "_group_bin")%string n /\ dget (rs_pds (setup pd a)) k = Some p.
Proof. exact space_name_lemma. Qed.
Print Assumptions C46_space_name.

(** Two address spaces can be given the same name in the address-space allocator. *)
Theorem C46_names_refuted : exists pd a k k' n p p', is_space a k /\ is_space a k' /\ k <> k' /\
  dget (rs_addr (setup pd a)) k = Some (n, p) /\ dget (rs_addr (setup pd a)) k' = Some (n, p').
Proof. exact addr_name_refuted_lemma. Qed.
Print Assumptions C46_names_refuted.

Definition demo : asm :=
  let a := mk_inst "a" false "g" in let b := mk_inst "b" false "g" in
  let h := mk_inst "dev" true "dev" in let c := mk_inst "x.y" false "x.y" in
  mk_asm [a; h; c; b] [mk_conn "conn" [b] [a; c]].
Example C46_example :
  dkeys (rs_cspaces (setup "PD" demo)) = ["g"; "x.y"] /\
  is_space demo "g" /\ is_space demo "x.y" /\ ~ is_space demo "dev" /\
  (exists c, render_item int0 demo (Some (setup "PD" demo)) "component/b" "o" "t" = Ok c /\ ca_cspace c = Some 0 /\ ca_pd c = Some 1) /\
  render_item int0 demo (Some (setup "PD" demo)) "component/dev" "o" "t" = Err KeyError.
Proof.
  split; [reflexivity|]. split; [exists (mk_inst "a" false "g"); simpl; tauto|].
  split; [exists (mk_inst "x.y" false "x.y"); simpl; tauto|]. split.
  - intros (i & Hi & Hh & Hs). simpl in Hi. destruct Hi as [<-|[<-|[<-|[<-|[]]]]]; simpl in *; discriminate.
  - split; [eexists; split; [vm_compute; reflexivity|split; reflexivity]|vm_compute; reflexivity].
Qed.

(** With as many outputs as items as templates, each output comes from its own item and
    template. *)
Theorem C47_lined_up_partial : forall pyint a rs outs items templates calls,
  List.length outs = List.length items -> List.length items = List.length templates ->
  main pyint a rs outs items templates = Ok calls -> lined_up pyint a outs items templates calls.
Proof. exact lined_up_lemma. Qed.
Print Assumptions C47_lined_up_partial.

(** An item names the instance, or the connection end, it says. *)
Theorem C47_component_item : forall pyint a i, NoDup (map in_name (as_insts a)) -> In i (as_insts a) -> no_slash (in_name i) ->
  resolve pyint a ("component/" ++ in_name i)%string = Ok (EInst i, Some (in_space i)).
Proof. exact resolve_component_lemma. Qed.
Print Assumptions C47_component_item.
Theorem C47_connector_item : forall pyint a c (to : bool) n i idx, NoDup (map cn_name (as_conns a)) -> In c (as_conns a) ->
  no_slash (cn_name c) -> no_slash idx -> pyint idx = Ok (Z.of_nat n) ->
  nth_error (if to then cn_to c else cn_from c) n = Some i ->
  resolve pyint a ("connector/" ++ cn_name c ++ (if to then "/to/" else "/from/") ++ idx)%string =
    Ok (EEnd c to i, Some (in_space i)).
Proof. exact resolve_connector_lemma. Qed.
Print Assumptions C47_connector_item.

(** Arguments are rejected when the number of items differs from both other numbers. *)
Theorem C47_rejected_partial : forall pyint a rs outs items templates,
  List.length outs <> List.length items -> List.length items <> List.length templates ->
  main pyint a rs outs items templates = Err OtherException.
Proof. exact rejected_lemma. Qed.
Print Assumptions C47_rejected_partial.

(** A mismatch can be accepted, and then a requested output is silently not produced. *)
Theorem C47_mismatch_refuted : exists pyint a rs outs items templates calls,
  List.length items <> List.length templates /\
  main pyint a rs outs items templates = Ok calls /\
  exists out, In out outs /\ forall c, In c calls -> ca_out c <> out.
Proof. exact mismatch_refuted_lemma. Qed.
Print Assumptions C47_mismatch_refuted.

(** The same output file can be given twice. *)
Theorem C47_duplicates_refuted : exists pyint a rs outs items templates calls,
  ~ NoDup outs /\ main pyint a rs outs items templates = Ok calls.
Proof. exact duplicate_refuted_lemma. Qed.
Print Assumptions C47_duplicates_refuted.

Example C47_example : exists calls,
  main int0 demo (Some (setup "PD" demo)) ["o1"; "o2"; "o3"] ["component/a"; "connector/conn/to/0"; "assembly"] ["t1"; "t2"; "t3"] = Ok calls /\
  map ca_out calls = ["o1"; "o2"; "o3"] /\ map ca_template calls = ["t1"; "t2"; "t3"] /\
  map ca_cspace calls = [Some 0; Some 0; None].
Proof. eexists. split; [vm_compute; reflexivity|]. split; [reflexivity|]. split; reflexivity. Qed.
