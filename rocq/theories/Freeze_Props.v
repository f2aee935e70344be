(** C12 C13 C14 C49 C55 C56: what is accepted when a specification is
    frozen. *)
From Coq Require Import List Bool String ZArith.
From Verif Require Import Prelude Freeze_Model Freeze_Spec Freeze_Proofs
  Freeze_Proofs2 Freeze_Proofs3.
Import ListNotations.
Open Scope string_scope.
Open Scope list_scope.

(** ** C12: the composition of an assembly *)
Theorem C12_connected : forall insts conns,
  check_composition insts conns = Ok tt <-> well_connected insts conns.
Proof. exact composition_ok. Qed.
Print Assumptions C12_connected.

(** Anything else is rejected with a proper error, as long as the connections
    only use interfaces of the instances. *)
Theorem C12_rejects : forall insts conns,
  ends_exist insts conns -> ~ well_connected insts conns ->
  check_composition insts conns = Err ASTError.
Proof. exact composition_rejects. Qed.
Print Assumptions C12_rejects.

(** Two instances, an optional interface left alone, a mandatory one
    connected; then twice connected, then not at all. *)
Example C12_ex_ok :
  check_composition [ex_client; ex_server] [ex_conn] = Ok tt.
Proof. vm_compute. reflexivity. Qed.
Example C12_ex_twice :
  check_composition [ex_client; ex_server] [ex_conn; ex_conn] = Err ASTError.
Proof. vm_compute. reflexivity. Qed.
Example C12_ex_none :
  check_composition [ex_client; ex_server] [] = Err ASTError.
Proof. vm_compute. reflexivity. Qed.

(** ** C13: one connection *)
Theorem C13_typed : forall c,
  ct_attrs (cn_type c) <> None ->
  (snd (freeze_connection false c) = Ok tt <-> well_typed_connection c).
Proof. exact connection_ok. Qed.
Print Assumptions C13_typed.

Theorem C13_rejects : forall c,
  ct_attrs (cn_type c) <> None ->
  (forall e, In e (cn_from c ++ cn_to c) -> ce_inst e <> None) ->
  ~ well_typed_connection c ->
  snd (freeze_connection false c) = Err ASTError.
Proof. exact connection_rejects. Qed.
Print Assumptions C13_rejects.

Example C13_ex_ok : snd (freeze_connection false ex_conn) = Ok tt.
Proof. vm_compute. reflexivity. Qed.
Example C13_ex_bad :
  snd (freeze_connection false
    (Connection ex_rpc [CEnd (Some ex_server) ex_in]
       [CEnd (Some ex_client) ex_out] None)) = Err ASTError.
Proof. vm_compute. reflexivity. Qed.

(** ** C14: the effective configuration *)
Theorem C14_lookup : forall (V : Type) insts
    (ss : list (string * string * V)) m i a v,
  NoDup (map fst insts) ->
  (forall i l, In (i, l) insts -> NoDup (map fst l)) ->
  freeze_configuration (Some insts) ss = Ok m ->
  (value_at m i a = Some v <->
   is_set ss i a v \/
   ((forall w, ~ is_set ss i a w) /\ has_default insts i a v)).
Proof. exact @configuration_lookup. Qed.
Print Assumptions C14_lookup.

(** Outside an assembly there are only the explicit settings. *)
Theorem C14_component : forall (V : Type) (ss : list (string * string * V))
    m i a v,
  freeze_configuration None ss = Ok m ->
  (value_at m i a = Some v <-> is_set ss i a v).
Proof. exact @configuration_plain. Qed.
Print Assumptions C14_component.

Theorem C14_duplicates : forall (V : Type) insts
    (ss : list (string * string * V)),
  (NoDup (map fst ss) -> exists m, freeze_configuration insts ss = Ok m) /\
  (~ NoDup (map fst ss) -> freeze_configuration insts ss = Err ASTError).
Proof. exact @configuration_duplicates. Qed.
Print Assumptions C14_duplicates.

Example C14_ex :
  match freeze_configuration
    (Some [("c", [("prio", Some 7%Z); ("size", None); ("base", Some 1%Z)])])
    [("c", "prio", 9%Z); ("d", "prio", 3%Z)] with
  | Ok m => value_at m "c" "prio" = Some 9%Z /\ value_at m "c" "base" = Some 1%Z /\
            value_at m "c" "size" = None /\ value_at m "d" "prio" = Some 3%Z
  | Err _ => False
  end.
Proof. vm_compute. repeat split. Qed.

(** ** C49: types of values *)

(** "Every setting of a declared attribute has a value of the declared type,
    with struct defaults filled in": holds for the values the language can
    write, the type being understood without ranges, and for explicit
    settings.  [ss'] are the settings after the check. *)
Theorem C49_settings_partial : forall insts ss ss',
  NoDup (map fst insts) ->
  (forall i l, In (i, l) insts ->
     NoDup (map attr_name l) /\ forall x, In x l -> plain_attr x) ->
  (forall i a v, In (i, a, v) ss -> plain v) ->
  check_settings insts ss = Ok ss' ->
  map fst ss' = map fst ss /\
  forall i l x v, In (i, l) insts -> In x l ->
    In (i, attr_name x, v) ss' -> typed x v.
Proof. exact settings_typed. Qed.
Print Assumptions C49_settings_partial.

(** In the effective configuration a value is typed, or it is a default. *)
Theorem C49_effective_partial : forall insts ss m,
  NoDup (map fst insts) ->
  (forall i l, In (i, l) insts ->
     NoDup (map attr_name l) /\ forall x, In x l -> plain_attr x) ->
  (forall i a v, In (i, a, v) ss -> plain v) ->
  freeze_settings insts ss = Ok m ->
  forall i l x v, In (i, l) insts -> In x l ->
    value_at m i (attr_name x) = Some v ->
    typed x v \/
    (attr_default x = Some v /\ forall w, ~ In (i, attr_name x, w) ss).
Proof. exact freeze_settings_typed. Qed.
Print Assumptions C49_effective_partial.

(** Typed values are accepted and left alone. *)
Theorem C49_accepts : forall x v,
  typed x v -> types_compatible x v = Ok (Some v).
Proof. exact complete. Qed.
Print Assumptions C49_accepts.

(** Acceptance fills in the defaults of missing struct fields and changes
    nothing else. *)
Theorem C49_defaults_filled : forall x v v',
  plain_attr x -> plain v -> types_compatible x v = Ok (Some v') ->
  completed x v v'.
Proof. exact completes_all. Qed.
Print Assumptions C49_defaults_filled.

(** Ranges are not checked: a negative number for a uint64_t. *)
Theorem C49_range_refuted : exists insts ss m i x v,
  freeze_settings insts ss = Ok m /\
  (exists l, In (i, l) insts /\ In x l) /\
  x = Attr "size" (ATName "uint64_t") false None /\
  value_at m i (attr_name x) = Some v /\ ~ in_range "uint64_t" v.
Proof. exact c49_range_counterexample. Qed.
Print Assumptions C49_range_refuted.

(** Defaults are never checked: an attribute declared int whose default is a
    string. *)
Theorem C49_default_refuted : exists insts ss m i x v,
  freeze_settings insts ss = Ok m /\
  (exists l, In (i, l) insts /\ In x l) /\
  value_at m i (attr_name x) = Some v /\ plain v /\ ~ typed x v.
Proof. exact c49_default_counterexample. Qed.
Print Assumptions C49_default_refuted.

(** A struct value lacking a field without default is not diagnosed, the
    check crashes. *)
Theorem C49_missing_refuted : exists x v,
  plain_attr x /\ plain v /\ ~ typed x v /\
  types_compatible x v = Err KeyError.
Proof. exact c49_missing_counterexample. Qed.
Print Assumptions C49_missing_refuted.

(** Nested struct in an array, one default filled in. *)
Example C49_ex :
  let x := Attr "regs" (ATStruct [
      Attr "base" (ATName "uint64_t") false None;
      Attr "opts" (ATStruct [Attr "name" (ATName "string") false
                               (Some (VStr "x"))]) false None;
      Attr "irqs" (ATName "int") true (Some (VList []))]) true None in
  types_compatible x
    (VList [VDict [("base", VInt 4096); ("opts", VDict [])]]) =
  Ok (Some (VList [VDict [("base", VInt 4096);
                          ("opts", VDict [("name", VStr "x")]);
                          ("irqs", VList [])]])) /\
  types_compatible x
    (VList [VDict [("base", VStr "oops"); ("opts", VDict [])]]) = Ok None.
Proof. vm_compute. split; reflexivity. Qed.

(** ** C55: a rejected object stays rejected *)

(** False for connections and procedures: they are marked frozen before the
    checks, and a second freeze succeeds silently. *)
Theorem C55_connection_refuted : exists c f e,
  freeze_connection false c = (f, Err e) /\
  snd (freeze_connection f c) = Ok tt.
Proof. exact c55_connection_counterexample. Qed.
Print Assumptions C55_connection_refuted.

Theorem C55_procedure_refuted : exists p f e,
  freeze_procedure false p = (f, Err e) /\
  snd (freeze_procedure f p) = Ok tt.
Proof. exact c55_procedure_counterexample. Qed.
Print Assumptions C55_procedure_refuted.

(** True for methods, and for compositions, which have no flag to consult. *)
Theorem C55_method_partial : forall m f e,
  freeze_method false m = (f, Err e) -> freeze_method f m = (f, Err e).
Proof. exact method_refreeze. Qed.
Print Assumptions C55_method_partial.

(** ** C56: names *)
Theorem C56_method : forall m,
  snd (freeze_method false m) = Ok tt <-> good_method m.
Proof. exact method_freeze_ok. Qed.
Print Assumptions C56_method.

Theorem C56_procedure : forall p,
  snd (freeze_procedure false p) = Ok tt <-> good_procedure p.
Proof. exact procedure_ok. Qed.
Print Assumptions C56_procedure.

Theorem C56_component : forall c,
  snd (freeze_component false c) = Ok tt <-> good_component c.
Proof. exact component_ok. Qed.
Print Assumptions C56_component.

(** No C keyword can be a name: [usable] excludes all of them. *)
Theorem C56_keywords : forall k, In k c11_keywords -> ~ usable k.
Proof. exact keywords_listed. Qed.
Print Assumptions C56_keywords.

(** A struct is accepted, and then frozen, exactly when none of its attributes has a C
    keyword as name. *)
Theorem C56_struct : forall attrs,
  ((forall a, In a attrs -> usable a) <-> freeze_struct false attrs = (true, Ok tt)) /\
  (forall f e, freeze_struct false attrs = (f, Err e) -> freeze_struct f attrs = (f, Err e)) /\
  freeze_struct true attrs = (true, Ok tt).
Proof. exact struct_freeze. Qed.
Print Assumptions C56_struct.

(** The fields of a struct need not be distinct. *)
Theorem C56_struct_refuted : exists attrs,
  snd (freeze_struct false attrs) = Ok tt /\ ~ NoDup attrs.
Proof. exact c56_struct_counterexample. Qed.
Print Assumptions C56_struct_refuted.

(** A hardware component may have binary semaphores, though neither mutexes
    nor semaphores. *)
Theorem C56_hardware_refuted : exists c,
  snd (freeze_component false c) = Ok tt /\ co_hardware c = true /\
  co_binary_semaphores c <> [].
Proof. exact c56_hardware_counterexample. Qed.
Print Assumptions C56_hardware_refuted.

Example C56_ex :
  snd (freeze_procedure false
    (ProcedureNames [("put", ["key"; "val"]); ("get", ["key"])] ["size"]))
    = Ok tt /\
  snd (freeze_procedure false
    (ProcedureNames [("put", ["key"; "key"])] [])) = Err ASTError /\
  snd (freeze_procedure false
    (ProcedureNames [("put", ["int"])] [])) = Err ASTError.
Proof. vm_compute. repeat split. Qed.
