(** C88: the value of an attribute in C is the value that was set.
    C89: the struct types of attributes are defined in C as they were declared. *)
From Coq Require Import List String Ascii Bool NArith.
From Verif Require Import Prelude AttrC_Model AttrC_Spec AttrC_Proofs AttrC_Proofs2.
Import ListNotations.
Open Scope string_scope.
Open Scope list_scope.

(** The example of the manual (docs/index.md:901-929), and a nested one. *)
Definition client_config : ctype :=
  Struct "client_config" [("name", false, Named "string"); ("age", false, Named "int")].
Definition zed : value := VDict [("name", VStr "Zed"); ("age", VLit "39")].
Definition crowd : ctype := Struct "crowd" [("people", true, client_config); ("b", true, Named "int")].
Definition two : value :=
  VDict [("b", VList [VLit "3"; VLit "-4"]); ("people", VList [zed; zed])].

(** C88.  Read as a C initialiser, the text generated for the value of an attribute
    is that value: strings, numbers, structs field by field, and arrays element by
    element, to any depth.  Missing: strings with a backslash, a newline or a quote,
    see [C88_string_refuted]. *)
Theorem C88_value_partial : forall arr t v c,
  stands_for_attr arr t v c -> plain c ->
  exists s, show_attribute_value t v = Ok s /\ c_read s = Some c.
Proof. exact show_reads. Qed.
Print Assumptions C88_value_partial.

Example C88_value_ex :
  let person := CBraces [(Some "name", CStr "Zed"); (Some "age", CWord "39")] in
  let c := CBraces [(Some "people", CBraces [(None, person); (None, person)]);
                    (Some "b", CBraces [(None, CWord "3"); (None, CWord "-4")])] in
  stands_for_attr false crowd two c /\
  match show_attribute_value crowd two with Ok s => c_read s = Some c | Err _ => False end.
Proof.
  split; [|vm_compute; reflexivity].
  repeat first [apply sf_single | apply sf_struct | apply sf_array | apply sf_nil | apply sf_end
               | apply sf_str | apply sf_lit
               | apply sf_next | (eapply sf_cons; [reflexivity| |]) ].
Qed.

(** C88.  The C type of an attribute is the one that stands for its type. *)
Theorem C88_type : forall t, c_type t (show_type t) /\ forall s, c_type t s -> s = show_type t.
Proof. exact show_type_ok. Qed.
Print Assumptions C88_type.

(** C88.  The declaration in the header and the definition in the source agree in
    type, name, length and value; the length of an array is the number of its
    elements. *)
Theorem C88_declared_partial : forall n arr t v c,
  stands_for_attr arr t v c -> plain c ->
  exists s, header_attribute (n, arr, t) (Some v) =
              Ok (mk_declared (show_type t) n
                    (match c with CBraces items => if arr then Some (N.of_nat (List.length items)) else None
                     | _ => None end) (Some s)) /\
            source_attribute (n, arr, t) (Some v) =
              (d <- header_attribute (n, arr, t) (Some v) ;; Ok (Some d)) /\
            c_read s = Some c.
Proof. exact declared_both. Qed.
Print Assumptions C88_declared_partial.

Example C88_declared_ex :
  match header_attribute ("a", true, Named "string") (Some (VList [VStr "x"; VStr "y"])) with
  | Ok d => d_type d = "char *" /\ d_length d = Some 2%N
  | Err _ => False
  end.
Proof. vm_compute. split; reflexivity. Qed.

(** C88.  An attribute that is not set and is not an array is declared, without a
    value. *)
Theorem C88_unset : forall n t,
  header_attribute (n, false, t) None = Ok (mk_declared (show_type t) n None None) /\
  source_attribute (n, false, t) None = Ok None.
Proof. exact unset_attribute. Qed.
Print Assumptions C88_unset.

(** C88 is false in general: an array attribute that is not set stops the generation
    of the header, whatever its type. *)
Theorem C88_unset_array_refuted : forall n t, header_attribute (n, true, t) None = Err TypeError.
Proof. exact unset_array. Qed.
Print Assumptions C88_unset_array_refuted.

(** C88 is false in general: strings are not escaped.  A backslash and the character
    after it are read as one other character, and with a backslash at the end, or
    with a newline, the text is not an initialiser. *)
Theorem C88_string_refuted :
  (exists s, stands_for_attr false (Named "string") (VStr s) (CStr s) /\
     exists text c, show_attribute_value (Named "string") (VStr s) = Ok text /\
     c_read text = Some (CStr c) /\ c <> s) /\
  (exists s, stands_for_attr false (Named "string") (VStr s) (CStr s) /\
     exists text, show_attribute_value (Named "string") (VStr s) = Ok text /\ c_read text = None) /\
  (exists s, plain_string s = false /\ String.length s = 1 /\
     exists text, show_attribute_value (Named "string") (VStr s) = Ok text /\ c_read text = None).
Proof. exact string_escapes. Qed.
Print Assumptions C88_string_refuted.

(** C89.  The definitions generated are well-formed: no struct is defined twice, and
    the structs that fields are made of are defined before. *)
Theorem C89_well_formed : forall attributes conf defs,
  (forall a n, In a attributes -> part (f_type a) (Named n) ->
     forall s, show_type (Named n) <> ("struct " ++ s)%string) ->
  print_type_definitions attributes conf = Ok defs ->
  well_formed [] defs.
Proof. exact definitions. Qed.
Print Assumptions C89_well_formed.

(** C89.  Each struct used, at any depth, is defined with its fields: types, names
    and which of them are arrays, in order. *)
Theorem C89_all_defined : forall attributes conf defs a m gs,
  (forall b b' m gs gs', In b attributes -> In b' attributes ->
     part (f_type b) (Struct m gs) -> part (f_type b') (Struct m gs') -> gs = gs') ->
  print_type_definitions attributes conf = Ok defs ->
  In a attributes -> part (f_type a) (Struct m gs) ->
  exists l, In (m, l) defs /\ map printed l = map signature gs.
Proof. exact all_defined. Qed.
Print Assumptions C89_all_defined.

(** C89.  If every value of a struct gives an array field the same number of
    elements, then this is its length in the definition.  Missing: values with
    different numbers, see [C89_first_refuted]. *)
Theorem C89_lengths_partial : forall attributes conf defs m l f k,
  print_type_definitions attributes conf = Ok defs -> In (m, l) defs ->
  (forall a gs v, In a attributes -> uses (f_type a) (f_array a) (get (f_name a) conf) (m, gs, v) ->
     In f gs /\ has_elements v (f_name f) k) ->
  f_array f = true ->
  In (show_type (f_type f), f_name f, Some k) l.
Proof. exact lengths. Qed.
Print Assumptions C89_lengths_partial.

(** C89.  Definitions are generated whenever all attributes are set to values of
    their types and no array has structs that contain structs as elements.  Missing:
    see [C89_nested_refuted] and [C89_unset_refuted]. *)
Theorem C89_generated_partial : forall attributes conf,
  (forall a, In a attributes -> exists v c,
     get (f_name a) conf = Some v /\ stands_for_attr (f_array a) (f_type a) v c /\
     flat_arrays (f_array a) (f_type a)) ->
  exists defs, print_type_definitions attributes conf = Ok defs.
Proof. exact definitions_exist. Qed.
Print Assumptions C89_generated_partial.

Example C89_ex :
  print_type_definitions [("crowd", false, crowd); ("boss", false, client_config)]
    [("crowd", two); ("boss", zed)] =
  Ok [("client_config", [("char *", "name", None); ("int", "age", None)]);
      ("crowd", [("struct client_config", "people", Some 2%N); ("int", "b", Some 2%N)])] /\
  flat_arrays false crowd.
Proof.
  split; [reflexivity|]. apply flat_single. intros m arr t [E|[E|[]]]; injection E as <- <- <-.
  - apply flat_array. intros m arr t [E|[E|[]]]; injection E as <- <- <-; eexists; reflexivity.
  - apply flat_named.
Qed.

(** C89 is false in general: a struct is defined with the lengths of the first value
    of it.  Another attribute of the same type with a longer array, or an attribute
    that is not set before one that is, gets a definition too short for its value. *)
Theorem C89_first_refuted :
  (exists conf v w, get "x" conf = Some v /\ get "y" conf = Some w /\
     has_elements (Some v) "b" 1 /\ has_elements (Some w) "b" 3 /\
     print_type_definitions [("x", false, cat); ("y", false, cat)] conf =
       Ok [("cat", [("int", "b", Some 1%N)])]) /\
  (exists conf w, get "y" conf = Some w /\ has_elements (Some w) "b" 3 /\
     print_type_definitions [("x", false, cat); ("y", false, cat)] conf =
       Ok [("cat", [("int", "b", Some 0%N)])]).
Proof. exact first_value_only. Qed.
Print Assumptions C89_first_refuted.

(** C89 is false in general: a non-empty array of structs that contain a struct stops
    the generation. *)
Theorem C89_nested_refuted : forall name x xs,
  print_type_definitions [(name, true, Struct "house" [("pet", false, cat)])] [(name, VList (x :: xs))] =
  Err OtherException.
Proof. exact (fun name x xs => array_of_nested name _ x xs eq_refl). Qed.
Print Assumptions C89_nested_refuted.

(** C89 is false in general: so does an attribute that is not set and whose struct
    contains a struct. *)
Theorem C89_unset_refuted : forall name,
  print_type_definitions [(name, false, Struct "house" [("pet", false, cat)])] [] = Err OtherException.
Proof. exact unset_nested. Qed.
Print Assumptions C89_unset_refuted.
