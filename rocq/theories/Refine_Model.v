(** Model of the parts of the generated theory CDL_Refine that are computed from the assembly and from the
    capDL objects (camkes/templates/cdl-refine.thy), with the group labels of the theory Arch_Spec
    (camkes/templates/arch-definitions.thy) and the allocation of the objects they speak of.
    Not modelled: the proofs and the fixed text of the theories; the sizes and numbers the kernel gives to
    objects.  The functions RangeMap and FastMap of Isabelle and the constants of the theories imported are
    outside the repository; what is said of them is said where they are used. *)
From Coq Require Import List String Ascii Bool NArith.
From Verif Require Import Prelude Labels_Model Isabelle_Model Threads_Model.
Import ListNotations.
Open Scope string_scope. Open Scope list_scope.

(** An object of the specification: its name, the binary logarithm of its size if it has one, and whether it
    is an interrupt or an ASID pool (Context.py:268-269). *)
Inductive kind := IRQ (number : N) | ASIDPool (asid_high : option N) | Other.
Record obj := mk_obj { o_name : string; o_bits : option N; o_kind : kind }.

(** obj_space.labels, a dictionary of the sets of objects with the same label, kept by the allocator of
    the capdl library: every object allocated with a label is added to the set of this label. *)
Definition add_label (d : dict string (list obj)) (x : obj * string) : dict string (list obj) :=
  dset d (snd x) (match dget d (snd x) with Some os => os | None => [] end ++ [fst x]).
Definition labels_of (allocated : list (obj * string)) : dict string (list obj) := fold_left add_label allocated [].
(** Context.py:617-621 [object_label_mapping] *)
Definition object_label_mapping (d : dict string (list obj)) : list (obj * string) :=
  flat_map (fun x => map (fun o => (o, fst x)) (snd x)) d.

(** group_labels.get(label, label) *)
Definition group_of (m : dict string string) (l : string) : string := match dget m l with Some g => g | None => l end.

(** sorted(..., key=lambda('x: x[0].name')) *)
Fixpoint insert_obj (x : obj * string) (l : list (obj * string)) : list (obj * string) :=
  match l with
  | [] => [x]
  | y :: l' => if String.leb (o_name (fst x)) (o_name (fst y)) then x :: l else y :: insert_obj x l'
  end.
Definition sort_objs (l : list (obj * string)) : list (obj * string) := fold_right insert_obj [] l.

(** cdl-refine.thy:217-226 and 236-238: the name of the constant, the size and the label of every object.
    The ML code then sorts by the values of the constants. *)
Definition obj_labels (m : dict string string) (d : dict string (list obj)) : res (list (string * N * string)) :=
  mapM (fun x =>
    i <- isabelle_ident (o_name (fst x)) ;;
    Ok ((i ++ "_id")%string, match o_bits (fst x) with Some b => b | None => 0%N end, group_of m (snd x)))
    (filter (fun x => negb (String.prefix "root_untyped_" (o_name (fst x)))) (sort_objs (object_label_mapping d))).

(** cdl-refine.thy:368-382: the map of ASIDs to labels; of two entries for the same the later counts. *)
Definition asids (d : dict string (list obj)) : dict N string :=
  fold_left (fun r x => match o_kind (fst x) with ASIDPool (Some h) => dset r h (snd x) | _ => r end)
    (object_label_mapping d) [].
(** cdl-refine.thy:404-431: the entries of the map of interrupts to labels, before they are sorted. *)
Definition irqs (m : dict string string) (d : dict string (list obj)) : list (N * string) :=
  flat_map (fun x => match o_kind (fst x) with IRQ n => [(n, group_of m (snd x))] | _ => [] end)
    (object_label_mapping d).

(** sorted(group_labels.items()) *)
Fixpoint insert_item (x : string * string) (l : list (string * string)) : list (string * string) :=
  match l with
  | [] => [x]
  | y :: l' => if String.leb (fst x) (fst y) then x :: l else y :: insert_item x l'
  end.
(** arch-definitions.thy:309-314: the field group_labels of the composition *)
Definition arch_group_labels (m : dict string string) : list (string * string) := fold_right insert_item [] m.
(** get_group_label of the theory Types_CAMKES, which is not in the repository: the group found in the list,
    or else the label itself *)
Definition get_group_label (gl : list (string * string)) (l : string) : string :=
  match find (fun x => String.eqb (fst x) l) gl with Some (_, g) => g | None => l end.
(** cdl-refine.thy:118-123: what the theory claims of the groups of instances and connections *)
Definition lookups (m : dict string string) (names : list string) : list (string * string) :=
  map (fun x => (x, group_of m x)) names.

(** cdl-refine.thy:125-146 [policy_extra]: the two sets that the theory claims to be equal.  The first is the
    image of the set in arch-definitions.thy:428. *)
Definition edge := (string * string * string)%type.
Definition extra_left (m : dict string string) (extra : list edge) : list edge :=
  map (fun '(s, a, o) => (get_group_label (arch_group_labels m) s, a, get_group_label (arch_group_labels m) o)) extra.
Definition extra_right (extra : list edge) : list edge := extra.

(** An instance: name, address space and integrity label; is it hardware, does it have a thread of control? *)
Record rinst := mk_rinst { ri : linst; ri_hardware : bool; ri_control : bool }.

(** __main__.py:256-268: the CNode and the page directory of every address space, with their labels *)
Fixpoint space_objs (seen : list string) (l : list rinst) : list (obj * string) :=
  match l with
  | [] => []
  | i :: l =>
    let key := li_space (ri i) in
    if ri_hardware i || memb key seen then space_objs seen l
    else (mk_obj (key ++ "_cnode")%string None Other, key) :: (mk_obj (key ++ "_group_bin_pd")%string None Other, key) ::
         space_objs (key :: seen) l
  end.
(** component.common.c:460 or 548 with Context.py:60-65: the thread control blocks of the control threads.  Their sizes,
    like those above, are those of the kernel objects; here they are left out. *)
Definition tcb_objs (l : list rinst) : list (obj * string) :=
  flat_map (fun i => if ri_hardware i then [] else
    [(mk_obj (li_name (ri i) ++ "_" ++ control_name (li_name (ri i)) ++ "_tcb")%string None Other, li_name (ri i))]) l.

(** cdl-refine.thy:301-313: the labels that the theory claims for the CNode, the control thread and the page
    directory of every component with a thread of control *)
Definition sanity1 (m : dict string string) (i : rinst) : res (list (string * string)) :=
  if ri_control i then
    let name := li_name (ri i) in
    let group := group_of m name in
    c <- isabelle_ident group ;;
    t <- isabelle_ident (name ++ "_" ++ replace "." "_" name ++ "_0_control_tcb_id")%string ;;
    p <- isabelle_ident (group ++ "_group_bin_pd_id")%string ;;
    Ok [((c ++ "_cnode_id")%string, group); (t, group); (p, group)]
  else Ok [].
Definition sanity (m : dict string string) (l : list rinst) : res (list (string * string)) :=
  r <- mapM (sanity1 m) l ;; Ok (List.concat r).
