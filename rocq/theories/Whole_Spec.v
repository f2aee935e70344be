(** What the parsed system should be, said in terms of the specification as written:
    paths through its hierarchy, exports and references. *)
From Coq Require Import List String Bool NArith.
From Coq Require Import Relation_Operators Permutation.
From Verif Require Import Prelude DecStr Whole_Model.
From Verif Require Flatten_Model AttrRef_Model Merge_Model Merge_Spec Flatten_Spec AttrRef_Spec.
Import ListNotations.
Open Scope string_scope.
Open Scope list_scope.

(** A path is the list of instance names that leads from the assembly to an instance;
    its name after parsing has dots between them. *)
Notation path := (list string).
Notation dotted := Flatten_Spec.dotted.
Notation dot_free := Flatten_Spec.dot_free.

(** Instance [i] is declared in block [b], in its group number [k] or in none. *)
Definition member (b : block) (i : winst) (g : option nat) : Prop :=
  match g with
  | None => In i (bl_insts b)
  | Some k => exists gr, nth_error (bl_groups b) k = Some gr /\ In i (wg_insts gr)
  end.
(** [place S p b]: block [b] is the inside of what is at path [p]; the assembly blocks
    together are at the empty path. *)
Inductive place (S : list item) : path -> block -> Prop :=
| pl_root b : In (IAsm b) S -> place S [] b
| pl_below p b i g c : place S p b -> member b i g ->
    nth_error (components S) (w_type i) = Some c -> place S (p ++ [w_name i]) c.

(** * Well-scoped specifications (stages 3 and 4) *)
Definition loose_names (b : block) : list string := map w_name (bl_insts b).
Definition grouped_names (b : block) : list string :=
  flat_map (fun g => map w_name (wg_insts g)) (bl_groups b).
Definition group_names (b : block) : list string :=
  flat_map (fun g => match wg_name g with Some n => [n] | None => [] end) (bl_groups b).
Definition id_ok (s : string) : Prop := dot_free s = true.
Definition not_made_up (s : string) : Prop := forall n, s <> ("unamed_group_" ++ dec n)%string.
(** The blocks that make one composition: all assemblies, or one component. *)
Inductive composition (S : list item) : list block -> Prop :=
| co_root : composition S (assemblies S)
| co_comp b : In b (components S) -> composition S [b].
Record scoped (S : list item) : Prop := {
  sc_insts : forall bs, composition S bs ->
    NoDup (flat_map (fun b => loose_names b ++ grouped_names b) bs);
  sc_spaces : forall bs, composition S bs ->
    NoDup (flat_map (fun b => loose_names b ++ group_names b) bs);
  sc_conns : forall bs, composition S bs ->
    NoDup (flat_map (fun b => map Flatten_Model.c_name (bl_conns b)) bs);
  sc_attrs : forall b, In b (components S) -> NoDup (map fst (bl_attrs b));
  sc_ids : forall bs b, composition S bs -> In b bs ->
    Forall id_ok (loose_names b ++ grouped_names b ++ group_names b) /\
    Forall not_made_up (loose_names b ++ group_names b) /\
    Forall (fun c => id_ok (Flatten_Model.c_name c)) (bl_conns b) /\
    Forall (fun s => id_ok (AttrRef_Model.s_inst s) /\ id_ok (AttrRef_Model.s_attr s)) (bl_settings b) /\
    Forall (fun a => id_ok (fst a)) (bl_attrs b);
  sc_fresh : forall bs b i, composition S bs -> In b bs -> In i (bl_insts b) -> w_space i = w_name i }.
(** Names in connections and exports are those of instances of the composition;
    assemblies export nothing, and their connections are between instances. *)
Definition names_at (S : list item) (p : path) (n : string) : Prop :=
  exists b i g, place S p b /\ member b i g /\ w_name i = n.
Record resolved (S : list item) : Prop := {
  re_exports : forall p b x, place S p b -> In x (bl_exports b) ->
    p <> [] /\ names_at S p (Flatten_Model.x_inst x) /\ id_ok (Flatten_Model.x_iface x);
  re_ends : forall p b k e, place S p b -> In k (bl_conns b) ->
    In e (Flatten_Model.c_from k) \/ In e (Flatten_Model.c_to k) ->
    id_ok (Flatten_Model.e_iface e) /\
    match Flatten_Model.e_inst e with
    | None => p <> []
    | Some n => names_at S p n
    end }.

(** * Connections *)
(** Interface [i] of the instance at path [p] is an interface of its own, or the last
    export for it makes it stand for one of an instance inside. *)
Inductive stands_for (S : list item) : path * string -> path * string -> Prop :=
| sf_own p i b : p <> [] -> place S p b -> Flatten_Spec.last_export (bl_exports b) i = None ->
    stands_for S (p, i) (p, i)
| sf_export p i b x q : p <> [] -> place S p b -> Flatten_Spec.last_export (bl_exports b) i = Some x ->
    stands_for S (p ++ [Flatten_Model.x_inst x], Flatten_Model.x_iface x) q ->
    stands_for S (p, i) q.
(** [means S p e q i]: the end [e] of a connection written in the composition at path
    [p] is interface [i] of the instance at path [q]. *)
Definition means (S : list item) (p : path) (e : Flatten_Model.cend) (q : path) (i : string) : Prop :=
  stands_for S (Flatten_Spec.end_path p e, Flatten_Model.e_iface e) (q, i).
(** A connection [k] written in the composition at path [p]. *)
Definition written (S : list item) (pk : path * Flatten_Model.conn) : Prop :=
  exists b, place S (fst pk) b /\ In (snd pk) (bl_conns b).
Definition from_of (S : list item) (pk : path * Flatten_Model.conn) (q : path) (i : string) : Prop :=
  exists e, In e (Flatten_Model.c_from (snd pk)) /\ means S (fst pk) e q i.
Definition to_of (S : list item) (pk : path * Flatten_Model.conn) (q : path) (i : string) : Prop :=
  exists e, In e (Flatten_Model.c_to (snd pk)) /\ means S (fst pk) e q i.
(** Two connections with an interface in common, on the same side; and chains of such
    connections *)
Definition share (S : list item) (a b : path * Flatten_Model.conn) : Prop :=
  exists q i, (from_of S a q i /\ from_of S b q i) \/ (to_of S a q i /\ to_of S b q i).
Definition chained (S : list item) : path * Flatten_Model.conn -> path * Flatten_Model.conn -> Prop :=
  clos_refl_trans_1n _ (fun a b => written S a /\ written S b /\ share S a b).
(** How an interface is named in the parsed system *)
Definition interface_name (q : path) (i : string) : string := dotted (q ++ [i]).

(** The name of a connection in the parsed system before merging *)
Definition full_name (w : path * Flatten_Model.conn) : string :=
  dotted (fst w ++ [Flatten_Model.c_name (snd w)]).
(** The connection [d] of the parsed system comes from those in [ws]. *)
Record comes_from (S : list item) (ws : list (path * Flatten_Model.conn)) (d : Merge_Model.mconn) : Prop := {
  cf_some : ws <> [];
  cf_type : forall w, In w ws -> Flatten_Model.c_type (snd w) = Merge_Model.m_type d;
  cf_from : forall e, In e (Merge_Model.m_from d) <-> exists w q i, In w ws /\ from_of S w q i /\ e = interface_name q i;
  cf_to : forall e, In e (Merge_Model.m_to d) <-> exists w q i, In w ws /\ to_of S w q i /\ e = interface_name q i;
  cf_chain : forall w w', In w ws -> In w' ws -> chained S w w';
  cf_name : exists l, Permutation l (map full_name ws) /\ Merge_Spec.sorted l /\
    Merge_Model.m_name d = String.concat "." l }.

(** * Attributes *)
(** Setting [s] written in the configuration at path [p] *)
Definition set_at (S : list item) (q : path) (a : string) (v : AttrRef_Model.sval) (p : path) : Prop :=
  exists b s, place S p b /\ In s (bl_settings b) /\ q = p ++ [AttrRef_Model.s_inst s] /\
    AttrRef_Model.s_attr s = a /\ AttrRef_Model.s_val s = v.
(** The default of attribute [a] of the instance at path [q] *)
Definition default (S : list item) (q : path) (a : string) (d : AttrRef_Model.value) : Prop :=
  q <> [] /\ exists b, place S q b /\ In (a, Some d) (bl_attrs b).
(** The keys of a lookup in a dictionary, if there is one *)
Definition keys_of (lk : option (list AttrRef_Model.key)) : list AttrRef_Model.key :=
  match lk with Some ks => ks | None => [] end.
(** Attribute [a] of the instance at path [q] has value [v].  A reference is a path of
    names from where it is written, and the name of an attribute. *)
Inductive has_value (S : list item) : path -> string -> AttrRef_Model.value -> Prop :=
| hv_set q a v p : set_at S q a (AttrRef_Model.Conc v) p -> has_value S q a v
| hv_ref q a p ns b lk w v : set_at S q a (AttrRef_Model.Ref (dotted (ns ++ [b])) lk) p ->
    Forall id_ok (ns ++ [b]) -> has_value S (p ++ ns) b w -> AttrRef_Spec.lookup w (keys_of lk) v ->
    has_value S q a v
| hv_own q a p ns b lk d : set_at S q a (AttrRef_Model.Ref (dotted (ns ++ [b])) lk) p ->
    Forall id_ok (ns ++ [b]) -> (forall w p', ~ set_at S (p ++ ns) b w p') ->
    (forall d', ~ default S (p ++ ns) b d') -> default S q a d -> has_value S q a d
| hv_default q a d : (forall w p, ~ set_at S q a w p) -> default S q a d -> has_value S q a d.
(** References are paths of identifiers, and those with a lookup in a dictionary are to
    attributes that are set to a dictionary where they are set. *)
Definition plain_refs (S : list item) : Prop :=
  forall q a p r lk, set_at S q a (AttrRef_Model.Ref r lk) p ->
    exists ns b, r = dotted (ns ++ [b]) /\ Forall id_ok (ns ++ [b]) /\ p ++ ns <> [] /\
      (lk <> None -> exists l p', set_at S (p ++ ns) b (AttrRef_Model.Conc (AttrRef_Model.VDict l)) p').

(** * Specifications that are accepted *)
(** Interface [i] of the instance at path [q] is an end of connection [w]: a from end
    ([true]) or a to end. *)
Definition end_of (S : list item) (w : path * Flatten_Model.conn) (k : bool * path * string) : Prop :=
  let '(side, q, i) := k in if side then from_of S w q i else to_of S w q i.
Record acceptable (S : list item) : Prop := {
  (* there is an assembly, and the types of instances come before *)
  ac_assembly : assemblies S <> [];
  ac_before : forall k b i g, nth_error (components S) k = Some b -> member b i g -> w_type i < k;
  ac_types : forall b i g, In b (assemblies S) -> member b i g -> w_type i < List.length (components S);
  (* instances and connections of one composition have different names *)
  ac_names : forall p b b' i g k, place S p b -> place S p b' -> member b i g -> In k (bl_conns b') ->
    w_name i <> Flatten_Model.c_name k;
  (* every attribute is set at most once, and references come to an end *)
  ac_once : forall bs, composition S bs ->
    NoDup (flat_map (fun b => map (fun s => (AttrRef_Model.s_inst s, AttrRef_Model.s_attr s)) (bl_settings b)) bs);
  ac_values : forall q a v p, set_at S q a v p -> exists w, has_value S q a w;
  (* at most one end of a connection is used by others, which have the same type *)
  ac_shared : forall w w1 w2 k1 k2, written S w -> written S w1 -> written S w2 -> w1 <> w -> w2 <> w ->
    end_of S w k1 -> end_of S w1 k1 -> end_of S w k2 -> end_of S w2 k2 -> k1 = k2;
  ac_type : forall w w', written S w -> written S w' -> share S w w' ->
    Flatten_Model.c_type (snd w) = Flatten_Model.c_type (snd w') }.
