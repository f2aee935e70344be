(** What flattening should produce, said in terms of paths in the hierarchy.
    A path is the list of instance names leading from the assembly down. *)
From Coq Require Import List String Ascii Bool.
From Verif Require Import Prelude Flatten_Model.
Import ListNotations.
Open Scope string_scope.
Open Scope list_scope.

Definition path := list string.

(** The dotted name of a path. *)
Fixpoint dotted (p : path) : string :=
  match p with
  | [] => ""
  | [n] => n
  | n :: p => (n ++ "." ++ dotted p)%string
  end.

(** [at_path root p c]: following the instance names of [p] from [root] leads
    to component [c]. *)
Inductive at_path : comp -> path -> comp -> Prop :=
| at_here c : at_path c [] c
| at_below c i p d : In i (insts_of c) -> at_path (itype i) p d ->
    at_path c (iname i :: p) d.

(** All (path, component) pairs, each composition before the ones inside it. *)
Fixpoint walk (c : comp) : list (path * comp) :=
  let 'Comp l _ _ _ _ := c in
  ([], c) ::
  (fix go (l : list inst) : list (path * comp) :=
     match l with
     | [] => []
     | Inst n _ t :: l => map (fun pc => (n :: fst pc, snd pc)) (walk t) ++ go l
     end) l.

(** Identifiers of the input language: no dots (camkes.g: id). *)
Fixpoint dot_free (s : string) : bool :=
  match s with
  | EmptyString => true
  | String a s => negb (Ascii.eqb a "."%char) && dot_free s
  end.

(** Scoping guarantees (stage 4): in every composition, sibling instances have
    different names; all names are identifiers. *)
Definition wf (root : comp) : Prop :=
  forall p c, at_path root p c ->
    NoDup (map iname (insts_of c)) /\
    Forall (fun i => dot_free (iname i) = true) (insts_of c).
Definition as_ids (root : comp) : Prop :=
  forall p c i, at_path root p c -> In i (insts_of c) -> dot_free (ias i) = true.

(** Name resolution guarantees (stage 4): exports and connection ends mention
    sibling instances; the outermost assembly exports nothing and has no ends
    without an instance. *)
Definition refs_ok (root : comp) : Prop :=
  (forall p c x, at_path root p c -> In x (exports_of c) ->
     p <> [] /\ In (x_inst x) (map iname (insts_of c))) /\
  (forall p c k e, at_path root p c -> In k (conns_of c) ->
     In e (c_from k) \/ In e (c_to k) ->
     match e_inst e with
     | None => p <> []
     | Some n => In n (map iname (insts_of c))
     end).

(** An interface of the component at path [p] that is exported there stands for
    an interface of an inner instance; a later export statement for the same
    interface overrides an earlier one. *)
Fixpoint last_export (l : list export) (iface : string) : option export :=
  match l with
  | [] => None
  | e :: l => match last_export l iface with
              | Some e' => Some e'
              | None => if String.eqb (x_dest e) iface then Some e else None
              end
  end.
Inductive stands_for (root : comp) : path * string -> path * string -> Prop :=
| sf_real p i c : at_path root p c -> last_export (exports_of c) i = None ->
    stands_for root (p, i) (p, i)
| sf_export p i c e q : at_path root p c -> last_export (exports_of c) i = Some e ->
    stands_for root (p ++ [x_inst e], x_iface e) q ->
    stands_for root (p, i) q.

(** Where an end written inside the composition at [p] points to. *)
Definition end_path (p : path) (e : cend) : path :=
  match e_inst e with None => p | Some n => p ++ [n] end.

Definition end_ok (root : comp) (p : path) (e e' : cend) : Prop :=
  exists q i, stands_for root (end_path p e, e_iface e) (q, i) /\
    e' = mk_cend (Some (dotted q)) i.

Definition conn_ok (root : comp) (p : path) (c c' : conn) : Prop :=
  c_name c' = dotted (p ++ [c_name c]) /\ c_type c' = c_type c /\
  Forall2 (end_ok root p) (c_from c) (c_from c') /\
  Forall2 (end_ok root p) (c_to c) (c_to c').

(** The setting written in the configuration at [p]. *)
Definition setting_at (p : path) (s : setting) : setting :=
  mk_setting (dotted (p ++ [s_inst s])) (s_attr s)
    match s_val s with
    | Ref r lk => Ref (dotted (p ++ [r])) lk
    | v => v
    end.
Definition inst_at (p : path) (i : inst) : inst :=
  Inst (dotted (p ++ [iname i])) (dotted (p ++ [ias i])) (itype i).

(** Declared things with the path of the composition they are declared in. *)
Definition all_insts (root : comp) : list (path * inst) :=
  flat_map (fun pc => map (pair (fst pc)) (insts_of (snd pc))) (walk root).
Definition all_conns (root : comp) : list (path * conn) :=
  flat_map (fun pc => map (pair (fst pc)) (conns_of (snd pc))) (walk root).
Definition all_settings (root : comp) : list (path * setting) :=
  flat_map (fun pc => map (pair (fst pc)) (settings_of (snd pc))) (walk root).
