(** What reference resolution should compute, on the unmodified settings list. *)
From Coq Require Import List String Ascii Bool ZArith.
From Verif Require Import Prelude AttrRef_Model Flatten_Spec.
Import ListNotations.
Open Scope string_scope.
Open Scope list_scope.

(** Reference text [r] names attribute [a] of instance [i]. *)
Definition names (r i a : string) : Prop := r = (i ++ "." ++ a)%string /\ dot_free a = true.

(** Setting [j] sets attribute [a] of instance [i]. *)
Definition sets (S : list setting) (j : nat) (i a : string) : Prop :=
  exists s, nth_error S j = Some s /\ s_inst s = i /\ s_attr s = a.

(** Setting [k] is the only one for the attribute that setting [j] refers to. *)
Definition refers (S : list setting) (j k : nat) : Prop :=
  exists s r lk i a, nth_error S j = Some s /\ s_val s = Ref r lk /\ names r i a /\
    sets S k i a /\ forall k', sets S k' i a -> k' = k.

(** Setting [j] refers to attribute [a] of [i], which no setting sets. *)
Definition dangles (S : list setting) (j : nat) (i a : string) : Prop :=
  exists s r lk, nth_error S j = Some s /\ s_val s = Ref r lk /\ names r i a /\
    forall k, ~ sets S k i a.

Definition lookup_of (S : list setting) (j : nat) : list key :=
  match nth_error S j with
  | Some s => match s_val s with Ref _ (Some ks) => ks | _ => [] end
  | None => []
  end.

(** [first_entry l k v]: the first entry of the association list [l] for key [k]
    holds [v]. *)
Definition first_entry {K V} (l : list (K * V)) (k : K) (v : V) : Prop :=
  exists before after, l = before ++ (k, v) :: after /\ ~ In k (map fst before).

(** Instance [i]'s component type declares attribute [a] with default [d]. *)
Definition default_of (insts : instances) (i a : string) (d : value) : Prop :=
  exists attrs, first_entry insts i attrs /\ first_entry attrs a (Some d).
Definition no_default (insts : instances) (i a : string) : Prop :=
  forall d, ~ default_of insts i a d.

(** [lookup v ks w]: following the keys [ks] into [v] gives [w]. *)
Inductive lookup : value -> list key -> value -> Prop :=
| lk_nil v : lookup v [] v
| lk_dict l k v ks w : first_entry l k v -> lookup v ks w -> lookup (VDict l) (k :: ks) w
| lk_list l n v ks w : nth_error l n = Some v -> lookup v ks w ->
    lookup (VList l) (KInt (Z.of_nat n) :: ks) w
| lk_list_neg l n v ks w : nth_error (rev l) n = Some v -> lookup v ks w ->
    lookup (VList l) (KInt (- Z.of_nat (S n)) :: ks) w.

(** [denotes S j v]: the value setting [j] should end up with. *)
Inductive denotes (insts : instances) (S : list setting) : nat -> value -> Prop :=
| den_conc j s v : nth_error S j = Some s -> s_val s = Conc v -> denotes insts S j v
| den_ref j k w v : refers S j k -> denotes insts S k w -> lookup w (lookup_of S j) v ->
    denotes insts S j v
| den_default j i a d v : dangles S j i a -> default_of insts i a d ->
    lookup d (lookup_of S j) v -> denotes insts S j v
| den_own j s i a d : dangles S j i a -> no_default insts i a ->
    nth_error S j = Some s -> default_of insts (s_inst s) (s_attr s) d ->
    denotes insts S j d.

(** Following references from [j] one arrives at a cycle. *)
Inductive reaches (S : list setting) : nat -> nat -> Prop :=
| re_one j k : refers S j k -> reaches S j k
| re_step j k l : refers S j k -> reaches S k l -> reaches S j l.
Definition loops (S : list setting) (j : nat) : Prop :=
  reaches S j j \/ exists k, reaches S j k /\ reaches S k k.

(** Dictionary lookups only occur on references that lead directly to a setting
    holding a dictionary. *)
Definition lookups_direct (S : list setting) : Prop :=
  forall j s r ks, nth_error S j = Some s -> s_val s = Ref r (Some ks) ->
    exists k t l, refers S j k /\ nth_error S k = Some t /\ s_val t = Conc (VDict l).

(** Nothing but loops can be wrong with the references: no lookups, each refers
    to exactly one setting, or to none and a default exists. *)
Definition only_loops (insts : instances) (S : list setting) : Prop :=
  forall j s r lk, nth_error S j = Some s -> s_val s = Ref r lk ->
  lk = None /\ ((exists k, refers S j k) \/
    exists i a, dangles S j i a /\
      ((exists d, default_of insts i a d) \/ exists d, default_of insts (s_inst s) (s_attr s) d)).

Definition with_value (s : setting) (v : value) : setting :=
  mk_setting (s_inst s) (s_attr s) (Conc v).
Definition is_reference (S : list setting) (j : nat) : Prop :=
  exists s r lk, nth_error S j = Some s /\ s_val s = Ref r lk.

Definition holds_ref (s : setting) : bool :=
  match s_val s with Ref _ _ => true | Conc _ => false end.

(** [out] is [S] with every setting [j] given the value [val j], concrete
    settings first, otherwise in order. *)
Definition resolved_as (S : list setting) (val : nat -> value) : list setting :=
  let numbered := combine (seq 0 (List.length S)) S in
  map (fun js => with_value (snd js) (val (fst js)))
      (filter (fun js => negb (holds_ref (snd js))) numbered ++
       filter (fun js => holds_ref (snd js)) numbered).
