(** Specification for groups and several assemblies. *)
From Coq Require Import List String.
From Verif Require Import Prelude DecStr Assemble_Model.
Import ListNotations.
Open Scope string_scope. Open Scope list_scope.

(** Every instance of a specification with the group it is in: [None] for ungrouped,
    otherwise the number of the group, counted through the specification. *)
Fixpoint grouped (k : nat) (gs : list group) : list (ginst * option nat) :=
  match gs with
  | [] => []
  | g :: gs => map (fun i => (i, Some k)) (gr_insts g) ++ grouped (S k) gs
  end.
Fixpoint members (k : nat) (cs : list comp) : list (ginst * option nat) :=
  match cs with
  | [] => []
  | c :: cs => map (fun i => (i, None)) (co_insts c) ++ grouped k (co_groups c) ++
               members (k + List.length (co_groups c)) cs
  end.
(** The instances afterwards, in the same order. *)
Definition all_insts (cs : list comp) : list ginst := flat_map co_insts cs.

(** Names the user chose for groups and for ungrouped instances, in a specification. *)
Definition group_names (cs : list comp) : list string :=
  flat_map (fun c => flat_map (fun g => match gr_name g with Some n => [n] | None => [] end) (co_groups c)) cs.
Definition loose_names (cs : list comp) : list string :=
  flat_map (fun c => map gi_name (co_insts c)) cs.
(** The name is none the tool makes up. *)
Definition not_made_up (s : string) : Prop := forall n, s <> ("unamed_group_" ++ dec n)%string.

(** Instances come from the parser with their own name as address space. *)
Definition fresh_comp (c : comp) : Prop :=
  (forall i, In i (co_insts c) -> gi_space i = gi_name i).

(** Names are distinct and none is a made up one. *)
Definition good_names (cs : list comp) : Prop :=
  NoDup (group_names cs ++ loose_names cs) /\
  forall s, In s (group_names cs ++ loose_names cs) -> not_made_up s.

Definition insts_of (l : list item) : list ginst :=
  flat_map (fun i => match i with Asm a => co_insts (as_comp a) | _ => [] end) l.
Definition conns_of (l : list item) : list string :=
  flat_map (fun i => match i with Asm a => co_conns (as_comp a) | _ => [] end) l.
Definition settings_of (l : list item) :=
  flat_map (fun i => match i with Asm a => as_settings a | _ => [] end) l.
Definition others_of (l : list item) : list string :=
  flat_map (fun i => match i with Asm _ => [] | Other s => [s] end) l.
Definition assembly_count (l : list item) : nat :=
  List.length (filter (fun i => match i with Asm _ => true | _ => false end) l).
