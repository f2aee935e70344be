(** What the manual says about the scheduling properties of threads (C87;
    docs/index.md:2020-2118 and 2144-2151). *)
From Coq Require Import List String Bool ZArith.
From Verif Require Import Prelude Sched_Model.
Import ListNotations.
Open Scope string_scope.
Open Scope list_scope.

(** The attribute that sets a property of one thread. *)
Definition specific (t : thread) (property : string) : option string :=
  match t with
  | Control => Some ("_" ++ property)%string
  | Interface i => Some (i ++ "_" ++ property)%string
  | FaultHandler => None
  end.

(** The value a thread has for a property: the one set for the thread, or else the
    one set for the instance, or else the default. *)
Inductive value_for (c : conf) (t : thread) (property : string) (default : Z) : Z -> Prop :=
| of_thread a v : specific t property = Some a -> c a = Some v ->
    value_for c t property default v
| of_instance a v : specific t property = Some a -> c a = None -> c property = Some v ->
    value_for c t property default v
| of_default a : specific t property = Some a -> c a = None -> c property = None ->
    value_for c t property default default.

(** The properties that can be set. *)
Definition properties : list string :=
  ["priority"; "max_priority"; "affinity"; "domain"; "period"; "budget"; "data"; "size_bits"].

(** Changing one setting. *)
Definition with_setting (c : conf) (a : string) (v : option Z) : conf :=
  fun b => if String.eqb b a then v else c b.

(** The value of each property of a thread, by name; [None] for a property that is
    not set. *)
Definition property_of (o : options) (c : conf) (t : thread) (property : string) : option Z :=
  let p := thread_tcb o c t in
  let s := thread_sc o c t in
  match property with
  | "priority" => Some (prio p)
  | "max_priority" => Some (max_prio p)
  | "affinity" => Some (affinity p)
  | "domain" => domain p
  | "period" => option_map period s
  | "budget" => option_map budget s
  | "data" => option_map data s
  | "size_bits" => option_map size_bits s
  | _ => None
  end.

(** An interface whose name is [max] or ends with [_max]. *)
Definition ends_max (i : string) : Prop := i = "max" \/ exists j, i = (j ++ "_max")%string.
(** Names of interfaces are not empty. *)
Definition plain (t : thread) : Prop :=
  match t with Interface i => i <> "" /\ ~ ends_max i | _ => True end.
