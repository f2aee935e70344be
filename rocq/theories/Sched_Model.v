(** Model of the scheduling properties of threads: camkes/templates/macros.py,
    388-438, and their use in camkes/templates/component.common.c, 448-520. *)
From Coq Require Import List String Bool ZArith.
From Verif Require Import Prelude.
Import ListNotations.
Open Scope string_scope.
Open Scope list_scope.

(** [configuration[me.name]]: the settings of the instance.  All settings read here
    are integers or booleans; a boolean is the integer 0 or 1. *)
Definition conf := string -> option Z.

(** The options of the command line (camkes/runner/__main__.py:99-112). *)
Record options := mk_options {
  default_priority : Z; default_max_priority : Z; default_affinity : Z;
  default_period : Z; default_budget : Z; default_data : Z; default_size_bits : Z;
  realtime : bool }.

(** The fields of a TCB and of a scheduling context that are set.  The domain of a
    TCB is only set if it was configured. *)
Record tcb := mk_tcb { prio : Z; max_prio : Z; affinity : Z; domain : option Z }.
Record sc := mk_sc { period : Z; budget : Z; data : Z; size_bits : Z }.

(** maybe_set_property_from_configuration (macros.py:388-406): the value of the
    field afterwards, [old] being the value before. *)
Definition maybe_set (c : conf) (prefix general_attribute : string) (old : Z) : Z :=
  let attribute := (prefix ++ general_attribute)%string in
  match c attribute with
  | None => match c general_attribute with
            | Some general_value => general_value
            | None => old
            end
  | Some value => value
  end.

(** set_tcb_properties (macros.py:413-426) *)
Definition set_tcb_properties (o : options) (c : conf) (prefix : string) : tcb :=
  mk_tcb (maybe_set c prefix "priority" (default_priority o))
         (maybe_set c prefix "max_priority" (default_max_priority o))
         (maybe_set c prefix "affinity" (default_affinity o))
         (c (prefix ++ "domain")%string).

(** set_sc_properties (macros.py:429-438) *)
Definition set_sc_properties (o : options) (c : conf) (prefix : string) : sc :=
  mk_sc (maybe_set c prefix "period" (default_period o))
        (maybe_set c prefix "budget" (default_budget o))
        (maybe_set c prefix "data" (default_data o))
        (maybe_set c prefix "size_bits" (default_size_bits o)).

(** The threads of an instance: the first of the list, those of its interfaces, and
    the last one if fault handlers are asked for (the list itself is modelled in
    Threads_Model.v). *)
Inductive thread :=
| Control
| Interface (name : string)
| FaultHandler.

(** [value.get(..., False)] used as a condition *)
Definition truthy (v : option Z) : bool :=
  match v with Some v => negb (v =? 0)%Z | None => false end.

(** The scheduling context of a thread (component.common.c:473-490): none if the
    kernel is not the realtime one or if the interface is passive. *)
Definition thread_sc (o : options) (c : conf) (t : thread) : option sc :=
  if realtime o then
    match t with
    | Control => Some (set_sc_properties o c "_")
    | FaultHandler => Some (set_sc_properties o c "fault")
    | Interface i => if truthy (c (i ++ "_passive")%string) then None
                     else Some (set_sc_properties o c (i ++ "_")%string)
    end
  else None.

(** The TCB of a thread (component.common.c:504-517). *)
Definition thread_tcb (o : options) (c : conf) (t : thread) : tcb :=
  match t with
  | Control => set_tcb_properties o c "_"
  | FaultHandler =>
      mk_tcb 255 (default_max_priority o)
             (match c "affinity" with Some v => v | None => default_affinity o end) None
  | Interface i => set_tcb_properties o c (i ++ "_")%string
  end.
