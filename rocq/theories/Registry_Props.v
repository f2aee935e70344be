(** C40: the interface registry. *)
From Coq Require Import NArith ZArith List Bool.
From Verif Require Import Prelude Registry_Model Registry_Spec Registry_Proofs.
Import ListNotations.
Open Scope N_scope.

(** A look-up for an instance under a type succeeds exactly when the instance is
    registered under the type. *)
Theorem C40_found_iff_registered l r h ty i :
  run l = Ok (r, h) ->
  (interface_find ty (Some (looking_for i)) r = 0%Z <-> registered h ty i).
Proof. exact (found_iff l r h ty i). Qed.
Print Assumptions C40_found_iff_registered.

(** Any other search handler: the look-up gives the handler's error on some registered
    instance, or success because the handler matched one, or ENOENT because the handler
    passed over all registered instances. *)
Theorem C40_find_handler l r h ty f :
  run l = Ok (r, h) ->
  (exists i, registered h ty i /\ (f i < 0)%Z /\ interface_find ty (Some f) r = f i) \/
  (exists i, registered h ty i /\ f i = match_found /\ interface_find ty (Some f) r = 0%Z) \/
  ((forall i, registered h ty i -> (0 <= f i)%Z /\ f i <> match_found) /\
   interface_find ty (Some f) r = ENOENT).
Proof. exact (find_handler l r h ty f). Qed.
Print Assumptions C40_find_handler.

(** A look-up without a handler is refused. *)
Theorem C40_no_handler r ty : interface_find ty None r = EINVAL.
Proof. exact (no_handler r ty). Qed.
Print Assumptions C40_no_handler.

(** When a registration is accepted: the instance is proper, there is memory (for the type
    too, if it is new), and - the wrong way round, see below - the type is new or the
    instance is already there.  A refused registration changes nothing (see the counts in
    [times]). *)
Theorem C40_accepted_iff_partial l r h m1 m2 ty i :
  run l = Ok (r, h) ->
  exists r' z, run (l ++ [ORegister m1 m2 ty i false]) =
      Ok (r', h ++ [(ORegister m1 m2 ty i false, z)]) /\
    (z = 0%Z <-> proper ty i /\ m2 = true /\ (m1 = true \/ used h ty) /\
               (~ used h ty \/ registered h ty i)) /\
    (z = EINVAL <-> ~ proper ty i \/ (used h ty /\ ~ registered h ty i)) /\
    (z = 0 \/ z = EINVAL \/ z = ENOMEM)%Z.
Proof. exact (register_iff l r h m1 m2 ty i). Qed.
Print Assumptions C40_accepted_iff_partial.

(** An unregistration succeeds for every proper instance. *)
Theorem C40_unregister l r h ty i :
  run l = Ok (r, h) ->
  exists r' z, run (l ++ [OUnregister ty i]) = Ok (r', h ++ [(OUnregister ty i, z)]) /\
    (proper ty i -> z = 0%Z) /\ (~ proper ty i -> z = EINVAL).
Proof. exact (unregister_total l r h ty i). Qed.
Print Assumptions C40_unregister.

Example C40_example :
  match run [ORegister true true 3 10 false; ORegister true true 4 20 false;
             ORegister true true 3 10 false; OUnregister 3 10; OUnregister 4 20] with
  | Ok (r, h) =>
      registered h 3 10 /\ ~ registered h 4 20 /\ used h 4 /\
      interface_find 3 (Some (looking_for 10)) r = 0%Z /\
      interface_find 4 (Some (looking_for 20)) r = ENOENT /\
      interface_find 3 (Some (fun _ => (-5)%Z)) r = (-5)%Z
  | Err _ => False
  end.
Proof.
  vm_compute. split; [discriminate|]. split; [intuition|]. split; [|auto].
  exists true, true, 20, false. right. left. reflexivity.
Qed.

(** Finding: the duplicate test is the wrong way round.  A second, different instance of
    a type is refused, *)
Theorem C40_second_instance_refuted : exists l r h,
  run l = Ok (r, h) /\ ~ registered h 3 20 /\ used h 3 /\
  step r (ORegister true true 3 20 false) = Ok (r, EINVAL).
Proof. exact second_instance_refused. Qed.
Print Assumptions C40_second_instance_refuted.

(** a duplicate is accepted, *)
Theorem C40_duplicate_refuted : exists l r h r',
  run l = Ok (r, h) /\ registered h 3 10 /\
  step r (ORegister true true 3 10 false) = Ok (r', 0%Z).
Proof. exact duplicate_accepted. Qed.
Print Assumptions C40_duplicate_refuted.

(** and once the only instance of a type is unregistered, the type is closed for good. *)
Theorem C40_never_again_refuted : exists l r h,
  run l = Ok (r, h) /\ (forall i, ~ registered h 3 i) /\
  (forall m1 m2 i p, i <> 0 -> step r (ORegister m1 m2 3 i p) = Ok (r, EINVAL)).
Proof. exact never_again. Qed.
Print Assumptions C40_never_again_refuted.
