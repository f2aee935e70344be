(** C35: the capability allocator. *)
From Coq Require Import NArith List Bool.
From Verif Require Import Prelude CapAlloc_Model CapAlloc_Spec CapAlloc_Proofs.
Import ListNotations.
Open Scope N_scope.

(** A history used below: two caps provided, one allocated, freed, allocated again. *)
Definition ex_ops : list op :=
  [OProvide true 1 5 4 3; OProvide true 1 6 4 1; OProvide false 1 7 4 1;
   OAlloc 1 4 2; OAlloc 1 0 1; OAlloc 1 0 0; OFree 5; OAlloc 1 0 0].

(** Providing a capability succeeds if there is memory, and every request is answered. *)
Theorem C35_provide l s h m t p z a :
  run l = Ok (s, h) ->
  exists s', run (l ++ [OProvide m t p z a]) =
    Ok (s', h ++ [(OProvide m t p z a, if m then ROk else RFail)]).
Proof. exact (provide_total l s h m t p z a). Qed.
Print Assumptions C35_provide.

Theorem C35_alloc_total l s h t z f :
  run l = Ok (s, h) ->
  exists s' p, run (l ++ [OAlloc t z f]) = Ok (s', h ++ [(OAlloc t z f, RCap p)]).
Proof. exact (alloc_total l s h t z f). Qed.
Print Assumptions C35_alloc_total.

(** In every history in which no cap is provided twice, two allocations that return the
    same cap have a free of that cap between them: one holder at a time. *)
Theorem C35_exclusive l s h h1 a1 k a2 h2 p :
  run l = Ok (s, h) -> well_provided h ->
  h = h1 ++ (a1, RCap p) :: k ++ (a2, RCap p) :: h2 -> p <> 0 ->
  exists r, In (OFree p, r) k.
Proof. exact (exclusive l s h h1 a1 k a2 h2 p). Qed.
Print Assumptions C35_exclusive.

(** What an allocation returns was provided before, with the type asked for, the size
    asked for (if one was) and all the attributes asked for. *)
Theorem C35_answers_request l s h h1 t z f p h2 :
  run l = Ok (s, h) -> h = h1 ++ (OAlloc t z f, RCap p) :: h2 -> p <> 0 ->
  exists d, In d (provided h1) /\ d_ptr d = p /\ answers t z f d.
Proof. exact (alloc_answers l s h h1 t z f p h2). Qed.
Print Assumptions C35_answers_request.

(** An allocation succeeds exactly when some provided cap answers the request and is not
    held. *)
Theorem C35_success_iff l s h h1 t z f p h2 :
  run l = Ok (s, h) -> well_provided h -> h = h1 ++ (OAlloc t z f, RCap p) :: h2 ->
  (p <> 0 <-> exists d, In d (provided h1) /\ answers t z f d /\ held h1 (d_ptr d) = false).
Proof. exact (alloc_success l s h h1 t z f p h2). Qed.
Print Assumptions C35_success_iff.

(** A free is accepted exactly for a cap that is held (otherwise an assertion fails). *)
Theorem C35_free_iff_held l s h p :
  run l = Ok (s, h) -> well_provided h -> p <> 0 ->
  ((exists s' h', run (l ++ [OFree p]) = Ok (s', h')) <-> held h p = true).
Proof. exact (free_ok l s h p). Qed.
Print Assumptions C35_free_iff_held.

(** After a free, a request that the freed cap answers is not refused. *)
Theorem C35_freed_available l s h p d t z f :
  run (l ++ [OFree p]) = Ok (s, h) -> well_provided h -> In d (provided h) -> d_ptr d = p ->
  answers t z f d ->
  exists s' q, run (l ++ [OFree p] ++ [OAlloc t z f]) = Ok (s', h ++ [(OAlloc t z f, RCap q)]) /\
    q <> 0.
Proof. exact (free_available l s h p d t z f). Qed.
Print Assumptions C35_freed_available.

(** The example history: cap 5 is allocated (attribute 2), then 6, then nothing is left;
    after freeing 5 it is allocated again.  Providing failed for 7. *)
Example C35_example :
  match run ex_ops with
  | Ok (_, h) => map snd h = [ROk; ROk; RFail; RCap 5; RCap 6; RCap 0; ROk; RCap 5] /\
                 well_provided h /\ held h 5 = true /\ held h 6 = true
  | Err _ => False
  end.
Proof.
  vm_compute. split; [reflexivity|]. split; [|split; reflexivity]. split.
  - repeat constructor; simpl; intuition discriminate.
  - intuition discriminate.
Qed.

(** Finding: the allocator does not check for duplicates; a cap provided twice is handed
    to two holders. *)
Theorem C35_twice_provided_shared : exists l s h p k1 k2 k3,
  run l = Ok (s, h) /\ p <> 0 /\
  h = k1 ++ (OAlloc 1 0 0, RCap p) :: k2 ++ (OAlloc 1 0 0, RCap p) :: k3 /\
  (forall r, ~ In (OFree p, r) k2).
Proof. exact twice_provided. Qed.
Print Assumptions C35_twice_provided_shared.
