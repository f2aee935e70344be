(** C107: traversals of ASTs. *)
From Coq Require Import List Bool Sorted Lia.
From Verif Require Import Prelude Traverse_Model Traverse_Spec Traverse_Proofs Traverse_Proofs2.
Import ListNotations.

(** A top-down traversal gives the action everything below the object, each once, what is above first and
    otherwise from left to right. *)
Theorem C107_top_down n : proper n ->
  exists log ps, preorder watch id id n [] = (n, log, None) /\
    StronglySorted above_first ps /\ (forall p, In p ps <-> p <> [] /\ at_ n p <> None) /\
    Forall2 (fun p x => at_ n p = Some x) ps log.
Proof. exact (preorder_visits n). Qed.
Print Assumptions C107_top_down.

(** A bottom-up traversal gives it the same, what is above last. *)
Theorem C107_bottom_up n : proper n ->
  exists log ps, postorder watch id id n [] = (n, log, None) /\
    StronglySorted above_last ps /\ (forall p, In p ps <-> p <> [] /\ at_ n p <> None) /\
    Forall2 (fun p x => at_ n p = Some x) ps log.
Proof. exact (postorder_visits n). Qed.
Print Assumptions C107_bottom_up.

(** Whatever the action does, it is given only what was in the AST from the start; there are as many open
    contexts as there are objects between it and the root; all contexts are closed at the end, also
    after an exception; and the traversal ends at the first exception, if there is one. *)
Theorem C107_contexts_top_down S (act : S -> option node -> S * (change + exn)) n s n' s' d log e :
  preorder (noted act) deeper back n (s, (0, [])) = (n', (s', (d, log)), e) ->
  preorder act id id n s = (n', s', e) /\ d = 0 /\
  Forall (fun x => exists p, at_ n p = Some (fst (fst x)) /\ List.length p = snd (fst x) + 1) log /\
  (proper n -> ends_at n e log).
Proof. exact (preorder_noted act n s n' s' d log e). Qed.
Print Assumptions C107_contexts_top_down.

(** The same bottom-up, where what is below may have been replaced already. *)
Theorem C107_contexts_bottom_up S (act : S -> option node -> S * (change + exn)) n s n' s' d log e :
  postorder (noted act) deeper back n (s, (0, [])) = (n', (s', (d, log)), e) ->
  postorder act id id n s = (n', s', e) /\ d = 0 /\
  Forall (fun x => exists p y, at_ n p = Some y /\ same_outside y (fst (fst x)) /\ List.length p = snd (fst x) + 1) log /\
  (proper n -> ends_at n e log).
Proof. exact (postorder_noted act n s n' s' d log e). Qed.
Print Assumptions C107_contexts_bottom_up.

(** What a top-down traversal replaces is replaced as it stands, and is not traversed again; what is not
    replaced and not below a replacement stays. *)
Theorem C107_replaces g n : proper n -> thawed n ->
  exists n', preorder (plain g) id id n tt = (n', tt, None) /\
    (forall p x, kept g n p -> at_ n p = Some x -> exists y, at_ n' p = Some y /\ same_outside x y) /\
    (forall p i x y, kept g n p -> at_ n (p ++ [i]) = Some x -> g x = Put y -> at_ n' (p ++ [i]) = Some y).
Proof. exact (preorder_replaces g n). Qed.
Print Assumptions C107_replaces.

(** If the action does not look below what it is given, both orders give the same. *)
Theorem C107_orders_agree g n : by_tag g -> proper n -> thawed n ->
  postorder (plain g) id id n tt = preorder (plain g) id id n tt.
Proof. exact (fun B => post_plain g B n). Qed.
Print Assumptions C107_orders_agree.

(** Once an AST is frozen, no traversal changes it. *)
Theorem C107_frozen S (act : S -> option node -> S * (change + exn)) enter leave n s : thawed n ->
  (forall n' s' e, preorder act enter leave (freeze n) s = (n', s', e) -> n' = freeze n) /\
  (forall n' s' e, postorder act enter leave (freeze n) s = (n', s', e) -> n' = freeze n).
Proof.
  exact (fun T => conj (fun n' s' e => pre_frozen S act enter leave (freeze n) s n' s' e (freeze_frozen n T))
                       (fun n' s' e => post_frozen S act enter leave (freeze n) s n' s' e (freeze_frozen n T))).
Qed.
Print Assumptions C107_frozen.
(** Freezing marks the AST, what is frozen stays as it is when frozen again, and freezing changes neither
    the nodes nor the slots they have. *)
Theorem C107_freeze n : is_frozen (freeze n) = true /\ freeze (freeze n) = freeze n /\
  forall p, option_map (option_map (fun m => (tag_of m, map fst (slots_of m)))) (at_ (freeze n) p) =
            option_map (option_map (fun m => (tag_of m, map fst (slots_of m)))) (at_ n p).
Proof. exact (conj (proj1 (freeze_stays n)) (conj (proj2 (freeze_stays n)) (freeze_shape n))). Qed.
Print Assumptions C107_freeze.

(** An assembly with a composition of two instances and a connection, and an empty configuration *)
Definition leaf t := Node t false [].
Definition sys := Node 1 false [(false, Some (Node 2 false [(true, Some (leaf 3)); (true, Some (Node 4 false [(false, Some (leaf 5))]))])); (false, None)].
Example sys_good : proper sys /\ thawed sys.
Proof.
  assert (L : forall p m, at_ sys p = Some (Some m) -> p = [] /\ m = sys \/ In (p, Some m) (pre_list sys)).
  { intros [|i p] m A; [left; injection A as <-; split; reflexivity|right; apply pre_lists; split; [discriminate|exact A]]. }
  split.
  - intros p m b A I. destruct (L p m A) as [[-> ->]|X]; cbn in *.
    + intuition congruence.
    + repeat (destruct X as [X|X]; [first [discriminate X|injection X as <- <-; cbn in I; intuition congruence]|]). destruct X.
  - intros p m A. destruct (L p m A) as [[-> ->]|X]; cbn in *; [reflexivity|].
    repeat (destruct X as [X|X]; [first [discriminate X|injection X as <- <-; reflexivity]|]). destruct X.
Qed.
Definition tags (l : list (option node)) := map (option_map tag_of) l.
Example sys_down : match preorder watch id id sys [] with (n, log, e) => tags log end = [Some 2; Some 3; Some 4; Some 5; None].
Proof. reflexivity. Qed.
Example sys_up : match postorder watch id id sys [] with (n, log, e) => tags log end = [Some 3; Some 5; Some 4; Some 2; None].
Proof. reflexivity. Qed.
(** Replacing 4 by a 6 that contains a 4, in both orders *)
Definition six (x : option node) : change :=
  match x with Some (Node 4 _ _) => Put (Some (Node 6 false [(false, Some (leaf 4))])) | _ => Keep end.
Example six_by_tag : by_tag six.
Proof. intros [[t f sl]|] [[t' f' sl']|] H; cbn in H; try contradiction; try reflexivity. destruct H as [-> _]. reflexivity. Qed.
Example six_put : match preorder (plain six) id id sys tt with (n, _, _) => at_ n [0; 1; 0] end = Some (Some (leaf 4)).
Proof. reflexivity. Qed.
(** An action that fails at 4: the contexts are closed and 5 is not looked at. *)
Definition fails (s : unit) (x : option node) : unit * (change + exn) := (s, match x with Some (Node 4 _ _) => inr ValueError | _ => inl Keep end).
Example fails_at : match preorder (noted fails) deeper back sys (tt, (0, [])) with (n, (_, (d, log)), e) => (n, d, map (fun x => (option_map tag_of (fst (fst x)), snd (fst x))) log, e) end =
  (sys, 0, [(Some 2, 0); (Some 3, 1); (Some 4, 1)], Some ValueError).
Proof. reflexivity. Qed.
(** Replacing in a frozen AST is refused. *)
Example six_frozen : preorder (plain six) id id (freeze sys) tt = (freeze sys, tt, Some TypeError).
Proof. reflexivity. Qed.
