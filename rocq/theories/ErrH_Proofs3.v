(** Proofs about error handling: the event loop of a server. *)
From Coq Require Import List String Bool NArith Arith Lia.
From Verif Require Import Prelude ErrH_Model ErrH_Spec.
Import ListNotations.
Open Scope string_scope. Open Scope list_scope.
Set Implicit Arguments.

Definition picks (ts : list stype) (r : request) : option (list smethod) :=
  match ts with
  | [t] => Some (snd t)
  | _ => option_map snd (find (fun t => existsb (N.eqb (r_badge r)) (fst t)) ts)
  end.
Definition picks_method (ts : list stype) (r : request) : option smethod :=
  match picks ts r with
  | Some ms => nth_error ms (if Nat.leb (List.length ms) 1 then 0 else r_index r)
  | None => None
  end.

Lemma turn_picks : forall answer ts r l, ts <> [] -> turn answer ts r l =
  match picks_method ts r with
  | Some f =>
      match f (r_body r) (l_buffer l) with
      | Dropped => (Some NoReply, l)
      | Filled b (Some n) => (Some (Reply (firstn n b)), mk_loop b (Some n))
      | Filled b None => (Some NoReply, mk_loop b None)
      end
  | None => after_err (answer r) l
  end.
Proof.
  intros answer ts r l N. unfold turn, picks_method, picks.
  assert (D : forall ms, dispatch answer ms r l =
    match nth_error ms (if Nat.leb (List.length ms) 1 then 0 else r_index r) with
    | Some f =>
        match f (r_body r) (l_buffer l) with
        | Dropped => (Some NoReply, l)
        | Filled b (Some n) => (Some (Reply (firstn n b)), mk_loop b (Some n))
        | Filled b None => (Some NoReply, mk_loop b None)
        end
    | None => after_err (answer r) l
    end).
  { intros ms. unfold dispatch. destruct (nth_error ms _) as [f|]; [|reflexivity].
    destruct (f (r_body r) (l_buffer l)) as [|b [n|]]; reflexivity. }
  destruct ts as [|t [|u ts]]; [congruence|apply D|].
  match goal with |- context [find ?g ?x] => destruct (find g x) as [v|] end; [cbn [option_map]; apply D|reflexivity].
Qed.

Lemma existsb_in : forall b l, existsb (N.eqb b) l = true <-> In b l.
Proof.
  intros b l. rewrite existsb_exists. split.
  - intros [x [I E]]. apply N.eqb_eq in E. subst. exact I.
  - intros I. exists b. split; [exact I|apply N.eqb_refl].
Qed.

Lemma method_shape : forall (ms : list smethod) i f,
  nth_error ms (if Nat.leb (List.length ms) 1 then 0 else i) = Some f <->
  (List.length ms = 1 /\ ms = [f]) \/ (1 < List.length ms /\ nth_error ms i = Some f).
Proof.
  intros [|g [|h ms]] i f; cbn [List.length Nat.leb nth_error].
  - split; [discriminate|]. intros [[E _]|[L _]]; [discriminate|lia].
  - split.
    + intros [= ->]. left. split; reflexivity.
    + intros [[_ [= ->]]|[L _]]; [reflexivity|lia].
  - split.
    + intros E. right. split; [lia|exact E].
    + intros [[E _]|[_ E]]; [discriminate|exact E].
Qed.

Lemma picks_serves : forall ts r f, picks_method ts r = Some f -> serves ts r f.
Proof.
  intros ts r f. unfold picks_method, picks, serves. destruct ts as [|t [|u ts]].
  - discriminate.
  - intros H. exists t. split; [left; reflexivity|]. split; [left; reflexivity|]. apply method_shape. exact H.
  - match goal with |- context [find ?g ?x] => destruct (find g x) as [v|] eqn:E end; cbn [option_map]; [|discriminate]. intros H.
    apply find_some in E. destruct E as [I B]. exists v. split; [exact I|].
    split; [right; apply existsb_in; exact B|]. apply method_shape. exact H.
Qed.
Lemma serves_picks : forall ts r f, separate ts -> serves ts r f -> picks_method ts r = Some f.
Proof.
  intros ts r f S [t [I [B M]]]. apply method_shape in M. unfold picks_method, picks.
  destruct ts as [|x [|u ts]].
  - destruct I.
  - destruct I as [->|[]]. exact M.
  - destruct B as [B|B]; [discriminate|].
    match goal with |- context [find ?g ?x] => destruct (find g x) as [v|] eqn:E end; cbn [option_map].
    + apply find_some in E. destruct E as [I2 B2]. apply existsb_in in B2. rewrite (S v t _ I2 I B2 B). exact M.
    + pose proof (find_none _ _ E _ I) as F. cbn beta in F. apply existsb_in in B. congruence.
Qed.

Lemma c124_served : forall answer ts r l f, separate ts -> serves ts r f ->
  fst (turn answer ts r l) =
  match f (r_body r) (l_buffer l) with
  | Filled b (Some n) => Some (Reply (firstn n b))
  | _ => Some NoReply
  end.
Proof.
  intros answer ts r l f S V. rewrite turn_picks.
  - rewrite (serves_picks S V). destruct (f (r_body r) (l_buffer l)) as [|b [n|]]; reflexivity.
  - intros ->. destruct V as [t [[] _]].
Qed.
Lemma c124_unknown : forall answer ts r l, ts <> [] -> (forall f, ~ serves ts r f) ->
  match answer r with
  | Acts => turn answer ts r l = (Some NoReply, l)
  | Continues => True
  | _ => fst (turn answer ts r l) = None
  end.
Proof.
  intros answer ts r l N V. rewrite (turn_picks _ _ _ N).
  destruct (picks_method ts r) as [f|] eqn:E; [destruct (V f (picks_serves _ _ E))|].
  unfold after_err. destruct (answer r); exact I || reflexivity.
Qed.

Lemma c124_own : forall answer ts, ts <> [] -> (forall r, answer r <> Continues) ->
  forall rs l k r x, nth_error rs k = Some r -> nth_error (turns answer ts rs l) k = Some x ->
  x = NoReply \/ exists f old b n, serves ts r f /\ f (r_body r) old = Filled b (Some n) /\ x = Reply (firstn n b).
Proof.
  intros answer ts N A. induction rs as [|r0 rs IH]; intros l k r x R X; [destruct k; discriminate|].
  cbn [turns] in X. destruct (turn answer ts r0 l) as [[y|] l'] eqn:E; [|destruct k; discriminate].
  destruct k as [|k]; cbn [nth_error] in R, X; [|eapply IH; eassumption].
  injection R as ->. injection X as ->. rewrite (turn_picks _ _ _ N) in E.
  destruct (picks_method ts r) as [f|] eqn:P.
  - destruct (f (r_body r) (l_buffer l)) as [|b [n|]] eqn:F; injection E as <- _.
    + left. reflexivity.
    + right. exists f, (l_buffer l), b, n. split; [exact (picks_serves _ _ P)|]. split; [exact F|reflexivity].
    + left. reflexivity.
  - unfold after_err in E. specialize (A r). destruct (answer r); try discriminate; [congruence|].
    injection E as <- _. left. reflexivity.
Qed.

(** ** Braces *)
Lemma depth_fun : forall l d, depth l d -> forall d', depth l d' -> d = d'.
Proof.
  intros l d D. induction D as [|l d D IH|l d D IH]; intros d' D';
  inversion D' as [E|l' k D2 E|l' k D2 E]; subst; try reflexivity;
  try (destruct l; discriminate); try (destruct l'; discriminate);
  apply app_inj_tail in E; destruct E as [-> E]; try discriminate; apply IH in D2; lia.
Qed.

Lemma depth_opens : forall (A : Type) (xs : list A) l d, depth l d -> depth (l ++ map (fun _ => Open) xs) (List.length xs + d).
Proof.
  induction xs as [|x xs IH]; intros l d D; cbn [map List.length]; [rewrite app_nil_r; exact D|].
  apply d_open in D. apply IH in D. rewrite <- app_assoc in D. cbn [app] in D.
  replace (S (List.length xs) + d) with (List.length xs + S d) by lia. exact D.
Qed.
Lemma depth_pair : forall l d, depth l d -> depth (l ++ [Open; Close]) d.
Proof.
  intros l d D. apply d_open in D. apply d_close in D. rewrite <- app_assoc in D. exact D.
Qed.
Lemma depth_pairs : forall (A : Type) (xs : list A) l d, depth l d -> depth (l ++ flat_map (fun _ => [Open; Close]) xs) d.
Proof.
  induction xs as [|x xs IH]; intros l d D; cbn [flat_map]; [rewrite app_nil_r; exact D|].
  apply depth_pair in D. apply IH in D. rewrite <- app_assoc in D. exact D.
Qed.
(** The code of a type, without its cases *)
Lemma depth_switch : forall (ms : list smethod) l d, depth l d ->
  depth (l ++ [Open] ++ flat_map (fun _ => [Open; Close]) ms ++ [Open; Close] ++ [Close]) d.
Proof.
  intros ms l d D. apply d_open in D. apply (depth_pairs ms) in D. apply depth_pair in D. apply d_close in D.
  rewrite <- !app_assoc in D. exact D.
Qed.

Fixpoint surplus (ts : list stype) : nat :=
  match ts with [] => 0 | t :: ts => (List.length (fst t) - 1) + surplus ts end.
Lemma depth_types : forall (ts : list stype) l d, (forall t, In t ts -> fst t <> []) -> depth l d ->
  depth (l ++ flat_map (type_braces true) ts) (surplus ts + d).
Proof.
  induction ts as [|t ts IH]; intros l d N D; cbn [flat_map surplus]; [rewrite app_nil_r; exact D|].
  unfold type_braces at 1. rewrite app_assoc.
  assert (E : depth (l ++ (map (fun _ => Open) (fst t) ++ [Open] ++ flat_map (fun _ => [Open; Close]) (snd t) ++ [Open; Close] ++ [Close] ++ [Close]))
    ((List.length (fst t) - 1) + d)).
  { apply (depth_opens (fst t)) in D. apply (depth_switch (snd t)) in D.
    assert (P : fst t <> []) by (apply N; left; reflexivity).
    destruct (fst t) as [|b bs]; [congruence|]. cbn [List.length] in *.
    replace (S (List.length bs) + d) with (S (List.length bs + d)) in D by lia. apply d_close in D.
    replace (S (List.length bs) - 1 + d) with (List.length bs + d) by lia.
    rewrite <- !app_assoc in D. exact D. }
  apply (IH _ _ (fun u I => N u (or_intror I))) in E.
  replace (List.length (fst t) - 1 + surplus ts + d) with (surplus ts + (List.length (fst t) - 1 + d)) by lia. exact E.
Qed.

Lemma depth_loop : forall ts : list stype, ts <> [] -> (forall t, In t ts -> fst t <> []) ->
  depth (loop_braces ts) (if Nat.ltb 1 (List.length ts) then surplus ts else 0).
Proof.
  intros ts NE N. unfold loop_braces. cbv zeta. destruct (Nat.ltb 1 (List.length ts)) eqn:L.
  - pose proof (d_open _ _ d_nil) as D. apply d_open in D. apply (depth_types ts N) in D.
    replace (surplus ts + 2) with (S (S (surplus ts))) in D by lia. apply d_close in D. apply d_close in D.
    rewrite <- !app_assoc in D. exact D.
  - destruct ts as [|t [|u ts]]; [congruence| |discriminate].
    pose proof (d_open _ _ d_nil) as D. apply (depth_switch (snd t)) in D. apply d_close in D.
    cbn [flat_map]. unfold type_braces. rewrite app_nil_r. rewrite <- !app_assoc in D. cbn [app] in *.
    rewrite <- !app_assoc. cbn [app]. exact D.
Qed.

Lemma surplus_zero : forall ts : list stype, (forall t, In t ts -> fst t <> []) ->
  (surplus ts = 0 <-> forall t, In t ts -> exists b, fst t = [b]).
Proof.
  induction ts as [|t ts IH]; intros N; cbn [surplus].
  - split; [intros _ t []|reflexivity].
  - specialize (IH (fun u I => N u (or_intror I))). pose proof (N t (or_introl eq_refl)) as P. split.
    + intros E u [<-|I].
      * destruct (fst t) as [|b [|c bs]]; [congruence|exists b; reflexivity|cbn [List.length] in E; lia].
      * apply IH; [lia|exact I].
    + intros A. destruct (A t (or_introl eq_refl)) as [b ->]. cbn [List.length].
      rewrite (proj2 IH); [reflexivity|]. intros u I. apply A. right. exact I.
Qed.

Lemma c124_braces : forall ts : list stype, ts <> [] -> (forall t, In t ts -> fst t <> []) ->
  (depth (loop_braces ts) 0 <-> List.length ts = 1 \/ forall t, In t ts -> exists b, fst t = [b]).
Proof.
  intros ts NE N. pose proof (depth_loop NE N) as D. split.
  - intros D0. pose proof (depth_fun D D0) as E. destruct (Nat.ltb 1 (List.length ts)) eqn:L.
    + right. apply (surplus_zero ts N). exact E.
    + left. apply Nat.ltb_ge in L. destruct ts as [|t [|u ts]]; [congruence|reflexivity|cbn [List.length] in L; lia].
  - intros [L|A].
    + rewrite L in D. exact D.
    + apply (surplus_zero ts N) in A. rewrite A in D. destruct (Nat.ltb 1 (List.length ts)); exact D.
Qed.
