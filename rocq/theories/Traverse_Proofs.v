(** Proofs about traversals. *)
From Coq Require Import ssreflect ssrbool List Bool Sorted PeanoNat Lia.
From Verif Require Import Prelude Traverse_Model Traverse_Spec.
Import ListNotations.

Definition on (P : node -> Prop) (o : option node) : Prop := match o with Some c => P c | None => True end.
Section NodeInd.
  Variable P : node -> Prop.
  Hypothesis H : forall t fz sl, Forall (fun x : slot => on P (snd x)) sl -> P (Node t fz sl).
  Fixpoint node_ind' (n : node) : P n :=
    match n with
    | Node t fz sl => H t fz sl
        ((fix go (l : list slot) : Forall (fun x : slot => on P (snd x)) l :=
            match l with
            | [] => Forall_nil _
            | x :: l' => Forall_cons x
                (match x as x0 return on P (snd x0) with (b, Some c) => node_ind' c | (b, None) => I end) (go l')
            end) sl)
    end.
End NodeInd.

Section Go.
  Context {S : Type} (act : S -> option node -> S * (change + exn)) (enter leave : S -> S).
  Definition pre_go (fz : bool) := fix go (l : list slot) (s : S) : outcome S (list slot) :=
    match l with
    | [] => ([], s, None)
    | (b, o) :: l' =>
      match act s o with
      | (s1, inr e) => (l, s1, Some e)
      | (s1, inl (Put o')) =>
        if fz then (l, s1, Some TypeError)
        else let '(r, s2, e) := go l' s1 in ((b, o') :: r, s2, e)
      | (s1, inl Keep) =>
        match o with
        | None =>
          if b then (l, leave (enter s1), Some OtherException)
          else let '(r, s2, e) := go l' s1 in ((b, o) :: r, s2, e)
        | Some c =>
          let '(c', s2, e) := preorder act enter leave c (enter s1) in
          match e with
          | Some e => ((b, Some c') :: l', leave s2, Some e)
          | None => let '(r, s3, e) := go l' (leave s2) in ((b, Some c') :: r, s3, e)
          end
        end
      end
    end.
  Definition post_go (fz : bool) := fix go (l : list slot) (s : S) : outcome S (list slot) :=
    match l with
    | [] => ([], s, None)
    | (b, o) :: l' =>
      let '(o', s1, e) :=
        match o with
        | None => if b then (o, leave (enter s), Some OtherException) else (o, s, None)
        | Some c => let '(c', s1, e) := postorder act enter leave c (enter s) in (Some c', leave s1, e)
        end in
      match e with
      | Some e => ((b, o') :: l', s1, Some e)
      | None =>
        match act s1 o' with
        | (s2, inr e) => ((b, o') :: l', s2, Some e)
        | (s2, inl Keep) => let '(r, s3, e) := go l' s2 in ((b, o') :: r, s3, e)
        | (s2, inl (Put o2)) =>
          if fz then ((b, o') :: l', s2, Some TypeError)
          else let '(r, s3, e) := go l' s2 in ((b, o2) :: r, s3, e)
        end
      end
    end.
  Lemma preorder_eq t fz sl s : preorder act enter leave (Node t fz sl) s =
    let '(sl', s', e) := pre_go fz sl s in (Node t fz sl', s', e).
  Proof. reflexivity. Qed.
  Lemma postorder_eq t fz sl s : postorder act enter leave (Node t fz sl) s =
    let '(sl', s', e) := post_go fz sl s in (Node t fz sl', s', e).
  Proof. reflexivity. Qed.
  Lemma pre_go_cons fz b o l' s : pre_go fz ((b, o) :: l') s =
      match act s o with
      | (s1, inr e) => ((b, o) :: l', s1, Some e)
      | (s1, inl (Put o')) =>
        if fz then ((b, o) :: l', s1, Some TypeError)
        else let '(r, s2, e) := pre_go fz l' s1 in ((b, o') :: r, s2, e)
      | (s1, inl Keep) =>
        match o with
        | None =>
          if b then ((b, o) :: l', leave (enter s1), Some OtherException)
          else let '(r, s2, e) := pre_go fz l' s1 in ((b, o) :: r, s2, e)
        | Some c =>
          let '(c', s2, e) := preorder act enter leave c (enter s1) in
          match e with
          | Some e => ((b, Some c') :: l', leave s2, Some e)
          | None => let '(r, s3, e) := pre_go fz l' (leave s2) in ((b, Some c') :: r, s3, e)
          end
        end
      end.
  Proof. reflexivity. Qed.
  Lemma post_go_cons fz b o l' s : post_go fz ((b, o) :: l') s =
      let '(o', s1, e) :=
        match o with
        | None => if b then (o, leave (enter s), Some OtherException) else (o, s, None)
        | Some c => let '(c', s1, e) := postorder act enter leave c (enter s) in (Some c', leave s1, e)
        end in
      match e with
      | Some e => ((b, o') :: l', s1, Some e)
      | None =>
        match act s1 o' with
        | (s2, inr e) => ((b, o') :: l', s2, Some e)
        | (s2, inl Keep) => let '(r, s3, e) := post_go fz l' s2 in ((b, o') :: r, s3, e)
        | (s2, inl (Put o2)) =>
          if fz then ((b, o') :: l', s2, Some TypeError)
          else let '(r, s3, e) := post_go fz l' s2 in ((b, o2) :: r, s3, e)
        end
      end.
  Proof. reflexivity. Qed.
End Go.

(** ** Positions *)
Definition under (i : nat) (x : list nat * option node) : list nat * option node := (i :: fst x, snd x).
Fixpoint pre_list (n : node) : list (list nat * option node) :=
  match n with
  | Node _ _ sl =>
    (fix go (i : nat) (l : list slot) : list (list nat * option node) :=
       match l with
       | [] => []
       | (_, None) :: l' => ([i], None) :: go (S i) l'
       | (_, Some c) :: l' => ([i], Some c) :: map (under i) (pre_list c) ++ go (S i) l'
       end) 0 sl
  end.
Fixpoint pre_list_go (i : nat) (l : list slot) : list (list nat * option node) :=
  match l with
  | [] => []
  | (_, None) :: l' => ([i], None) :: pre_list_go (S i) l'
  | (_, Some c) :: l' => ([i], Some c) :: map (under i) (pre_list c) ++ pre_list_go (S i) l'
  end.
Lemma pre_list_eq t fz sl : pre_list (Node t fz sl) = pre_list_go 0 sl.
Proof. reflexivity. Qed.
Fixpoint post_list (n : node) : list (list nat * option node) :=
  match n with
  | Node _ _ sl =>
    (fix go (i : nat) (l : list slot) : list (list nat * option node) :=
       match l with
       | [] => []
       | (_, None) :: l' => ([i], None) :: go (S i) l'
       | (_, Some c) :: l' => (map (under i) (post_list c) ++ [([i], Some c)]) ++ go (S i) l'
       end) 0 sl
  end.
Fixpoint post_list_go (i : nat) (l : list slot) : list (list nat * option node) :=
  match l with
  | [] => []
  | (_, None) :: l' => ([i], None) :: post_list_go (S i) l'
  | (_, Some c) :: l' => (map (under i) (post_list c) ++ [([i], Some c)]) ++ post_list_go (S i) l'
  end.
Lemma post_list_eq t fz sl : post_list (Node t fz sl) = post_list_go 0 sl.
Proof. reflexivity. Qed.

Definition slot_at (o : option node) (p : list nat) : option (option node) :=
  match o with Some c => at_ c p | None => match p with [] => Some None | _ => None end end.
Lemma at_slot t fz sl i p : at_ (Node t fz sl) (i :: p) = match nth_error sl i with Some x => slot_at (snd x) p | None => None end.
Proof. cbn. by case: (nth_error sl i) => [[b [c|]]|]. Qed.

Definition lists (L : node -> list (list nat * option node)) (n : node) : Prop :=
  forall p x, In (p, x) (L n) <-> p <> [] /\ at_ n p = Some x.
Definition in_slots (i : nat) (sl : list slot) (p : list nat) (x : option node) : Prop :=
  exists j p' b o, p = (i + j) :: p' /\ nth_error sl j = Some (b, o) /\ slot_at o p' = Some x.
Lemma in_slots_cons i b o l p x : in_slots i ((b, o) :: l) p x <->
  (exists p', p = i :: p' /\ slot_at o p' = Some x) \/ in_slots (S i) l p x.
Proof.
  split.
  - move=> [[|j] [p' [b' [o' [-> [N A]]]]]].
    + left. move: N => [_ <-] in A *. exists p'. by rewrite Nat.add_0_r.
    + right. exists j, p', b', o'. split=> //. by rewrite Nat.add_succ_comm.
  - move=> [[p' [-> A]]|[j [p' [b' [o' [-> [N A]]]]]]].
    + exists 0, p', b, o. by rewrite Nat.add_0_r.
    + exists (S j), p', b', o'. split=> //. by rewrite Nat.add_succ_comm.
Qed.
Lemma in_under i l p x : In (p, x) (map (under i) l) <-> exists p', p = i :: p' /\ In (p', x) l.
Proof.
  rewrite in_map_iff. split.
  - move=> [[q y] [[<- <-] I]]. by exists q.
  - move=> [q [-> I]]. by exists (q, x).
Qed.
Lemma pre_lists n : lists pre_list n.
Proof.
  elim/node_ind': n => t fz sl H p x. rewrite pre_list_eq.
  have G : forall i, In (p, x) (pre_list_go i sl) <-> in_slots i sl p x.
  { elim: H => [|[b o] l Ho _ IH] i.
    - split=> //. by move=> [j [p' [b [o [_ [N _]]]]]]; case: j N.
    - rewrite in_slots_cons -(IH (S i)). cbn [snd] in Ho. move: Ho. case: o => [c|] Hc; cbn [pre_list_go].
      + rewrite /= in_app_iff in_under. split.
        * move=> [[<- <-]|[[p' [-> Ip]]|I]]; [left; by exists []|left|by right].
          exists p'. split=> //. by case/Hc: Ip.
        * move=> [[p' [-> A]]|I]; last by right; right. case: p' A => [[<-]|j p' A]; first by left.
          right. left. exists (j :: p'). split=> //. by apply/Hc.
      + rewrite /=. split.
        * move=> [[<- <-]|I]; [left; by exists []|by right].
        * move=> [[p' [-> A]]|I]; last by right. case: p' A => [[<-]|j p'] //. by left. }
  rewrite (G 0). split.
  - move=> [j [p' [b [o [-> [N A]]]]]]. split=> //. by rewrite at_slot Nat.add_0_l N.
  - case: p {G} => [|j p] [] // _. rewrite at_slot. case N: (nth_error sl j) => [[b o]|] //= A.
    exists j, p, b, o. by rewrite Nat.add_0_l.
Qed.
Lemma post_lists n : lists post_list n.
Proof.
  elim/node_ind': n => t fz sl H p x. rewrite post_list_eq.
  have G : forall i, In (p, x) (post_list_go i sl) <-> in_slots i sl p x.
  { elim: H => [|[b o] l Ho _ IH] i.
    - split=> //. by move=> [j [p' [b [o [_ [N _]]]]]]; case: j N.
    - rewrite in_slots_cons -(IH (S i)). cbn [snd] in Ho. move: Ho. case: o => [c|] Hc; cbn [post_list_go].
      + rewrite !in_app_iff in_under /=. split.
        * move=> [[[p' [-> Ip]]|[[<- <-]|//]]|I]; [left|left; by exists []|by right].
          exists p'. split=> //. by case/Hc: Ip.
        * move=> [[p' [-> A]]|I]; last by right. case: p' A => [[<-]|j p' A]; first by left; right; left.
          left. left. exists (j :: p'). split=> //. by apply/Hc.
      + rewrite /=. split.
        * move=> [[<- <-]|I]; [left; by exists []|by right].
        * move=> [[p' [-> A]]|I]; last by right. case: p' A => [[<-]|j p'] //. by left. }
  rewrite (G 0). split.
  - move=> [j [p' [b [o [-> [N A]]]]]]. split=> //. by rewrite at_slot Nat.add_0_l N.
  - case: p {G} => [|j p] [] // _. rewrite at_slot. case N: (nth_error sl j) => [[b o]|] //= A.
    exists j, p, b, o. by rewrite Nat.add_0_l.
Qed.

(** ** Order *)
Lemma sorted_app A (R : A -> A -> Prop) l1 l2 : StronglySorted R l1 -> StronglySorted R l2 ->
  (forall x y, In x l1 -> In y l2 -> R x y) -> StronglySorted R (l1 ++ l2).
Proof.
  elim=> [|a l S1 IH F] S2 X //=. constructor.
  - apply: IH => // x y Hx. apply: X. by right.
  - apply/Forall_app. split=> //. apply/Forall_forall => y Hy. apply: X => //. by left.
Qed.
Lemma sorted_under (R : list nat -> list nat -> Prop) i l : (forall p q, R p q -> R (i :: p) (i :: q)) ->
  StronglySorted R (map fst l) -> StronglySorted R (map fst (map (under i) l)).
Proof.
  move=> H. elim: l => [|[p x] l IH] /= SS; first by constructor. inversion SS as [|? ? S1 F]; subst.
  constructor; first exact: IH. apply/Forall_forall => q. rewrite map_map => /in_map_iff [[q' y] [<- Iq]] /=.
  apply: H. move/Forall_forall: F. apply. apply/in_map_iff. by exists (q', y).
Qed.
Lemma go_heads go : (go = pre_list_go \/ go = post_list_go) -> forall sl i p, In p (map fst (go i sl)) -> exists j q, p = j :: q /\ i <= j.
Proof.
  move=> G. elim=> [|[b o] l IH] i p; first by case: G => ->.
  have X : In p (map fst (go (S i) l)) -> exists j q, p = j :: q /\ i <= j.
  { move/IH=> [j [q [-> L]]]. exists j, q. split=> //. lia. }
  have U : forall m, In p (map fst (map (under i) m)) -> exists j q, p = j :: q /\ i <= j.
  { move=> m. rewrite map_map => /in_map_iff [[q y] [<- _]]. by exists i, q. }
  move: X U. case: G => -> {IH} X U; case: o => [c|]; cbn [pre_list_go post_list_go].
  - rewrite /= map_app => [[<-|/in_app_iff [I|I]]]; [by exists i, []|exact: U I|exact: X].
  - move=> /= [<-|I]; [by exists i, []|exact: X].
  - rewrite !map_app => /in_app_iff [/in_app_iff [I|[<-|//]]|I]; [exact: U I|by exists i, []|exact: X].
  - move=> /= [<-|I]; [by exists i, []|exact: X].
Qed.
Lemma pre_sorted n : StronglySorted above_first (map fst (pre_list n)).
Proof.
  elim/node_ind': n => t fz sl H. rewrite pre_list_eq. move: 0. elim: H => [|[b o] l Ho _ IH] i; first by constructor.
  have HD := go_heads pre_list_go (or_introl eq_refl) l (S i).
  cbn [snd] in Ho. move: Ho. case: o => [c|] Hc; cbn [pre_list_go map fst].
  - rewrite map_app. constructor.
    + apply: sorted_app; [apply: sorted_under => // p q; exact: af_same|exact: IH|].
      move=> x y. rewrite map_map => /in_map_iff [[q z] [<- _]] /HD [j [r [-> L]]] /=. constructor. lia.
    + apply/Forall_forall => y /in_app_iff [|].
      * rewrite map_map => /in_map_iff [[q z] [<- Iq]] /=. apply: af_same. move/(pre_lists c q z): Iq.
        case: q => [[]|j q] // _. constructor.
      * move=> /HD [j [r [-> L]]]. constructor. lia.
  - constructor; first exact: IH. apply/Forall_forall => y /HD [j [r [-> L]]]. constructor. lia.
Qed.
Lemma post_sorted n : StronglySorted above_last (map fst (post_list n)).
Proof.
  elim/node_ind': n => t fz sl H. rewrite post_list_eq. move: 0. elim: H => [|[b o] l Ho _ IH] i; first by constructor.
  have HD := go_heads post_list_go (or_intror eq_refl) l (S i).
  cbn [snd] in Ho. move: Ho. case: o => [c|] Hc; cbn [post_list_go map fst].
  - rewrite !map_app. apply: sorted_app; [apply: sorted_app|exact: IH|].
    + apply: sorted_under => // p q. exact: al_same.
    + cbn. constructor; constructor.
    + move=> x y. rewrite map_map => /in_map_iff [[q z] [<- Iq]] [<-|//] /=. apply: al_same. move/(post_lists c q z): Iq.
      case: q => [[]|j q] // _. constructor.
    + move=> x y I /HD [j [r [-> L]]]. move: I => /in_app_iff [|[<-|//]]; last by constructor; lia.
      rewrite map_map => /in_map_iff [[q z] [<- _]] /=. constructor. lia.
  - constructor; first exact: IH. apply/Forall_forall => y /HD [j [r [-> L]]]. constructor. lia.
Qed.

(** ** Positions below *)
Lemma at_app n p q m : at_ n p = Some (Some m) -> at_ n (p ++ q) = at_ m q.
Proof.
  elim: p n => [|i p IH] n; first by move=> [->].
  cbn. case: (nth_error (slots_of n) i) => [[b [c|]]|] //; first exact: IH. by case: p {IH}.
Qed.
Lemma proper_kid t fz sl i b c : proper (Node t fz sl) -> nth_error sl i = Some (b, Some c) -> proper c.
Proof.
  move=> P N p m b' A I. apply: (P (i :: p) m b' _ I). by rewrite at_slot N.
Qed.
Lemma thawed_kid t fz sl i b c : thawed (Node t fz sl) -> nth_error sl i = Some (b, Some c) -> thawed c.
Proof. move=> P N p m A. apply: (P (i :: p)). by rewrite at_slot N. Qed.
Definition good_slot (P : node -> Prop) (x : slot) : Prop := match x with (_, Some c) => P c | (b, None) => b = false end.
Lemma proper_slots t fz sl : proper (Node t fz sl) -> Forall (good_slot proper) sl.
Proof.
  move=> P. apply/Forall_forall => [[b [c|]]] I.
  - have [i N] := In_nth_error _ _ I. exact: proper_kid P N.
  - exact: (P [] (Node t fz sl) b).
Qed.

(** ** Visits *)
Lemma pre_watch n : proper n -> forall log, preorder watch id id n log = (n, log ++ map snd (pre_list n), None).
Proof.
  elim/node_ind': n => t fz sl H PR log. rewrite preorder_eq pre_list_eq.
  have PS := proper_slots _ _ _ PR.
  suff G : forall i log, pre_go watch id id fz sl log = (sl, log ++ map snd (pre_list_go i sl), None) by rewrite (G 0).
  clear PR log. elim: H PS => [|[b o] l Ho _ IH] PS i log; first by rewrite /= app_nil_r.
  inversion PS as [|? ? P1 P2]; subst; clear PS. cbn [snd] in Ho. move: Ho P1. case: o => [c|] Hc P1; rewrite pre_go_cons; cbn [pre_list_go].
  - rewrite /watch. rewrite -/watch Hc // (IH P2 (S i)). rewrite /id /= map_app map_map /= -!app_assoc. done.
  - move: P1 => /= ->. rewrite /watch -/watch (IH P2 (S i)) /= -app_assoc. done.
Qed.
Lemma post_watch n : proper n -> forall log, postorder watch id id n log = (n, log ++ map snd (post_list n), None).
Proof.
  elim/node_ind': n => t fz sl H PR log. rewrite postorder_eq post_list_eq.
  have PS := proper_slots _ _ _ PR.
  suff G : forall i log, post_go watch id id fz sl log = (sl, log ++ map snd (post_list_go i sl), None) by rewrite (G 0).
  clear PR log. elim: H PS => [|[b o] l Ho _ IH] PS i log; first by rewrite /= app_nil_r.
  inversion PS as [|? ? P1 P2]; subst; clear PS. cbn [snd] in Ho. move: Ho P1. case: o => [c|] Hc P1; rewrite post_go_cons; cbn [post_list_go].
  - rewrite Hc // /watch -/watch (IH P2 (S i)). rewrite /id /= !map_app map_map /= -!app_assoc. done.
  - move: P1 => /= ->. rewrite /watch -/watch (IH P2 (S i)) /= -app_assoc. done.
Qed.
Lemma visits L n (R : list nat -> list nat -> Prop) (log : list (option node)) : lists L n -> StronglySorted R (map fst (L n)) ->
  log = map snd (L n) ->
  exists ps, StronglySorted R ps /\ (forall p, In p ps <-> p <> [] /\ at_ n p <> None) /\ Forall2 (fun p x => at_ n p = Some x) ps log.
Proof.
  move=> HL SS ->. exists (map fst (L n)). split=> //. split.
  - move=> p. rewrite in_map_iff. split.
    + move=> [[q x] [<- /HL [A B]]]. split=> //. by rewrite B.
    + move=> [A B]. case E: (at_ n p) B => [x|] // _. exists (p, x). split=> //. by apply/HL.
  - have : forall p x, In (p, x) (L n) -> at_ n p = Some x by move=> p x /HL [].
    clear SS HL. elim: (L n) => [|[p x] l IH] HA; constructor; first by apply: HA; left.
    apply: IH => q y Iq. apply: HA. by right.
Qed.
Lemma preorder_visits n : proper n -> exists log ps, preorder watch id id n [] = (n, log, None) /\
  StronglySorted above_first ps /\ (forall p, In p ps <-> p <> [] /\ at_ n p <> None) /\ Forall2 (fun p x => at_ n p = Some x) ps log.
Proof.
  move=> P. exists (map snd (pre_list n)). have [ps V] := visits pre_list n above_first _ (pre_lists n) (pre_sorted n) eq_refl.
  exists ps. split=> //. exact: pre_watch.
Qed.
Lemma postorder_visits n : proper n -> exists log ps, postorder watch id id n [] = (n, log, None) /\
  StronglySorted above_last ps /\ (forall p, In p ps <-> p <> [] /\ at_ n p <> None) /\ Forall2 (fun p x => at_ n p = Some x) ps log.
Proof.
  move=> P. exists (map snd (post_list n)). have [ps V] := visits post_list n above_last _ (post_lists n) (post_sorted n) eq_refl.
  exists ps. split=> //. exact: post_watch.
Qed.
