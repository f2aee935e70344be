(** Proofs about imports. *)
From Coq Require Import ssreflect ssrbool List String Bool Arith Lia Relation_Operators.
From Coq Require Import Relation_Definitions.
From Verif Require Import Prelude Imports_Model Imports_Spec.
Import ListNotations.
Open Scope string_scope. Open Scope list_scope.

Section E.
Variable E : env.
Hypothesis PL : plain E.

Definition tgt (e : entry) : option (option string) :=   (* Some t: an import with target t *)
  match snd e with
  | Quoted s => Some (quoted_target E (fst e) s)
  | Angle s => Some (angle_target E (importpath E) s)
  | _ => None
  end.
Notation out_t := (list (option string * string)).

(** Big step meaning of the loop *)
Inductive Exp : list string -> list entry -> out_t -> list string -> Prop :=
| X_nil r : Exp r [] [] r
| X_empty r f q out r' : Exp r q out r' -> Exp r ((f, Empty) :: q) out r'
| X_item r f x q out r' : Exp r q out r' -> Exp r ((f, Item x) :: q) ((f, x) :: out) r'
| X_seen r e t q out r' : tgt e = Some (Some t) -> In t r -> Exp r q out r' -> Exp r (e :: q) out r'
| X_new r e t l q o1 r1 o2 r2 : tgt e = Some (Some t) -> ~ In t r -> content E t = Some l ->
    Exp (t :: r) (tag (Some t) l) o1 r1 -> Exp r1 q o2 r2 -> Exp r (e :: q) (o1 ++ o2) r2.

Lemma Exp_app_inv q1 : forall r q2 out r2, Exp r (q1 ++ q2) out r2 ->
  exists o1 o2 r1, out = o1 ++ o2 /\ Exp r q1 o1 r1 /\ Exp r1 q2 o2 r2.
Proof.
  elim: q1 => [|e q1 IH] r q2 out r2 /= H.
  - exists [], out, r. split=> //. split=> //. by constructor.
  - inversion H; subst;
    match goal with X : Exp _ (q1 ++ q2) _ _ |- _ => rename X into HX end.
    + have [o1 [o2 [r1 [-> [A B]]]]] := IH _ _ _ _ HX. exists o1, o2, r1. split=> //. split=> //. by constructor.
    + have [o1 [o2 [r1 [-> [A B]]]]] := IH _ _ _ _ HX. exists ((f, x) :: o1), o2, r1. split=> //. split=> //. by constructor.
    + have [o1 [o2 [r1 [-> [A B]]]]] := IH _ _ _ _ HX. exists o1, o2, r1. split=> //. split=> //. by apply: (X_seen _ _ t).
    + have [o1' [o2' [r1' [-> [A B]]]]] := IH _ _ _ _ HX.
      exists (o1 ++ o1'), o2', r1'. split; first by rewrite app_assoc. split=> //. by apply: (X_new _ _ t l _ _ r1).
Qed.

Definition imp (fuel : nat) (q : list entry) (r : list string) (acc : out_t) (t : option string) :=
  match t with
  | None => Err ParseError
  | Some target =>
    if memb target r then loop E fuel q r acc
    else match content E target with
         | None => Err ParseError
         | Some l => loop E fuel (tag (Some target) l ++ q) (sets_union r (reads E target)) acc
         end
  end.

Lemma loop_sound fuel : forall q r acc out r', loop E fuel q r acc = Ok (out, r') ->
  exists o, out = acc ++ o /\ Exp r q o r'.
Proof.
  elim: fuel => [|fuel IH] q r acc out r' //=.
  case: q => [|[f item] q]; first by move=> [<- <-]; exists []; split; [rewrite app_nil_r|constructor].
  have I : forall t, tgt (f, item) = Some t -> imp fuel q r acc t = Ok (out, r') -> exists o, out = acc ++ o /\ Exp r ((f, item) :: q) o r'.
  { move=> [t|] T //=. rewrite /imp. case M: (memb t r).
    - move=> /IH [o [-> X]]. exists o. split=> //. apply: (X_seen _ _ t) => //. by apply/memb_In.
    - case C: (content E t) => [l|] // /IH [o [-> X]]. exists o. split=> //.
      rewrite PL in X. have [o1 [o2 [r1 [-> [A B]]]]] := Exp_app_inv _ _ _ _ _ X.
      apply: (X_new _ _ t l _ _ r1) => //. by apply/memb_nIn. }
  case: item I => [s|s||x] I.
  - exact: (I (quoted_target E f s)).
  - exact: (I (angle_target E (importpath E) s)).
  - move=> /IH [o [-> X]]. exists o. split=> //. by constructor.
  - move=> /IH [o [-> X]]. exists ((f, x) :: o). split; [by rewrite -app_assoc|by constructor].
Qed.

(** ** What is included *)
Definition ent_items (q : list entry) : out_t :=
  flat_map (fun e => match snd e with Item x => [(fst e, x)] | _ => [] end) q.
Lemma of_file_app f a b : of_file f (a ++ b) = of_file f a ++ of_file f b.
Proof. by rewrite /of_file filter_app map_app. Qed.
Lemma of_file_tag f l : of_file f (ent_items (tag (Some f) l)) = items_in l.
Proof.
  elim: l => [|s l IH] //=. rewrite /ent_items /= -/(ent_items _) of_file_app IH.
  case: s => //= x. rewrite /of_file /= /eqb /=. by rewrite String.eqb_refl.
Qed.
Lemma of_file_none f q : (forall e, In e q -> fst e <> Some f) -> of_file f (ent_items q) = [].
Proof.
  elim: q => [|e q IH] H //. rewrite /ent_items /= -/(ent_items q) of_file_app IH.
  - by move=> x Hx; apply: H; right.
  - rewrite app_nil_r. case: e H => [g s] H. case: s H => //= x H.
    have X := H _ (or_introl eq_refl). simpl in X. rewrite /of_file. cbn [app filter fst]. by rewrite (proj2 (eqb_neq _ g (Some f)) X).
Qed.
Lemma tag_fst f l e : In e (tag f l) -> fst e = f.
Proof. by move=> /in_map_iff [s [<- _]]. Qed.

Lemma Exp_read r q out r' : Exp r q out r' -> incl r r'.
Proof. elim=> // *; try done. move=> x Hx. auto with datatypes. Qed.

(** Files in the queue have been read. *)
Definition known (r : list string) (q : list entry) := forall e, In e q -> exists f, fst e = Some f /\ In f r.

Lemma Exp_of_file r q out r' : Exp r q out r' -> known r q -> forall f,
  (In f r -> of_file f out = of_file f (ent_items q)) /\
  (~ In f r -> In f r' -> of_file f out = items E f) /\
  (~ In f r' -> of_file f out = []).
Proof.
  elim=> {r q out r'} [r|r g q out r' X IH|r g x q out r' X IH|r e t q out r' T I X IH|r e t l q o1 r1 o2 r2 T N C X1 IH1 X2 IH2] K f.
  - split=> //.
  - apply: IH => e He. by apply: K; right.
  - have [A [B D]] := IH ltac:(by move=> e He; apply: K; right) f.
    have [h [Eh Hh]] := K (g, Item x) (or_introl eq_refl). simpl in Eh. subst g.
    have R := Exp_read _ _ _ _ X.
    have Z : forall o, of_file f ((Some h, x) :: o) = (if String.eqb h f then [x] else []) ++ of_file f o.
    { move=> o. rewrite /of_file /=. by case: (String.eqb h f). }
    rewrite Z. rewrite /ent_items /= -/(ent_items q) Z. split; first by move=> /A ->.
    case: (String.eqb_spec h f) => [<-|ne] /=; last by split.
    split=> H; first by case: H.
    by case: H; apply: R.
  - have K' : known r q by move=> e' He; apply: K; right.
    have [A [B D]] := IH K' f. split=> //. move=> /A ->.
    rewrite /ent_items /= -/(ent_items q). move: T. rewrite /tgt. by case: (snd e).
  - have K1 : known (t :: r) (tag (Some t) l).
    { move=> e' /tag_fst ->. exists t. split=> //. by left. }
    have R1 := Exp_read _ _ _ _ X1. have R2 := Exp_read _ _ _ _ X2.
    have K2 : known r1 q.
    { move=> e' He. have [g [Eg Hg]] := K e' (or_intror He). exists g. split=> //. apply: R1. by right. }
    have [A1 [B1 D1]] := IH1 K1 f. have [A2 [B2 D2]] := IH2 K2 f.
    have Eq : ent_items (e :: q) = ent_items q.
    { rewrite /ent_items /=. move: T. rewrite /tgt. by case: (snd e). }
    have Nq : ~ In f r -> of_file f (ent_items q) = [].
    { move=> Nf. apply: of_file_none => e' He X. have [g [Eg Hg]] := K e' (or_intror He).
      rewrite X in Eg. case: Eg => Eg. by subst. }
    rewrite of_file_app Eq. split; last split.
    + move=> Hf. rewrite A1; first by right. rewrite A2; first by apply: R1; right.
      rewrite of_file_none // => e' /tag_fst -> [X]. by subst.
    + move=> Nf Hf. case: (in_dec string_dec f r1) => H1.
      * rewrite A2 // Nq // app_nil_r. case: (String.eqb_spec f t) => [->|ne].
        -- have [A1' _] := IH1 K1 t. rewrite A1'; first by left. by rewrite of_file_tag /items /stmts C.
        -- apply: B1 => //. by move=> [X|//]; subst.
      * rewrite D1 // B2 //.
    + move=> Nf. rewrite D2 // D1 //. move=> H. by apply: Nf; apply: R2.
Qed.

(** ** Which files are read *)
Lemma angle_find l s : angle_target E l s = find (exists_ E) (map (fun d => abspath E (join E d s)) l).
Proof. by elim: l => [|p l IH] //=; rewrite IH. Qed.
Lemma tgt_tag f s : is_import s = true -> tgt (Some f, s) = Some (target_of E f s).
Proof. case: s => //= s _. by rewrite /tgt /= angle_find. Qed.
Lemma tgt_Some f s t : tgt (Some f, s) = Some t -> is_import s = true /\ target_of E f s = t.
Proof. case: s => //= x [<-]; split=> //. by rewrite angle_find. Qed.

Lemma Exp_closed r q out r' : Exp r q out r' ->
  (forall e o, In e q -> tgt e = Some o -> exists t, o = Some t /\ In t r') /\
  (forall f, In f r' -> ~ In f r -> content E f <> None /\
     forall s, In s (stmts E f) -> is_import s = true -> exists t, target_of E f s = Some t /\ In t r').
Proof.
  elim=> {r q out r'} [r|r g q out r' X [A B]|r g x q out r' X [A B]|r e t q out r' T I X [A B]|r e t l q o1 r1 o2 r2 T N C X1 [A1 B1] X2 [A2 B2]].
  - by split.
  - split=> // e o [<-|] //. exact: A.
  - split=> // e o [<-|] //. exact: A.
  - split=> // e' o [<-|]; last exact: A. rewrite T => [[<-]]. exists t. split=> //. by apply: (Exp_read _ _ _ _ X).
  - have R1 := Exp_read _ _ _ _ X1. have R2 := Exp_read _ _ _ _ X2. split.
    + move=> e' o [<-|]; last exact: A2. rewrite T => [[<-]]. exists t. split=> //. apply: R2. apply: R1. by left.
    + move=> f Hf Nf. case: (in_dec string_dec f r1) => H1; last exact: B2.
      case: (string_dec f t) => [Ef|ne].
      * subst f. rewrite /stmts C. split=> // s Hs Is.
        have Hin : In (Some t, s) (tag (Some t) l) by apply/in_map_iff; exists s.
        have [u [Eu Hu]] := A1 _ _ Hin (tgt_tag _ _ Is). exists u. split=> //. exact: R2.
      * have [Hc Hs] := B1 f H1 ltac:(by move=> [Z|]; [exact: ne|]). split=> // s Hin Is.
        have [u [Eu Hu]] := Hs s Hin Is. exists u. split=> //. exact: R2.
Qed.

Lemma Exp_sound r q out r' : Exp r q out r' -> forall f, In f r' -> ~ In f r ->
  exists e t, In e q /\ tgt e = Some (Some t) /\ reaches E t f.
Proof.
  elim=> {r q out r'} [r|r g q out r' X IH|r g x q out r' X IH|r e t q out r' T I X IH|r e t l q o1 r1 o2 r2 T N C X1 IH1 X2 IH2] f Hf Nf //;
    try by have [e' [t' [H1 H2]]] := IH f Hf Nf; exists e', t'; split; [right|].
  case: (in_dec string_dec f r1) => H1.
  - exists e, t. split; first by left. split=> //. case: (string_dec f t) => [->|ne]; first by constructor.
    have [e' [t' [He [Te Re]]]] := IH1 f H1 ltac:(by move=> [Z|]; [apply: ne|]).
    apply: (rt1n_trans _ _ _ t') => //. move: He => /in_map_iff [s [Es Hs]]. subst e'.
    exists s. have [Is Ts] := tgt_Some _ _ _ Te. split=> //. by rewrite /stmts C.
  - have [e' [t' [He HH]]] := IH2 f Hf H1. exists e', t'. split=> //. by right.
Qed.

Lemma reaches_trans f g h : reaches E f g -> reaches E g h -> reaches E f h.
Proof. move=> A B. elim: A B => // a b c I _ IH B. apply: (rt1n_trans _ _ _ b) => //. exact: IH. Qed.
Lemma reaches_step f g h : reaches E f g -> imports E g h -> reaches E f h.
Proof. move=> A B. apply: (reaches_trans _ _ _ A). apply: (rt1n_trans _ _ _ h) => //. by constructor. Qed.

Lemma parse_Exp fuel root out read : parse_file E fuel root = Ok (out, read) ->
  exists l, content E root = Some l /\ Exp [root] (tag (Some root) l) out read.
Proof.
  rewrite /parse_file. case C: (content E root) => [l|] // H.
  have [o [-> X]] := loop_sound _ _ _ _ _ _ H. exists l. split=> //. by rewrite PL in X.
Qed.

Lemma known_root root l : known [root] (tag (Some root) l).
Proof. move=> e /tag_fst ->. exists root. split=> //. by left. Qed.

Lemma read_exact fuel root out read : parse_file E fuel root = Ok (out, read) ->
  healthy E root /\ forall f, In f read <-> reaches E root f.
Proof.
  move=> /parse_Exp [l [C X]]. have [A B] := Exp_closed _ _ _ _ X. have S := Exp_sound _ _ _ _ X.
  have Rr : In root read by apply: (Exp_read _ _ _ _ X); left.
  have A' : forall s, In s (stmts E root) -> is_import s = true -> exists t, target_of E root s = Some t /\ In t read.
  { rewrite /stmts C => s Hs Is. apply: (A (Some root, s)); last exact: tgt_tag. by apply/in_map_iff; exists s. }
  have G : forall f, In f read -> content E f <> None /\ forall s, In s (stmts E f) -> is_import s = true -> exists t, target_of E f s = Some t /\ In t read.
  { move=> f Hf. case: (string_dec f root) => [->|ne]; first by rewrite C; split.
    apply: B => //. by move=> [Z|//]; apply: ne. }
  have R : forall f g, reaches E f g -> In f read -> In g read.
  { move=> f g. elim=> // a b c [s [Hs Ts]] _ IH Ha. apply: IH. have [_ D] := G a Ha.
    have Is : is_import s = true by case: s Ts {Hs}.
    have [t [Et Ht]] := D s Hs Is. rewrite Ts in Et. case: Et => ->. exact: Ht. }
  split.
  - move=> f /R /(_ Rr) /G [Hc D]. split=> // s Hs Is. by have [t [-> _]] := D s Hs Is.
  - move=> f. split; last by move=> /R; apply.
    move=> Hf. case: (string_dec f root) => [->|ne]; first by constructor.
    have [e [t [He [Te Re]]]] := S f Hf ltac:(by move=> [Z|//]; apply: ne).
    move: He => /in_map_iff [s [Es Hs]]. subst e. have [Is Ts] := tgt_Some _ _ _ Te.
    apply: (rt1n_trans _ _ _ t) => //. exists s. split=> //. by rewrite /stmts C.
Qed.

Lemma items_exact fuel root out read : parse_file E fuel root = Ok (out, read) ->
  forall f, of_file f out = if in_dec string_dec f read then items E f else [].
Proof.
  move=> /parse_Exp [l [C X]] f. have [A [B D]] := Exp_of_file _ _ _ _ X (known_root _ _) f.
  case: in_dec => [Hf|] //. case: (string_dec f root) => [Ef|ne].
  - subst f. rewrite A; first by left. by rewrite of_file_tag /items /stmts C.
  - apply: B => //. by move=> [Z|//]; apply: ne.
Qed.

(** Nothing comes from anywhere else. *)
Lemma out_files r q out r' : Exp r q out r' -> known r q -> forall e, In e out -> exists f, fst e = Some f /\ In f r'.
Proof.
  elim=> {r q out r'} [r|r g q out r' X IH|r g x q out r' X IH|r e t q out r' T I X IH|r e t l q o1 r1 o2 r2 T N C X1 IH1 X2 IH2] K e' //.
  - apply: IH => // y Hy. by apply: K; right.
  - move=> [<-|He].
    + have [f [Ef Hf]] := K _ (or_introl eq_refl). exists f. split=> //. by apply: (Exp_read _ _ _ _ X).
    + apply: IH => // y Hy. by apply: K; right.
  - apply: IH => // y Hy. by apply: K; right.
  - move=> /in_app_iff [He|He].
    + have K1 : known (t :: r) (tag (Some t) l) by move=> y /tag_fst ->; exists t; split; [|left].
      have [f [Ef Hf]] := IH1 K1 _ He. exists f. split=> //. by apply: (Exp_read _ _ _ _ X2).
    + apply: IH2 He => y Hy. have [f [Ef Hf]] := K y (or_intror Hy). exists f. split=> //.
      apply: (Exp_read _ _ _ _ X1). by right.
Qed.

(** ** Order *)
Definition complete (f : string) (l : out_t) : Prop := of_file f l = items E f.

Lemma Exp_order r q out r' : Exp r q out r' -> forall a pre O,
  known r q -> (forall e, In e q -> fst e = Some a) -> In a r ->
  (forall o, In o O -> reaches E o a) -> In a O -> incl O r ->
  (forall f, In f r -> In f O \/ complete f pre) ->
  (forall f, ~ In f r -> of_file f pre = []) ->
  (exists qs, q = tag (Some a) qs /\ incl qs (stmts E a)) ->
  (forall f, In f r' -> In f O \/ complete f (pre ++ out)) /\
  (* expansion of the queue itself *)
  (forall q1 e b q2, q = q1 ++ e :: q2 -> tgt e = Some (Some b) -> ~ reaches E b a ->
    exists o1 o2, out = o1 ++ o2 /\ of_file a o1 = of_file a (ent_items q1) /\
                  of_file a o2 = of_file a (ent_items q2) /\ complete b (pre ++ o1)) /\
  (* files expanded on the way *)
  (forall c q1 s b q2, In c r' -> ~ In c r -> stmts E c = q1 ++ s :: q2 -> target_of E c s = Some b ->
    is_import s = true -> ~ reaches E b c ->
    exists o1 o2, out = o1 ++ o2 /\ of_file c o1 = items_in q1 /\
                  of_file c o2 = items_in q2 /\ complete b (pre ++ o1)).
Proof.
  elim=> {r q out r'} [r|r g q out r' X IH|r g x q out r' X IH|r e t q out r' T I X IH|r e t l q o1 r1 o2 r2 T N C X1 IH1 X2 IH2] a pre O K Qa Ha Ro Ao IO Dn Fr [qs [Eqs Iqs]].
  - split; first by rewrite app_nil_r. split=> // q1; by case: q1.
  - case: qs Eqs Iqs => [|s0 qs] //= [Eg <- Eq] Iqs. subst g.
    have [C1 [C2 C3]] := IH a pre O ltac:(by move=> y Hy; apply: K; right) ltac:(by move=> y Hy; apply: Qa; right) Ha Ro Ao IO Dn Fr
      ltac:(by exists qs; split; [|move=> y Hy; apply: Iqs; right]).
    split=> //. split=> //. move=> q1 e b q2. case: q1 => [|e1 q1]; cbn [app]; first by move=> [<- _].
    move=> [<- E2] T Nb. exact: (C2 _ _ _ _ E2 T Nb).
  - case: qs Eqs Iqs => [|s0 qs] //= [Eg <- Eq] Iqs. subst g.
    have Zf : forall f o, f <> a -> of_file f ((Some a, x) :: o) = of_file f o.
    { move=> f o ne. rewrite /of_file /=. by case: (String.eqb_spec a f) => // Ea; case: ne. }
    have Za : forall o, of_file a ((Some a, x) :: o) = x :: of_file a o.
    { move=> o. by rewrite /of_file /= String.eqb_refl. }
    have [C1 [C2 C3]] := IH a (pre ++ [(Some a, x)]) O ltac:(by move=> y Hy; apply: K; right) ltac:(by move=> y Hy; apply: Qa; right) Ha Ro Ao IO
      ltac:(move=> f Hf; case: (string_dec f a) => [->|ne]; [by left|]; case: (Dn f Hf) => H; [by left|right; by rewrite /complete of_file_app (Zf f [] ne) app_nil_r])
      ltac:(by move=> f Nf; rewrite of_file_app Fr // Zf //; move=> Z; subst)
      ltac:(by exists qs; split; [|move=> y Hy; apply: Iqs; right]).
    split; last split.
    + move=> f /C1. by rewrite -app_assoc.
    + move=> q1 e b q2. case: q1 => [|e1 q1]; cbn [app]; first by move=> [<- _].
      move=> [<- E2] T Nb. have [p1 [p2 [-> [P1 [P2 P3]]]]] := C2 _ _ _ _ E2 T Nb.
      exists ((Some a, x) :: p1), p2. rewrite /ent_items /= -/(ent_items q1) !Za P1. split=> //. split=> //. split=> //.
      by rewrite -app_assoc in P3.
    + move=> c q1 s b q2 Hc Nc Ec Tc Is Nb. have [p1 [p2 [-> [P1 [P2 P3]]]]] := C3 _ _ _ _ _ Hc Nc Ec Tc Is Nb.
      exists ((Some a, x) :: p1), p2. rewrite Zf; first by move=> Z; subst. split=> //. split=> //. split=> //.
      by rewrite -app_assoc in P3.
  - case: qs Eqs Iqs => [|s0 qs] //= [Eg Eq] Iqs.
    have Ei : forall q, ent_items (e :: q) = ent_items q.
    { move=> q'. rewrite /ent_items /=. move: T. rewrite /tgt. by case: (snd e). }
    have [C1 [C2 C3]] := IH a pre O ltac:(by move=> y Hy; apply: K; right) ltac:(by move=> y Hy; apply: Qa; right) Ha Ro Ao IO Dn Fr
      ltac:(by exists qs; split; [|move=> y Hy; apply: Iqs; right]).
    split=> //. split=> //. move=> q1 e' b q2. case: q1 => [|e1 q1]; cbn [app].
    + move=> [E1 E2] T' Nb. subst e' q2. rewrite T in T'. case: T' => E3. subst b.
      exists [], out. split=> //. split=> //. split.
      * have [A _] := Exp_of_file _ _ _ _ X ltac:(by move=> y Hy; apply: K; right) a. exact: A.
      * rewrite app_nil_r. by case: (Dn t I) => // /Ro /Nb.
    + move=> [<- E2] T' Nb. rewrite Ei. exact: (C2 _ _ _ _ E2 T' Nb).
  - case: qs Eqs Iqs => [|s0 qs] //= [Eg Eq] Iqs.
    have Ei : forall q, ent_items (e :: q) = ent_items q.
    { move=> q'. rewrite /ent_items /=. move: T. rewrite /tgt. by case: (snd e). }
    have Imp : imports E a t.
    { exists s0. split; first by apply: Iqs; left. subst e. by have [_ ->] := tgt_Some _ _ _ T. }
    have Nta : t <> a by move=> Z; subst.
    have St : stmts E t = l by rewrite /stmts C.
    have R1 := Exp_read _ _ _ _ X1. have R2 := Exp_read _ _ _ _ X2.
    have K1 : known (t :: r) (tag (Some t) l) by move=> y /tag_fst ->; exists t; split; [|left].
    have K2 : known r1 q.
    { move=> y Hy. have [f [Ef Hf]] := K y (or_intror Hy). exists f. split=> //. apply: R1. by right. }
    have F1 := Exp_of_file _ _ _ _ X1 K1. have F2 := Exp_of_file _ _ _ _ X2 K2.
    have Ft : of_file t o1 = items E t.
    { have [A _] := F1 t. rewrite A; first by left. by rewrite of_file_tag /items St. }
    have Nq : forall f, f <> a -> of_file f (ent_items q) = [].
    { move=> f ne. apply: of_file_none => y Hy. rewrite (Qa y (or_intror Hy)) => [[Z]]. by apply: ne. }
    have Fa : of_file a o1 = [].
    { have [A _] := F1 a. rewrite A; first by right. apply: of_file_none => y /tag_fst -> [Z]. by apply: Nta. }
    have Ct : complete t (pre ++ o1) by rewrite /complete of_file_app Fr.
    have [I1 [I2 I3]] := IH1 t pre (t :: O) K1 ltac:(by move=> y /tag_fst) (or_introl eq_refl)
      ltac:(move=> o [<-|Ho]; [by constructor|]; exact: (reaches_step _ _ _ (Ro _ Ho) Imp)) (or_introl eq_refl)
      ltac:(move=> y [<-|Hy]; [by left|by right; apply: IO])
      ltac:(move=> f [<-|Hf]; [by left; left|]; case: (Dn f Hf) => H; [by left; right|by right])
      ltac:(by move=> f Nf; apply: Fr => Hf; apply: Nf; right)
      ltac:(by exists l; rewrite St; split).
    have [C1 [C2 C3]] := IH2 a (pre ++ o1) O K2 ltac:(by move=> y Hy; apply: Qa; right) ltac:(by apply: R1; right) Ro Ao
      ltac:(by move=> y Hy; apply: R1; right; apply: IO)
      ltac:(by move=> f Hf; case: (I1 f Hf) => [[<-|H]|H]; [right|left|right])
      ltac:(move=> f Nf; rewrite of_file_app Fr; [by move=> H; apply: Nf; apply: R1; right|]; by have [_ [_ ->]] := F1 f)
      ltac:(by exists qs; split; [|move=> y Hy; apply: Iqs; right]).
    split; first by move=> f /C1; rewrite -app_assoc. split.
    + move=> q1 e' b q2. case: q1 => [|e1 q1]; cbn [app].
      * move=> [E1 E2] T' Nb. subst e' q2. rewrite T in T'. case: T' => E3. subst b.
        exists o1, o2. rewrite Fa. split=> //. split=> //. split=> //. have [A _] := F2 a. apply: A. apply: R1. by right.
      * move=> [<- E2] T' Nb. have [p1 [p2 [-> [P1 [P2 P3]]]]] := C2 _ _ _ _ E2 T' Nb.
        exists (o1 ++ p1), p2. rewrite Ei of_file_app Fa P1 P2 -!app_assoc. split=> //. split=> //. split=> //.
        by rewrite -app_assoc in P3.
    + move=> c q1 s b q2 Hc Nc Ec Tc Is Nb.
      have Nca : c <> a by move=> Z; subst.
      case: (in_dec string_dec c r1) => H1.
      * have F2c : of_file c o2 = [] by have [A _] := F2 c; rewrite A // Nq.
        case: (string_dec c t) => [Z|ne].
        -- subst c. have Et : tag (Some t) l = tag (Some t) q1 ++ (Some t, s) :: tag (Some t) q2.
           { by rewrite -St Ec /tag map_app. }
           have [p1 [p2 [-> [P1 [P2 P3]]]]] := I2 _ _ b _ Et ltac:(by rewrite tgt_tag // Tc) Nb.
           exists p1, (p2 ++ o2). rewrite of_file_app F2c app_nil_r P1 P2 !of_file_tag app_assoc. by split.
        -- have [p1 [p2 [-> [P1 [P2 P3]]]]] := I3 _ _ _ _ _ H1 ltac:(by move=> [Z|//]; apply: ne) Ec Tc Is Nb.
           exists p1, (p2 ++ o2). rewrite of_file_app F2c app_nil_r P1 P2 app_assoc. by split.
      * have [p1 [p2 [-> [P1 [P2 P3]]]]] := C3 _ _ _ _ _ Hc H1 Ec Tc Is Nb.
        exists (o1 ++ p1), p2. have [_ [_ D]] := F1 c. rewrite of_file_app D // P1 P2 -!app_assoc. split=> //. split=> //. split=> //.
        by rewrite -app_assoc in P3.
Qed.

Lemma parse_order fuel root out read : parse_file E fuel root = Ok (out, read) ->
  forall c q1 s b q2, reaches E root c -> stmts E c = q1 ++ s :: q2 -> target_of E c s = Some b -> ~ reaches E b c ->
  exists o1 o2, out = o1 ++ o2 /\ of_file c o1 = items_in q1 /\ of_file c o2 = items_in q2 /\
                of_file b o1 = items E b /\ of_file b o2 = [].
Proof.
  move=> P c q1 s b q2 Rc Ec Tc Nb.
  have [_ RE] := read_exact _ _ _ _ P. have IE := items_exact _ _ _ _ P.
  have Hc := proj2 (RE c) Rc.
  have Rb : reaches E root b. { apply: (reaches_step _ _ _ Rc). exists s. split=> //. rewrite Ec. apply: in_or_app. right. by left. }
  have Is : is_import s = true by case: s Tc {Ec}.
  have [l [C X]] := parse_Exp _ _ _ _ P.
  have St : stmts E root = l by rewrite /stmts C.
  have [_ [C2 C3]] := Exp_order _ _ _ _ X root [] [root] (known_root _ _) ltac:(by move=> y /tag_fst) (or_introl eq_refl)
    ltac:(move=> o [<-|//]; by constructor) (or_introl eq_refl) (fun x H => H) ltac:(by left) ltac:(done)
    ltac:(by exists l; rewrite St; split).
  have [o1 [o2 [Eo [P1 [P2 P3]]]]] : exists o1 o2, out = o1 ++ o2 /\ of_file c o1 = items_in q1 /\
                  of_file c o2 = items_in q2 /\ complete b ([] ++ o1).
  { case: (string_dec c root) => [Z|ne].
    - subst c. have Et : tag (Some root) l = tag (Some root) q1 ++ (Some root, s) :: tag (Some root) q2.
      { by rewrite -St Ec /tag map_app. }
      have := C2 _ _ b _ Et ltac:(by rewrite tgt_tag // Tc) Nb. by rewrite !of_file_tag.
    - apply: (C3 _ _ _ _ _ Hc _ Ec Tc Is Nb). by move=> [Z|//]; apply: ne. }
  exists o1, o2. split=> //. split=> //. split=> //. split=> //.
  have := IE b. case: in_dec => [Hb|H]; last by case: H; apply/RE.
  rewrite Eo of_file_app P3 => Z. apply: (app_inv_head (items E b)). by rewrite Z app_nil_r.
Qed.

(** ** Termination *)
Fixpoint weight (U r : list string) : nat :=
  match U with
  | [] => 0
  | f :: U => (if in_dec string_dec f r then 0 else S (List.length (stmts E f))) + weight U r
  end.
Lemma weight_mono U r r' : incl r r' -> (weight U r' <= weight U r)%nat.
Proof.
  move=> I. elim: U => [|f U IH] //=. case: (in_dec string_dec f r) => H; case: (in_dec string_dec f r') => H' //=; try lia.
  by case: H'; apply: I.
Qed.
Lemma weight_new U r t : In t U -> ~ In t r -> (S (List.length (stmts E t)) + weight U (t :: r) <= weight U r)%nat.
Proof.
  elim: U => [|f U IH] // [Z|Hin] Nt; cbn [weight].
  - subst f. case: (in_dec string_dec t r) => [//|_']. case: (in_dec string_dec t (t :: r)) => [__|H]; last by case: H; left.
    cbn [is_left]. have := weight_mono U r (t :: r) ltac:(by move=> y Hy; right). lia.
  - have := IH Hin Nt. case: (in_dec string_dec f r) => H; case: (in_dec string_dec f (t :: r)) => H'; cbn [is_left]; try lia.
    by case: H'; right.
Qed.

Definition good (root : string) (q : list entry) :=
  forall e, In e q -> exists f, fst e = Some f /\ reaches E root f /\ In (snd e) (stmts E f).
Lemma loop_total root U : finite_from E root U -> forall fuel q r acc, good root q ->
  (weight U r + List.length q < fuel)%nat ->
  (exists o, loop E fuel q r acc = Ok o) \/ (loop E fuel q r acc = Err ParseError /\ ~ healthy E root).
Proof.
  move=> FU. elim=> [|fuel IH] q r acc G L; first by lia.
  case: q G L => [|[g item] q] G L; first by left; exists (acc, r).
  have G' : good root q by move=> e He; apply: G; right.
  have [f [Ef [Rf Hf]]] := G _ (or_introl eq_refl). simpl in Ef, Hf. subst g. cbn [List.length] in L.
  have I : forall t, tgt (Some f, item) = Some t ->
    (exists o, imp fuel q r acc t = Ok o) \/ (imp fuel q r acc t = Err ParseError /\ ~ healthy E root).
  { move=> t T. have [Is Tt] := tgt_Some _ _ _ T. subst t. case Et: (target_of E f item) => [t|] /=; last first.
    - right. split=> // Hh. have [_ D] := Hh f Rf. by apply: (D item Hf Is).
    - case M: (memb t r); first by apply: IH => //; lia.
      have Rt : reaches E root t by apply: (reaches_step _ _ _ Rf); exists item.
      case Ct: (content E t) => [l|]; last by right; split=> // Hh; have [D _] := Hh t Rt.
      have St : stmts E t = l by rewrite /stmts Ct.
      apply: IH.
      + move=> e /in_app_iff [He|]; last exact: G'. move: He => /in_map_iff [s [<- Hs]]. exists t. rewrite St. by split.
      + rewrite PL app_length /tag map_length. have := weight_new U r t (FU _ Rt) ltac:(by apply/memb_nIn).
        rewrite St /sets_union /=. lia. }
  case: item Hf L I G => [s|s||x] Hf L I G /=.
  - exact: (I (quoted_target E (Some f) s) eq_refl).
  - exact: (I (angle_target E (importpath E) s) eq_refl).
  - apply: IH => //. lia.
  - apply: IH => //. lia.
Qed.

Lemma parse_terminates root U : finite_from E root U -> exists n, forall fuel, (n <= fuel)%nat ->
  (healthy E root /\ exists o, parse_file E fuel root = Ok o) \/
  (~ healthy E root /\ parse_file E fuel root = Err ParseError).
Proof.
  move=> FU. exists (S (weight U [root] + List.length (stmts E root))) => fuel L.
  have R : forall o, parse_file E fuel root = Ok o -> healthy E root.
  { move=> [o r] H. by have [] := read_exact _ _ _ _ H. }
  have Rr : reaches E root root by constructor.
  case P: (parse_file E fuel root) => [o|x]; first by left; split; [exact: (R _ P)|exists o].
  rewrite -P. move: P. rewrite /parse_file. case C: (content E root) => [l|]; last first.
  - move=> _. right. split=> // Hh. by have [D _] := Hh root Rr.
  - have St : stmts E root = l by rewrite /stmts C.
    have := loop_total root U FU fuel (tag (Some root) l) (reads E root) [].
    rewrite PL. case.
    + move=> e /in_map_iff [s [<- Hs]]. exists root. by rewrite St.
    + rewrite /tag map_length. rewrite St in L. lia.
    + by move=> [o ->].
    + move=> [-> Nh] _. by right.
Qed.
End E.

Lemma items_exact' E : plain E -> forall fuel root out read, parse_file E fuel root = Ok (out, read) ->
  forall f, (In f read -> of_file f out = items E f) /\ (~ In f read -> of_file f out = []).
Proof. move=> PL fuel root out read P f. have := items_exact E PL _ _ _ _ P f. by case: in_dec. Qed.

(** ** Two names of one file *)
Lemma target_canonical E f s t : (forall p, abspath E (abspath E p) = abspath E p) ->
  target_of E f s = Some t -> abspath E t = t.
Proof.
  move=> ID. case: s => //= s.
  - case: ifP => // _ [<-]. exact: ID.
  - elim: (importpath E) => [|p ps IH] //=. case: ifP => // _ [<-]. exact: ID.
Qed.
Lemma reaches_canonical E root f : (forall p, abspath E (abspath E p) = abspath E p) ->
  abspath E root = root -> reaches E root f -> abspath E f = f.
Proof.
  move=> ID Hr. move=> R. elim: R Hr => // a b c [s [_ T]] _ IH _. apply: IH. exact: (target_canonical _ _ _ _ ID T).
Qed.
Lemma canonical_once E fuel root out read : plain E -> (forall p, abspath E (abspath E p) = abspath E p) ->
  abspath E root = root -> parse_file E fuel root = Ok (out, read) ->
  forall f g, In f read -> In g read -> abspath E f = abspath E g -> f = g.
Proof.
  move=> PL ID Hr P f g Hf Hg. have [_ RE] := read_exact _ PL _ _ _ _ P.
  rewrite (reaches_canonical _ _ _ ID Hr (proj1 (RE f) Hf)).
  by rewrite (reaches_canonical _ _ _ ID Hr (proj1 (RE g) Hg)).
Qed.

Definition rel_env : env := {|
  abspath := fun p => if eqb p "a" then "/a" else p;
  join := fun _ s => s; dirname := fun s => s; exists_ := fun _ => true; importpath := [];
  content := fun _ => Some [Quoted "a"; Item "x"]; reads := fun f => [f] |}.
Lemma relative_twice : exists E fuel root out read, plain E /\ (forall p, abspath E (abspath E p) = abspath E p) /\
  (forall p, content E (abspath E p) = content E p) /\
  parse_file E fuel root = Ok (out, read) /\
  exists f g, In f read /\ In g read /\ abspath E f = abspath E g /\ f <> g.
Proof.
  exists rel_env, 9, "a". eexists. eexists. split; [done|split; [|split; [done|split; [reflexivity|]]]].
  - move=> p /=. case E1: (String.eqb p "a") => //=. by rewrite E1.
  - exists "a", "/a". repeat split; [by right; left|by left|done].
Qed.
