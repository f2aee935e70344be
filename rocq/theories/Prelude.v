(** Shared vocabulary of the model: results with exceptions as values,
    decidable equality, insertion-ordered dictionaries (Python dict), list
    helpers.  Nothing in this file models a specific function of /repo. *)
From Coq Require Import List Bool Arith NArith ZArith String Ascii Lia.
From Coq Require Import ssreflect ssrbool.
Import ListNotations.
Set Implicit Arguments.

(** The exceptions the modelled code can end with.  [OutOfFuel] is not a Python
    exception: it marks exhaustion of a recursion bound of the model, and is
    excluded by theorems wherever it occurs. *)
Inductive exn :=
| ParseError | ASTError | AssertionError | KeyError | ValueError | TypeError
| IndexError | TemplateError | OtherException | OutOfFuel.

Inductive res (A : Type) :=
| Ok (a : A)
| Err (e : exn).
Arguments Ok {A} a.
Arguments Err {A} e.

Definition bind {A B} (m : res A) (f : A -> res B) : res B :=
  match m with Ok a => f a | Err e => Err e end.

Declare Scope res_scope.
Delimit Scope res_scope with res.
Notation "x <- m ;; k" := (bind m (fun x => k))
  (at level 61, m at next level, right associativity) : res_scope.
Notation "' p <- m ;; k" := (bind m (fun x => match x with p => k end))
  (at level 61, p pattern, m at next level, right associativity) : res_scope.
Open Scope res_scope.

Fixpoint mapM {A B} (f : A -> res B) (l : list A) : res (list B) :=
  match l with
  | [] => Ok []
  | a :: l => b <- f a ;; bs <- mapM f l ;; Ok (b :: bs)
  end.

Fixpoint foldM {A B} (f : A -> B -> res A) (l : list B) (a : A) : res A :=
  match l with
  | [] => Ok a
  | b :: l => a' <- f a b ;; foldM f l a'
  end.

(** Decidable equality. *)
Class Eqb (A : Type) := {
  eqb : A -> A -> bool;
  eqb_spec : forall x y, reflect (x = y) (eqb x y)
}.

Lemma reflect_of A (f : A -> A -> bool) :
  (forall x y, f x y = true <-> x = y) -> forall x y, reflect (x = y) (f x y).
Proof. move=> H x y. case E: (f x y); constructor; first by apply/H. by move=> /H; rewrite E. Qed.

#[global] Instance Eqb_string : Eqb string := {| eqb := String.eqb; eqb_spec := reflect_of _ String.eqb_eq |}.
#[global] Instance Eqb_nat : Eqb nat := {| eqb := Nat.eqb; eqb_spec := reflect_of _ Nat.eqb_eq |}.
#[global] Instance Eqb_N : Eqb N := {| eqb := N.eqb; eqb_spec := reflect_of _ N.eqb_eq |}.
#[global] Instance Eqb_Z : Eqb Z := {| eqb := Z.eqb; eqb_spec := reflect_of _ Z.eqb_eq |}.
#[global] Instance Eqb_bool : Eqb bool := {| eqb := Bool.eqb; eqb_spec := reflect_of _ Bool.eqb_true_iff |}.

Lemma eqb_true A (E : Eqb A) (x y : A) : eqb x y = true <-> x = y.
Proof. case: eqb_spec => H; split=> //. Qed.

Definition prod_eqb {A B} {EA : Eqb A} {EB : Eqb B} (p q : A * B) : bool :=
  eqb (fst p) (fst q) && eqb (snd p) (snd q).
Lemma prod_eqb_eq A B (EA : Eqb A) (EB : Eqb B) (p q : A * B) : prod_eqb p q = true <-> p = q.
Proof.
  case: p q => [a b] [c d]; rewrite /prod_eqb /= andb_true_iff !eqb_true.
  split; [by case=> -> ->|by case=> -> ->].
Qed.
#[global] Instance Eqb_prod A B (EA : Eqb A) (EB : Eqb B) : Eqb (A * B) :=
  {| eqb := prod_eqb; eqb_spec := reflect_of _ (@prod_eqb_eq A B EA EB) |}.

Definition option_eqb {A} {EA : Eqb A} (p q : option A) : bool :=
  match p, q with
  | None, None => true
  | Some a, Some b => eqb a b
  | _, _ => false end.
Lemma option_eqb_eq A (EA : Eqb A) (p q : option A) : option_eqb p q = true <-> p = q.
Proof.
  case: p q => [a|] [b|] //=. rewrite eqb_true. split; [by move=> ->|by case].
Qed.
#[global] Instance Eqb_option A (EA : Eqb A) : Eqb (option A) :=
  {| eqb := option_eqb; eqb_spec := reflect_of _ (@option_eqb_eq A EA) |}.

Fixpoint list_eqb {A} {EA : Eqb A} (l m : list A) : bool :=
  match l, m with
  | [], [] => true
  | a :: l, b :: m => eqb a b && list_eqb l m
  | _, _ => false
  end.
Lemma list_eqb_eq A (EA : Eqb A) (p q : list A) : list_eqb p q = true <-> p = q.
Proof.
  elim: p q => [|a l IH] [|b m] //=. rewrite andb_true_iff IH eqb_true.
  split; [by case=> -> ->|by case].
Qed.
#[global] Instance Eqb_list A (EA : Eqb A) : Eqb (list A) :=
  {| eqb := list_eqb; eqb_spec := reflect_of _ (@list_eqb_eq A EA) |}.

Lemma eqb_refl A (E : Eqb A) (x : A) : eqb x x = true.
Proof. by case: eqb_spec. Qed.
Lemma eqb_eq A (E : Eqb A) (x y : A) : eqb x y = true <-> x = y.
Proof. case: eqb_spec => H; split=> //. Qed.
Lemma eqb_neq A (E : Eqb A) (x y : A) : eqb x y = false <-> x <> y.
Proof. case: eqb_spec => H; split=> //. Qed.

(** Membership test on lists ([x in l] in Python). *)
Fixpoint memb {A} {E : Eqb A} (x : A) (l : list A) : bool :=
  match l with
  | [] => false
  | y :: l => eqb x y || memb x l
  end.
Lemma memb_In A (E : Eqb A) (x : A) l : memb x l = true <-> In x l.
Proof.
  elim: l => [|y l IH] /=; first by split.
  rewrite orb_true_iff IH eqb_eq. split; case; auto.
Qed.
Lemma memb_nIn A (E : Eqb A) (x : A) l : memb x l = false <-> ~ In x l.
Proof. rewrite -memb_In. case: memb; split=> //. Qed.

(** Insertion-ordered dictionaries. *)
Definition dict (K V : Type) := list (K * V).
Fixpoint dget {K V} {E : Eqb K} (d : dict K V) (k : K) : option V :=
  match d with
  | [] => None
  | (k', v) :: d => if eqb k k' then Some v else dget d k
  end.
(** [d[k] = v]: overwrite in place, else append. *)
Fixpoint dset {K V} {E : Eqb K} (d : dict K V) (k : K) (v : V) : dict K V :=
  match d with
  | [] => [(k, v)]
  | (k', v') :: d => if eqb k k' then (k', v) :: d else (k', v') :: dset d k v
  end.
(** [del d[k]] (no effect when absent). *)
Fixpoint ddel {K V} {E : Eqb K} (d : dict K V) (k : K) : dict K V :=
  match d with
  | [] => []
  | (k', v') :: d => if eqb k k' then d else (k', v') :: ddel d k
  end.
Definition dkeys {K V} (d : dict K V) : list K := map fst d.

Lemma dget_dset K V (E : Eqb K) (d : dict K V) k v k' :
  dget (dset d k v) k' = if eqb k' k then Some v else dget d k'.
Proof.
  elim: d => [|[k0 v0] d IH] //=.
  case: (eqb_spec k k0) => [<-|n] /=.
  - by case: (eqb_spec k' k).
  - rewrite IH. case: (eqb_spec k' k0) => [->|n'] //.
    by case: (eqb_spec k0 k) => // e; case: n.
Qed.
Lemma dget_dset_eq K V (E : Eqb K) (d : dict K V) k v : dget (dset d k v) k = Some v.
Proof. by rewrite dget_dset eqb_refl. Qed.
Lemma dget_dset_ne K V (E : Eqb K) (d : dict K V) k v k' :
  k' <> k -> dget (dset d k v) k' = dget d k'.
Proof. by rewrite dget_dset => /eqb_neq ->. Qed.
Lemma dget_In K V (E : Eqb K) (d : dict K V) k v : dget d k = Some v -> In (k, v) d.
Proof.
  elim: d => [|[k0 v0] d IH] //=. case: eqb_spec => [->|n]; first by case=> ->; left.
  by move=> /IH; right.
Qed.
Lemma dget_keys K V (E : Eqb K) (d : dict K V) k : In k (dkeys d) <-> dget d k <> None.
Proof.
  rewrite /dkeys. elim: d => [|[k0 v0] d IH] /=; first by split.
  case: eqb_spec => [->|n]; first by split => // _; left.
  rewrite -IH. split; first by case=> // e; case: n.
  by right.
Qed.
Lemma dget_None K V (E : Eqb K) (d : dict K V) k : dget d k = None <-> ~ In k (dkeys d).
Proof. rewrite dget_keys. case: (dget d k) => [v|]; split=> //; by [move=> _ H; apply: H|move=> H; case: H]. Qed.
Lemma dget_app K V (E : Eqb K) (d1 d2 : dict K V) k :
  dget (d1 ++ d2) k = match dget d1 k with Some v => Some v | None => dget d2 k end.
Proof. elim: d1 => [|[k0 v0] d IH] //=. by case: eqb_spec. Qed.
Lemma dkeys_dset K V (E : Eqb K) (d : dict K V) k v k' :
  In k' (dkeys (dset d k v)) <-> k' = k \/ In k' (dkeys d).
Proof. rewrite !dget_keys dget_dset. case: eqb_spec => [->|n]; split; by [left|right|case|]. Qed.
Lemma NoDup_dset K V (E : Eqb K) (d : dict K V) k v : NoDup (dkeys d) -> NoDup (dkeys (dset d k v)).
Proof.
  elim: d => [|[k0 v0] d IH] /=.
  - move=> _. constructor => //. constructor.
  - move=> H; inversion H as [|? ? N ND]; subst.
    case: eqb_spec => [e|n] /=; first by constructor.
    constructor; last by apply: IH.
    move=> /dkeys_dset [e|//]. by apply: n.
Qed.
Lemma In_dget K V (E : Eqb K) (d : dict K V) k v : NoDup (dkeys d) -> In (k, v) d -> dget d k = Some v.
Proof.
  elim: d => [|[k0 v0] d IH] //= H [[-> ->]|I].
  - by rewrite eqb_refl.
  - inversion H as [|? ? N ND]; subst. case: eqb_spec => [e|n]; last by apply: IH.
    subst. case: N. by apply: (in_map fst) I.
Qed.

(** Results. *)
Lemma bind_Ok A B (m : res A) (f : A -> res B) b :
  bind m f = Ok b <-> exists a, m = Ok a /\ f a = Ok b.
Proof. case: m => [a|e] /=; split; by [move=> H; exists a|move=> [a' [[->] H]]| |move=> [a' [? ?]]]. Qed.

Lemma mapM_Ok A B (f : A -> res B) l bs :
  mapM f l = Ok bs <-> Forall2 (fun a b => f a = Ok b) l bs.
Proof.
  elim: l bs => [|a l IH] bs /=.
  - split; first by case=> <-. by move=> H; inversion H.
  - rewrite bind_Ok. split.
    + move=> [b [Hb]]. rewrite bind_Ok => [[bs' [/IH H [<-]]]]. by constructor.
    + move=> H; inversion H as [|? b ? bs' Hb Hbs]; subst. exists b; split=> //.
      rewrite (proj2 (IH bs') Hbs) //.
Qed.
