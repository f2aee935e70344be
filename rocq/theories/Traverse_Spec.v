(** What users of traversals rely on. *)
From Coq Require Import List Bool Sorted.
From Verif Require Import Prelude Traverse_Model.
Import ListNotations.

Definition tag_of (n : node) : nat := match n with Node t _ _ => t end.
Definition slots_of (n : node) : list slot := match n with Node _ _ sl => sl end.
Definition is_frozen (n : node) : bool := match n with Node _ f _ => f end.

(** Positions in an AST: which slot, which slot of what is there, and so on.  What is there may be None. *)
Fixpoint at_ (n : node) (p : list nat) : option (option node) :=
  match p with
  | [] => Some (Some n)
  | i :: p =>
    match nth_error (slots_of n) i with
    | Some (_, Some c) => at_ c p
    | Some (_, None) => match p with [] => Some None | _ => None end
    | None => None
    end
  end.

(** The order of visits: what is above first, or what is above last; and from left to right. *)
Inductive above_first : list nat -> list nat -> Prop :=
| af_above i p : above_first [] (i :: p)
| af_left i j p q : i < j -> above_first (i :: p) (j :: q)
| af_same i p q : above_first p q -> above_first (i :: p) (i :: q).
Inductive above_last : list nat -> list nat -> Prop :=
| al_above i p : above_last (i :: p) []
| al_left i j p q : i < j -> above_last (i :: p) (j :: q)
| al_same i p q : above_last p q -> above_last (i :: p) (i :: q).

(** No list contains None. *)
Definition proper (n : node) : Prop :=
  forall p m b, at_ n p = Some (Some m) -> In (b, None) (slots_of m) -> b = false.
Definition thawed (n : node) : Prop := forall p m, at_ n p = Some (Some m) -> is_frozen m = false.

(** Actions that note what they see and keep it *)
Definition watch (log : list (option node)) (x : option node) : list (option node) * (change + exn) := (log ++ [x], inl Keep).
(** Any action, together with a note of what it was given, how many contexts were open, and what it returned or raised *)
Definition note := (option node * nat * (change + exn))%type.
Definition noted {S} (act : S -> option node -> S * (change + exn)) (s : S * (nat * list note)) (x : option node)
  : (S * (nat * list note)) * (change + exn) :=
  let '(s, (d, log)) := s in let (s', r) := act s x in ((s', (d, log ++ [(x, d, r)])), r).
Definition deeper {S} (s : S * (nat * list note)) := let '(s, (d, log)) := s in (s, (d + 1, log)).
Definition back {S} (s : S * (nat * list note)) := let '(s, (d, log)) := s in (s, (d - 1, log)).
Definition raised (x : note) : option exn := match x with (_, _, inr e) => Some e | _ => None end.
(** A traversal that ends well has met no exception.  One that does not ends at the first exception of an
    action, or where something was to be put into a frozen object. *)
Definition ends_at (n : node) (e : option exn) (log : list note) : Prop :=
  match e with
  | None => Forall (fun x => raised x = None) log
  | Some e => exists before x k r, log = before ++ [(x, k, r)] /\ Forall (fun x => raised x = None) before /\
    (r = inr e \/
     (e = TypeError /\ (exists y, r = inl (Put y)) /\ exists p m, at_ n p = Some (Some m) /\ is_frozen m = true /\ k = List.length p))
  end.
(** Actions without a state *)
Definition plain (g : option node -> change) (s : unit) (x : option node) : unit * (change + exn) := (tt, inl (g x)).

Definition same_outside (x y : option node) : Prop :=
  match x, y with
  | None, None => True
  | Some (Node t f sl), Some (Node t' f' sl') => t = t' /\ f = f' /\ map fst sl = map fst sl'
  | _, _ => False
  end.
(** Nothing is replaced on the way to [p], [p] included. *)
Definition kept (g : option node -> change) (n : node) (p : list nat) : Prop :=
  forall q r x, p = q ++ r -> q <> [] -> at_ n q = Some x -> g x = Keep.
(** Actions that look only at whose turn it is *)
Definition by_tag (g : option node -> change) : Prop := forall x y, same_outside x y -> g x = g y.
