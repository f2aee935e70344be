(** Model of the traversals of ASTs: ASTObject.preorder and ASTObject.postorder
    (camkes/ast/base.py:169-233) with the contexts of camkes/ast/traversal.py.

    Simplifications.
    - The fields of an object are one list of slots, in the order of child_fields and within a field
      in the order of the list; an element of a list is marked [true].  A slot may hold None.
    - An action sees an object and may return it ([Keep]) or another one ([Put]); it has a state and may
      raise an exception, but does not itself change the objects of the AST.
    - Nothing occurs twice in an AST.
    - The setters of fields check the class of what they are given; this is left out.  They refuse
      to change frozen objects with a TypeError, as do the tuples that lists become when frozen.
    - An object without fields is a Node without slots. *)
From Coq Require Import List Bool.
From Verif Require Import Prelude.
Import ListNotations.

Inductive node := Node (tag : nat) (frozen : bool) (slots : list (bool * option node)).
Definition slot := (bool * option node)%type.
Inductive change := Keep | Put (o : option node).

Section Traverse.
Context {S : Type}.
(** TraversalAction.__call__ *)
Context (act : S -> option node -> S * (change + exn)).
(** TraversalContext: __call__ and __enter__; __exit__ *)
Context (enter leave : S -> S).

(** What a traversal leaves behind: the object, the state, and the exception if there is one.  The with
    statement leaves the context in any case. *)
Definition outcome (A : Type) := (A * S * option exn)%type.

(** base.py:169-201 *)
Fixpoint preorder (n : node) (s : S) {struct n} : outcome node :=
  match n with
  | Node t fz sl =>
    let '(sl', s', e) :=
      (fix go (l : list slot) (s : S) {struct l} : outcome (list slot) :=
         match l with
         | [] => ([], s, None)
         | (b, o) :: l' =>
           match act s o with
           | (s1, inr e) => (l, s1, Some e)
           | (s1, inl (Put o')) =>
             if fz then (l, s1, Some TypeError)
             else let '(r, s2, e) := go l' s1 in ((b, o') :: r, s2, e)
           | (s1, inl Keep) =>
             match o with
             | None =>
               (* None in a list has no method preorder *)
               if b then (l, leave (enter s1), Some OtherException)
               else let '(r, s2, e) := go l' s1 in ((b, o) :: r, s2, e)
             | Some c =>
               let '(c', s2, e) := preorder c (enter s1) in
               match e with
               | Some e => ((b, Some c') :: l', leave s2, Some e)
               | None => let '(r, s3, e) := go l' (leave s2) in ((b, Some c') :: r, s3, e)
               end
             end
           end
         end) sl s in
    (Node t fz sl', s', e)
  end.

(** base.py:203-233 *)
Fixpoint postorder (n : node) (s : S) {struct n} : outcome node :=
  match n with
  | Node t fz sl =>
    let '(sl', s', e) :=
      (fix go (l : list slot) (s : S) {struct l} : outcome (list slot) :=
         match l with
         | [] => ([], s, None)
         | (b, o) :: l' =>
           let '(o', s1, e) :=
             match o with
             | None => if b then (o, leave (enter s), Some OtherException) else (o, s, None)
             | Some c => let '(c', s1, e) := postorder c (enter s) in (Some c', leave s1, e)
             end in
           match e with
           | Some e => ((b, o') :: l', s1, Some e)
           | None =>
             match act s1 o' with
             | (s2, inr e) => ((b, o') :: l', s2, Some e)
             | (s2, inl Keep) => let '(r, s3, e) := go l' s2 in ((b, o') :: r, s3, e)
             | (s2, inl (Put o2)) =>
               if fz then ((b, o') :: l', s2, Some TypeError)
               else let '(r, s3, e) := go l' s2 in ((b, o2) :: r, s3, e)
             end
           end
         end) sl s in
    (Node t fz sl', s', e)
  end.
End Traverse.
Arguments outcome : clear implicits.

(** ASTObject.freeze (base.py:67-78), where it is not overridden *)
Fixpoint freeze (n : node) : node :=
  match n with
  | Node t true sl => Node t true sl
  | Node t false sl => Node t true (map (fun x : slot => (fst x, option_map freeze (snd x))) sl)
  end.
