(** Model of reference resolution with forward references
    (camkes/parser/stage4.py with allow_forward, camkes/parser/scope.py
    ForwardScopingContext, ASTObject.preorder of camkes/ast/base.py).

    Resolution replaces references in place, and an object that a reference was replaced by can itself
    be changed later; so the AST is a heap here.  The heap is a list of cells and an
    object is a number, the lifted AST being 0.

    Simplifications.
    - An object has its class, its name if any and its children in the order of child_fields
      (absent children left out).
    - The composition of an assembly is its first child (child_fields of Assembly, objects.py:170;
      stage 3 always gives it one).  The children of a connection of class ConnectionEnd are its
      ends; instance and interface are the children of an end.
    - Exceptions have no message. *)
From Coq Require Import List String Bool.
From Verif Require Import Prelude Scope_Model.
Import ListNotations.
Open Scope string_scope. Open Scope list_scope.

Inductive cell :=
| Obj (cls : string) (name : option string) (kids : list nat)
| Reff (stems : list string) (t : rtype).
Definition heap := list cell.

(** ASTObject.children (base.py:97-110) *)
Definition kids (h : heap) (i : nat) : list nat :=
  match nth_error h i with Some (Obj _ _ ks) => ks | _ => [] end.
(** isinstance(x, Reference) *)
Definition is_reff (h : heap) (i : nat) : bool :=
  match nth_error h i with Some (Reff _ _) => true | _ => false end.
Definition class_of (h : heap) (i : nat) : string :=
  match nth_error h i with Some (Obj c _ _) => c | _ => "Reference" end.

Definition fscope := dict string (dict (option string) nat).

(** ScopingContext.register (scope.py:50-67), in one scope *)
Definition fregister (h : heap) (s : fscope) (i : nat) : res fscope :=
  match nth_error h i with
  | Some (Obj cls (Some nm) _) =>
    let e := match dget s nm with Some e => e | None => [] end in
    match dget e (scope_type cls) with
    | Some _ => Err ParseError
    | None => Ok (dset s nm (dset e (scope_type cls) i))
    end
  | Some (Obj _ None _) => Ok s
  | _ => Err AssertionError
  end.

(** within (scope.py:136-160): for an instance it is the type that is looked into, which may still be a
    reference, and a reference has no children. *)
Definition fmembers (h : heap) (i : nat) : list nat :=
  if String.eqb (class_of h i) "Instance"
  then match kids h i with ty :: _ => kids h ty | [] => [] end
  else kids h i.
Definition fwithin (h : heap) (i : nat) : res fscope := foldM (fregister h) (fmembers h i) [].

(** A generator: what it yields, and the exception it ends with, if any. *)
Definition fgen : Type := list nat * option exn.
Definition fgapp (a b : fgen) : fgen :=
  match snd a with Some _ => a | None => (fst a ++ fst b, snd b) end.
Definition fgflat {A} (f : A -> fgen) (l : list A) : fgen := fold_right (fun x g => fgapp (f x) g) ([], None) l.
Definition fgfirst (g : fgen) : res (option nat) :=
  match fst g with
  | x :: _ => Ok (Some x)
  | [] => match snd g with Some e => Err e | None => Ok None end
  end.
Definition fentries (s : fscope) (n : string) : list nat :=
  match dget s n with Some e => map snd e | None => [] end.

(** ScopingContext.lookup (scope.py:69-99); innermost scope first *)
Fixpoint flookup (h : heap) (ref : list string) (t : rtype) (ss : list fscope) : fgen :=
  match ref with
  | [] => ([], Some AssertionError)
  | head :: tail =>
    fgflat (fun s => fgflat (fun c =>
        match tail with
        | [] => if isa (class_of h c) t then ([c], None) else ([], None)
        | _ => match fwithin h c with
               | Err e => ([], Some e)
               | Ok inner => let g := flookup h tail t [inner] in
                             (filter (fun c => isa (class_of h c) t) (fst g), snd g)
               end
        end) (fentries s head)) ss
  end.

(** ForwardScopingContext.__call__ (scope.py:118-131): a new scope with the children that are not
    references *)
Definition enter (h : heap) (ss : list fscope) (i : nat) : res (list fscope) :=
  s <- foldM (fregister h) (filter (fun x => negb (is_reff h x)) (kids h i)) [] ;; Ok (s :: ss).

(** Assignment to the i-th child of p (base.py:194, :201) *)
Fixpoint replace {A} (l : list A) (i : nat) (x : A) : list A :=
  match l, i with
  | [], _ => []
  | _ :: l, 0 => x :: l
  | a :: l, S i => a :: replace l i x
  end.
Definition set_kid (h : heap) (p i k : nat) : heap :=
  match nth_error h p with
  | Some (Obj c n ks) => replace h p (Obj c n (replace ks i k))
  | _ => h
  end.

(** stage4.py:69-70 *)
Definition deferrable (t : rtype) : bool :=
  match t with TInterface => true | TClass c => String.eqb c "Instance" | TAny => false end.

(** Resolver.__call__ on a reference (stage4.py:57-87).  None: the reference stays. *)
Definition forward_ref (h : heap) (ss asm : list fscope) (stems : list string) (t : rtype) : res (option nat) :=
  o <- fgfirst (fgapp (flookup h stems t ss) (flookup h stems t asm)) ;;
  match o with
  | Some r => Ok (Some r)
  | None =>
    if deferrable t then Ok None
    else match snd (flookup h stems TAny ss) with   (* the hint for the user, :77-79 *)
         | Some e => Err e
         | None => Err ParseError
         end
  end.

(** ASTObject.preorder (base.py:169-201) of object [p] with the resolver (stage4.py:47-105) and the
    forward scoping context.  State: the heap and the object last seen by the resolver
    (stage4.py:103).  [ss] are the scopes in which p is visited. *)
Fixpoint preorder (fuel : nat) (asm : list fscope) (ss : list fscope) (p : nat) (st : heap * nat) : res (heap * nat) :=
  match fuel with
  | 0 => Err OutOfFuel
  | S fuel =>
    foldM (fun (st : heap * nat) i =>
      let (h, last) := st in
      match nth_error (kids h p) i with
      | None => Err IndexError
      | Some k =>
        match nth_error h k with
        | Some (Reff stems t) =>
          o <- forward_ref h ss asm stems t ;;
          match o with
          | Some r => Ok (set_kid h p i r, last)
          | None => _ <- enter h ss last ;; Ok (h, last)    (* a reference has no children *)
          end
        | _ =>
          ss' <- enter h ss k ;;
          preorder fuel asm ss' k (h, k)
        end
      end) (seq 0 (List.length (kids (fst st) p))) st
  end.

(** stage4.py:120-123, :133-135: what the compositions of the assemblies contain *)
Definition assemblies (h : heap) : list nat := filter (fun i => String.eqb (class_of h i) "Assembly") (kids h 0).
Definition composition (h : heap) (a : nat) : option nat := hd_error (kids h a).
Definition assembly_kids (h : heap) (a : nat) : list nat :=
  match composition h a with Some c => filter (fun x => negb (is_reff h x)) (kids h c) | None => [] end.
Definition assembly_scope (h : heap) : res fscope :=
  foldM (fregister h) (flat_map (assembly_kids h) (assemblies h)) [].

(** stage4.py:136-153, on one end *)
Definition second_end (s : fscope) (h : heap) (e : nat) : res heap :=
  foldM (fun h i =>
    match nth_error (kids h e) i with
    | None => Err IndexError
    | Some k =>
      match nth_error h k with
      | Some (Reff stems t) =>
        o <- fgfirst (flookup h stems t [s]) ;;
        match o with Some r => Ok (set_kid h e i r) | None => Err ParseError end
      | _ => Ok h
      end
    end) (seq 0 (List.length (kids h e))) h.
Definition of_class (h : heap) (c : string) (l : list nat) : list nat := filter (fun i => String.eqb (class_of h i) c) l.
Definition ends_of (h : heap) (a : nat) : list nat :=
  match composition h a with
  | Some c => flat_map (fun x => of_class h "ConnectionEnd" (kids h x)) (of_class h "Connection" (kids h c))
  | None => []
  end.
Definition second_pass (h : heap) : res heap :=
  s <- assembly_scope h ;; foldM (second_end s) (flat_map (ends_of h) (assemblies h)) h.

(** check_acyclic (stage4.py:198-207) *)
Fixpoint check_acyclic (fuel : nat) (h : heap) (path : list nat) (i : nat) : res unit :=
  match fuel with
  | 0 => Err OutOfFuel
  | S fuel =>
    if memb i path then Err ParseError
    else foldM (fun _ k => check_acyclic fuel h (path ++ [i]) k) (kids h i) tt
  end.

(** stage4.py:168-171; the iterator of the lifted AST (liftedast.py:64-78) meets everything below it *)
Fixpoint check_resolved (fuel : nat) (h : heap) (i : nat) : res unit :=
  match fuel with
  | 0 => Err OutOfFuel
  | S fuel => foldM (fun _ k => _ <- check_resolved fuel h k ;; if is_reff h k then Err ParseError else Ok tt) (kids h i) tt
  end.

(** resolve(ast, allow_forward=True) (stage4.py:107-171) *)
Definition forward (h : heap) : res heap :=
  asm <- assembly_scope h ;;
  ss <- enter h [[]] 0 ;;
  ' (h, _) <- preorder (List.length h) [asm] ss 0 (h, 0) ;;
  h <- second_pass h ;;
  _ <- check_acyclic (S (List.length h)) h [] 0 ;;
  _ <- check_resolved (S (List.length h)) h 0 ;;
  Ok h.
