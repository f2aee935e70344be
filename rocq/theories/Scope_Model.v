(** Model of camkes/parser/scope.py and of the reference resolution of
    camkes/parser/stage4.py (default mode, forward references off). *)
From Coq Require Import List String Bool.
From Verif Require Import Prelude.
Import ListNotations.
Open Scope string_scope. Open Scope list_scope.

(** Type argument of a reference: a class, the abstract class Interface, or none. *)
Inductive rtype := TAny | TInterface | TClass (c : string).
(** [isinstance] on class names (objects.py:712-780 for the interface classes). *)
Definition isa (cls : string) (t : rtype) : bool :=
  match t with
  | TAny => true
  | TInterface => memb cls ["Provides"; "Uses"; "Emits"; "Consumes"; "Dataport"]
  | TClass c => String.eqb cls c
  end.

(** AST objects: source position, class, name if any, children in the order of
    child_fields (absent children left out).  Other fields are not modelled. *)
Inductive node :=
| Node (loc : nat) (cls : string) (name : option string) (kids : list node)
| Ref (stems : list string) (t : rtype).

Definition is_ref (n : node) : bool := match n with Ref _ _ => true | _ => false end.
Definition name_of (n : node) : option string := match n with Node _ _ nm _ => nm | _ => None end.
Definition cls_of (n : node) : string := match n with Node _ c _ _ => c | _ => "Reference" end.

(** A scope: name -> scope type -> object; the stack of scopes, innermost last in
    the implementation, first here. *)
Definition scope := dict string (dict (option string) node).
Definition scopes := list scope.

(** scope.py:56-60.  [None] stands for the key "group/component", which differs from
    every class name. *)
Definition scope_type (cls : string) : option string :=
  if memb cls ["Group"; "Instance"] then None else Some cls.

(** register (scope.py:50-67) in one scope *)
Definition register1 (s : scope) (o : node) : res scope :=
  match o with
  | Ref _ _ => Err AssertionError
  | Node _ cls nm _ =>
    match nm with
    | None => Ok s
    | Some nm =>
      let e := match dget s nm with Some e => e | None => [] end in
      match dget e (scope_type cls) with
      | Some _ => Err ParseError
      | None => Ok (dset s nm (dset e (scope_type cls) o))
      end
    end
  end.
Definition register (ss : scopes) (o : node) : res scopes :=
  match ss with
  | [] => Err AssertionError
  | s :: ss => s <- register1 s o ;; Ok (s :: ss)
  end.
(** open, close (scope.py:43-48) *)
Definition open (ss : scopes) : scopes := [] :: ss.
Definition close (ss : scopes) : res scopes :=
  match ss with [] => Err AssertionError | _ :: ss => Ok ss end.

(** within (scope.py:136-160) *)
Definition members_of (n : node) : list node :=
  match n with
  | Node _ "Instance" _ (Node _ _ _ kids :: _) => kids
  | Node _ "Instance" _ _ => []
  | Node _ _ _ kids => kids
  | Ref _ _ => []
  end.
Definition within (n : node) : res scope := foldM register1 (members_of n) [].

(** A generator: the values it yields and the exception it raises after them, if any. *)
Definition gen : Type := list node * option exn.
Definition gapp (a b : gen) : gen :=
  match snd a with Some _ => a | None => (fst a ++ fst b, snd b) end.
Definition gflat {A} (f : A -> gen) (l : list A) : gen := fold_right (fun x g => gapp (f x) g) ([], None) l.

Definition entries (s : scope) (n : string) : list node :=
  match dget s n with Some e => map snd e | None => [] end.

(** lookup (scope.py:69-99) *)
Fixpoint lookup (ref : list string) (t : rtype) (ss : scopes) : gen :=
  match ref with
  | [] => ([], Some AssertionError)
  | head :: tail =>
    gflat (fun s => gflat (fun c =>
        match tail with
        | [] => if isa (cls_of c) t then ([c], None) else ([], None)
        | _ => match within c with
               | Err e => ([], Some e)
               | Ok inner => let g := lookup tail t [inner] in
                             (filter (fun c => isa (cls_of c) t) (fst g), snd g)
               end
        end) (entries s head)) ss
  end.
(** The first value of a generator. *)
Definition gfirst (g : gen) : res (option node) :=
  match fst g with
  | x :: _ => Ok (Some x)
  | [] => match snd g with Some e => Err e | None => Ok None end
  end.

(** Resolver.__call__ on a reference (stage4.py:55-87): chain of the two contexts. *)
Definition resolve_ref (ss asm : scopes) (stems : list string) (t : rtype) : res node :=
  o <- gfirst (gapp (lookup stems t ss) (lookup stems t asm)) ;;
  match o with Some n => Ok n | None => Err ParseError end.

(** [p], [pp]: classes of parent and grandparent. *)
Definition in_assembly (cls : string) (pp : string) : bool :=
  memb cls ["Instance"; "Group"; "Connection"] && String.eqb pp "Assembly".

(** ASTObject.postorder (base.py:206-229) with the scoping context and the resolver
    (stage4.py:53-105, 173-179), on one object: visit the children in a scope of
    their own, then apply the resolver to the object itself. *)
Fixpoint visit (p pp : string) (n : node) (st : scopes * scopes) {struct n} : res (node * (scopes * scopes)) :=
  match n with
  | Ref stems t => r <- resolve_ref (fst st) (snd st) stems t ;; Ok (r, st)
  | Node loc cls nm kids =>
    let go := fix go (kids : list node) (st : scopes * scopes) : res (list node * (scopes * scopes)) :=
      match kids with
      | [] => Ok ([], st)
      | k :: kids =>
        ' (k', st) <- visit cls p k st ;;
        ' (ks, st) <- go kids st ;;
        Ok (k' :: ks, st)
      end in
    ' (kids', st) <- go kids (open (fst st), snd st) ;;
    ss <- close (fst st) ;;
    let n' := Node loc cls nm kids' in
    ss <- register ss n' ;;
    if in_assembly cls pp
    then asm <- register (snd st) n' ;; Ok (n', (ss, asm))
    else Ok (n', (ss, snd st))
  end.
Fixpoint visit_list (p pp : string) (kids : list node) (st : scopes * scopes) : res (list node * (scopes * scopes)) :=
  match kids with
  | [] => Ok ([], st)
  | k :: kids =>
    ' (k', st) <- visit p pp k st ;;
    ' (ks, st) <- visit_list p pp kids st ;;
    Ok (k' :: ks, st)
  end.
(** resolve (stage4.py:107-108, 173-181) *)
Definition resolve (items : list node) : res (list node) :=
  ' (out, _) <- visit_list "LiftedAST" "" items ([[]], [[]]) ;; Ok out.
