(** AST objects: assignment and freezing (camkes/ast/base.py, the property
    decorator and the freeze methods of camkes/ast/objects.py and
    camkes/ast/liftedast.py), and structural equality and hashing
    (camkes/ast/base.py, camkes/internal/hash.py). *)
From Coq Require Import List Bool String ZArith.
From Verif Require Import Prelude.
Import ListNotations.
Open Scope string_scope.
Open Scope list_scope.

(** ** Part 1: objects in a heap *)

(** A Python value held in a field: an immutable atom (None, number, string),
    a reference to an object or a mutable list or dict, a tuple, or a
    frozendict, which keeps a reference to the dict it was made from
    (internal/frozendict.py:20-22). *)
Inductive val :=
| VNone
| VAtom (n : N)
| VRef (a : nat)
| VTuple (l : list val)
| VFrozenDict (a : nat).

(** [o_fields] are the properties made by ast_property, and "location" and
    "parent". *)
Record object := Obj {
  o_class : string; o_frozen : bool; o_fields : dict string val }.
Inductive cell :=
| CObj (o : object)
| CList (l : list val)
| CDict (d : list (string * val)).

Definition heap := list cell.
Notation hget := (@nth_error cell).
Fixpoint hset (h : heap) (a : nat) (c : cell) : heap :=
  match h, a with
  | [], _ => []
  | _ :: h', O => c :: h'
  | x :: h', Datatypes.S a' => x :: hset h' a' c
  end.

(** How the freeze method of a class starts:
    - [Checked]: returns at once if frozen (all but the following);
    - [Unchecked]: no such test (Composition, objects.py:269; LiftedAST,
      liftedast.py:45);
    - [Refuses]: raises (Reference, objects.py:144). *)
Inductive start := Checked | Unchecked | Refuses.

(** [k_tuples]: the fields assigned [tuple(self.f)] in freeze;
    [k_value]: the field of Setting that becomes a tuple or frozendict;
    [k_children]: child_fields. *)
Record class := Class {
  k_start : start; k_tuples : list string; k_value : option string;
  k_children : list string }.

(** The classes (objects.py, liftedast.py:19-49).  Attribute.child_fields
    depends on the type; it is modelled as ["type"], a type that is a string
    being an atom, which is skipped below.  Setting.child_fields is empty once
    values are resolved (a Reference value is refused earlier). *)
Definition classes : dict string class := [
  ("Reference", Class Refuses [] None []);
  ("Schedule", Class Checked ["items"] None []);
  ("Assembly", Class Checked [] None
      ["composition"; "configuration"; "schedule"]);
  ("Composition", Class Unchecked
      ["instances"; "connections"; "groups"; "exports"] None
      ["instances"; "groups"; "connections"; "exports"]);
  ("Configuration", Class Checked ["settings"] None ["settings"]);
  ("Instance", Class Checked [] None ["type"]);
  ("Connection", Class Checked ["from_ends"; "to_ends"] None
      ["from_ends"; "to_ends"; "type"]);
  ("Setting", Class Checked [] (Some "value") []);
  ("Struct", Class Checked ["attributes"] None ["attributes"]);
  ("Component", Class Checked
      ["includes"; "provides"; "uses"; "emits"; "consumes"; "dataports";
       "attributes"; "mutexes"; "semaphores"] None
      ["attributes"; "includes"; "provides"; "uses"; "emits"; "consumes";
       "dataports"; "mutexes"; "semaphores"; "binary_semaphores";
       "composition"; "configuration"]);
  ("Provides", Class Checked [] None ["type"]);
  ("Uses", Class Checked [] None ["type"]);
  ("Group", Class Checked [] None ["instances"]);
  ("Procedure", Class Checked [] None ["includes"; "methods"; "attributes"]);
  ("Method", Class Checked ["parameters"] None ["parameters"]);
  ("Attribute", Class Checked [] None ["type"]);
  ("ConnectionEnd", Class Checked [] None ["instance"; "interface"]);
  ("Export", Class Checked [] None
      ["source_instance"; "source_interface"; "destination"]);
  ("LiftedAST", Class Unchecked ["items"] None ["items"]) ].
Definition class_of (name : string) : class :=
  match dget classes name with
  | Some k => k
  | None => Class Checked [] None []
  end.

Section Objects.
(** The type test of a property (the argument of ast_property), the checks a
    freeze method makes before and after marking the object.  They only read
    the heap; any functions will do. *)
Variable accepts : heap -> string -> string -> val -> bool.
Variable pre post : heap -> nat -> res unit.

(** Attribute assignment (objects.py:98-110; base.py:48-71 for location and
    parent): type test, frozen test, store. *)
Definition assign (h : heap) (a : nat) (f : string) (v : val)
  : heap * res unit :=
  match hget h a with
  | Some (CObj o) =>
      if negb (accepts h (o_class o) f v) then (h, Err AssertionError)
      else if o_frozen o then (h, Err TypeError)
      else (hset h a (CObj (Obj (o_class o) (o_frozen o)
                                (dset (o_fields o) f v))), Ok tt)
  | _ => (h, Err OtherException)
  end.

(** [o.frozen = b] (base.py:36-45). *)
Definition set_frozen (h : heap) (a : nat) (b : bool) : heap * res unit :=
  match hget h a with
  | Some (CObj o) =>
      if o_frozen o && negb b then (h, Err TypeError)
      else (hset h a (CObj (Obj (o_class o) b (o_fields o))), Ok tt)
  | _ => (h, Err OtherException)
  end.

Definition field (h : heap) (a : nat) (f : string) : option val :=
  match hget h a with
  | Some (CObj o) => dget (o_fields o) f
  | _ => None
  end.

(** The elements when the value is iterated over. *)
Definition elements (h : heap) (v : val) : option (list val) :=
  match v with
  | VTuple l => Some l
  | VRef r => match hget h r with Some (CList l) => Some l | _ => None end
  | _ => None
  end.

(** State and exceptions: the heap survives an exception. *)
Definition sbind (m : heap * res unit) (k : heap -> heap * res unit)
  : heap * res unit :=
  match m with
  | (h, Ok _) => k h
  | (h, Err e) => (h, Err e)
  end.
Fixpoint sfor {A} (f : heap -> A -> heap * res unit) (l : list A) (h : heap)
  : heap * res unit :=
  match l with
  | [] => (h, Ok tt)
  | x :: l' => sbind (f h x) (sfor f l')
  end.

(** [self.f = tuple(self.f)]. *)
Definition to_tuple (a : nat) (h : heap) (f : string) : heap * res unit :=
  match field h a f with
  | None => (h, Err OtherException)
  | Some v => match elements h v with
              | None => (h, Err TypeError)
              | Some l => assign h a f (VTuple l)
              end
  end.
(** Setting.freeze, lines 572-575. *)
Definition to_value (a : nat) (h : heap) (f : string) : heap * res unit :=
  match field h a f with
  | None => (h, Err OtherException)
  | Some (VRef r) =>
      match hget h r with
      | Some (CList l) => assign h a f (VTuple l)
      | Some (CDict _) => assign h a f (VFrozenDict r)
      | _ => (h, Ok tt)
      end
  | Some _ => (h, Ok tt)
  end.

Definition class_at (h : heap) (a : nat) : option (string * bool) :=
  match hget h a with
  | Some (CObj o) => Some (o_class o, o_frozen o)
  | _ => None
  end.

(** ASTObject.freeze of the object itself (base.py:73-84) given the freeze
    method for children; atoms stand for absent children. *)
Definition freeze_item (fz : heap -> nat -> heap * res unit)
    (h : heap) (v : val) : heap * res unit :=
  match v with
  | VRef r => match hget h r with
              | Some (CObj _) => fz h r
              | _ => (h, Err OtherException)
              end
  | _ => (h, Err OtherException)
  end.
Definition freeze_child (fz : heap -> nat -> heap * res unit) (a : nat)
    (h : heap) (f : string) : heap * res unit :=
  match field h a f with
  | None => (h, Err AssertionError)
  | Some v =>
      match elements h v, v with
      | Some l, _ => sfor (freeze_item fz) l h
      | None, VNone => (h, Ok tt)
      | None, VAtom _ => (h, Ok tt)
      | None, _ => freeze_item fz h v
      end
  end.

(** The freeze methods.  [n] bounds the depth of the recursion. *)
Fixpoint freeze (n : nat) (h : heap) (a : nat) : heap * res unit :=
  match n with
  | O => (h, Err OutOfFuel)
  | Datatypes.S n' =>
      match class_at h a with
      | None => (h, Err OtherException)
      | Some (cname, frozen) =>
          let k := class_of cname in
          match k_start k, frozen with
          | Refuses, _ => (h, Err ASTError)
          | Checked, true => (h, Ok tt)
          | _, _ =>
              sbind (h, pre h a) (fun h =>
              sbind (sfor (to_tuple a) (k_tuples k) h) (fun h =>
              sbind (match k_value k with
                     | None => (h, Ok tt)
                     | Some f => to_value a h f
                     end) (fun h =>
              sbind (match class_at h a with
                     | Some (_, true) => (h, Ok tt)    (* base.py:74-75 *)
                     | _ =>
                         sbind (sfor (freeze_child (freeze n') a)
                                  (k_children k) h) (fun h =>
                         set_frozen h a true)
                     end) (fun h =>
              (h, post h a)))))
          end
      end
  end.

(** What a user of the API can do.  Creating an object, list or dict appends
    a cell; lists and dicts can be changed in place by anyone holding them. *)
Inductive op :=
| NewObject (c : string) (fields : dict string val)
| NewList (l : list val)
| NewDict (d : list (string * val))
| Assign (a : nat) (f : string) (v : val)
| SetFrozen (a : nat) (b : bool)
| Freeze (n : nat) (a : nat)
| SetList (a : nat) (l : list val)      (* append, insert, clear, ... *)
| SetDict (a : nat) (d : list (string * val)).

Definition exec (h : heap) (o : op) : heap * res unit :=
  match o with
  | NewObject c fs => (h ++ [CObj (Obj c false fs)], Ok tt)
  | NewList l => (h ++ [CList l], Ok tt)
  | NewDict d => (h ++ [CDict d], Ok tt)
  | Assign a f v => assign h a f v
  | SetFrozen a b => set_frozen h a b
  | Freeze n a => freeze n h a
  | SetList a l =>
      match hget h a with
      | Some (CList _) => (hset h a (CList l), Ok tt)
      | _ => (h, Err OtherException)
      end
  | SetDict a d =>
      match hget h a with
      | Some (CDict _) => (hset h a (CDict d), Ok tt)
      | _ => (h, Err OtherException)
      end
  end.

(** Any number of operations, exceptions being caught by the caller. *)
Fixpoint run (h : heap) (ops : list op) : heap :=
  match ops with
  | [] => h
  | o :: ops' => run (fst (exec h o)) ops'
  end.
End Objects.

(** ** Part 2: equality and hashing

    Here objects are trees: sharing and identity are not visible, except that
    __cmp__ skips identical field values, which agrees with comparing them as
    shown by reflexivity. *)
Inductive pv :=
| PNone
| PInt (z : Z)
| PBool (b : bool)
| PStr (s : string)
| PSeq (tuple : bool) (l : list pv)
| PDict (frozen : bool) (d : list (string * pv))
| PObj (cls : string) (d : list (string * pv)).   (* __dict__ *)

(** no_hash (base.py:29, 234; liftedast.py:22). *)
Definition map_likes : list string :=
  ["Composition"; "Configuration"; "Component"; "Group"; "Procedure"].
Definition no_hash (cls : string) : list string :=
  ["child_fields"; "_frozen"; "_location"; "no_hash"; "_parent"] ++
  (if memb cls map_likes then ["_mapping"] else []) ++
  (if eqb cls "LiftedAST" then ["_assembly"] else []).
Definition visible (cls : string) (kv : string * pv) : bool :=
  negb (memb (fst kv) (no_hash cls)).

(** type(x): only used to compare types. *)
Definition type_name (v : pv) : string :=
  match v with
  | PNone => "NoneType" | PInt _ => "int" | PBool _ => "bool"
  | PStr _ => "str"
  | PSeq true _ => "tuple" | PSeq false _ => "list"
  | PDict true _ => "frozendict" | PDict false _ => "dict"
  | PObj c _ => ("class " ++ c)%string
  end.

(** int(x) of numbers: True == 1. *)
Definition number (v : pv) : option Z :=
  match v with
  | PInt z => Some z
  | PBool b => Some (if b then 1%Z else 0%Z)
  | _ => None
  end.

Fixpoint size (v : pv) : nat :=
  match v with
  | PSeq _ l => Datatypes.S (fold_right (fun x n => size x + n) 0 l)
  | PDict _ d | PObj _ d =>
      Datatypes.S (fold_right (fun kv n => size (snd kv) + n) 0 d)
  | _ => 1
  end.

(** cmp on the results of comparison. *)
Definition cmp_z (a b : Z) : Z :=
  match Z.compare a b with Lt => -1 | Eq => 0 | Gt => 1 end%Z.
Definition cmp_str (a b : string) : Z :=
  match String.compare a b with Lt => -1 | Eq => 0 | Gt => 1 end%Z.

(** [peq]: a == b.  [pcmp]: (a > b) - (a < b) (internal/seven.py:24-25), only
    called when a != b.  [ocmp]: ASTObject.__cmp__ (base.py:117-140).
    [n] bounds the depth; [size a + size b] is always enough.

    Sequences compare element by element with ==, the order being decided by
    the first pair that differs, else by length.  Dicts are equal if they have
    the same keys with equal values; they have no order, nor have None and
    values of different types: TypeError. *)
Section Compare.
Variable peq : pv -> pv -> res bool.
Variable pcmp : pv -> pv -> res Z.

Fixpoint seq_eq (l m : list pv) : res bool :=
  match l, m with
  | [], [] => Ok true
  | x :: l', y :: m' =>
      b <- peq x y ;;
      if b then seq_eq l' m' else Ok false
  | _, _ => Ok false
  end.
Fixpoint seq_cmp (l m : list pv) : res Z :=
  match l, m with
  | [], [] => Ok 0%Z
  | x :: l', y :: m' =>
      b <- peq x y ;;
      if b then seq_cmp l' m' else pcmp x y
  | [], _ => Ok (-1)%Z
  | _, [] => Ok 1%Z
  end.
Fixpoint dict_eq (d e : list (string * pv)) : res bool :=
  match d with
  | [] => Ok true
  | (k, x) :: d' =>
      match dget e k with
      | None => Ok false
      | Some y =>
          b <- peq x y ;;
          if b then dict_eq d' e else Ok false
      end
  end.
Fixpoint obj_cmp (cls : string) (d e : list (string * pv)) : res Z :=
  match d with
  | [] => Ok 0%Z
  | (k, x) :: d' =>
      if negb (visible cls (k, x)) then obj_cmp cls d' e
      else
        match dget e k with
        | None => Ok 1%Z
        | Some y =>
            b <- peq x y ;;
            if b then obj_cmp cls d' e
            else if negb (eqb (type_name x) (type_name y)) then
              Ok (cmp_str (type_name x) (type_name y))
            else pcmp x y
        end
  end.
End Compare.

Fixpoint peq (n : nat) (a b : pv) : res bool :=
  match n with
  | O => Err OutOfFuel
  | Datatypes.S n' =>
      match a, b with
      | PNone, PNone => Ok true
      | PStr s, PStr t => Ok (String.eqb s t)
      | PSeq t l, PSeq u m =>
          if Bool.eqb t u then seq_eq (peq n') l m else Ok false
      | PDict _ d, PDict _ e =>
          if Nat.eqb (List.length d) (List.length e)
          then dict_eq (peq n') d e else Ok false
      | PObj c d, PObj c' e =>
          if eqb c c' then
            z <- obj_cmp (peq n') (pcmp n') c d e ;;
            Ok (Z.eqb z 0)
          else Ok (Z.eqb (cmp_str (type_name a) (type_name b)) 0)
      | _, _ =>
          match number a, number b with
          | Some x, Some y => Ok (Z.eqb x y)
          | _, _ => Ok false
          end
      end
  end
with pcmp (n : nat) (a b : pv) : res Z :=
  match n with
  | O => Err OutOfFuel
  | Datatypes.S n' =>
      match a, b with
      | PStr s, PStr t => Ok (cmp_str s t)
      | PSeq t l, PSeq u m =>
          if Bool.eqb t u then seq_cmp (peq n') (pcmp n') l m
          else Err TypeError
      | PObj c d, PObj c' e =>
          if eqb c c' then obj_cmp (peq n') (pcmp n') c d e
          else Ok (cmp_str (type_name a) (type_name b))
      | PObj _ _, _ | _, PObj _ _ =>
          (* the object's __cmp__, or its reflection *)
          Ok (cmp_str (type_name a) (type_name b))
      | _, _ =>
          match number a, number b with
          | Some x, Some y => Ok (cmp_z x y)
          | _, _ => Err TypeError
          end
      end
  end.

(** a == b, with enough fuel. *)
Definition equal (a b : pv) : res bool := peq (size a + size b) a b.

(** a < b of objects: ASTObject.__lt__ (base.py:151-152). *)
Definition less (a b : pv) : res bool :=
  z <- pcmp (size a + size b) a b ;; Ok (z <? 0)%Z.

(** camkes_hash (internal/hash.py:24-77).  [strhash] is SHA-256 as an integer,
    [hash_none] is hash("None"), [hash_int] Python's hash of an int (the same
    for True and 1) and [trunc] the reduction Python applies to what __hash__
    returns. *)
Section Hash.
Variable strhash : string -> Z.
Variable hash_none : Z.
Variable hash_int : Z -> Z.
Variable trunc : Z -> Z.

Definition hash_extend (current extra : Z) : Z :=
  (Z.lxor current extra * 1000003)%Z.
Definition hash_init : Z := 0x345678%Z.

(** Keys of a mapping are sorted. *)
Fixpoint insert_key {V} (kv : string * V) (l : list (string * V))
  : list (string * V) :=
  match l with
  | [] => [kv]
  | x :: l' => if String.leb (fst kv) (fst x) then kv :: l
               else x :: insert_key kv l'
  end.
Definition sort_keys {V} (l : list (string * V)) : list (string * V) :=
  fold_right insert_key [] l.

Fixpoint camkes_hash (v : pv) : Z :=
  match v with
  | PNone => hash_none
  | PInt z => hash_int z
  | PBool b => hash_int (if b then 1%Z else 0%Z)
  | PStr s => strhash s
  | PSeq _ l => fold_left hash_extend (map camkes_hash l) hash_init
  | PDict _ d =>
      fold_left (fun h kv => hash_extend (hash_extend h (strhash (fst kv)))
                               (snd kv))
        (sort_keys (map (fun kv => (fst kv, camkes_hash (snd kv))) d))
        hash_init
  | PObj c d =>
      trunc
        (fold_left (fun h kv => hash_extend h
             (hash_extend (hash_extend hash_init (strhash (fst kv)))
                          (snd kv)))
           (flat_map (fun kv => if visible c kv
                                then [(fst kv, camkes_hash (snd kv))] else [])
                     d)
           hash_init)
  end.
End Hash.
