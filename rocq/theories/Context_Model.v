(** The template context: the store shared by templates, guarded allocation of kernel
    objects and capabilities, and generated symbols (/repo/camkes/runner/Context.py). *)
From Coq Require Import List Bool Arith NArith String Ascii.
From Verif Require Import Prelude DecStr.
Import ListNotations.
Open Scope string_scope.
Open Scope list_scope.

(** A client of the store (Context.py:66, 73, 140-142, 151-152): a template entity's label
    or [''] for _stash/_pop; the pair of a label and the object allocator; the pair of a
    label and a capability-space allocator (numbered).  Python compares allocators by
    identity; a string never equals a pair. *)
Inductive client :=
| Named (label : string)
| ObjClient (label : string)
| CapClient (label : string) (space : nat).
Definition client_eqb (a b : client) : bool :=
  match a, b with
  | Named l, Named m => eqb l m
  | ObjClient l, ObjClient m => eqb l m
  | CapClient l s, CapClient m t => eqb l m && eqb s t
  | _, _ => false
  end.

Lemma client_eqb_eq a b : client_eqb a b = true <-> a = b.
Proof.
  destruct a as [l|l|l s], b as [m|m|m t]; cbn [client_eqb]; try (split; congruence).
  - rewrite eqb_eq. split; congruence.
  - rewrite eqb_eq. split; congruence.
  - rewrite andb_true_iff, !eqb_eq. split; [intros [-> ->]; reflexivity|intros H; injection H; auto].
Qed.
#[global] Instance Eqb_client : Eqb client := {| eqb := client_eqb; eqb_spec := reflect_of _ client_eqb_eq |}.

(** Values that pass through the store: Python's None, an arbitrary template value, a kernel
    object (its index in the allocator), a slot of a capability space, a string. *)
Inductive value :=
| VNone
| VAtom (n : nat)
| VObj (o : nat)
| VSlot (s : nat)
| VStr (s : string).

(** [store] (Context.py:366). *)
Definition store := dict client (dict string value).

(** stash (Context.py:369-373). *)
Definition stash (st : store) (c : client) (k : string) (v : value) : store :=
  let st := match dget st c with None => dset st c [] | Some _ => st end in
  match dget st c with
  | Some d => dset st c (dset d k v)
  | None => st
  end.

(** pop (Context.py:376-383). *)
Definition pop (st : store) (c : client) (k : string) : store * value :=
  match dget st c with
  | None => (st, VNone)
  | Some d =>
      match dget d k with
      | None => (st, VNone)
      | Some v =>
          let d' := ddel d k in
          let st := dset st c d' in
          ((match d' with [] => ddel st c | _ => st end), v)
      end
  end.

(** The rights of a capability. *)
Record rights := mk_rights { r_read : bool; r_write : bool; r_grant : bool; r_grantreply : bool }.

(** A kernel object as capDL records it.  Simplification: the remaining keyword arguments of
    alloc are not recorded. *)
Record kobj := mk_kobj { ko_name : string; ko_type : string; ko_label : string }.
(** A capability: object, rights, badge. *)
Record kcap := mk_kcap { kc_obj : nat; kc_rights : rights; kc_badge : option N }.

(** The state of one run of the runner: the store, the object allocator, the capability
    spaces, and symbol_counter (Context.py:399). *)
Record ctx := mk_ctx {
  c_store : store;
  c_objs : list kobj;
  c_spaces : dict nat (list (option kcap));
  c_counter : N
}.
Definition ctx0 : ctx := mk_ctx [] [] [] 0.
Definition set_store (s : ctx) (st : store) := mk_ctx st (c_objs s) (c_spaces s) (c_counter s).
Definition set_objs (s : ctx) os := mk_ctx (c_store s) os (c_spaces s) (c_counter s).
Definition set_spaces (s : ctx) sp := mk_ctx (c_store s) (c_objs s) sp (c_counter s).

(** ObjectAllocator.alloc of python-capdl (outside /repo; the behaviour on a known name is
    the one Context.py:490-491 relies on): an object already allocated under that name is
    returned, otherwise a new one is made. *)
Fixpoint find_obj (os : list kobj) (name : string) (i : nat) : option nat :=
  match os with
  | [] => None
  | o :: os => if eqb (ko_name o) name then Some i else find_obj os name (S i)
  end.
Definition obj_alloc (s : ctx) (type name label : string) : ctx * value :=
  match find_obj (c_objs s) name 0 with
  | Some i => (s, VObj i)
  | None => (set_objs s (c_objs s ++ [mk_kobj name type label]), VObj (List.length (c_objs s)))
  end.

(** CSpaceAllocator.alloc of python-capdl (outside /repo): a slot not used before, holding
    a capability to the object, or nothing when the object is None.  Simplification: slots
    are handed out in order. *)
Definition space_slots (s : ctx) (sp : nat) : list (option kcap) :=
  match dget (c_spaces s) sp with Some l => l | None => [] end.
Definition cap_alloc (s : ctx) (sp : nat) (obj : option nat) (r : rights) (badge : option N) : ctx * value :=
  let l := space_slots s sp in
  (set_spaces s (dset (c_spaces s) sp (l ++ [option_map (fun o => mk_kcap o r badge) obj])),
   VSlot (List.length l)).

(** guard (Context.py:386-396); the flag tells whether the function was called. *)
Definition guard (s : ctx) (c : client) (k : string) (func : ctx -> ctx * value) : ctx * value * bool :=
  let (st, v) := pop (c_store s) c k in
  let s := set_store s st in
  match v with
  | VNone => let (s, v) := func s in (set_store s (stash (c_store s) c k v), v, true)
  | _ => (set_store s (stash (c_store s) c k v), v, false)
  end.

(** alloc_obj (Context.py:415-420) as called by the lambda of new_context (63-69), which
    prefixes the name with the entity's label. *)
Definition full_name (label name : string) : string := (label ++ "_" ++ name)%string.
Definition alloc_obj (s : ctx) (label name type olabel : string) : ctx * value * bool :=
  guard s (ObjClient label) (full_name label name ++ "_obj")%string
        (fun s => obj_alloc s type (full_name label name) olabel).

(** The upgrade of the rights of a capability (Context.py:435-442). *)
Definition upgrade (c : kcap) (r : rights) : kcap :=
  let up (old new : bool) := if negb old && new then true else old in
  let o := kc_rights c in
  mk_kcap (kc_obj c)
    (mk_rights (up (r_read o) (r_read r)) (up (r_write o) (r_write r))
               (up (r_grant o) (r_grant r)) (up (r_grantreply o) (r_grantreply r)))
    (kc_badge c).
Fixpoint set_nth {A} (l : list A) (n : nat) (a : A) : list A :=
  match l, n with
  | [], _ => []
  | _ :: l, 0 => a :: l
  | x :: l, S n => x :: set_nth l n a
  end.

(** alloc_cap (Context.py:423-444).  [space.cnode[cap]] on a slot that holds nothing is a
    KeyError. *)
Definition alloc_cap (s : ctx) (label : string) (sp : nat) (name : string) (obj : option nat)
  (r : rights) (badge : option N) : res (ctx * value * bool) :=
  let '(s, v, b) := guard s (CapClient label sp) (name ++ "_cap")%string
                          (fun s => cap_alloc s sp obj r badge) in
  match obj with
  | None => Ok (s, v, b)
  | Some _ =>
      match v with
      | VSlot i =>
          match nth_error (space_slots s sp) i with
          | Some (Some c) =>
              Ok (set_spaces s (dset (c_spaces s) sp (set_nth (space_slots s sp) i (Some (upgrade c r)))), v, b)
          | _ => Err KeyError
          end
      | _ => Err KeyError
      end
  end.

(** alloc (Context.py:85-90). *)
Definition alloc (s : ctx) (label : string) (sp : nat) (name type olabel : string)
  (r : rights) (badge : option N) : res (ctx * value * bool) :=
  let '(s, v, _) := alloc_obj s label name type olabel in
  match v with
  | VObj o => alloc_cap s label sp name (Some o) r badge
  | _ => Err TypeError
  end.

(** symbol (Context.py:402-412) with the two patterns of new_context (156-157); an empty
    tag stands for None as well ([tag or default_tag]). *)
Definition c_symbol (s : ctx) (tag : string) : ctx * value :=
  (mk_ctx (c_store s) (c_objs s) (c_spaces s) (c_counter s + 1),
   VStr ("_camkes_" ++ tag ++ "_" ++ dec (c_counter s))%string).
Definition isabelle_symbol (s : ctx) (tag : string) : ctx * value :=
  let tag := match tag with EmptyString => "s"%string | _ => tag end in
  (mk_ctx (c_store s) (c_objs s) (c_spaces s) (c_counter s + 1),
   VStr (tag ++ dec (c_counter s) ++ "'")%string).

(** What a template may ask for.  A guarded function is represented by the value it would
    return if called. *)
Inductive op :=
| OStash (c k : string) (v : value)
| OPop (c k : string)
| OGuard (c k : string) (v : value)
| OAllocObj (label name type olabel : string)
| OAllocCap (label : string) (space : nat) (name : string) (obj : option nat) (r : rights) (badge : option N)
| OAlloc (label : string) (space : nat) (name type olabel : string) (r : rights) (badge : option N)
| OCSymbol (tag : string)
| OISymbol (tag : string).

(** One request: the new state, the value returned, whether a guarded function ran. *)
Definition exec (s : ctx) (o : op) : res (ctx * (value * bool)) :=
  match o with
  | OStash c k v => Ok (set_store s (stash (c_store s) (Named c) k v), (VStr "", false))
  | OPop c k => let (st, v) := pop (c_store s) (Named c) k in Ok (set_store s st, (v, false))
  | OGuard c k v => let '(s, v, b) := guard s (Named c) k (fun s => (s, v)) in Ok (s, (v, b))
  | OAllocObj l n t ol => let '(s, v, b) := alloc_obj s l n t ol in Ok (s, (v, b))
  | OAllocCap l sp n o r bd => '(s, v, b) <- alloc_cap s l sp n o r bd ;; Ok (s, (v, b))
  | OAlloc l sp n t ol r bd => '(s, v, b) <- alloc s l sp n t ol r bd ;; Ok (s, (v, b))
  | OCSymbol t => let (s, v) := c_symbol s t in Ok (s, (v, false))
  | OISymbol t => let (s, v) := isabelle_symbol s t in Ok (s, (v, false))
  end.

(** A whole history; an exception ends it. *)
Fixpoint run (s : ctx) (ops : list op) : res (ctx * list (value * bool)) :=
  match ops with
  | [] => Ok (s, [])
  | o :: ops =>
      '(s, v) <- exec s o ;;
      '(s, vs) <- run s ops ;;
      Ok (s, v :: vs)
  end.
