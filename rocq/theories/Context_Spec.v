(** What C28, C29 and C30 say, in terms of the requests made and the answers given. *)
From Coq Require Import List Bool Arith NArith String Ascii.
From Verif Require Import Prelude DecStr Context_Model.
Import ListNotations.
Open Scope string_scope.
Open Scope list_scope.

(** ** Template values (C28) *)

(** What a client holds under a key after one more request, given what it held before. *)
Definition held_step (c k : string) (h : option value) (o : op) : option value :=
  match o with
  | OStash c' k' v => if eqb c c' && eqb k k' then Some v else h
  | OPop c' k' => if eqb c c' && eqb k k' then None else h
  | OGuard c' k' v =>
      if eqb c c' && eqb k k' then
        match h with None => Some v | Some VNone => Some v | Some w => Some w end
      else h
  | _ => h
  end.
Definition held (ops : list op) (c k : string) : option value := fold_left (held_step c k) ops None.

(** The answer to a request on the store, given what the client holds. *)
Definition store_answer (h : option value) (o : op) : option (value * bool) :=
  match o with
  | OStash _ _ _ => Some (VStr "", false)
  | OPop _ _ => Some (match h with Some v => v | None => VNone end, false)
  | OGuard _ _ v => Some (match h with
                          | None => (v, true)
                          | Some VNone => (v, true)
                          | Some w => (w, false)
                          end)
  | _ => None
  end.
(** The client and key a store request is about. *)
Definition store_key (o : op) : option (string * string) :=
  match o with
  | OStash c k _ | OPop c k | OGuard c k _ => Some (c, k)
  | _ => None
  end.
(** Requests that can take a value away or replace it. *)
Definition disturbs (c k : string) (o : op) : Prop :=
  (exists v, o = OStash c k v) \/ o = OPop c k.
(** The requests of one client. *)
Definition of_client (c : string) (o : op) : bool :=
  match store_key o with Some (c', _) => eqb c c' | None => false end.
Definition answers_of_client (c : string) (ops : list op) (outs : list (value * bool)) : list (value * bool) :=
  map snd (filter (fun p => of_client c (fst p)) (combine ops outs)).

(** ** Objects and capabilities (C29) *)

(** Objects are named after the requester and the name it gives. *)
Definition object_name (label name : string) : string := (label ++ "_" ++ name)%string.
(** The full name of the kernel object a request names, with its type and label. *)
Definition obj_request (o : op) : option kobj :=
  match o with
  | OAllocObj l n t ol => Some (mk_kobj (object_name l n) t ol)
  | OAlloc l _ n t ol _ _ => Some (mk_kobj (object_name l n) t ol)
  | _ => None
  end.
Definition first_obj_request (ops : list op) (name : string) : option kobj :=
  match find (fun o => match obj_request o with Some k => eqb (ko_name k) name | None => false end) ops with
  | Some o => obj_request o
  | None => None
  end.

(** The capability a request names: space, label of the requester, name. *)
Definition cap_key (o : op) : option (nat * string * string) :=
  match o with
  | OAllocCap l sp n _ _ _ => Some (sp, l, n)
  | OAlloc l sp n _ _ _ _ => Some (sp, l, n)
  | _ => None
  end.
Definition no_rights : rights := mk_rights false false false false.
Definition cap_rights (o : op) : rights :=
  match o with
  | OAllocCap _ _ _ (Some _) r _ => r
  | OAlloc _ _ _ _ _ r _ => r
  | _ => no_rights
  end.
Definition is_key (key : nat * string * string) (o : op) : bool :=
  match cap_key o with Some k => eqb k key | None => false end.
(** A right is granted exactly when some request for that capability asked for it. *)
Definition asked (f : rights -> bool) (ops : list op) (key : nat * string * string) : bool :=
  existsb (fun o => is_key key o && f (cap_rights o)) ops.
Definition asked_rights (ops : list op) (key : nat * string * string) : rights :=
  mk_rights (asked r_read ops key) (asked r_write ops key)
            (asked r_grant ops key) (asked r_grantreply ops key).
(** The number of the object of a given name. *)
Fixpoint numbered (objs : list kobj) (name : string) : option nat :=
  match objs with
  | [] => None
  | o :: objs => if eqb (ko_name o) name then Some 0 else option_map S (numbered objs name)
  end.
(** The capability the first request for a key created: to the object it gave, or to the
    object of its name. *)
Definition first_cap (objs : list kobj) (ops : list op) (key : nat * string * string) : option kcap :=
  match find (is_key key) ops with
  | Some (OAllocCap _ _ _ (Some o) _ bd) => Some (mk_kcap o (asked_rights ops key) bd)
  | Some (OAlloc l _ n _ _ _ bd) =>
      match numbered objs (object_name l n) with
      | Some o => Some (mk_kcap o (asked_rights ops key) bd)
      | None => None
      end
  | _ => None
  end.

(** The contents of a capability space. *)
Definition contents (s : ctx) (sp slot : nat) : option (option kcap) :=
  match dget (c_spaces s) sp with Some l => nth_error l slot | None => None end.

(** ** Symbols (C30) *)
Definition c_sym_request (o : op) : Prop := exists t, o = OCSymbol t.
Definition sym_request (o : op) : Prop := exists t, o = OCSymbol t \/ o = OISymbol t.
Fixpoint last_char (s : string) : option ascii :=
  match s with
  | EmptyString => None
  | String c EmptyString => Some c
  | String _ s => last_char s
  end.
Definition ends_in_digit (s : string) : Prop :=
  exists c, last_char s = Some c /\ is_digit c = true.
