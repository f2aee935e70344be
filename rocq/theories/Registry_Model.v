(** Model of libsel4camkes/src/interface_registration.c: the interface registry of a
    component.

    Simplifications.
    - Interface types and instance pointers are numbers (N); pointer 0 is NULL.
    - Whether each memory allocation succeeds is told by the caller of the model.
    - A search handler is a function from instances to ints (Z); handlers do not call the
      registry and have no state of their own.  Their data argument is fixed.
    - Property arrays: copy_properties_array (:96-123) walks the characters of the first
      string until the address itself is NULL, so any non-NULL array is read out of
      bounds; the model gives Err OtherException.  The copy is not stored anyway: the
      variable of :174 is shadowed at :176, so every node has properties NULL and they are
      left out of the model. *)
From Coq Require Import NArith ZArith List Bool.
From Verif Require Import Prelude.
Import ListNotations.
Open Scope N_scope.

(** platsupport (outside /repo): the type that allows NULL instances, and the handler's
    return value for a match. *)
Definition ps_null_interface : N := 0.
Definition ps_found_match : Z := 1%Z.

(** errno.h *)
Definition ENOENT : Z := (-2)%Z.
Definition ENOMEM : Z := (-12)%Z.
Definition EINVAL : Z := (-22)%Z.

(** :35-50: the outer list has one node per type, with the list of its instances *)
Definition registry := list (N * list N).

(** sglib find_member: the first node equal to the dummy (:70-77) *)
Fixpoint find_outer (ty : N) (r : registry) : option (list N) :=
  match r with
  | [] => None
  | (t, l) :: r' => if t =? ty then Some l else find_outer ty r'
  end.

Fixpoint set_outer (ty : N) (l : list N) (r : registry) : registry :=
  match r with
  | [] => []
  | (t, k) :: r' => if t =? ty then (t, l) :: r' else (t, k) :: set_outer ty l r'
  end.

(** :125-208, camkes_interface_register.  [m_outer], [m_inner]: the allocations at :153
    and :165 succeed.  The membership test at :146 is as in the code. *)
Definition interface_register (m_outer m_inner : bool) (ty inst : N) (props : bool)
    (r : registry) : res (registry * Z) :=
  if (inst =? 0) && negb (ty =? ps_null_interface) then Ok (r, EINVAL)
  else match find_outer ty r with
       | Some l =>
           if negb (memb inst l) then Ok (r, EINVAL)
           else if negb m_inner then Ok (r, ENOMEM)
           else if props then Err OtherException
           else Ok (set_outer ty (inst :: l) r, 0%Z)
       | None =>
           if negb m_outer then Ok (r, ENOMEM)
           else if negb m_inner then Ok (r, ENOMEM)
           else if props then Err OtherException
           else Ok ((ty, [inst]) :: r, 0%Z)
       end.

(** sglib delete_if_member: removes the first equal node *)
Fixpoint delete_first (x : N) (l : list N) : list N :=
  match l with
  | [] => []
  | y :: l' => if y =? x then l' else y :: delete_first x l'
  end.

(** :210-244, camkes_interface_unregister *)
Definition interface_unregister (ty inst : N) (r : registry) : registry * Z :=
  if (inst =? 0) && negb (ty =? ps_null_interface) then (r, EINVAL)
  else match find_outer ty r with
       | None => (r, 0%Z)
       | Some l => (set_outer ty (delete_first inst l) r, 0%Z)
       end.

(** :267-276 *)
Fixpoint search (f : N -> Z) (l : list N) : Z :=
  match l with
  | [] => ENOENT
  | i :: l' =>
      let z := f i in
      if (z <? 0)%Z then z else if (z =? ps_found_match)%Z then 0%Z else search f l'
  end.

(** :246-280, camkes_interface_find *)
Definition interface_find (ty : N) (handler : option (N -> Z)) (r : registry) : Z :=
  match handler with
  | None => EINVAL
  | Some f =>
      match find_outer ty r with
      | None => ENOENT
      | Some l => search f l
      end
  end.

(** Calls that change the registry, and what they return. *)
Inductive op :=
| ORegister (m_outer m_inner : bool) (ty inst : N) (props : bool)
| OUnregister (ty inst : N).

Definition step (r : registry) (o : op) : res (registry * Z) :=
  match o with
  | ORegister m1 m2 ty i p => interface_register m1 m2 ty i p r
  | OUnregister ty i => Ok (interface_unregister ty i r)
  end.

(** :282-306: the registry is empty at first *)
Fixpoint run_from (r : registry) (l : list op) : res (registry * list (op * Z)) :=
  match l with
  | [] => Ok (r, [])
  | o :: l' =>
      '(r1, z) <- step r o ;;
      '(r2, h) <- run_from r1 l' ;;
      Ok (r2, (o, z) :: h)
  end.
Definition run (l : list op) := run_from [] l.
