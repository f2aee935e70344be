(** What a driver may rely on: device memory, and being initialised. *)
From Coq Require Import String List Bool ZArith Sorted Lia.
From Verif Require Import Io_Model.
Import ListNotations.
Open Scope Z_scope.

(** ** Device memory *)
(** The frames map physical address [x] at virtual address [v]. *)
Definition maps (frames : list frame) (x v : Z) : Prop :=
  exists f d, In f frames /\ 0 <= d < f_size f /\ x = f_paddr f + d /\ v = f_vaddr f + d.
Definition contains (f : frame) (x : Z) : Prop := f_paddr f <= x < f_paddr f + f_size f.
Definition valid (w : Z) (f : frame) : Prop :=
  0 <= f_paddr f /\ 0 < f_vaddr f /\ 0 < f_size f /\ f_paddr f + f_size f < 2 ^ w /\ f_vaddr f + f_size f < 2 ^ w.
(** Each frame continues the one before it. *)
Fixpoint contiguous (run : list frame) : Prop :=
  match run with
  | f :: (g :: _) as rest => f_paddr f + f_size f = f_paddr g /\ contiguous rest
  | _ => True
  end.
Definition covers (run : list frame) (x size : Z) : Prop :=
  exists f rest, run = f :: rest /\ contains f x /\ contiguous run /\
    x + size <= f_paddr f + fold_right (fun f n => f_size f + n) 0 run.
(** Frames that follow each other in physical memory do so in virtual memory. *)
Fixpoint adjacent (frames : list frame) : Prop :=
  match frames with
  | f :: (g :: _) as rest => (f_paddr f + f_size f = f_paddr g -> f_vaddr f + f_size f = f_vaddr g) /\ adjacent rest
  | _ => True
  end.

(** ** Mapped pointers *)
(** How often a pointer has been mapped (and the mapping recorded) and not unmapped since, when
    it was [n] times before; NULL is not a mapping. *)
Fixpoint outstanding (p : Z) (os : list op) (n : nat) : nat :=
  match os with
  | [] => n
  | MapOp q true :: os => outstanding p os (if (q =? p) && negb (q =? 0) then S n else n)
  | MapOp _ false :: os => outstanding p os n
  | UnmapOp q :: os => outstanding p os (if q =? p then pred n else n)
  end.

(** ** Drivers *)
(** The driver of a device: the first module, in link order, one of whose strings the device is
    compatible with. *)
Definition chosen (tree : string -> option node) (ds : list driver) (p : string) (f : nat) : Prop :=
  exists n before d after a s b,
    tree p = Some n /\ n_has_compatible n = true /\ ds = before ++ d :: after /\ d_init d = f /\
    d_compatible d = a ++ s :: b /\ n_check n s = Match /\
    Forall (fun s => n_check n s = NoMatch) a /\
    Forall (fun d => Forall (fun s => n_check n s = NoMatch) (d_compatible d)) before.

(** The tokens of all devices with a driver, in the order of the paths. *)
Definition all_devices (tree : string -> option node) (ds : list driver) (paths : list string) (ts : list token) : Prop :=
  StronglySorted lt (map t_index ts) /\
  forall i f p, In (mk_token i f p) ts <-> nth_error paths i = Some p /\ chosen tree ds p f.
Definition deferred (c : call) : bool := match c_answer c with Defer => true | _ => false end.
(** Rounds: those that deferred are called again, in the same order, until none defers. *)
Fixpoint in_rounds (ts : list token) (rs : list (list call)) : Prop :=
  match rs with
  | [] => ts = []
  | r :: rs => map c_token r = ts /\ in_rounds (map c_token (filter deferred r)) rs
  end.
(** What a device's driver answered, call by call. *)
Definition answers (i : nat) (cs : list call) : list answer :=
  map c_answer (filter (fun c => Nat.eqb (t_index (c_token c)) i) cs).
Definition settled (l : list answer) : Prop := exists k a, l = repeat Defer k ++ [a] /\ a <> Defer.
