(** Model of interrupt registration and delivery: libsel4camkes/src/irq.c, the run loops
    and acknowledge functions of camkes/templates/seL4HardwareInterrupt.template.c:160-228
    and camkes/templates/seL4DTBHardware-to.template.c:130-202.

    Simplifications.
    - Capability pointers, interrupt numbers, triggers, CPU indices are numbers (N); an
      irq_id_t is an int (Z).
    - A callback (function and data) is one number; NULL is None.  A callback does not
      call register or unregister while a badge is being dispatched.
    - Whether the kernel accepts an acknowledgement is told by the caller of the model.
    - Each entry of the linker section is identified by its irq_handler capability. *)
From Coq Require Import NArith ZArith List Bool.
From Verif Require Import Prelude.
Import ListNotations.
Open Scope N_scope.

Definition ENOENT : Z := (-2)%Z.
Definition EFAULT : Z := (-14)%Z.
Definition EINVAL : Z := (-22)%Z.

(** platsupport's ps_irq_t *)
Inductive irq :=
| Interrupt (number : N)
| Trigger (number trigger : N)
| PerCpu (number trigger cpu : N)
| Ioapic (ioapic pin level polarity vector : N)
| Msi (bus dev func handle vector : N)
| OtherIrq.

(** irq.c:53-66: the entry's interrupt as (number, trigger, cpu) *)
Definition normalise (a : irq) : option (N * N * N) :=
  match a with
  | Interrupt n => Some (n, 0, 0)
  | Trigger n t => Some (n, t, 0)
  | PerCpu n t c => Some (n, t, c)
  | _ => None
  end.

(** irq.c:23-78, check_irq_info_is_equal; [a] is the entry's, [b] the requested one *)
Definition check_irq_info_is_equal (a b : irq) : bool :=
  match a with
  | Ioapic i p l q v =>
      match b with
      | Ioapic i' p' l' q' v' => (i =? i') && (p =? p') && (l =? l') && (q =? q') && (v =? v')
      | _ => false
      end
  | Msi x d f h v =>
      match b with
      | Msi x' d' f' h' v' => (x =? x') && (d =? d') && (f =? f') && (h =? h') && (v =? v')
      | _ => false
      end
  | _ =>
      match normalise a with
      | None => false
      | Some (n, t, c) =>
          match b with
          | Interrupt n' => n =? n'
          | Trigger n' t' => (n =? n') && (t =? t')
          | PerCpu n' t' c' => (n =? n') && (t =? t') && (c =? c')
          | _ => false
          end
      end
  end.

(** include/camkes/irq.h:22-28 *)
Record entry := Entry { e_handler : N; e_irq : irq; e_alloc : bool; e_callback : option N }.
Definition table := list entry.

(** irq.c:80-94 *)
Fixpoint find_by_interrupt (q : irq) (t : table) : option entry :=
  match t with
  | [] => None
  | e :: t' => if negb (e_alloc e) && check_irq_info_is_equal (e_irq e) q then Some e
               else find_by_interrupt q t'
  end.

(** irq.c:96-109 *)
Fixpoint find_by_cptr (c : N) (t : table) : option entry :=
  match t with
  | [] => None
  | e :: t' => if e_alloc e && (e_handler e =? c) then Some e else find_by_cptr c t'
  end.

(** Writing through the pointer to the entry with handler [c]. *)
Definition update (c : N) (alloc : bool) (cb : option N) (t : table) : table :=
  map (fun e => if e_handler e =? c then Entry c (e_irq e) alloc cb else e) t.

(** A call: register an interrupt with a callback, unregister an id.  [ack]: the kernel
    accepts the acknowledgement. *)
Inductive op :=
| ORegister (ack : bool) (q : irq) (callback : option N)
| OUnregister (ack : bool) (id : Z).

(** irq.c:111-137, camkes_irq_register; also the handlers acknowledged *)
Definition irq_register (ack : bool) (q : irq) (cb : option N) (t : table) : table * Z * list N :=
  match cb with
  | None => (t, EINVAL, [])
  | Some f =>
      match find_by_interrupt q t with
      | None => (t, ENOENT, [])
      | Some e =>
          if ack then (update (e_handler e) true (Some f) t, Z.of_N (e_handler e), [e_handler e])
          else (t, EFAULT, [e_handler e])
      end
  end.

(** irq.c:139-164, camkes_irq_unregister *)
Definition irq_unregister (ack : bool) (id : Z) (t : table) : table * Z * list N :=
  if (id <? 0)%Z then (t, EINVAL, [])
  else match find_by_cptr (Z.to_N id) t with
       | None => (t, ENOENT, [])
       | Some e =>
           if ack then (update (e_handler e) false None t, 0%Z, [e_handler e])
           else (t, EFAULT, [e_handler e])
       end.

Definition step (t : table) (o : op) : table * Z * list N :=
  match o with
  | ORegister ack q cb => irq_register ack q cb t
  | OUnregister ack id => irq_unregister ack id t
  end.

Fixpoint run_from (t : table) (l : list op) : table * list (op * Z * list N) :=
  match l with
  | [] => (t, [])
  | o :: l' =>
      let '(t1, z, a) := step t o in
      let (t2, h) := run_from t1 l' in
      (t2, (o, z, a) :: h)
  end.

(** The generated table: nothing allocated, no callbacks
    (seL4HardwareInterrupt.template.c:162-180, seL4DTBHardware-to.template.c:137-143) *)
Definition initial (irqs : list (N * irq)) : table :=
  map (fun '(c, q) => Entry c q false None) irqs.

Definition run (irqs : list (N * irq)) (l : list op) := run_from (initial irqs) l.

(** ** Delivery *)

(** What the run loop does with one interrupt: stop with an error, call the component's
    handle function, call a registered callback with a function that acknowledges a
    handler, or ignore it. *)
Inductive outcome := Fatal | Handle | Callback (cb : N) (ack : N) | BadCall | Ignored.

Fixpoint get_entry (c : N) (t : table) : option entry :=
  match t with
  | [] => None
  | e :: t' => if e_handler e =? c then Some e else get_entry c t'
  end.

(** The branches at seL4HardwareInterrupt.template.c:211-223 and
    seL4DTBHardware-to.template.c:183-196.  [has_handle]: the component defines the handle
    function; [ack]: the handler that the acknowledge function passed along reaches.
    BadCall: a call through a NULL pointer. *)
Definition deliver (has_handle : bool) (e : entry) (ack : N) : outcome :=
  if has_handle && e_alloc e then Fatal
  else if has_handle then Handle
  else if e_alloc e then match e_callback e with Some cb => Callback cb ack | None => BadCall end
  else Ignored.

(** seL4HardwareInterrupt.template.c:204-228: the interrupt with handler [c] fired *)
Definition hw_run (has_handle : bool) (c : N) (t : table) : option outcome :=
  match get_entry c t with
  | Some e => Some (deliver has_handle e c)
  | None => None
  end.

(** seL4DTBHardware-to.template.c:150-165: acknowledge by interrupt number *)
Fixpoint dtb_ack (num : N) (pairs : list (N * N)) : option N :=
  match pairs with
  | [] => None
  | (n, c) :: pairs' => if n =? num then Some c else dtb_ack num pairs'
  end.

(** seL4DTBHardware-to.template.c:172-200: one wake-up with a badge; bit i belongs to the
    i-th pair (number, handler).  The callback gets the number of the pair to acknowledge
    by.  An entry per handled bit. *)
Definition dtb_one (has_handle : bool) (pairs : list (N * N)) (t : table) (badge : N)
    (i : nat) (p : N * N) : list (option outcome) :=
  if N.testbit badge (N.of_nat i) then
    [match get_entry (snd p) t, dtb_ack (fst p) pairs with
     | Some e, Some a => Some (deliver has_handle e a)
     | _, _ => None
     end]
  else [].

Fixpoint dtb_loop (has_handle : bool) (pairs : list (N * N)) (t : table) (badge : N)
    (i : nat) (rest : list (N * N)) : list (option outcome) :=
  match rest with
  | [] => []
  | p :: rest' =>
      dtb_one has_handle pairs t badge i p ++
      dtb_loop has_handle pairs t badge (Datatypes.S i) rest'
  end.

Definition dtb_run (has_handle : bool) (pairs : list (N * N)) (t : table) (badge : N) :=
  dtb_loop has_handle pairs t badge 0 pairs.

(** irq.c:186-202, camkes_handle_global_endpoint_irq; [handlers]: (badge, acknowledge
    function, handler of the entry referred to).  Gives the callbacks called with their
    acknowledge function; the C function returns their number. *)
Fixpoint global_run (handlers : list (N * N * N)) (t : table) (badge : N) : list (N * N) :=
  match handlers with
  | [] => []
  | (b, ack, c) :: hs =>
      (if N.land badge b =? b then
         match get_entry c t with
         | Some e => match e_callback e with Some cb => [(cb, ack)] | None => [] end
         | None => []
         end
       else []) ++ global_run hs t badge
  end.
