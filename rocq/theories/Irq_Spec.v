(** What users of the interrupt interface rely on, said of the history of calls. *)
From Coq Require Import NArith ZArith List Bool.
From Verif Require Import Prelude Irq_Model.
Import ListNotations.
Open Scope N_scope.

Definition history := list (op * Z * list N).

(** The callback registered for the interrupt with handler [c]: that of the last
    registration which returned [c], unless unregistered since. *)
Definition bound1 (c : N) (b : option N) (e : op * Z * list N) : option N :=
  match e with
  | (ORegister _ _ cb, z, _) => if (z =? Z.of_N c)%Z then cb else b
  | (OUnregister _ id, z, _) => if (id =? Z.of_N c)%Z && (z =? 0)%Z then None else b
  end.
Definition bound (h : history) (c : N) : option N := fold_left (bound1 c) h None.

(** An interrupt line with number, trigger and CPU; one described without trigger or CPU
    has trigger 0 or CPU 0. *)
Inductive line : irq -> N -> N -> N -> Prop :=
| line_number n : line (Interrupt n) n 0 0
| line_trigger n t : line (Trigger n t) n t 0
| line_cpu n t c : line (PerCpu n t c) n t c.

(** The description [b] given by a driver fits the interrupt [a]: all that [b] says is
    true of [a].  A plain number says nothing about trigger and CPU. *)
Inductive fits : irq -> irq -> Prop :=
| fits_number a n t c : line a n t c -> fits a (Interrupt n)
| fits_trigger a n t c : line a n t c -> fits a (Trigger n t)
| fits_cpu a n t c : line a n t c -> fits a (PerCpu n t c)
| fits_ioapic i p l q v : fits (Ioapic i p l q v) (Ioapic i p l q v)
| fits_msi x d f h v : fits (Msi x d f h v) (Msi x d f h v).

(** What should happen to an interrupt that fires, given the callback [b] registered for
    it: with a handle function in the component, that function is called (having both is
    an error); otherwise the callback is called with the means to acknowledge [ack];
    without either it is ignored. *)
Definition right_outcome (has_handle : bool) (b : option N) (ack : N) : outcome :=
  match has_handle, b with
  | true, Some _ => Fatal
  | true, None => Handle
  | false, Some cb => Callback cb ack
  | false, None => Ignored
  end.

(** The interrupts whose bit is set, in order. *)
Definition fired (badge : N) (pairs : list (N * N)) : list N :=
  map (fun x => snd (snd x))
      (filter (fun x => N.testbit badge (N.of_nat (fst x))) (combine (seq 0 (List.length pairs)) pairs)).

(** What a wake-up through the global endpoint calls, in order; a handler is a badge, an
    acknowledge function and an interrupt. *)
Inductive calls (h : history) (badge : N) : list (N * N * N) -> list (N * N) -> Prop :=
| calls_end : calls h badge [] []
| calls_one b ack c cb hs out :
    (forall j, N.testbit b j = true -> N.testbit badge j = true) -> bound h c = Some cb ->
    calls h badge hs out -> calls h badge ((b, ack, c) :: hs) ((cb, ack) :: out)
| calls_unregistered b ack c hs out :
    bound h c = None -> calls h badge hs out -> calls h badge ((b, ack, c) :: hs) out
| calls_not_set b ack c hs out j :
    N.testbit b j = true -> N.testbit badge j = false ->
    calls h badge hs out -> calls h badge ((b, ack, c) :: hs) out.
