(** What the claims about error handling mean, in terms of what has happened so far. *)
From Coq Require Import List String Bool NArith.
From Verif Require Import Prelude ErrH_Model.
Import ListNotations.
Open Scope string_scope. Open Scope list_scope.

(** [registered p l h]: after [l], the handler at [p] is [h]: the last one registered there, or what
    there is at the start: the default handler for the component, nothing for an interface. *)
Inductive registered (p : place) : list event -> ptr -> Prop :=
  | r_start : registered p [] (match p with Component => Some Default | Interface _ => None end)
  | r_here : forall l h old, registered p (l ++ [ERegister p h old]) h
  | r_other : forall l ev h, registered p l h ->
      (forall h' old, ev <> ERegister p h' old) -> registered p (l ++ [ev]) h.

(** [responsible p l f]: after [l], an error at [p] is for [f]: the handler of the interface, or
    that of the component if there is none. *)
Definition responsible (p : place) (l : list event) (f : ptr) : Prop :=
  match p with
  | Component => registered Component l f
  | Interface _ => (registered p l f /\ f <> None) \/ (registered p l None /\ registered Component l f)
  end.

(** The errors the default handler knows *)
Definition known (t : etype) : Prop := t <> CE_NO_ERROR /\ t <> CE_OVERFLOW.

(** [replies env f e a regs]: called with [e], [f] registers [regs] and answers [a]. *)
Definition replies (env : component) (f : fn) (e : error) (a : action) (regs : list (place * ptr)) : Prop :=
  match f with
  | Default => known (e_type e) /\ a = CEA_HALT /\ regs = []
  | User n => env n e = Some (a, regs)
  end.

(** [meant debug a o]: the comments of error.h:150-181 about the answers *)
Inductive meant (debug : bool) : action -> outcome -> Prop :=
  | m_discard : meant debug CEA_DISCARD Acts
  | m_ignore : meant debug CEA_IGNORE Continues
  | m_abort : meant debug CEA_ABORT Aborts
  | m_halt : debug = true -> meant debug CEA_HALT Halts
  | m_halt_release : debug = false -> meant debug CEA_HALT Aborts.
Definition an_answer (a : action) : Prop :=
  a = CEA_DISCARD \/ a = CEA_IGNORE \/ a = CEA_ABORT \/ a = CEA_HALT.

(** [noted regs evs]: the events [evs] are the registrations [regs]. *)
Definition noted (regs : list (place * ptr)) (evs : list event) : Prop :=
  Forall2 (fun r ev => exists old, ev = ERegister (fst r) (snd r) old) regs evs.

(** Programs that register nothing but for the time of something, and components whose handlers
    register nothing *)
Inductive tidy : op -> Prop :=
  | t_err : forall file line c p e, tidy (ErrIf file line c p e)
  | t_during : forall p h body, (forall o, In o body -> tidy o) -> tidy (During p h body).
Definition quiet (env : component) : Prop := forall n e a regs, env n e = Some (a, regs) -> regs = [].

(** ** The server *)
(** [serves ts r f]: [f] is the method that [r] asks for. *)
Definition serves (ts : list stype) (r : request) (f : smethod) : Prop :=
  exists t, In t ts /\ (List.length ts = 1 \/ In (r_badge r) (fst t)) /\
  ((List.length (snd t) = 1 /\ snd t = [f]) \/ (1 < List.length (snd t) /\ nth_error (snd t) (r_index r) = Some f)).
(** No two types share a badge. *)
Definition separate (ts : list stype) : Prop :=
  forall t u b, In t ts -> In u ts -> In b (fst t) -> In b (fst u) -> t = u.

(** [depth l d]: reading [l] from depth 0 never closes what is not open, and ends at depth [d]. *)
Inductive depth : list brace -> nat -> Prop :=
  | d_nil : depth [] 0
  | d_open : forall l d, depth l d -> depth (l ++ [Open]) (S d)
  | d_close : forall l d, depth l (S d) -> depth (l ++ [Close]) d.
