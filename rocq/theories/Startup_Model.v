(** The start-up of a component: post_main, pre_init_interface_sync and
    post_init_interface_sync (camkes/templates/component.common.c:697-916) and
    component_control_main (camkes/templates/component.environment.c:10-41).

    Every thread is a sequential program over three semaphores, a notification and one
    scheduling context; a schedule says which thread makes the next step.

    Simplifications.
    - sync_sem_bare_post and sync_sem_bare_wait (libsel4sync, outside /repo) are the
      operations of a counting semaphore.
    - Binding and unbinding the scheduling context succeed.
    - A function of the user, once begun, may end at any later step or never.
    - A passive thread runs only while the initialisation scheduling context is bound to
      it; that clients lend it theirs when it serves is not modelled.
    - passive_tcbs is a dictionary keyed by thread name; names differ (C27), so it is a
      list in thread order. *)
From Coq Require Import List String Ascii Bool NArith Arith.
From Verif Require Import Prelude DecStr Threads_Model.
Import ListNotations.
Open Scope string_scope. Open Scope list_scope.

(** component.common.c:699-706 *)
Inductive sem := Pre | Init | Post.

(** Code of the user or of the platform that a thread runs. *)
Inductive func := TlsSetup | PreInit | PostInit | Control | ThreadTls | InitF | RunF | Serve
                | FaultHandler.

(** Steps of a thread.  The number in [Unbind] and [Await] is only a label: it tells for
    which thread the step is made. *)
Inductive instr :=
| Begin (f : func) | End (f : func)
| Up (s : sem) | Down (s : sem)
| Bind (k : nat) | Unbind (k : nat)
| Signal | Await (k : nat)
| Return.

(** A thread other than the control thread: is it the fault handler, has it no scheduling
    context of its own, does it run the passive branch. *)
Record member := mk_member { m_fault : bool; m_passive : bool; m_runs_passive : bool }.

(** component.common.c:480-497: which threads are passive; [passive i]: the configuration
    has i_passive set. *)
Definition is_passive (realtime : bool) (passive : string -> bool) (t : thread) : bool :=
  realtime && match t_iface t with Some i => passive i | None => false end.

(** component.common.c:874-875: the branch is chosen by looking up a name made from the
    instance name as it is, whereas thread names have the instance name sanitised. *)
Definition prefix_of (me : string) (t : thread) : string :=
  match t_iface t with
  | Some i => (me ++ "_" ++ i ++ "_" ++ decpad 4 (t_index t))%string
  | None => ""
  end.

(** The threads after the first, in order; the last is the fault handler if there is one. *)
Definition members (realtime fault_handlers : bool) (passive : string -> bool) (me : string)
  (ts : list thread) : list member :=
  let keys := map t_name (filter (is_passive realtime passive) ts) in
  map (fun '(n, t) =>
         mk_member (fault_handlers && Nat.eqb (S n) (List.length ts))
                   (is_passive realtime passive t)
                   (realtime && memb (prefix_of me t) keys))
      (combine (seq 0 (List.length ts)) ts).

(** component.common.c:840-900 *)
Definition member_program (m : member) : list instr :=
  if m_fault m then [Down Pre; Begin ThreadTls; End ThreadTls; Begin FaultHandler]
  else [Down Pre; Begin ThreadTls; End ThreadTls; Begin InitF; End InitF; Up Init; Down Post] ++
       (if m_runs_passive m then [Signal; Begin Serve; End Serve] else [Begin RunF; End RunF]) ++
       [Down Pre; Return].

(** The passive threads, by number; the control thread is number 0. *)
Definition numbered (ms : list member) : list (nat * member) := combine (seq 1 (List.length ms)) ms.
Definition passives (ms : list member) : list nat :=
  map fst (filter (fun p => m_passive (snd p)) (numbered ms)).

(** component.common.c:708-760, pre_init_interface_sync *)
Definition pre_sync (ms : list member) : list instr :=
  flat_map (fun m => if m_passive m then [] else [Up Pre]) ms ++
  flat_map (fun m => if m_fault m || m_passive m then [] else [Down Init]) ms ++
  flat_map (fun k => [Bind k; Up Pre; Down Init; Unbind k]) (passives ms).

(** component.common.c:762-812, post_init_interface_sync *)
Definition post_sync (ms : list member) : list instr :=
  flat_map (fun m => if m_fault m then [] else [Up Post]) ms ++
  flat_map (fun k => [Bind k; Await k; Unbind k]) (passives ms).

(** component.common.c:824-837 with component.environment.c:10-41 *)
Definition control_program (ms : list member) : list instr :=
  [Begin TlsSetup; End TlsSetup; Begin PreInit; End PreInit] ++ pre_sync ms ++
  [Begin PostInit; End PostInit] ++ post_sync ms ++
  [Begin Control; End Control; Down Init; Return].

Definition programs (ms : list member) : list (list instr) :=
  control_program ms :: map member_program ms.

Record sys := mk_sys {
  s_rest : list (list instr);     (* what each thread has still to do *)
  s_pre : nat; s_init : nat; s_post : nat;
  s_ntfn : bool; s_sc : option nat;
  s_trace : list (nat * instr)    (* the steps made, in order *)
}.
Definition boot (ms : list member) : sys := mk_sys (programs ms) 0 0 0 false None [].

Definition level (s : sys) (x : sem) : nat :=
  match x with Pre => s_pre s | Init => s_init s | Post => s_post s end.
Definition set_level (s : sys) (x : sem) (n : nat) : sys :=
  match x with
  | Pre => mk_sys (s_rest s) n (s_init s) (s_post s) (s_ntfn s) (s_sc s) (s_trace s)
  | Init => mk_sys (s_rest s) (s_pre s) n (s_post s) (s_ntfn s) (s_sc s) (s_trace s)
  | Post => mk_sys (s_rest s) (s_pre s) (s_init s) n (s_ntfn s) (s_sc s) (s_trace s)
  end.
Definition set_ntfn (s : sys) (b : bool) : sys :=
  mk_sys (s_rest s) (s_pre s) (s_init s) (s_post s) b (s_sc s) (s_trace s).
Definition set_sc (s : sys) (o : option nat) : sys :=
  mk_sys (s_rest s) (s_pre s) (s_init s) (s_post s) (s_ntfn s) o (s_trace s).

(** The effect of one instruction; [None]: the thread waits. *)
Definition effect (i : instr) (s : sys) : option sys :=
  match i with
  | Begin _ | End _ | Return => Some s
  | Up x => Some (set_level s x (S (level s x)))
  | Down x => match level s x with O => None | S n => Some (set_level s x n) end
  | Bind k => Some (set_sc s (Some k))
  | Unbind _ => Some (set_sc s None)
  | Signal => Some (set_ntfn s true)
  | Await _ => if s_ntfn s then Some (set_ntfn s false) else None
  end.

Fixpoint set_nth (l : list (list instr)) (k : nat) (x : list instr) : list (list instr) :=
  match l, k with
  | [], _ => []
  | _ :: l, O => x :: l
  | y :: l, S k => y :: set_nth l k x
  end.

(** Can thread [k] be scheduled? *)
Definition runnable (ms : list member) (s : sys) (k : nat) : bool :=
  match k with
  | O => true
  | S n => match nth_error ms n with
           | Some m => negb (m_passive m) || eqb (s_sc s) (Some k)
           | None => false
           end
  end.

(** Thread [k] makes a step. *)
Definition step (ms : list member) (k : nat) (s : sys) : option sys :=
  match nth_error (s_rest s) k with
  | Some (i :: r) =>
      if runnable ms s k then
        match effect i s with
        | Some s => Some (mk_sys (set_nth (s_rest s) k r) (s_pre s) (s_init s) (s_post s)
                                 (s_ntfn s) (s_sc s) (s_trace s ++ [(k, i)]))
        | None => None
        end
      else None
  | _ => None
  end.

(** A schedule. *)
Fixpoint exec (ms : list member) (sched : list nat) (s : sys) : option sys :=
  match sched with
  | [] => Some s
  | k :: sched => match step ms k s with Some s => exec ms sched s | None => None end
  end.

(** The threads of an instance (macros.threads without the control thread). *)
Definition component (realtime fault_handlers : bool) (passive : string -> bool)
  (cs : list tconn) (inst : string) (conf : dict string N) (dflt : N) : list member :=
  members realtime fault_handlers passive inst (tl (threads cs inst conf dflt fault_handlers)).
