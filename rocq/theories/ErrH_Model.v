(** Error handling: libsel4camkes/src/error.c, libsel4camkes/include/camkes/error.h:200-283,
    camkes/templates/helpers/error.c:11-38, and the errors of the event loop of a server
    (camkes/templates/rpc-connector-common-to.c:70-263).

    The texts printed by the default handler and the details of errors (the union of error.h:96-140) are
    left out.  abort() and seL4_DebugHalt() do not return.  GUARD comes from libutils, which is not in
    /repo: a guard that does not hold is an outcome of its own. *)
From Coq Require Import List String Bool NArith.
From Verif Require Import Prelude.
Import ListNotations.
Open Scope string_scope. Open Scope list_scope.

(** camkes_error_type_t, error.h:20-61 *)
Inductive etype := CE_NO_ERROR | CE_BUFFER_LENGTH_EXCEEDED | CE_INVALID_METHOD_INDEX
  | CE_MALFORMED_RPC_PAYLOAD | CE_SYSCALL_FAILED | CE_ALLOCATION_FAILURE | CE_OVERFLOW.
(** camkes_error_t, error.h:64-142 *)
Record error := mk_error { e_type : etype; e_instance : string; e_interface : option string;
  e_filename : string; e_lineno : N; e_description : string }.
(** camkes_error_action_t, error.h:148-182, and any other number a handler returns *)
Inductive action := CEA_INVALID | CEA_DISCARD | CEA_IGNORE | CEA_ABORT | CEA_HALT | CEA_OTHER (n : nat).

(** Functions a handler pointer can point to: the default handler of error.c:15-50 and functions of
    the component.  A pointer is one of these or NULL. *)
Inductive fn := Default | User (n : nat).
Definition ptr := option fn.
(** The places a handler can be registered at: for the component, or for an interface. *)
Inductive place := Component | Interface (i : string).

(** The variables: [err] of error.c:53, and [.._fn] of helpers/error.c:20 for each interface *)
Record handlers := mk_handlers { h_err : ptr; h_fn : string -> ptr }.
(** error.c:53; static variables without an initial value are NULL *)
Definition initial : handlers := mk_handlers (Some Default) (fun _ => None).

(** What happens (not part of the code): a registration with the value it returned, an error being
    raised, a handler being called, and how ERR ended. *)
Inductive outcome := Continues | Acts | Aborts | Halts | GuardFails | Hangs | Undefined.
Inductive event := ERegister (p : place) (h old : ptr) | ERaise (p : place) (e : error)
  | ECall (f : fn) (e : error) | EOutcome (o : outcome).

(** camkes_register_error_handler, error.c:60-65, and .._register_error_handler, helpers/error.c:22-27 *)
Definition register (p : place) (h : ptr) (s : handlers) : ptr * handlers :=
  match p with
  | Component => (h_err s, mk_handlers h (h_fn s))
  | Interface i => (h_fn s i, mk_handlers (h_err s) (fun j => if String.eqb i j then h else h_fn s j))
  end.
Definition register_e (p : place) (h : ptr) (s : handlers) : handlers * list event :=
  (snd (register p h s), [ERegister p h (fst (register p h s))]).
Fixpoint registers (l : list (place * ptr)) (s : handlers) : handlers * list event :=
  match l with
  | [] => (s, [])
  | (p, h) :: l =>
      let (s1, e1) := register_e p h s in let (s2, e2) := registers l s1 in (s2, e1 ++ e2)
  end.

(** What the functions of the component do with an error: not return, or register handlers and answer *)
Definition component := nat -> error -> option (action * list (place * ptr)).
(** What a call gives *)
Inductive called := Answer (a : action) | NoAnswer | Bad.

(** A call through a pointer; default_error_handler is error.c:15-50 *)
Definition call (env : component) (f : ptr) (e : error) (s : handlers) : called * handlers * list event :=
  match f with
  | None => (Bad, s, [])
  | Some Default =>
      (match e_type e with
       | CE_BUFFER_LENGTH_EXCEEDED | CE_INVALID_METHOD_INDEX | CE_MALFORMED_RPC_PAYLOAD
       | CE_SYSCALL_FAILED | CE_ALLOCATION_FAILURE => Answer CEA_HALT
       | _ => Bad
       end, s, [ECall Default e])
  | Some (User n) =>
      match env n e with
      | None => (NoAnswer, s, [ECall (User n) e])
      | Some (a, regs) =>
          let (s', evs) := registers regs s in (Answer a, s', ECall (User n) e :: evs)
      end
  end.
(** camkes_error, error.c:55-58, and the function of helpers/error.c:29-35 *)
Definition handle (env : component) (p : place) (e : error) (s : handlers) : called * handlers * list event :=
  match p with
  | Component => call env (h_err s) e s
  | Interface i =>
      match h_fn s i with
      | None => call env (h_err s) e s
      | Some f => call env (Some f) e s
      end
  end.

(** The configurations of libsel4camkes/CMakeLists.txt:46-49 *)
Inductive mode := Configurable | Guard | Abort | Discard.

(** ERR and ERR_IF, error.h:219-283, at line [line] of [file].  [debug] is CONFIG_DEBUG_BUILD.  The
    statement for CEA_DISCARD leaves the function or the loop wherever ERR is used. *)
Definition err (env : component) (md : mode) (debug : bool) (file : string) (line : N) (p : place) (e : error)
    (s : handlers) : outcome * handlers * list event :=
  match md with
  | Configurable =>
      let e' := mk_error (e_type e) (e_instance e) (e_interface e) file line (e_description e) in
      let '(r, s', evs) := handle env p e' s in
      (match r with
       | Answer CEA_DISCARD => Acts
       | Answer CEA_IGNORE => Continues
       | Answer CEA_HALT => if debug then Halts else Aborts
       | Answer CEA_ABORT => Aborts
       | Answer _ => Undefined
       | NoAnswer => Hangs
       | Bad => Undefined
       end, s', ERaise p e' :: evs)
  | Guard => (GuardFails, s, [])
  | Abort => (Aborts, s, [])
  | Discard => (Acts, s, [])
  end.
Definition err_if (env : component) (md : mode) (debug : bool) (file : string) (line : N) (cond : bool) (p : place)
    (e : error) (s : handlers) : outcome * handlers * list event :=
  if cond then err env md debug file line p e s else (Continues, s, []).

(** What a component does: register a handler, run into a use of ERR_IF, or register a handler for
    the time of some other things and put the old one back. *)
Inductive op := Register (p : place) (h : ptr)
  | ErrIf (file : string) (line : N) (cond : bool) (p : place) (e : error)
  | During (p : place) (h : ptr) (body : list op).

(** It goes on as long as ERR does not stop it. *)
Definition goes_on (o : outcome) : bool := match o with Continues | Acts => true | _ => false end.
Fixpoint run_op (env : component) (md : mode) (debug : bool) (o : op) (s : handlers) : bool * handlers * list event :=
  match o with
  | Register p h => let (s', evs) := register_e p h s in (true, s', evs)
  | ErrIf file line cond p e =>
      let '(r, s', evs) := err_if env md debug file line cond p e s in
      (goes_on r, s', evs ++ if cond then [EOutcome r] else [])
  | During p h body =>
      let (old, s1) := register p h s in
      let fix runs (l : list op) (s : handlers) : bool * handlers * list event :=
        match l with
        | [] => (true, s, [])
        | o :: l =>
            let '(b, s1, e1) := run_op env md debug o s in
            if b then let '(b2, s2, e2) := runs l s1 in (b2, s2, e1 ++ e2) else (false, s1, e1)
        end in
      let '(b, s2, evs) := runs body s1 in
      if b then let (s3, e3) := register_e p old s2 in (true, s3, ERegister p h old :: evs ++ e3)
      else (false, s2, ERegister p h old :: evs)
  end.
Fixpoint run (env : component) (md : mode) (debug : bool) (l : list op) (s : handlers) : bool * handlers * list event :=
  match l with
  | [] => (true, s, [])
  | o :: l =>
      let '(b, s1, e1) := run_op env md debug o s in
      if b then let '(b2, s2, e2) := run env md debug l s1 in (b2, s2, e1 ++ e2) else (false, s1, e1)
  end.

(** ** The event loop of a server *)
(** A method reads a request, fills the send buffer and gives the length of the response; [None] is
    UINT_MAX, an error while marshalling (to.c:118-210).  Requests that cannot be unmarshalled leave
    the buffer alone and are [Dropped]. *)
Inductive served := Dropped | Filled (buffer : list N) (length : option nat).
Definition smethod := list N -> list N -> served.
(** type_dict of to.c:41-46: the badges of the from ends of a type, and its methods *)
Definition stype := (list N * list smethod)%type.
(** A request: the badge, the method index it contains, and the rest *)
Record request := mk_request { r_badge : N; r_index : nat; r_body : list N }.
(** What a request is answered with: nothing, the first bytes of the buffer, or UINT_MAX bytes *)
Inductive reply := NoReply | Reply (bytes : list N) | Overrun.
(** The variables of the loop that live on: the buffer, and [length] (to.c:83) *)
Record loop := mk_loop { l_buffer : list N; l_length : option nat }.

(** reply_recv, to.c:252-255 *)
Definition send (l : loop) : reply :=
  match l_length l with Some n => Reply (firstn n (l_buffer l)) | None => Overrun end.
(** How ERR ends for an unknown method or badge (to.c:212-225 and 233-245): the statement goes to
    begin_recv; otherwise control runs into reply_recv *)
Definition after_err (o : outcome) (l : loop) : option reply * loop :=
  match o with
  | Acts => (Some NoReply, l)
  | Continues => (Some (send l), l)
  | _ => (None, l)
  end.
(** The case of one type, to.c:102-226.  With at most one method there is no index in the message. *)
Definition dispatch (answer : request -> outcome) (ms : list smethod) (r : request) (l : loop) : option reply * loop :=
  let index := if Nat.leb (List.length ms) 1 then 0 else r_index r in
  match nth_error ms index with
  | Some f =>
      match f (r_body r) (l_buffer l) with
      | Dropped => (Some NoReply, l)
      | Filled b n =>
          let l' := mk_loop b n in
          match n with
          | None => (Some NoReply, l')
          | Some _ => (Some (send l'), l')
          end
      end
  | None => after_err (answer r) l
  end.
(** One turn, to.c:91-247: the badge is looked at only if there are several types *)
Definition turn (answer : request -> outcome) (ts : list stype) (r : request) (l : loop) : option reply * loop :=
  match ts with
  | [] => (Some (send l), l)
  | [t] => dispatch answer (snd t) r l
  | _ =>
      match find (fun t => existsb (N.eqb (r_badge r)) (fst t)) ts with
      | Some t => dispatch answer (snd t) r l
      | None => after_err (answer r) l
      end
  end.
(** The replies to a list of requests, until the loop stops *)
Fixpoint turns (answer : request -> outcome) (ts : list stype) (rs : list request) (l : loop) : list reply :=
  match rs with
  | [] => []
  | r :: rs =>
      match turn answer ts r l with
      | (Some x, l') => x :: turns answer ts rs l'
      | (None, _) => []
      end
  end.

(** The braces of the loop body in the order in which they are written, to.c:91-247: the code of one
    type, and of all.  A method's code is left out between its own braces (it is balanced for itself), and so
    are those of the macro ERR. *)
Inductive brace := Open | Close.
Definition type_braces (many : bool) (t : stype) : list brace :=
  (if many then map (fun _ => Open) (fst t) else [])
  ++ [Open] ++ flat_map (fun _ => [Open; Close]) (snd t) ++ [Open; Close] ++ [Close]
  ++ (if many then [Close] else []).
Definition loop_braces (ts : list stype) : list brace :=
  let many := Nat.ltb 1 (List.length ts) in
  [Open] ++ (if many then [Open] else []) ++ flat_map (type_braces many) ts ++ (if many then [Close] else []) ++ [Close].
