(** Heap memory in the two halves of a remote procedure call: what the glue
    code allocates and frees, in the functions generated from
    camkes/templates/helpers/marshal.c, in the event loop generated from
    camkes/templates/rpc-connector-common-to.c and in the client stub generated
    from camkes/templates/rpc-connector-common-from.c.

    The parsing of the message is that of [Marshal_Model]; here the allocations
    are made explicit.  Addresses are natural numbers, never used twice.  A
    free of something that is not a live block, and a read through a pointer to
    something that is not a live block of the right kind, is [None] (undefined
    behaviour).  [Err IndexError] is, as in [Marshal_Model], an access outside
    the message or outside the array of string pointers.
    Error handlers are taken to answer CEA_DISCARD, as in [Marshal_Model].
    Not modelled: the loop counters being [int]. *)
From Coq Require Import List NArith Bool Arith.
From Verif Require Import Prelude Marshal_Model.
Import ListNotations.
Open Scope N_scope.
Open Scope list_scope.

(** The value of a C pointer: NULL, the start of a block, or never
    assigned. *)
Inductive ptr := Null | Blk (b : nat) | Junk.

(** A block from malloc or strdup: bytes, or an array of pointers of which the
    first ones have been assigned. *)
Inductive blk := BBytes (bs : list N) | BPtrs (ps : list ptr).

Record mem := Mem { m_next : nat; m_live : nat -> option blk }.

Definition upd (f : nat -> option blk) (b : nat) (v : option blk)
  : nat -> option blk :=
  fun x => if Nat.eqb x b then v else f x.

(** malloc and strdup.  [mal k n] tells whether the [k]-th allocation, of [n]
    bytes, succeeds. *)
Definition malloc (mal : nat -> N -> bool) (n : N) (v : blk) (m : mem)
  : ptr * mem :=
  if mal (m_next m) n
  then (Blk (m_next m),
        Mem (S (m_next m)) (upd (m_live m) (m_next m) (Some v)))
  else (Null, Mem (S (m_next m)) (m_live m)).

(** free. *)
Definition hfree (p : ptr) (m : mem) : option mem :=
  match p with
  | Null => Some m
  | Junk => None
  | Blk b =>
      match m_live m b with
      | Some _ => Some (Mem (m_next m) (upd (m_live m) b None))
      | None => None
      end
  end.

(** A C variable holding a parameter: the value of a scalar, the element count
    of an array (variable NAME_sz), the pointer of a string or array. *)
Record cell := Cell { c_val : list N; c_sz : option N; c_ptr : ptr }.

(** [for (j = j0; j < j0 + k; j++) free(( *ptr)[j]);] for the array at [p]. *)
Fixpoint free_elems (p : ptr) (j k : nat) (m : mem) : option mem :=
  match k with
  | O => Some m
  | S k' =>
      match p with
      | Blk b =>
          match m_live m b with
          | Some (BPtrs ps) =>
              match nth_error ps j with
              | Some q =>
                  match hfree q m with
                  | Some m' => free_elems p (S j) k' m'
                  | None => None
                  end
              | None => None
              end
          | _ => None
          end
      | _ => None
      end
  end.

(** [( *ptr)[i] = q;] for the array at [b], the elements before it being
    assigned. *)
Definition store (b : nat) (q : ptr) (m : mem) : mem :=
  match m_live m b with
  | Some (BPtrs ps) => Mem (m_next m) (upd (m_live m) b (Some (BPtrs (ps ++ [q]))))
  | _ => m
  end.

(** The loop of UNMARSHAL_STRING_ARRAY_PARAM (marshal_macros.h:150-170) with
    its clean-up actions; the array of pointers is at [b]. *)
Fixpoint u_strings (fuel : nat) (W : N) (mal : nat -> N -> bool)
    (buf : list N) (size cap i count off : N) (b : nat) (m : mem)
  : option (res N * mem) :=
  let give_up e m :=
    match free_elems (Blk b) 0 (N.to_nat i) m with
    | Some m1 =>
        match hfree (Blk b) m1 with
        | Some m2 => Some (Err e, m2)
        | None => None
        end
    | None => None
    end in
  if i <? count then
    match fuel with
    | O => Some (Err OutOfFuel, m)
    | S fuel' =>
        match strnlen (at_off buf off) (u32 (size + umod - off)) with
        | Err e => Some (Err e, m)
        | Ok n =>
            if recv_over size off (usz W (n + 1)) then give_up ValueError m
            else
              match cstr (at_off buf off) with
              | Err e => Some (Err e, m)
              | Ok s =>
                  if cap <? (i + 1) * W then Some (Err IndexError, m)
                  else
                    match malloc mal (nlen s + 1) (BBytes s) m with
                    | (Blk q, m1) =>
                        u_strings fuel' W mal buf size cap (i + 1) count
                          (u32 (off + (n + 1))) b (store b (Blk q) m1)
                    | (_, m1) => give_up OtherException m1
                    end
              end
        end
    end
  else Some (Ok off, m).

(** The four UNMARSHAL macros (marshal_macros.h:120-191) on the variable [c];
    the result is the new offset or the error, the variable and the memory. *)
Definition u_param (W : N) (mal : nat -> N -> bool) (buf : list N)
    (size off : N) (t : ptype) (c : cell) (m : mem)
  : option (res N * cell * mem) :=
  match t with
  | PScalar k =>
      (* marshal_macros.h:185-191 *)
      match unmarshal_scalar buf size off k with
      | Err e => Some (Err e, c, m)
      | Ok (bs, off') => Some (Ok off', Cell bs (c_sz c) (c_ptr c), m)
      end
  | PString =>
      (* marshal_macros.h:174-183 *)
      match strnlen (at_off buf off) (u32 (size + umod - off)) with
      | Err e => Some (Err e, c, m)
      | Ok n =>
          if recv_over size off (usz W (n + 1)) then Some (Err ValueError, c, m)
          else
            match cstr (at_off buf off) with
            | Err e => Some (Err e, c, m)
            | Ok s =>
                match malloc mal (nlen s + 1) (BBytes s) m with
                | (Blk q, m1) =>
                    Some (Ok (u32 (off + n + 1)),
                          Cell (c_val c) (c_sz c) (Blk q), m1)
                | (_, m1) =>
                    Some (Err OtherException,
                          Cell (c_val c) (c_sz c) Null, m1)
                end
            end
      end
  | PArray k =>
      (* marshal_macros.h:120-139 *)
      if recv_over size off W then Some (Err ValueError, c, m)
      else
        match mread buf off W with
        | Err e => Some (Err e, c, m)
        | Ok bs =>
            let count := unle bs in
            let off1 := u32 (off + W) in
            let bytes := usz W (k * count) in
            match malloc mal bytes (BBytes []) m with
            | (Blk q, m1) =>
                let c1 := Cell (c_val c) (Some count) (Blk q) in
                if recv_over size off1 bytes then
                  match hfree (Blk q) m1 with
                  | Some m2 => Some (Err ValueError, c1, m2)
                  | None => None
                  end
                else
                  match mread buf off1 bytes with
                  | Err e => Some (Err e, c1, m1)
                  | Ok block =>
                      Some (Ok (u32 (off1 + bytes)), c1,
                            Mem (m_next m1)
                              (upd (m_live m1) q (Some (BBytes block))))
                  end
            | (_, m1) =>
                Some (Err OtherException,
                      Cell (c_val c) (Some count) Null, m1)
            end
        end
  | PStrArray =>
      (* marshal_macros.h:141-172 *)
      if recv_over size off W then Some (Err ValueError, c, m)
      else
        match mread buf off W with
        | Err e => Some (Err e, c, m)
        | Ok bs =>
            let count := unle bs in
            let bytes := usz W (W * count) in
            match malloc mal bytes (BPtrs []) m with
            | (Blk q, m1) =>
                match u_strings (S (List.length buf)) W mal buf size bytes 0
                        count (u32 (off + W)) q m1 with
                | Some (r, m2) =>
                    Some (r, Cell (c_val c) (Some count) (Blk q), m2)
                | None => None
                end
            | (_, m1) =>
                Some (Err OtherException,
                      Cell (c_val c) (Some count) Null, m1)
            end
        end
  end.

Inductive dir := DIn | DRefin | DOut | DInout.

(** A parameter of a method together with its variable. *)
Record slot := Slot { s_dir : dir; s_type : ptype; s_cell : cell }.

(** The filters of rpc-connector-common-to.c:61-64, 142, 180 and
    rpc-connector-common-from.c:41-45. *)
Definition is_input (s : slot) : bool :=
  match s_dir s with DOut => false | _ => true end.
Definition is_output (s : slot) : bool :=
  match s_dir s with DOut | DInout => true | _ => false end.

(** Freeing one parameter (helpers/marshal.c:226-240, 266-275, 371-380;
    rpc-connector-common-to.c:187-199). *)
Definition free_param (t : ptype) (c : cell) (m : mem) : option mem :=
  match t with
  | PScalar _ => Some m
  | PString | PArray _ => hfree (c_ptr c) m
  | PStrArray =>
      match c_sz c with
      | None => None
      | Some n =>
          match free_elems (c_ptr c) 0 (N.to_nat n) m with
          | Some m1 => hfree (c_ptr c) m1
          | None => None
          end
      end
  end.
Fixpoint free_slots (ss : list slot) (m : mem) : option mem :=
  match ss with
  | [] => Some m
  | s :: ss' =>
      match free_param (s_type s) (s_cell s) m with
      | Some m1 => free_slots ss' m1
      | None => None
      end
  end.

(** The parameters chosen by [pick], in order (helpers/marshal.c:221-253,
    344-360).  [old] tells which of them have their old value freed first.  The
    result holds the number of parameters that were unmarshalled. *)
Fixpoint u_loop (pick old : slot -> bool) (W : N) (mal : nat -> N -> bool)
    (buf : list N) (size off : N) (ss : list slot) (m : mem)
  : option (res N * list slot * nat * mem) :=
  match ss with
  | [] => Some (Ok off, [], O, m)
  | s :: ss' =>
      if pick s then
        match (if old s then free_param (s_type s) (s_cell s) m
               else Some m) with
        | None => None
        | Some m0 =>
            match u_param W mal buf size off (s_type s) (s_cell s) m0 with
            | None => None
            | Some (Err e, c, m1) =>
                Some (Err e, Slot (s_dir s) (s_type s) c :: ss', O, m1)
            | Some (Ok off', c, m1) =>
                match u_loop pick old W mal buf size off' ss' m1 with
                | None => None
                | Some (r, ss1, k, m2) =>
                    Some (r, Slot (s_dir s) (s_type s) c :: ss1, S k, m2)
                end
            end
        end
      else
        match u_loop pick old W mal buf size off ss' m with
        | None => None
        | Some (r, ss1, k, m2) => Some (r, s :: ss1, k, m2)
        end
  end.

(** The code at label cleanup_k, which falls through to the labels below: the
    first [k] parameters are freed, the last one first (helpers/marshal.c:
    264-282, 369-384). *)
Definition cleanup (pick : slot -> bool) (k : nat) (ss : list slot) (m : mem)
  : option mem :=
  free_slots (rev (firstn k (filter pick ss))) m.

(** The end of the message (marshal_macros.h:40-54): an offset that does not
    account for the message is an error at label cleanup_LEN. *)
Definition u_end (W : N) (tr : bool) (size : N) (r : res N) : res N :=
  match r with
  | Err e => Err e
  | Ok off =>
      if negb tr && negb (round_up W off =? size) then Err ValueError
      else Ok off
  end.

(** make_unmarshal_input_symbols (helpers/marshal.c:323-386). *)
Definition u_inputs (W : N) (mal : nat -> N -> bool) (tr : bool)
    (methods_len : N) (buf : list N) (ss : list slot) (m : mem)
  : option (res N * list slot * mem) :=
  let size := nlen buf in
  match (if 1 <? methods_len then type_to_fit_integer methods_len
         else Ok 0) with
  | Err e => Some (Err e, ss, m)
  | Ok off =>
      match u_loop is_input (fun _ => false) W mal buf size off ss m with
      | None => None
      | Some (r, ss1, k, m1) =>
          match u_end W tr size r with
          | Ok o => Some (Ok o, ss1, m1)
          | Err e =>
              match cleanup is_input k ss1 m1 with
              | Some m2 => Some (Err e, ss1, m2)
              | None => None
              end
          end
      end
  end.

(** make_unmarshal_output_symbols (helpers/marshal.c:190-283).  A return value
    that cannot be unmarshalled leaves at once; the code at cleanup_0 frees a
    returned string. *)
Definition frees_old (s : slot) : bool :=
  match s_dir s with DInout => true | _ => false end.
Definition free_ret (ret : option ptype) (rc : cell) (m : mem) : option mem :=
  match ret with
  | Some PString => hfree (c_ptr rc) m
  | _ => Some m
  end.
Definition u_outputs (W : N) (mal : nat -> N -> bool) (tr : bool)
    (ret : option ptype) (buf : list N) (rc : cell) (ss : list slot) (m : mem)
  : option (res N * cell * list slot * mem) :=
  let size := nlen buf in
  match (match ret with
         | None => Some (Ok 0, rc, m)
         | Some t => u_param W mal buf size 0 t rc m
         end) with
  | None => None
  | Some (Err e, rc1, m1) => Some (Err e, rc1, ss, m1)
  | Some (Ok off, rc1, m1) =>
      match u_loop is_output frees_old W mal buf size off ss m1 with
      | None => None
      | Some (r, ss1, k, m2) =>
          match u_end W tr size r with
          | Ok o => Some (Ok o, rc1, ss1, m2)
          | Err e =>
              match cleanup is_output k ss1 m2 with
              | None => None
              | Some m3 =>
                  match free_ret ret rc1 m3 with
                  | Some m4 => Some (Err e, rc1, ss1, m4)
                  | None => None
                  end
              end
          end
      end
  end.

(** What marshalling reads of a variable (marshal_macros.h:69-118). *)
Fixpoint read_strings (m : mem) (ps : list ptr) : option (list (list N)) :=
  match ps with
  | [] => Some []
  | Blk b :: ps' =>
      match m_live m b, read_strings m ps' with
      | Some (BBytes s), Some ss => Some (s :: ss)
      | _, _ => None
      end
  | _ :: _ => None
  end.
Definition read_param (m : mem) (t : ptype) (c : cell) : option rval :=
  match t with
  | PScalar _ => Some (RScalar (c_val c))
  | PString =>
      match c_ptr c with
      | Blk b =>
          match m_live m b with
          | Some (BBytes s) => Some (RString s)
          | _ => None
          end
      | _ => None
      end
  | PArray _ =>
      match c_sz c, c_ptr c with
      | Some n, Blk b =>
          match m_live m b with
          | Some (BBytes bs) => Some (RArray n bs)
          | _ => None
          end
      | Some n, Null => if n =? 0 then Some (RArray 0 []) else None
      | _, _ => None
      end
  | PStrArray =>
      match c_sz c, c_ptr c with
      | Some n, Blk b =>
          match m_live m b with
          | Some (BPtrs ps) =>
              if n <=? nlen ps then
                match read_strings m (firstn (N.to_nat n) ps) with
                | Some ss => Some (RStrArray n ss)
                | None => None
                end
              else None
          | _ => None
          end
      | Some n, Null => if n =? 0 then Some (RStrArray 0 []) else None
      | _, _ => None
      end
  end.
Fixpoint read_slots (m : mem) (ss : list slot) : option (list rval) :=
  match ss with
  | [] => Some []
  | s :: ss' =>
      match read_param m (s_type s) (s_cell s), read_slots m ss' with
      | Some v, Some vs => Some (v :: vs)
      | _, _ => None
      end
  end.

(** The variables of a request before it is unmarshalled
    (rpc-connector-common-to.c:119-139): the pointers of strings and arrays are
    NULL, the rest is not initialised. *)
Definition fresh_cell (t : ptype) : cell :=
  match t with
  | PScalar _ => Cell [] None Junk
  | _ => Cell [] None Null
  end.
Definition fresh_slot (p : dir * ptype) : slot :=
  Slot (fst p) (snd p) (fresh_cell (snd p)).

(** The call of the implementation (rpc-connector-common-to.c:149-175).  [in]
    parameters are passed by value, so what the implementation does to its copy
    of the variable does not come back; the others are passed by address. *)
Fixpoint pass_back (before after : list slot) : list slot :=
  match before, after with
  | s :: before', s' :: after' =>
      Slot (s_dir s) (s_type s)
        (match s_dir s with DIn => s_cell s | _ => s_cell s' end)
      :: pass_back before' after'
  | _, _ => before
  end.
(** The implementation: from the variables and the memory to the result, the
    variables and the memory. *)
Definition implementation : Type :=
  list slot -> mem -> cell * list slot * mem.

(** How the handling of a request ends: an error while unmarshalling, a
    response that does not fit, or a response. *)
Inductive handled := Refused (e : exn) | Unsent | Answered.

(** The case of one method in the event loop
    (rpc-connector-common-to.c:118-210).  [fits] tells whether the response
    fits into the send buffer. *)
Definition serve (W : N) (mal : nat -> N -> bool) (tr : bool)
    (methods_len : N) (ret : option ptype) (ps : list (dir * ptype))
    (impl : implementation) (fits : list rval -> bool) (buf : list N)
    (m : mem) : option (handled * mem) :=
  match u_inputs W mal tr methods_len buf (map fresh_slot ps) m with
  | None => None
  | Some (Err e, _, m1) => Some (Refused e, m1)
  | Some (Ok _, ss, m1) =>
      match impl ss m1 with
      | (rc, after, m2) =>
          let ss2 := pass_back ss after in
          match (match ret with
                 | None => Some []
                 | Some t =>
                     match read_param m2 t rc with
                     | Some v => Some [v]
                     | None => None
                     end
                 end),
                read_slots m2 (filter is_output ss2) with
          | Some rv, Some vs =>
              match free_ret ret rc m2 with
              | None => None
              | Some m3 =>
                  match free_slots ss2 m3 with
                  | None => None
                  | Some m4 =>
                      Some (if fits (rv ++ vs) then Answered else Unsent, m4)
                  end
              end
          | _, _ => None
          end
      end
  end.

(** How a call ends for the caller: the request does not fit, the reply cannot
    be unmarshalled, or it returns. *)
Inductive called := NotSent | BadReply (e : exn) | Returned.

(** The client stub (rpc-connector-common-from.c:47-99).  [server] maps the
    values of the request to the reply, [None] for a request that does not fit
    into the send buffer.  The variable of the result is zeroed first. *)
Definition call (W : N) (mal : nat -> N -> bool) (tr : bool)
    (ret : option ptype) (server : list rval -> option (list N))
    (ss : list slot) (m : mem)
  : option (called * cell * list slot * mem) :=
  let rc := Cell [] None Null in
  match read_slots m (filter is_input ss) with
  | None => None
  | Some vs =>
      match server vs with
      | None => Some (NotSent, rc, ss, m)
      | Some reply =>
          match u_outputs W mal tr ret reply rc ss m with
          | None => None
          | Some (Err e, _, ss1, m1) => Some (BadReply e, rc, ss1, m1)
          | Some (Ok _, rc1, ss1, m1) => Some (Returned, rc1, ss1, m1)
          end
      end
  end.
