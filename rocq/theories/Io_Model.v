(** Device memory for drivers and the initialisation of drivers
    (libsel4camkes/src/io.c).

    Machine words are integers between 0 and [2^w]. *)
From Coq Require Import String List Bool ZArith.
Import ListNotations.
Open Scope Z_scope.

(** ** Mapping of device memory *)
(** dataport_frame_t (dataport.h:35-40) without the capability. *)
Record frame := mk_frame { f_paddr : Z; f_vaddr : Z; f_size : Z }.
Definition wrap (w x : Z) : Z := x mod 2 ^ w.

(** The loop of camkes_io_map (io.c:145-175); 0 is NULL. *)
Fixpoint search (w paddr size : Z) (counting : bool) (base counter : Z) (frames : list frame) : Z :=
  match frames with
  | [] => 0
  | f :: frames =>
      let '(counting, base, counter) :=
        if counting then
          if paddr =? wrap w (f_paddr f - counter) then (true, base, wrap w (counter + f_size f))
          else (false, 0, 0)
        else if (f_paddr f <=? paddr) && (paddr <? wrap w (f_paddr f + f_size f)) then
          let base := wrap w (f_vaddr f + (paddr - f_paddr f)) in
          (true, base, wrap w (counter + (f_vaddr f + f_size f - base)))
        else (false, base, counter) in
      if size <=? counter then base else search w paddr size counting base counter frames
  end.
(** io.c:136-179 [camkes_io_map]; PAGE_SIZE_4K is 4096 *)
Definition camkes_io_map (w : Z) (frames : list frame) (paddr size : Z) : Z :=
  if negb (paddr mod 4096 =? 0) && negb (size mod 4096 =? 0) then 0
  else search w paddr size false 0 0 frames.

(** ** Tracking of mapped pointers, in debug builds *)
(** io.c:79-91 [ll_remove] *)
Fixpoint ll_remove (p : Z) (l : list Z) : option (list Z) :=
  match l with
  | [] => None
  | q :: l => if q =? p then Some l else option_map (cons q) (ll_remove p l)
  end.
(** The calls of a driver.  [MapOp] has the result of camkes_io_map and tells whether the list
    node could be allocated (io.c:103-121 [io_map], 47-58 [ll_prepend]); the answer of [UnmapOp] is
    whether an error is logged (io.c:182-192 [io_unmap]). *)
Inductive op := MapOp (p : Z) (memory : bool) | UnmapOp (p : Z).
Definition track (o : op) (l : list Z) : bool * list Z :=
  match o with
  | MapOp p memory => (false, if negb (p =? 0) && memory then p :: l else l)
  | UnmapOp p => match ll_remove p l with Some l => (false, l) | None => (true, l) end
  end.
Fixpoint track_all (os : list op) (l : list Z) : list bool * list Z :=
  match os with
  | [] => ([], l)
  | o :: os => let '(b, l) := track o l in let '(bs, l) := track_all os l in (b :: bs, l)
  end.

(** ** Driver initialisation *)
(** What an initialisation function answers: PS_DRIVER_INIT_SUCCESS, PS_DRIVER_INIT_DEFER, a
    negative number, or some other number. *)
Inductive answer := Success | Defer | Failed | Unexpected.
(** fdt_node_check_compatible *)
Inductive compat := Match | NoMatch | Malformed.
(** A device node: does it have a compatible property, and which strings is it compatible with? *)
Record node := mk_node { n_has_compatible : bool; n_check : string -> compat }.
(** A driver module: its compatible strings and its initialisation function, which is a number. *)
Record driver := mk_driver { d_compatible : list string; d_init : nat }.
(** One call of an initialisation function: for which path of the list, which function, which path. *)
Record token := mk_token { t_index : nat; t_init : nat; t_path : string }.
Record call := mk_call { c_token : token; c_answer : answer }.

Section Init.
  (** The state of the component, and what an initialisation function does to it.  Simplified:
      memory for list nodes is always available. *)
  Context {W : Type} (init : nat -> string -> W -> answer * W).

  (** io.c:335-379 [find_compatible_driver_module]: the first module and string that match *)
  Fixpoint find_string (n : node) (strings : list string) : compat :=
    match strings with
    | [] => NoMatch
    | s :: strings => match n_check n s with NoMatch => find_string n strings | c => c end
    end.
  Fixpoint find_module (n : node) (ds : list driver) : option nat :=
    match ds with
    | [] => None
    | d :: ds =>
        match find_string n (d_compatible d) with
        | Match => Some (d_init d)
        | Malformed => None
        | NoMatch => find_module n ds
        end
    end.

  (** io.c:442-483 [camkes_call_hardware_init_modules], the loop over paths; [tree] is
      fdt_path_offset.  The result has the calls made, the deferred ones to be appended to the list. *)
  Fixpoint first_pass (tree : string -> option node) (ds : list driver) (i : nat) (paths : list string) (w : W)
    : list call * list token * W :=
    match paths with
    | [] => ([], [], w)
    | p :: paths =>
        match (match tree p with
               | Some n => if n_has_compatible n then find_module n ds else None
               | None => None
               end) with
        | None => first_pass tree ds (S i) paths w
        | Some f =>
            let t := mk_token i f p in
            let '(a, w) := init f p w in
            let '(cs, ts, w) := first_pass tree ds (S i) paths w in
            (mk_call t a :: cs, match a with Defer => t :: ts | _ => ts end, w)
        end
    end.

  (** io.c:394-425: one round over the working set *)
  Fixpoint round (ts : list token) (w : W) : list call * list token * W :=
    match ts with
    | [] => ([], [], w)
    | t :: ts =>
        let '(a, w) := init (t_init t) (t_path t) w in
        let '(cs, ds, w) := round ts w in
        (mk_call t a :: cs, match a with Defer => t :: ds | _ => ds end, w)
    end.
  (** io.c:381-434 [handle_defered_modules]: rounds until nothing is deferred; None when that takes
      more rounds than there is fuel *)
  Fixpoint rounds (fuel : nat) (ts : list token) (w : W) : option (list call * W) :=
    match ts with
    | [] => Some ([], w)
    | _ => match fuel with
           | O => None
           | S fuel =>
               let '(cs, ds, w) := round ts w in
               match rounds fuel ds w with
               | Some (cs', w) => Some (cs ++ cs', w)
               | None => None
               end
           end
    end.

  (** [driver_defer_list] is never emptied: after a call in which some driver deferred, it points to
      memory that has been freed.  [stale] says so; the result tells whether freed memory is used,
      the calls made, and whether the list is stale afterwards. *)
  Inductive result := UseAfterFree | Finished (calls : list call) (stale : bool) (w : W) | Running.
  Definition call_hardware_init_modules (fuel : nat) (tree : string -> option node) (ds : list driver)
      (paths : list string) (stale : bool) (w : W) : result :=
    match paths with
    | [] => Finished [] stale w
    | _ =>
        let '(cs, ts, w) := first_pass tree ds 0 paths w in
        if stale then UseAfterFree
        else match rounds fuel ts w with
             | Some (cs', w) => Finished (cs ++ cs') (match ts with [] => false | _ => true end) w
             | None => Running
             end
    end.
End Init.
Arguments UseAfterFree {W}.
Arguments Finished {W} calls stale w.
Arguments Running {W}.
