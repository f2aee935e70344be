(** The runner (/repo/camkes/runner/__main__.py): address spaces, and which entity goes to
    which output file. *)
From Coq Require Import List Bool Arith NArith ZArith String Ascii.
From Verif Require Import Prelude DecStr Context_Model.
Import ListNotations.
Open Scope string_scope.
Open Scope list_scope.

(** An instance of the flattened assembly: name, whether its component is hardware, its
    address space (objects.py:357-367). *)
Record inst := mk_inst { in_name : string; in_hardware : bool; in_space : string }.
(** A connection: name and the instances of its ends. *)
Record conn := mk_conn { cn_name : string; cn_to : list inst; cn_from : list inst }.
Record asm := mk_asm { as_insts : list inst; as_conns : list conn }.

(** RenderState (__main__.py:253): the objects, and per address space the CNode behind the
    capability space, the name and page directory of the address space, and the page
    directory. *)
Record rstate := mk_rstate {
  rs_objs : list kobj;
  rs_cspaces : dict string nat;
  rs_pds : dict string nat;
  rs_addr : dict string (string * nat)
}.

(** Allocation of a named object (see Context_Model.obj_alloc). *)
Definition new_obj (os : list kobj) (type name label : string) : list kobj * nat :=
  match find_obj os name 0 with
  | Some i => (os, i)
  | None => (os ++ [mk_kobj name type label], List.length os)
  end.

(** re.sub of every character that is not a letter or digit by an underscore (272). *)
Definition alnum (c : ascii) : bool :=
  let n := N_of_ascii c in
  ((48 <=? n) && (n <=? 57) || (65 <=? n) && (n <=? 90) || (97 <=? n) && (n <=? 122))%N.
Fixpoint sanitise (s : string) : string :=
  match s with
  | EmptyString => EmptyString
  | String c s => String (if alnum c then c else "_"%char) (sanitise s)
  end.

(** One pass of the loop over the instances (256-275).  [pd_type] is the name of the
    architecture's top-level paging object. *)
Definition setup_step (pd_type : string) (s : rstate) (i : inst) : rstate :=
  if in_hardware i then s else
  let key := in_space i in
  if memb key (dkeys (rs_cspaces s)) then s else
  let (os, cnode) := new_obj (rs_objs s) "seL4_CapTableObject" (key ++ "_cnode")%string key in
  let (os, pd) := new_obj os pd_type (key ++ "_group_bin_pd")%string key in
  mk_rstate os (dset (rs_cspaces s) key cnode) (dset (rs_pds s) key pd)
            (dset (rs_addr s) key (sanitise (key ++ "_group_bin")%string, pd)).
Definition setup (pd_type : string) (a : asm) : rstate :=
  fold_left (setup_step pd_type) (as_insts a) (mk_rstate [] [] [] []).

(** item.split('/') (278). *)
Fixpoint split_slash (s : string) : list string :=
  match s with
  | EmptyString => [EmptyString]
  | String c s =>
      match split_slash s with
      | [] => [EmptyString]
      | w :: ws => if Ascii.eqb c "/"%char then EmptyString :: w :: ws else String c w :: ws
      end
  end.

(** Python list indexing with an integer, negative from the end. *)
Definition py_index {A} (l : list A) (z : Z) : res A :=
  let z := if (z <? 0)%Z then (z + Z.of_nat (List.length l))%Z else z in
  if (z <? 0)%Z then Err IndexError
  else match nth_error l (Z.to_nat z) with Some a => Ok a | None => Err IndexError end.

(** The entity an item names. *)
Inductive entity :=
| EInst (i : inst)
| EEnd (c : conn) (to : bool) (i : inst)
| EAssembly.

(** Resolution of an item (278-296): the entity and its address space.  [pyint] is Python's
    int(); die() is an OtherException. *)
Definition resolve (pyint : string -> res Z) (a : asm) (item : string) : res (entity * option string) :=
  let key := split_slash item in
  match key with
  | k0 :: rest =>
      if eqb k0 "component" then
        match rest with
        | k1 :: _ =>
            match find (fun x => eqb (in_name x) k1) (as_insts a) with
            | Some i => Ok (EInst i, Some (in_space i))
            | None => Err IndexError
            end
        | [] => Err IndexError
        end
      else if eqb k0 "connector" then
        match rest with
        | k1 :: rest =>
            match find (fun c => eqb (cn_name c) k1) (as_conns a) with
            | None => Err IndexError
            | Some c =>
                match rest with
                | [] => Err IndexError
                | k2 :: rest =>
                    if eqb k2 "to" then
                      match rest with
                      | k3 :: _ => z <- pyint k3 ;; i <- py_index (cn_to c) z ;; Ok (EEnd c true i, Some (in_space i))
                      | [] => Err IndexError
                      end
                    else if eqb k2 "from" then
                      match rest with
                      | k3 :: _ => z <- pyint k3 ;; i <- py_index (cn_from c) z ;; Ok (EEnd c false i, Some (in_space i))
                      | [] => Err IndexError
                      end
                    else Err OtherException
                end
            end
        | [] => Err IndexError
        end
      else if eqb k0 "assembly" then Ok (EAssembly, None)
      else Err OtherException
  | [] => Err IndexError
  end.

(** One call of the renderer: the output file, the template, the entity, and the capability
    space, address space and page directory it is given (new_context, Context.py:55-57;
    my_pd, __main__.py:300). *)
Record call := mk_call {
  ca_out : string; ca_template : string; ca_entity : entity;
  ca_cspace : option nat; ca_addr : option (string * nat); ca_pd : option nat
}.
Definition lookup {V} (d : dict string V) (k : string) : res V :=
  match dget d k with Some v => Ok v | None => Err KeyError end.

(** The body of the rendering loop (277-303), up to the template itself; an empty address
    space counts as none.  Without a render state an item with an address space fails on
    [render_state.pds] (OtherException, an AttributeError). *)
Definition render_item (pyint : string -> res Z) (a : asm) (rs : option rstate)
  (item out template : string) : res call :=
  '(e, key) <- resolve pyint a item ;;
  match key with
  | None | Some EmptyString => Ok (mk_call out template e None None None)
  | Some k =>
      match rs with
      | None => Err OtherException
      | Some rs =>
          pd <- lookup (rs_pds rs) k ;;
          cs <- lookup (rs_cspaces rs) k ;;
          ad <- lookup (rs_addr rs) k ;;
          Ok (mk_call out template e (Some cs) (Some ad) (Some pd))
      end
  end.

(** zip of three lists (277). *)
Fixpoint zip3 {A B C} (l : list A) (m : list B) (n : list C) : list (A * B * C) :=
  match l, m, n with
  | a :: l, b :: m, c :: n => (a, b, c) :: zip3 l m n
  | _, _, _ => []
  end.

(** The two checks on the arguments (193-202) and the loop.  [a != b != c] is
    [a != b and b != c].  The duplicate check compares open file objects, which are all
    distinct, so it never fires. *)
Definition main (pyint : string -> res Z) (a : asm) (rs : option rstate)
  (outs items templates : list string) : res (list call) :=
  if negb (List.length outs =? List.length items)%nat && negb (List.length items =? List.length templates)%nat
  then Err OtherException
  else mapM (fun x => match x with (item, out, template) => render_item pyint a rs item out template end)
            (zip3 items outs templates).
