(** Model of the lifting of parse trees to AST objects (camkes/parser/stage3.py).

    Source locations are not modelled (see Location_Model).  Numeric expressions are leaves
    of the tree: their lifting is Numeric_Model.  The [debug] flag is off: every exception of
    a lifter but AssertionError becomes a ParseError (stage3.py:126-138).  The names
    generated for structs without a name (objects.py:589-592) are not modelled. *)
From Coq Require Import String Ascii List Bool NArith ZArith.
From Verif Require Import Prelude DecStr Numeric_Model.
Import ListNotations.
Open Scope string_scope.
Open Scope list_scope.

(** plyplus trees and tokens.  [Num] is a [precedence11] tree. *)
Inductive stree :=
| Tok (text : string)
| Num (e : node)
| Node (head : string) (children : list stree).

(** The classes that references name. *)
Inductive cls := CStruct | CComponent | CComposition | CConfiguration | CConnector
  | CInstance | CInterface | CProcedure.

(** What lifting yields: Python strings, plyplus tokens, numbers, lists, dictionaries, trees
    and the AST objects (camkes/ast/objects.py). *)
Inductive val :=
| VStr (s : string)
| VTok (s : string)
| VTree (t : stree)
| VNum (z : Z)
| VList (l : list val)
| VDict (l : list (val * val))
| VUnit (us : bool)
| VSlot (a b : Z) (unit : option bool)
| VRef (name : list string) (type : option cls)
| VAttrRef (reference : string) (lookup : option (list val))
| VLookup (keys : list val)
| VQuery (type : string) (args : list val) (lookup : option (list val))
| VInclude (source : string) (relative : bool)
| VParam (name direction type : string) (array : bool)
| VAttr (type : val) (name : string) (array : bool) (default : option val)
| VStruct (name : option string) (attributes : list val)
| VMethod (name : string) (return_type : option string) (parameters : list val)
| VProcedure (name : option string) (includes methods attributes : list val)
| VProvides (type : val) (name : string)
| VUses (type : val) (name : string) (optional : bool)
| VEmits (type name : string)
| VConsumes (type name : string) (optional : bool)
| VDataport (type name : string) (optional : bool)
| VMutex (name : string)
| VSemaphore (name : string)
| VBinSemaphore (name : string)
| VInstance (type : val) (name : string)
| VEnd (end_ : string) (instance : option val) (interface : val)
| VConnection (type : val) (name : string) (from_ends to_ends : list val)
| VGroup (name : option string) (instances : list val)
| VExport (source_instance source_interface destination : val)
| VComposition (name : option string) (instances connections groups exports : list val)
| VSetting (instance attribute : string) (value : val)
| VConfiguration (name : option string) (settings : list val)
| VSchedule (items : list val)
| VAssembly (name : option string) (composition configuration schedule : val)
| VComponent (name : option string) (includes : list val) (control hardware : bool)
    (provides uses emits consumes dataports attributes mutexes semaphores binary_semaphores : list val)
    (composition configuration : option val)
| VConnector (name : option string) (from_type to_type : string) (from_multiple to_multiple : bool)
    (from_threads to_threads : Z) (from_hardware to_hardware : bool) (attributes : list val).

Definition str (v : val) : option string :=
  match v with VStr s | VTok s => Some s | _ => None end.
Definition is_str (v : val) : bool := match str v with Some _ => true | None => false end.
(** The type assertions of ast_property (objects.py:84-119). *)
Definition need_str (v : val) : res string :=
  match str v with Some s => Ok s | None => Err AssertionError end.
Definition assert (b : bool) : res unit := if b then Ok tt else Err AssertionError.
(** Wrong number of arguments, missing attribute, failed unpacking: becomes a ParseError. *)
Definition fails {A} : res A := Err ParseError.

Section MapR.
Context {A B : Type} (f : A -> res B).
Fixpoint mapR (l : list A) : res (list B) :=
  match l with
  | [] => Ok []
  | a :: l => b <- f a ;; bs <- mapR l ;; Ok (b :: bs)
  end.
End MapR.

(** [s\[1:-1\]] *)
Definition inner (s : string) : string := substring 1 (String.length s - 2) s.
Definition quote : ascii := """"%char.
Definition quoted (s : string) : bool :=
  match String.get 0 s, String.get (String.length s - 1) s with
  | Some a, Some b => Ascii.eqb a quote && Ascii.eqb b quote
  | _, _ => false
  end.

(** stage3.py:141-147 [strip_quotes] *)
Definition strip_quotes (v : val) : res val :=
  match str v with
  | Some "" => fails                       (* IndexError *)
  | Some s => _ <- assert (quoted s) ;; Ok (VStr (inner s))
  | None => Ok v
  end.

(** stage3.py:150-152 *)
Definition lift_method_array_parameter (args : list val) : res val :=
  match args with [VParam n d t _] => Ok (VParam n d t true) | _ => fails end.

(** stage3.py:155-156 *)
Definition lift_attribute_array_parameter (args : list val) : res val :=
  match args with [VAttr t n _ _] => Ok (VAttr t n true None) | _ => fails end.

(** stage3.py:159-167 *)
Definition lift_assembly_decl (args : list val) : res val :=
  match args with
  | [id; VAssembly _ c f s] => id <- need_str id ;; Ok (VAssembly (Some id) c f s)
  | [VAssembly _ c f s] => Ok (VAssembly None c f s)
  | _ => fails
  end.

Definition is_composition (v : val) : bool := match v with VComposition _ _ _ _ _ => true | _ => false end.
Definition is_configuration (v : val) : bool := match v with VConfiguration _ _ => true | _ => false end.
Definition is_schedule (v : val) : bool := match v with VSchedule _ => true | _ => false end.

(** stage3.py:170-181; the defaults are from objects.py:172-183 *)
Definition lift_assembly_defn (args : list val) : res val :=
  let compositions := List.filter is_composition args in
  let configurations := List.filter is_configuration args in
  let schedules := List.filter is_schedule args in
  match compositions with
  | [composition] =>
      match configurations, schedules with
      | [], [] => Ok (VAssembly None composition (VConfiguration None []) (VSchedule []))
      | [f], [] => Ok (VAssembly None composition f (VSchedule []))
      | [], [s] => Ok (VAssembly None composition (VConfiguration None []) s)
      | [f], [s] => Ok (VAssembly None composition f s)
      | _, _ => Err AssertionError
      end
  | _ => Err AssertionError
  end.

Definition default_ok (v : val) : bool :=
  match v with VNum _ | VList _ | VDict _ | VStr _ | VTok _ => true | _ => false end.

(** stage3.py:184-189 *)
Definition lift_attribute (args : list val) : res val :=
  match args with
  | [VAttr t n a _] => Ok (VAttr t n a None)
  | [VAttr t n a _; d] => d <- strip_quotes d ;; _ <- assert (default_ok d) ;; Ok (VAttr t n a (Some d))
  | _ => fails
  end.

(** [args.pop()] *)
Fixpoint split_last (l : list val) : option (list val * val) :=
  match l with
  | [] => None
  | [v] => Some ([], v)
  | v :: l => match split_last l with Some (l, x) => Some (v :: l, x) | None => None end
  end.
Definition join_strings (sep : string) (l : list val) : res string :=
  ss <- mapR (fun v => match str v with Some s => Ok s | None => fails end) l ;; Ok (String.concat sep ss).

(** stage3.py:192-198 *)
Definition lift_attribute_reference (args : list val) : res val :=
  match split_last args with
  | Some (args, VLookup l) => s <- join_strings "." args ;; Ok (VAttrRef s (Some l))
  | _ => s <- join_strings "." args ;; Ok (VAttrRef s None)
  end.

(** stage3.py:201-204, 207-208, 545-546, 744-745 are in Numeric_Model. *)

(** stage3.py:211-212, 529-530, 533-534 and the others that ignore their children *)
Definition constant (s : string) (args : list val) : res val := Ok (VStr s).

Definition is_attribute (v : val) : bool := match v with VAttr _ _ _ _ => true | _ => false end.

(** stage3.py:215-216 *)
Definition lift_struct_decl (args : list val) : res val :=
  match args with
  | [id; VStruct _ attributes] => id <- need_str id ;; Ok (VStruct (Some id) attributes)
  | _ => fails
  end.

(** stage3.py:219-221 *)
Definition lift_struct_defn (args : list val) : res val :=
  _ <- assert (negb (Nat.eqb (List.length args) 0)) ;;
  _ <- assert (forallb is_attribute args) ;; Ok (VStruct None args).

(** stage3.py:224-228 *)
Definition lift_struct_ref (args : list val) : res val :=
  match args with
  | [VStruct n a] => Ok (VStruct n a)
  | [VRef n _] => Ok (VRef n (Some CStruct))
  | [_] => Err AssertionError
  | _ => fails
  end.

(** stage3.py:231-244 *)
Definition lift_component_decl (args : list val) : res val :=
  match args with
  | [c] => Ok c
  | [id; VComponent _ i c h p u e k d a m s b x f] =>
      id <- need_str id ;; Ok (VComponent (Some id) i c h p u e k d a m s b x f)
  | _ => fails
  end.

Definition is_include (v : val) : bool := match v with VInclude _ _ => true | _ => false end.
Definition is_provides (v : val) : bool := match v with VProvides _ _ => true | _ => false end.
Definition is_uses (v : val) : bool := match v with VUses _ _ _ => true | _ => false end.
Definition is_emits (v : val) : bool := match v with VEmits _ _ => true | _ => false end.
Definition is_consumes (v : val) : bool := match v with VConsumes _ _ _ => true | _ => false end.
Definition is_dataport (v : val) : bool := match v with VDataport _ _ _ => true | _ => false end.
Definition is_mutex (v : val) : bool := match v with VMutex _ => true | _ => false end.
Definition is_semaphore (v : val) : bool := match v with VSemaphore _ => true | _ => false end.
Definition is_binsemaphore (v : val) : bool := match v with VBinSemaphore _ => true | _ => false end.
Definition is_string (s : string) (v : val) : bool :=
  match str v with Some t => String.eqb s t | None => false end.
Definition at_most_one (l : list val) : res (option val) :=
  match l with [] => Ok None | [v] => Ok (Some v) | _ => Err AssertionError end.

(** stage3.py:247-267 *)
Definition lift_component_defn (args : list val) : res val :=
  composition <- at_most_one (List.filter is_composition args) ;;
  configuration <- at_most_one (List.filter is_configuration args) ;;
  Ok (VComponent None (List.filter is_include args)
        (existsb (is_string "control") args) (existsb (is_string "hardware") args)
        (List.filter is_provides args) (List.filter is_uses args) (List.filter is_emits args)
        (List.filter is_consumes args) (List.filter is_dataport args) (List.filter is_attribute args)
        (List.filter is_mutex args) (List.filter is_semaphore args) (List.filter is_binsemaphore args)
        composition configuration).

(** stage3.py:270-274 *)
Definition lift_component_ref (args : list val) : res val :=
  match args with
  | [VComponent n i c h p u e k d a m s b x f] => Ok (VComponent n i c h p u e k d a m s b x f)
  | [VRef n _] => Ok (VRef n (Some CComponent))
  | [_] => Err AssertionError
  | _ => fails
  end.

(** stage3.py:277-288 *)
Definition lift_composition_decl (args : list val) : res val :=
  match args with
  | [id; VComposition _ i c g e] => id <- need_str id ;; Ok (VComposition (Some id) i c g e)
  | [VComposition _ i c g e] => Ok (VComposition None i c g e)
  | _ => fails
  end.

Definition is_instance (v : val) : bool := match v with VInstance _ _ => true | _ => false end.
Definition is_connection (v : val) : bool := match v with VConnection _ _ _ _ => true | _ => false end.
Definition is_group (v : val) : bool := match v with VGroup _ _ => true | _ => false end.
Definition is_export (v : val) : bool := match v with VExport _ _ _ => true | _ => false end.

(** stage3.py:291-296 *)
Definition lift_composition_defn (args : list val) : res val :=
  Ok (VComposition None (List.filter is_instance args) (List.filter is_connection args)
        (List.filter is_group args) (List.filter is_export args)).

(** stage3.py:299-303 *)
Definition lift_composition_sing (args : list val) : res val :=
  match args with
  | [VComposition n i c g e] => Ok (VComposition n i c g e)
  | [VRef n _] => Ok (VRef n (Some CComposition))
  | [_] => Err AssertionError
  | _ => fails
  end.

(** stage3.py:306-311 *)
Definition lift_configuration_decl (args : list val) : res val :=
  match args with
  | [id; VConfiguration _ s] => id <- need_str id ;; Ok (VConfiguration (Some id) s)
  | [v] => Ok v
  | _ => fails
  end.

(** stage3.py:314-315 *)
Definition lift_configuration_defn (args : list val) : res val := Ok (VConfiguration None args).

(** stage3.py:318-322 *)
Definition lift_configuration_sing (args : list val) : res val :=
  match args with
  | [VConfiguration n s] => Ok (VConfiguration n s)
  | [VRef n _] => Ok (VRef n (Some CConfiguration))
  | [_] => Err AssertionError
  | _ => fails
  end.

(** stage3.py:325-327 *)
Definition lift_schedule_decl (args : list val) : res val :=
  _ <- assert (forallb (fun v => match v with VSlot _ _ _ => true | _ => false end) args) ;;
  Ok (VSchedule args).

(** stage3.py:330-338 *)
Definition lift_schedule_unit (args : list val) : res val :=
  match args with
  | [v] => if is_string "ticks" v then Ok (VUnit false)
           else if is_string "us" v then Ok (VUnit true) else fails
  | _ => Err AssertionError
  end.

(** stage3.py:341-347 *)
Definition lift_schedule_item (args : list val) : res val :=
  match args with
  | [VNum a; VNum b; VUnit u] => Ok (VSlot a b (Some u))
  | [VNum a; VNum b] => Ok (VSlot a b None)
  | _ => Err AssertionError
  end.

Definition end_is (s : string) (v : val) : bool :=
  match v with VEnd e _ _ => String.eqb e s | _ => false end.
Definition is_end (v : val) : bool := match v with VEnd _ _ _ => true | _ => false end.

(** stage3.py:350-352 *)
Definition lift_connection_defn (args : list val) : res val :=
  match args with
  | connector :: id :: ends =>
      if forallb is_end ends then
        id <- need_str id ;;
        Ok (VConnection connector id (List.filter (end_is "from") ends) (List.filter (end_is "to") ends))
      else fails
  | _ => fails
  end.

(** stage3.py:355-361; the values of [end] are from objects.py:977 *)
Definition lift_connection_end (args : list val) : res val :=
  match args with
  | [e; VRef name _] =>
      e <- need_str e ;; _ <- assert (String.eqb e "from" || String.eqb e "to") ;;
      Ok (VEnd e (if Nat.ltb 1 (List.length name) then Some (VRef (removelast name) (Some CInstance)) else None)
             (VRef name (Some CInterface)))
  | _ => fails
  end.

(** Connector.__init__ (objects.py:811-840) *)
Definition translation (s : string) : res string :=
  if String.eqb s "Event" || String.eqb s "Events" then Ok "Event"
  else if String.eqb s "Procedure" || String.eqb s "Procedures" then Ok "Procedure"
  else if String.eqb s "Dataport" || String.eqb s "Dataports" then Ok "Dataport"
  else Err AssertionError.
Definition is_plural (s : string) : bool :=
  String.eqb s "Events" || String.eqb s "Procedures" || String.eqb s "Dataports".
Definition make_connector (name : option string) (ft tt_ : string) (fn tn : Z) (fh th : bool) (attrs : list val) : res val :=
  f <- translation ft ;; t <- translation tt_ ;;
  Ok (VConnector name f t (is_plural ft) (is_plural tt_) fn tn fh th attrs).

(** stage3.py:364-380 *)
Definition lift_connector_decl (args : list val) : res val :=
  match args with
  | [c] => Ok c
  | [id; VConnector _ f t fm tm fn tn fh th a] =>
      id <- need_str id ;;
      make_connector (Some id) (if fm then f ++ "s" else f) (if tm then t ++ "s" else t) fn tn fh th a
  | _ => fails
  end.

(** stage3.py:392-402 [thread_count] *)
Definition thread_count (z : Z) : res Z := if (z <? 0)%Z then fails else Ok z.
(** [if args\[0\] == 'hardware'] (stage3.py:404-406, 418-420) *)
Definition pop_hardware (args : list val) : res (bool * list val) :=
  match args with
  | [] => fails
  | v :: rest => if is_string "hardware" v then Ok (true, rest) else Ok (false, args)
  end.
Definition pop_type (args : list val) : res (string * list val) :=
  match args with
  | [] => fails
  | v :: rest => s <- need_str v ;; Ok (s, rest)
  end.
Definition pop_threads (args : list val) : res (Z * list val) :=
  match args with
  | VNum z :: rest => n <- thread_count z ;; Ok (n, rest)
  | _ => Ok (1%Z, args)
  end.

(** stage3.py:383-436 *)
Definition lift_connector_defn (args : list val) : res val :=
  ' (fh, args) <- pop_hardware args ;;
  ' (ft, args) <- pop_type args ;;
  ' (fn, args) <- pop_threads args ;;
  ' (th, args) <- pop_hardware args ;;
  ' (tt_, args) <- pop_type args ;;
  ' (tn, args) <- pop_threads args ;;
  _ <- assert (forallb is_attribute args) ;;
  make_connector None ft tt_ fn tn fh th args.

(** stage3.py:439-443 *)
Definition lift_connector_ref (args : list val) : res val :=
  match args with
  | [VConnector n f t fm tm fn tn fh th a] => Ok (VConnector n f t fm tm fn tn fh th a)
  | [VRef n _] => Ok (VRef n (Some CConnector))
  | [_] => Err AssertionError
  | _ => fails
  end.

(** stage3.py:450-457 *)
Definition lift_consumes (args : list val) : res val :=
  match args with
  | [_; t; n] => t <- need_str t ;; n <- need_str n ;; Ok (VConsumes t n true)
  | [t; n] => t <- need_str t ;; n <- need_str n ;; Ok (VConsumes t n false)
  | _ => fails
  end.

(** stage3.py:460-467 *)
Definition lift_dataport (args : list val) : res val :=
  match args with
  | [_; t; n] => t <- need_str t ;; n <- need_str n ;; Ok (VDataport t n true)
  | [t; n] => t <- need_str t ;; n <- need_str n ;; Ok (VDataport t n false)
  | _ => fails
  end.

(** stage3.py:470-477 *)
Definition lift_dataport_type (args : list val) : res val :=
  match args with
  | [VTok s] => Ok (VStr s)
  | [VNum z] => if (z <=? 0)%Z then fails else Ok (VStr ("Buf(" ++ dec (Z.to_N z) ++ ")"))
  | [_] => Err AssertionError
  | _ => fails
  end.

(** stage3.py:53-55 *)
Fixpoint pairwise (l : list val) : list (val * val) :=
  match l with a :: b :: l => (a, b) :: pairwise l | _ => [] end.
(** Equality of the keys of a dictionary; lists and dictionaries are not hashable. *)
Definition key_eqb (a b : val) : bool :=
  match a, b with
  | VNum x, VNum y => Z.eqb x y
  | VStr x, VStr y => String.eqb x y
  | _, _ => false
  end.
Definition hashable (v : val) : bool := match v with VNum _ | VStr _ => true | _ => false end.
Fixpoint dict_set (d : list (val * val)) (k v : val) : list (val * val) :=
  match d with
  | [] => [(k, v)]
  | (k', v') :: d => if key_eqb k' k then (k', v) :: d else (k', v') :: dict_set d k v
  end.

(** stage3.py:480-481 *)
Fixpoint lift_dict_from (d : list (val * val)) (l : list (val * val)) : res val :=
  match l with
  | [] => Ok (VDict d)
  | (k, v) :: l =>
      k <- strip_quotes k ;; v <- strip_quotes v ;;
      if hashable k then lift_dict_from (dict_set d k v) l else fails
  end.
Definition lift_dict (args : list val) : res val := lift_dict_from [] (pairwise args).

(** stage3.py:484-485 *)
Definition lift_dict_list (args : list val) : res val := Ok (VList args).

(** stage3.py:488-489 *)
Definition lift_emits (args : list val) : res val :=
  match args with
  | [t; n] => t <- need_str t ;; n <- need_str n ;; Ok (VEmits t n)
  | _ => fails
  end.

(** stage3.py:492-500 *)
Definition lift_export (args : list val) : res val :=
  match args with
  | [VRef n1 _; VRef n2 _] =>
      if Nat.ltb (List.length n1) 2 then fails
      else Ok (VExport (VRef (removelast n1) (Some CInstance)) (VRef n1 (Some CInterface)) (VRef n2 (Some CInterface)))
  | [_; _] => Err AssertionError
  | _ => fails
  end.

(** stage3.py:507-512 *)
Definition lift_group_decl (args : list val) : res val :=
  match args with
  | [id; VGroup _ i] => id <- need_str id ;; Ok (VGroup (Some id) i)
  | [VGroup _ i] => Ok (VGroup None i)
  | _ => fails
  end.

(** stage3.py:515-516 *)
Definition lift_group_defn (args : list val) : res val :=
  _ <- assert (forallb is_instance args) ;; Ok (VGroup None args).

(** stage3.py:519-526: the children are not lifted *)
Definition lift_include (args : list val) : res val :=
  match args with
  | [VTree (Node h ts)] =>
      if String.eqb h "multi_string" then
        ss <- mapR (fun t => match t with Node _ (Tok s :: _) => Ok (inner s) | _ => fails end) ts ;;
        Ok (VInclude (String.concat "" ss) true)
      else if String.eqb h "angle_string" then
        match ts with Tok s :: _ => Ok (VInclude (inner s) false) | _ => fails end
      else Err AssertionError
  | _ => fails
  end.

Definition instance_type_ok (v : val) : bool :=
  match v with VRef _ _ => true | VComponent _ _ _ _ _ _ _ _ _ _ _ _ _ _ _ => true | _ => false end.

(** stage3.py:537-538 *)
Definition lift_instance_defn (args : list val) : res val :=
  match args with
  | [t; id] => _ <- assert (instance_type_ok t) ;; id <- need_str id ;; Ok (VInstance t id)
  | _ => fails
  end.

(** stage3.py:541-542 *)
Definition lift_list (args : list val) : res val := l <- mapR strip_quotes args ;; Ok (VList l).

(** camkes/ast/type.py:14-26 *)
Definition normalise_type (s : string) : string :=
  if String.eqb s "integer" then "int"
  else if String.eqb s "signed int" then "int"
  else if String.eqb s "unsigned integer" then "unsigned int"
  else if String.eqb s "bool" then "boolean"
  else s.

(** Parameter and return types: references are turned into names (stage3.py:552-555,
    690-693), the others must be strings (objects.py:888, 958). *)
Definition type_name (v : val) : res string :=
  match v with
  | VRef [n] _ => Ok (normalise_type n)
  | VRef _ _ => fails
  | v => need_str v
  end.
Definition is_parameter (v : val) : bool := match v with VParam _ _ _ _ => true | _ => false end.

(** stage3.py:549-559 *)
Definition lift_method_decl (args : list val) : res val :=
  match args with
  | [] => fails
  | a :: rest =>
      let plain :=
        id <- need_str a ;; _ <- assert (forallb is_parameter rest) ;; Ok (VMethod id None rest) in
      match rest with
      | b :: params =>
          if is_str b then
            t <- type_name a ;; id <- need_str b ;; _ <- assert (forallb is_parameter params) ;;
            Ok (VMethod id (Some t) params)
          else plain
      | [] => plain
      end
  end.

(** stage3.py:562-565 *)
Definition lift_multi_string (args : list val) : res val :=
  _ <- assert (negb (Nat.eqb (List.length args) 0)) ;;
  ss <- mapR (fun v => match str v with Some s => Ok (inner s) | None => fails end) args ;;
  Ok (VStr (String quote (String.concat "" ss ++ String quote EmptyString))).

(** stage3.py:568-569 *)
Definition lift_mutex (args : list val) : res val :=
  match args with [id] => id <- need_str id ;; Ok (VMutex id) | _ => fails end.

(** stage3.py:572-575 *)
Definition lift_number_node (args : list val) : res val :=
  match args with
  | [v] => match str v with Some s => z <- Numeric_Model.wrap (lift_number s) ;; Ok (VNum z) | None => fails end
  | _ => fails
  end.

Definition is_method (v : val) : bool := match v with VMethod _ _ _ => true | _ => false end.

(** stage3.py:658-664 *)
Definition lift_procedure_decl (args : list val) : res val :=
  match args with
  | [id; VProcedure _ i m a] => id <- need_str id ;; Ok (VProcedure (Some id) i m a)
  | [p] => Ok p
  | [_; _] => fails
  | _ => Err AssertionError
  end.

(** stage3.py:667-671 *)
Definition lift_procedure_defn (args : list val) : res val :=
  Ok (VProcedure None (List.filter is_include args) (List.filter is_method args) (List.filter is_attribute args)).

(** stage3.py:674-675 *)
Definition lift_provides (args : list val) : res val :=
  match args with
  | [VRef n _; id] => id <- need_str id ;; Ok (VProvides (VRef n (Some CProcedure)) id)
  | _ => fails
  end.

(** stage3.py:678-679; objects.py:137-138 *)
Definition lift_reference (args : list val) : res val :=
  _ <- assert (negb (Nat.eqb (List.length args) 0)) ;;
  ss <- mapR need_str args ;; Ok (VRef ss None).

Definition direction_ok (s : string) : bool :=
  String.eqb s "in" || String.eqb s "inout" || String.eqb s "out" || String.eqb s "refin".

(** stage3.py:682-694; objects.py:957-959 *)
Definition lift_method_scalar_parameter (args : list val) : res val :=
  match args with
  | [t; id] => t <- type_name t ;; id <- need_str id ;; Ok (VParam id "in" t false)
  | [d; t; id] =>
      t <- type_name t ;; id <- need_str id ;; d <- need_str d ;; _ <- assert (direction_ok d) ;;
      Ok (VParam id d t false)
  | _ => Err AssertionError
  end.

Definition starts_with (p s : string) : bool := String.prefix p s.

(** stage3.py:697-705 *)
Definition lift_attribute_scalar_parameter (args : list val) : res val :=
  match args with
  | [t; n] =>
      match t with
      | VStr s | VTok s =>
          if starts_with "struct " s then fails else n <- need_str n ;; Ok (VAttr (VStr s) n false None)
      | VRef _ _ | VStruct _ _ => n <- need_str n ;; Ok (VAttr t n false None)
      | _ => Err AssertionError
      end
  | _ => Err AssertionError
  end.

(** stage3.py:708-713 *)
Definition lift_semaphore (args : list val) : res val :=
  match args with [id] => id <- need_str id ;; Ok (VSemaphore id) | _ => fails end.
Definition lift_binary_semaphore (args : list val) : res val :=
  match args with [id] => id <- need_str id ;; Ok (VBinSemaphore id) | _ => fails end.

(** objects.py:539-541 *)
Definition setting_value_ok (v : val) : bool :=
  match v with VNum _ | VList _ | VDict _ | VStr _ | VTok _ | VAttrRef _ _ | VQuery _ _ _ => true | _ => false end.

(** stage3.py:716-718 *)
Definition lift_setting (args : list val) : res val :=
  match args with
  | [i; a; item] =>
      item <- strip_quotes item ;; i <- need_str i ;; a <- need_str a ;;
      _ <- assert (setting_value_ok item) ;; Ok (VSetting i a item)
  | _ => fails
  end.

(** stage3.py:729-730 *)
Definition lift_struct_type (args : list val) : res val :=
  match args with [id] => id <- need_str id ;; Ok (VStr ("struct " ++ id)) | _ => fails end.

(** stage3.py:737-741 *)
Definition lift_type (args : list val) : res val :=
  match args with
  | [VStr s] | [VTok s] => Ok (VStr (normalise_type s))
  | [v] => Ok v
  | _ => fails
  end.

(** stage3.py:760-767 *)
Definition lift_uses (args : list val) : res val :=
  match args with
  | [_; VRef t _; n] => n <- need_str n ;; Ok (VUses (VRef t (Some CProcedure)) n true)
  | [VRef t _; n] => n <- need_str n ;; Ok (VUses (VRef t (Some CProcedure)) n false)
  | _ => fails
  end.

(** stage3.py:770-774 *)
Definition lift_dict_lookup (args : list val) : res val := l <- mapR strip_quotes args ;; Ok (VLookup l).

Definition is_dict (v : val) : bool := match v with VDict _ => true | _ => false end.

(** stage3.py:777-785 *)
Definition query_args (v : val) : res (list val) :=
  match v with
  | VDict d => Ok [VDict d]
  | VList l => _ <- assert (forallb is_dict l) ;; Ok l
  | _ => Err AssertionError
  end.
Definition lift_query (args : list val) : res val :=
  match args with
  | [t; a] => a <- query_args a ;; t <- need_str t ;; Ok (VQuery t a None)
  | [t; a; VLookup l] => a <- query_args a ;; t <- need_str t ;; Ok (VQuery t a (Some l))
  | [_; _; _] => Err AssertionError
  | _ => fails
  end.

(** stage3.py:788-789 *)
Definition collapse (args : list val) : res val :=
  match args with [v] => Ok v | _ => fails end.

(** stage3.py:794-884 [LIFT], without the numeric expressions *)
Definition LIFT : list (string * (list val -> res val)) :=
  [("angle_string", collapse);
   ("assembly_decl", lift_assembly_decl);
   ("assembly_defn", lift_assembly_defn);
   ("attribute_decl", lift_attribute);
   ("attribute_array_parameter", lift_attribute_array_parameter);
   ("attribute_reference", lift_attribute_reference);
   ("attribute_scalar_parameter", lift_attribute_scalar_parameter);
   ("char", constant "char");
   ("component_decl", lift_component_decl);
   ("component_defn", lift_component_defn);
   ("component_ref", lift_component_ref);
   ("composition_decl", lift_composition_decl);
   ("composition_defn", lift_composition_defn);
   ("composition_sing", lift_composition_sing);
   ("configuration_decl", lift_configuration_decl);
   ("configuration_defn", lift_configuration_defn);
   ("configuration_sing", lift_configuration_sing);
   ("schedule_defn", lift_schedule_decl);
   ("schedule_item", lift_schedule_item);
   ("schedule_unit", lift_schedule_unit);
   ("connection_defn", lift_connection_defn);
   ("connection_end", lift_connection_end);
   ("connector_decl", lift_connector_decl);
   ("connector_defn", lift_connector_defn);
   ("connector_end_type", collapse);
   ("connector_ref", lift_connector_ref);
   ("consumes", lift_consumes);
   ("control", constant "control");
   ("dataport", lift_dataport);
   ("dataport_type", lift_dataport_type);
   ("dict", lift_dict);
   ("dict_lookup", lift_dict_lookup);
   ("dict_list", lift_dict_list);
   ("direction", collapse);
   ("emits", lift_emits);
   ("export", lift_export);
   ("from", constant "from");
   ("group_decl", lift_group_decl);
   ("group_defn", lift_group_defn);
   ("hardware", constant "hardware");
   ("hardware_bare", collapse);
   ("id", collapse);
   ("include", lift_include);
   ("instance_defn", lift_instance_defn);
   ("int64_t", constant "int64_t");
   ("list", lift_list);
   ("maybe", collapse);
   ("method_array_parameter", lift_method_array_parameter);
   ("method_decl", lift_method_decl);
   ("method_scalar_parameter", lift_method_scalar_parameter);
   ("multi_string", lift_multi_string);
   ("mutex", lift_mutex);
   ("number", lift_number_node);
   ("procedure_decl", lift_procedure_decl);
   ("procedure_defn", lift_procedure_defn);
   ("provides", lift_provides);
   ("quoted_string", collapse);
   ("reference", lift_reference);
   ("semaphore", lift_semaphore);
   ("binary_semaphore", lift_binary_semaphore);
   ("setting", lift_setting);
   ("signed_char", constant "signed char");
   ("signed_int", constant "int");
   ("struct_type", lift_struct_type);
   ("struct_defn", lift_struct_defn);
   ("struct_decl", lift_struct_decl);
   ("struct_ref", lift_struct_ref);
   ("to", constant "to");
   ("type", lift_type);
   ("unsigned_char", constant "unsigned char");
   ("unsigned_int", constant "unsigned int");
   ("uint64_t", constant "uint64_t");
   ("uses", lift_uses);
   ("query", lift_query)].

(** stage3.py:60-79 *)
Definition DONT_DESCEND : list string :=
  ["angle_string"; "char"; "connector_end_type"; "control"; "direction"; "from"; "hardware"; "id";
   "include"; "maybe"; "quoted_string"; "signed_char"; "signed_int"; "to"; "unsigned_char"; "unsigned_int"].

Fixpoint lookup {A} (k : string) (l : list (string * A)) : option A :=
  match l with
  | [] => None
  | (k', a) :: l => if String.eqb k k' then Some a else lookup k l
  end.
Definition raw_child (t : stree) : val :=
  match t with Tok s => VTok s | t => VTree t end.

(** stage3.py:110-138 [lift_raw]; DONT_LIFT concerns numeric expressions only *)
Fixpoint lift_raw (t : stree) : res val :=
  match t with
  | Tok s => Ok (VStr s)
  | Num e => z <- Numeric_Model.lift e ;; Ok (VNum z)
  | Node head ts =>
      children <- (if existsb (String.eqb head) DONT_DESCEND then Ok (map raw_child ts)
                   else mapR lift_raw ts) ;;
      match lookup head LIFT with
      | Some lifter => lifter children
      | None => Err OtherException
      end
  end.

(** stage3.py:105-107 [lift] *)
Definition lift_all (ts : list stree) : res (list val) := mapR lift_raw ts.
