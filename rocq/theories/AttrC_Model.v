(** Model of the C text generated for the attributes of a component:
    camkes/templates/macros.py:148-160, 177-247, with its uses in
    camkes/templates/component.common.c:522-531 and component.template.h:34-44. *)
From Coq Require Import List String Ascii Bool NArith.
From Verif Require Import Prelude DecStr.
Import ListNotations.
Open Scope string_scope.
Open Scope list_scope.

(** The type of an attribute: a type that is written as a name, or a struct with
    its fields.  A field has a name, a flag for arrays and a type; an attribute of a
    component is the same (camkes/ast/objects.py:582-604, 924-932). *)
Inductive ctype :=
| Named (name : string)
| Struct (name : string) (fields : list (string * bool * ctype)).
Definition field := (string * bool * ctype)%type.
Definition f_name (f : field) : string := fst (fst f).
Definition f_array (f : field) : bool := snd (fst f).
Definition f_type (f : field) : ctype := snd f.

(** The value of a setting: a string, another literal (given by its str()), a list
    or tuple, a dictionary. *)
Inductive value :=
| VStr (s : string)
| VLit (text : string)
| VList (l : list value)
| VDict (d : list (string * value)).

(** [d.get(k)] *)
Fixpoint get (k : string) (d : list (string * value)) : option value :=
  match d with
  | [] => None
  | (k', v) :: d => if String.eqb k k' then Some v else get k d
  end.

(** show_type (macros.py:148-160) *)
Definition show_type (t : ctype) : string :=
  match t with
  | Named "string" => "char *"
  | Named "character" => "char"
  | Named "boolean" => "bool"
  | Named t => t
  | Struct n _ => "struct " ++ n
  end.

Definition bs_nl : string := String (ascii_of_nat 92) (String (ascii_of_nat 10) "").
Definition quote : string := String (ascii_of_nat 34) "".

(** [',\\\n'] between the elements (macros.py:242-244) *)
Fixpoint join (l : list string) : string :=
  match l with
  | [] => ""
  | [s] => s
  | s :: l => s ++ "," ++ bs_nl ++ join l
  end.

(** The outer part of show_attribute_value (macros.py:219-229, 242-247): the
    elements of a list in braces, or a single value; [f] prints one element. *)
Definition wrap (f : value -> res string) (v : value) : res string :=
  match v with
  | VList l => ss <- mapM f l ;; Ok ("{" ++ bs_nl ++ join ss ++ "}")%string
  | v => f v
  end.

(** show_attribute_value (macros.py:214-247), one element (230-240).  [value[name]]
    of something that is not a dictionary, and of a dictionary without the name, is
    an exception.  The str() of a list or a dictionary where another literal is
    expected is not modelled beyond the fact that it is printed; it is an exception
    here. *)
Fixpoint show_elem (t : ctype) (v : value) : res string :=
  match v with
  | VStr s => Ok (quote ++ s ++ quote)%string
  | _ =>
    match t with
    | Struct _ fs =>
      body <- (fix go (fs : list field) : res string :=
         match fs with
         | [] => Ok ""
         | ((n, _), ft) :: fs =>
           match v with
           | VDict d =>
             match get n d with
             | None => Err KeyError
             | Some x =>
               s <- wrap (show_elem ft) x ;;
               rest <- go fs ;;
               Ok ("." ++ n ++ " = " ++ s ++ "," ++ bs_nl ++ rest)%string
             end
           | _ => Err TypeError
           end
         end) fs ;;
      Ok ("{" ++ bs_nl ++ body ++ "}")%string
    | Named _ =>
      match v with
      | VLit text => Ok text
      | _ => Err OtherException
      end
    end
  end.
Definition show_attribute_value (t : ctype) (v : value) : res string := wrap (show_elem t) v.

(** [len(value)] in the declarations (component.common.c:527,
    component.template.h:43): the number written between the brackets. *)
Definition pylen (v : option value) : res N :=
  match v with
  | Some (VList l) => Ok (N.of_nat (List.length l))
  | Some (VStr s) => Ok (N.of_nat (String.length s))
  | Some (VDict d) => Ok (N.of_nat (List.length d))
  | _ => Err TypeError
  end.

(** What is generated for one attribute: the declaration in the header
    (component.template.h:37-44), the macro, and the definition
    (component.common.c:524-531). *)
Record declared := mk_declared {
  d_type : string; d_name : string; d_length : option N; d_init : option string }.
Definition header_attribute (a : field) (v : option value) : res declared :=
  init <- match v with
          | None => Ok None
          | Some x => s <- show_attribute_value (f_type a) x ;; Ok (Some s)
          end ;;
  n <- (if f_array a then n <- pylen v ;; Ok (Some n) else Ok None) ;;
  Ok (mk_declared (show_type (f_type a)) (f_name a) n init).
Definition source_attribute (a : field) (v : option value) : res (option declared) :=
  match v with
  | None => Ok None
  | Some x =>
    n <- (if f_array a then n <- pylen v ;; Ok (Some n) else Ok None) ;;
    s <- show_attribute_value (f_type a) x ;;
    Ok (Some (mk_declared (show_type (f_type a)) (f_name a) n (Some s)))
  end.

(** A generated struct definition: name and fields with type, name and length. *)
Definition def := (string * list (string * string * option N))%type.

(** [not sub_value] *)
Definition empty_value (v : option value) : bool :=
  match v with
  | None | Some (VDict []) | Some (VList []) | Some (VStr "") => true
  | _ => false
  end.
(** [v.get(name)] of a value that must be a dictionary *)
Definition value_get (v : option value) (name : string) : res (option value) :=
  match v with
  | Some (VDict d) => Ok (get name d)
  | _ => Err OtherException
  end.

(** print_struct_definition (macros.py:178-185) *)
Definition print_field (sub_value : option value) (f : field) : res (string * string * option N) :=
  n <- (if f_array f then
          if empty_value sub_value then Ok (Some 0%N)
          else x <- value_get sub_value (f_name f) ;; n <- pylen x ;; Ok (Some n)
        else Ok None) ;;
  Ok (show_type (f_type f), f_name f, n).
Definition print_struct_definition (name : string) (fs : list field) (sub_value : option value)
  : res def :=
  l <- mapM (print_field sub_value) fs ;; Ok (name, l).

(** recurse_structs (macros.py:187-197).  The result lists the structs with the
    values their definitions are made from; a type that is not a struct gives
    nothing (the test before each call). *)
Definition first_value (array : bool) (v : option value) : res (option value) :=
  if array then
    if empty_value v then Ok None
    else match v with
         | Some (VList (x :: _)) => Ok (Some x)
         | _ => Err OtherException
         end
  else Ok v.
Definition struct_use := (string * list field * option value)%type.
Fixpoint recurse_structs (t : ctype) (array : bool) (v : option value) : res (list struct_use) :=
  match t with
  | Named _ => Ok []
  | Struct name fs =>
    inner <- (fix go (fs : list field) : res (list struct_use) :=
       match fs with
       | [] => Ok []
       | ((n, arr), ft) :: fs =>
         here <- match ft with
                 | Named _ => Ok []
                 | Struct _ _ => x <- value_get v n ;; recurse_structs ft arr x
                 end ;;
         rest <- go fs ;;
         Ok (here ++ rest)
       end) fs ;;
    v' <- first_value array v ;;
    Ok (inner ++ [(name, fs, v')])
  end.

(** The loop over the structs found (macros.py:205-209). *)
Fixpoint draw (uses : list struct_use) (drawn : list string) : res (list def) :=
  match uses with
  | [] => Ok []
  | ((name, fs), v) :: uses =>
    if existsb (String.eqb name) drawn then draw uses drawn
    else d <- print_struct_definition name fs v ;;
         rest <- draw uses (name :: drawn) ;;
         Ok (d :: rest)
  end.

(** print_type_definitions (macros.py:177-211).  [conf] are the settings of the
    instance. *)
Fixpoint all_structs (attributes : list field) (conf : list (string * value)) : res (list struct_use) :=
  match attributes with
  | [] => Ok []
  | a :: attributes =>
    here <- recurse_structs (f_type a) (f_array a) (get (f_name a) conf) ;;
    rest <- all_structs attributes conf ;;
    Ok (here ++ rest)
  end.
Definition print_type_definitions (attributes : list field) (conf : list (string * value))
  : res (list def) :=
  uses <- all_structs attributes conf ;; draw uses [].
