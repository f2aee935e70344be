(** Model of the device-tree query engine (camkes/parser/fdtQueryEngine.py,
    FdtQueryEngine and DtbMatchQuery.resolve) and of the stage resolving
    queries (camkes/parser/query.py).

    All DtbBinding errors are ParseErrors (camkes/parser/exception.py). *)
From Coq Require Import List Bool String Ascii ZArith.
From Verif Require Import Prelude.
Import ListNotations.
Open Scope string_scope.
Open Scope list_scope.

(** Properties of a node: strings, 32-bit words, bytes, or no value.  [Empty]
    stands for pyfdt's FdtProperty, which none of the cases of 215-230
    covers. *)
Inductive prop := Strings (l : list string) | Words (l : list Z)
                | Bytes (l : list Z) | Empty.
Record node := Node {
  n_path : string;
  n_props : list (string * prop)
}.

(** Values in a query. *)
Inductive qval := QInt (z : Z) | QStr (s : string) | QList (l : list qval).

Fixpoint as_strs (l : list qval) : option (list string) :=
  match l with
  | [] => Some []
  | QStr s :: l => option_map (cons s) (as_strs l)
  | _ => None
  end.
Fixpoint as_ints (l : list qval) : option (list Z) :=
  match l with
  | [] => Some []
  | QInt z :: l => option_map (cons z) (as_ints l)
  | _ => None
  end.
Fixpoint list_eqb {A} (f : A -> A -> bool) (a b : list A) : bool :=
  match a, b with
  | [], [] => true
  | x :: a, y :: b => f x y && list_eqb f a b
  | _, _ => false
  end.

(** FdtQueryEngine._compare_node_property_as_string, 148-170. *)
Definition compare_string (l : list string) (index : Z) (v : qval) : res bool :=
  if (index <? 0)%Z then
    match v with
    | QList vs => Ok match as_strs vs with
                     | Some ss => list_eqb String.eqb l ss
                     | None => false
                     end
    | _ => Err AssertionError
    end
  else
    match v with
    | QStr s => Ok match nth_error l (Z.to_nat index) with
                   | Some x => String.eqb x s
                   | None => false
                   end
    | _ => Err ParseError
    end.

(** The test of 179-186, only made for bytes. *)
Fixpoint check_bytes (vs : list qval) : res unit :=
  match vs with
  | [] => Ok tt
  | QInt i :: vs =>
      if ((-128 <=? i) && (i <=? 127))%Z then check_bytes vs else Err ParseError
  | _ => Err AssertionError
  end.

(** FdtQueryEngine._compare_node_property_as_integers, 172-200. *)
Definition compare_integers (l : list Z) (index : Z) (v : qval) (byte : bool)
  : res bool :=
  if (index <? 0)%Z then
    match v with
    | QList vs =>
        _ <- (if byte then check_bytes vs else Ok tt) ;;
        Ok match as_ints vs with
           | Some zs => list_eqb Z.eqb l zs
           | None => false
           end
    | _ => Err AssertionError
    end
  else
    match v with
    | QInt z => Ok match nth_error l (Z.to_nat index) with
                   | Some x => Z.eqb x z
                   | None => false
                   end
    | _ => Err ParseError
    end.

(** FdtQueryEngine._compare_node_property_to_attr, 215-230. *)
Definition compare_prop (p : prop) (index : Z) (v : qval) : res bool :=
  match p with
  | Strings l => compare_string l index v
  | Words l => compare_integers l index v false
  | Bytes l => compare_integers l index v true
  | Empty => Err ParseError
  end.

(** [s.find(c)]: what is before and after the first [c]. *)
Fixpoint cut (c : ascii) (s : string) : option (string * string) :=
  match s with
  | EmptyString => None
  | String x r =>
      if Ascii.eqb x c then Some ("", r)
      else match cut c r with
           | Some (a, b) => Some (String x a, b)
           | None => None
           end
  end.
(** [s.strip(' ')]. *)
Fixpoint lstrip (s : string) : string :=
  match s with
  | String c r => if Ascii.eqb c " " then lstrip r else s
  | EmptyString => s
  end.
Fixpoint rstrip (s : string) : string :=
  match s with
  | EmptyString => ""
  | String c r =>
      match rstrip r with
      | EmptyString => if Ascii.eqb c " " then "" else String c ""
      | r' => String c r'
      end
  end.
Definition strip (s : string) : string := rstrip (lstrip s).

Section Engine.

(** Python's [int(s, base)]; None for ValueError. *)
Variable py_int : Z -> string -> option Z.
(** [re.compile(q, re.IGNORECASE).search(path)]: None if [q] is no regular
    expression. *)
Variable search : string -> option (string -> bool).

(** FdtQueryEngine._parse_key, 232-270. *)
Definition parse_key (key : string) : res (string * Z) :=
  match cut "[" key with
  | None => Ok (key, 0%Z)
  | Some (attr, rest) =>
      match cut "]" rest with
      | None => Err ParseError
      | Some (idx, _) =>
          let idx := strip idx in
          if String.eqb idx "*" then Ok (attr, (-1)%Z)
          else match (if prefix "0x" idx then py_int 16 idx
                      else py_int 10 idx) with
               | Some i => Ok (attr, i)
               | None => Err ParseError
               end
      end
  end.

(** FdtQueryEngine._get_matching_prop_from_node, 272-284. *)
Definition find_prop (ps : list (string * prop)) (key : string)
  : res (option prop) :=
  match List.filter (fun p => String.eqb (fst p) key) ps with
  | [] => Ok None
  | [p] => Ok (Some (snd p))
  | _ => Err ParseError
  end.

(** FdtQueryEngine._match_node_by_attrs, 286-317. *)
Fixpoint match_attrs (n : node) (attrs : list (string * qval)) : res bool :=
  match attrs with
  | [] => Ok true
  | (key, v) :: rest =>
      k <- parse_key key ;;
      p <- find_prop (n_props n) (fst k) ;;
      match p with
      | None => Ok false
      | Some p =>
          b <- compare_prop p (snd k) v ;;
          if b : bool then match_attrs n rest else Ok false
      end
  end.

Fixpoint filterM (f : node -> res bool) (ns : list node) : res (list node) :=
  match ns with
  | [] => Ok []
  | n :: ns =>
      b <- f n ;;
      r <- filterM f ns ;;
      Ok (if b : bool then n :: r else r)
  end.

(** FdtQueryEngine._match_nodes_by_attrs, 319-352; [tree] is every node in
    the order of [walk]. *)
Definition match_nodes_by_attrs (tree : list node)
  (attrs : list (string * qval)) (set : list node) : res (list node) :=
  match attrs with
  | [] => Ok []
  | _ =>
      match set with
      | _ :: _ => filterM (fun n => match_attrs n attrs) set
      | [] => filterM (fun n => match_attrs n attrs) tree
      end
  end.

(** FdtQueryEngine._match_nodes_by_path, 110-146. *)
Definition match_nodes_by_path (tree : list node) (q : string)
  : res (list node) :=
  match search q with
  | None => Err ParseError
  | Some f => Ok (List.filter (fun n => f (n_path n)) tree)
  end.

Definition lower (c : ascii) : ascii :=
  let n := N_of_ascii c in
  if ((65 <=? n) && (n <=? 90))%N then ascii_of_N (n + 32) else c.
Fixpoint lowers (s : string) : string :=
  match s with
  | EmptyString => ""
  | String c r => String (lower c) (lowers r)
  end.
Fixpoint contains (p s : string) : bool :=
  prefix p s || match s with
                | EmptyString => false
                | String _ r => contains p r
                end.
(** [re.compile(re.escape(p), re.IGNORECASE).search(s)], 95 and 121-137: [p]
    occurs in [s] up to case (ASCII letters only, as occur in paths). *)
Definition search_escaped (p s : string) : bool :=
  contains (lowers p) (lowers s).

(** What /aliases or /chosen has for a name: None without such a node. *)
Record special := Special {
  aliases : option (list (string * prop));
  chosen : option (list (string * prop))
}.

(** 95-108. *)
Definition node_at (tree : list node) (path : string) : res (list node) :=
  match List.filter (fun n => search_escaped path (n_path n)) tree with
  | [n] => Ok [n]
  | _ => Err ParseError
  end.
Definition one_string (d : option (list (string * prop))) (name : string)
  : res string :=
  match d with
  | None => Err ParseError
  | Some d =>
      match dget d name with
      | Some (Strings [s]) => Ok s
      | _ => Err ParseError
      end
  end.
(** FdtQueryEngine._match_node_by_alias_or_chosen, 48-108. *)
Definition match_alias (tree : list node) (sp : special) (name : string)
  : res (list node) :=
  s <- one_string (aliases sp) name ;;
  node_at tree s.
Definition match_chosen (tree : list node) (sp : special) (name : string)
  : res (list node) :=
  s <- one_string (chosen sp) name ;;
  let s := match cut ":" s with Some (a, _) => a | None => s end in
  if prefix "/" s then node_at tree s else match_alias tree sp s.

(** One dict of a query, 354-402; other keys are not looked at.  An empty
    string is like None. *)
Record query := Query {
  q_alias : string;
  q_chosen : string;
  q_path : string;
  q_props : list (string * qval)
}.
Definition match_query (tree : list node) (sp : special) (q : query)
  : res (list node) :=
  if negb (String.eqb (q_alias q) "") then match_alias tree sp (q_alias q)
  else if negb (String.eqb (q_chosen q) "")
       then match_chosen tree sp (q_chosen q)
  else
    paths <- (if negb (String.eqb (q_path q) "")
              then match_nodes_by_path tree (q_path q) else Ok []) ;;
    match q_props q with
    | [] => Ok paths
    | ps => match_nodes_by_attrs tree ps paths
    end.

(** The selection of DtbMatchQuery.resolve, 592-606: the first match of each
    dict, None for an empty result. *)
Definition select (tree : list node) (sp : special) (qs : list query)
  : res (list (option node)) :=
  r <- mapM (match_query tree sp) qs ;;
  match r with
  | [] => Err ParseError
  | _ => Ok (map (fun l => match l with n :: _ => Some n | [] => None end) r)
  end.

End Engine.

(** ** The query stage (query.py) *)

(** Word characters [\w], for Latin-1. *)
Definition is_word (c : ascii) : bool :=
  let n := N_of_ascii c in
  ((48 <=? n) && (n <=? 57) || (65 <=? n) && (n <=? 90) || (n =? 95)
   || (97 <=? n) && (n <=? 122) || (n =? 170) || (n =? 178) || (n =? 179)
   || (n =? 181) || (n =? 185) || (n =? 186)
   || (188 <=? n) && (n <=? 190) || (192 <=? n) && (n <=? 214)
   || (216 <=? n) && (n <=? 246) || (248 <=? n))%N.
(** [^\w+$]: the dollar also matches before a newline at the end. *)
Fixpoint words_only (s : string) : bool :=
  match s with
  | EmptyString => true
  | String c EmptyString => is_word c || Ascii.eqb c "010"%char
  | String c r => is_word c && words_only r
  end.
Definition key_regexp (s : string) : bool :=
  match s with
  | EmptyString => false
  | String c r => is_word c && words_only r
  end.
(** [re.sub('\W', '_', key)]. *)
Fixpoint underscores (s : string) : string :=
  match s with
  | EmptyString => ""
  | String c r => String (if is_word c then c else "_"%char) (underscores r)
  end.
Definition rename (key : string) : string :=
  if key_regexp key then key else underscores key.

(** update_dict_keys, query.py:94-100: the loop is over a copy of the items,
    the dict is changed in place. *)
Definition update_dict_keys {V} (d : dict string V) : dict string V :=
  fold_left (fun acc kv => dset (ddel acc (fst kv)) (rename (fst kv)) (snd kv))
    d d.

(** Values of settings and query results. *)
Inductive dval := DInt (z : Z) | DStr (s : string) | DList (l : list dval)
                | DDict (d : list (string * dval)).

(** [item[key]] for a string. *)
Definition index (v : dval) (key : string) : res dval :=
  match v with
  | DDict d => match dget d key with Some v => Ok v | None => Err KeyError end
  | _ => Err TypeError
  end.

Record setting := Setting {
  s_instance : string;
  s_attribute : string;
  s_value : dval + (string * (list query * list string))
}.

Section Stage.
(** [queries]: what each kind of query returns. *)
Variable queries : string -> option (list query -> res (dict string dval)).

(** [update_dict_keys(item)] on an element, 126-127. *)
Definition rename_item (v : dval) : res dval :=
  match v with
  | DDict d => Ok (DDict (update_dict_keys d))
  | _ => Err OtherException
  end.

(** The loop body of resolve, query.py:113-141. *)
Definition resolve_setting (s : setting) : res setting :=
  match s_value s with
  | inl _ => Ok s
  | inr (kind, (args, lookup)) =>
      match queries kind with
      | None => Err ParseError
      | Some q =>
          r <- q args ;;
          match lookup with
          | [] =>
              let r := update_dict_keys r in
              match dget r "query" with
              | None => Err KeyError
              | Some (DList items) =>
                  items <- mapM rename_item items ;;
                  Ok (Setting (s_instance s) (s_attribute s)
                        (inl (DDict (dset r "query" (DList items)))))
              | Some _ => Err TypeError
              end
          | _ =>
              match dget r "query" with
              | None => Err KeyError
              | Some (DList items) =>
                  items <- mapM (fun v => foldM index lookup v) items ;;
                  Ok (Setting (s_instance s) (s_attribute s)
                        (inl (DList items)))
              | Some _ => Err TypeError
              end
          end
      end
  end.

(** resolve, query.py:102-151. *)
Definition resolve (settings : list setting) : res (list setting) :=
  mapM resolve_setting settings.
End Stage.
