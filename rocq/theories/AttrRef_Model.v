(** Model of camkes/parser/stage8.py: resolving attribute references.

    Simplifications, for the whole file:
    - A setting is its instance, attribute and value; settings are identified by
      their position in the assembly's settings list (Python: object identity).
    - Concrete values are opaque atoms, lists and dictionaries (numbers, strings,
      QueryObject all count as atoms: stage 8 treats them alike). *)
From Coq Require Import List String Ascii Bool ZArith.
From Verif Require Import Prelude.
Import ListNotations.
Open Scope string_scope.
Open Scope list_scope.

(** Dictionary keys (camkes.g:228): numeric expressions or strings. *)
Inductive key := KStr (s : string) | KInt (z : Z).
Definition key_eqb (a b : key) : bool :=
  match a, b with
  | KStr s, KStr t => String.eqb s t
  | KInt x, KInt y => Z.eqb x y
  | _, _ => false
  end.

(** Concrete values. *)
Inductive value :=
| Atom (s : string)
| VList (l : list value)
| VDict (l : list (key * value)).

(** Setting (objects.py:525-548); AttributeReference (objects.py:1037-1041) with
    its optional DictLookup (objects.py:1044-1048). *)
Inductive sval :=
| Conc (v : value)
| Ref (reference : string) (lookup : option (list key)).
Record setting := mk_setting { s_inst : string; s_attr : string; s_val : sval }.

(** Instances with their type's attributes and defaults, enough for
    Assembly.get_attribute (objects.py:210-222). *)
Definition instances := list (string * list (string * option value)).
Definition get_default (insts : instances) (i a : string) : option value :=
  match find (fun x => String.eqb (fst x) i) insts with
  | None => None
  | Some x => match find (fun y => String.eqb (fst y) a) (snd x) with
              | None => None
              | Some y => snd y
              end
  end.

(** [reference.rsplit('.', 1)] unpacked into two names (stage8.py:74); [None]
    when there is no dot (Python: ValueError from the unpacking). *)
Fixpoint rsplit (s : string) : option (string * string) :=
  match s with
  | EmptyString => None
  | String c t =>
    match rsplit t with
    | Some (x, y) => Some (String c x, y)
    | None => if Ascii.eqb c "."%char then Some (EmptyString, t) else None
    end
  end.

(** [value[key]] (stage8.py:107).  Simplification: indexing an atom is always a
    TypeError (Python: a string indexed by an integer gives a character). *)
Fixpoint dict_find (l : list (key * value)) (k : key) : option value :=
  match l with
  | [] => None
  | (k', v) :: l => if key_eqb k' k then Some v else dict_find l k
  end.
Definition index (v : value) (k : key) : res value :=
  match v with
  | Atom _ => Err TypeError
  | VList l => match k with
               | KStr _ => Err TypeError
               | KInt z =>
                 let n := Z.of_nat (List.length l) in
                 let z' := if (z <? 0)%Z then (z + n)%Z else z in
                 if ((0 <=? z') && (z' <? n))%Z
                 then match nth_error l (Z.to_nat z') with
                      | Some w => Ok w
                      | None => Err IndexError
                      end
                 else Err IndexError
               end
  | VDict l => match dict_find l k with
               | Some w => Ok w
               | None => Err KeyError
               end
  end.
(** stage8.py:105-107 *)
Definition follow (v : value) (ks : list key) : res value := foldM index ks v.

Definition is_dict (v : value) : bool := match v with VDict _ => true | _ => false end.

(** Positions of the settings for (i, a): stage8.py:75-77. *)
Definition matches (i a : string) (s : setting) : bool :=
  String.eqb (s_inst s) i && String.eqb (s_attr s) a.
Fixpoint positions (f : setting -> bool) (n : nat) (l : list setting) : list nat :=
  match l with
  | [] => []
  | s :: l => if f s then n :: positions f (S n) l else positions f (S n) l
  end.
Definition referents (st : list setting) (i a : string) : list nat :=
  positions (matches i a) 0 st.

(** Assignment [setting.value = v] (mutates the object in the list). *)
Fixpoint set_val (st : list setting) (j : nat) (v : value) : list setting :=
  match st, j with
  | [], _ => []
  | s :: st, O => mk_setting (s_inst s) (s_attr s) (Conc v) :: st
  | s :: st, S j => s :: set_val st j v
  end.

(** sub_resolve: stage8.py:54-112, called on a setting holding a reference.
    Assigning [None] (stage8.py:91, 100) trips the type assertion of the
    property setter (objects.py:102-104, 527-528: None is not among the accepted
    types), so [return False] is never reached. *)
Fixpoint sub_resolve (fuel : nat) (insts : instances) (st : list setting) (j : nat)
  (depth : list string) : res (list setting) :=
  match fuel with
  | O => Err OutOfFuel
  | S fuel =>
    match nth_error st j with
    | None => Err IndexError
    | Some s =>
      match s_val s with
      | Conc _ => Err AssertionError   (* not called on these *)
      | Ref r lk =>
        if memb r depth then Err ParseError else
        match rsplit r with
        | None => Err ValueError
        | Some (i, a) =>
          match referents st i a with
          | [] =>
            match get_default insts i a with
            | Some d => Ok (set_val st j d)
            | None =>
              match get_default insts (s_inst s) (s_attr s) with
              | Some d => Ok (set_val st j d)
              | None => Err AssertionError
              end
            end
          | [k] =>
            match nth_error st k with
            | None => Err IndexError
            | Some t =>
              match s_val t with
              | Ref _ _ =>
                st' <- sub_resolve fuel insts st k (depth ++ [r]) ;;
                match nth_error st' k with
                | Some t' => match s_val t' with
                             | Conc v => Ok (set_val st' j v)
                             | Ref _ _ => Err AssertionError  (* excluded by a lemma *)
                             end
                | None => Err IndexError
                end
              | Conc w =>
                match lk with
                | Some ks => if is_dict w
                             then v <- follow w ks ;; Ok (set_val st j v)
                             else Ok (set_val st j w)
                | None => Ok (set_val st j w)
                end
              end
            end
          | _ :: _ :: _ => Err ParseError
          end
        end
      end
    end
  end.

Definition is_ref (s : setting) : bool := match s_val s with Ref _ _ => true | _ => false end.

(** resolve: stage8.py:36-123.  [to_resolve] holds the positions of the
    reference settings; the result lists the others first (stage8.py:44-52,
    114-122). *)
Definition resolve_fuel (S : list setting) : nat := Datatypes.S (List.length S).
Definition resolve_one (insts : instances) (fuel : nat) (st : list setting) (j : nat)
  : res (list setting) :=
  match nth_error st j with
  | Some s => if is_ref s then sub_resolve fuel insts st j [] else Ok st
  | None => Err IndexError
  end.
Definition nths (st : list setting) (js : list nat) : list setting :=
  flat_map (fun j => match nth_error st j with Some s => [s] | None => [] end) js.
Definition resolve (insts : instances) (S : list setting) : res (list setting) :=
  st <- foldM (resolve_one insts (resolve_fuel S)) (positions is_ref 0 S) S ;;
  Ok (nths st (positions (fun s => negb (is_ref s)) 0 S) ++ nths st (positions is_ref 0 S)).
