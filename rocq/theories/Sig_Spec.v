(** What the C functions of a method should be.  Nothing here but the types of parameters and methods,
    and the expressions, is taken from the model. *)
From Coq Require Import List String Bool.
From Verif Require Import Prelude Sig_Model.
Import ListNotations.
Open Scope string_scope. Open Scope list_scope.

(** ** The part of C that is used *)
Inductive ctype := CBase (name : string) | CConst (t : ctype) | CPtr (t : ctype).

(** A declaration of a variable: const, the name of a type, stars, the name of the variable *)
Fixpoint stars (t : ctype) (toks : list string) : option (ctype * string) :=
  match toks with
  | [] => None
  | w :: r =>
      if String.eqb w "*" then stars (CPtr t) r
      else match r with [] => Some (t, w) | _ => None end
  end.
Definition parse_decl (toks : list string) : option (ctype * string) :=
  match toks with
  | [] => None
  | w :: r =>
      if String.eqb w "*" then None
      else if String.eqb w "const" then
        match r with
        | b :: r => if String.eqb b "*" then None else stars (CConst (CBase b)) r
        | [] => None
        end
      else stars (CBase w) r
  end.
(** The result of a function: the same without a variable *)
Definition parse_type (toks : list string) : option ctype :=
  option_map fst (parse_decl (toks ++ ["x"])).

(** The pieces between the commas *)
Fixpoint split (toks : list string) : list (list string) :=
  match toks with
  | [] => [[]]
  | w :: r =>
      if String.eqb w "," then [] :: split r
      else match split r with [] => [[w]] | x :: l => (w :: x) :: l end
  end.
Fixpoint all {A B} (f : A -> option B) (l : list A) : option (list B) :=
  match l with
  | [] => Some []
  | x :: l => match f x, all f l with Some y, Some r => Some (y :: r) | _, _ => None end
  end.
(** A list of parameters: nothing, void, or declarations *)
Definition parse_params (toks : list string) : option (list (ctype * string)) :=
  match toks with
  | [] => Some []
  | [w] => if String.eqb w "void" then Some [] else all parse_decl (split toks)
  | _ => all parse_decl (split toks)
  end.
(** An argument: stars and a variable *)
Fixpoint parse_expr (toks : list string) : option expr :=
  match toks with
  | [] => None
  | w :: r =>
      if String.eqb w "*" then option_map Deref (parse_expr r)
      else match r with [] => Some (Var w) | _ => None end
  end.
Definition parse_args (toks : list string) : option (list expr) :=
  match toks with
  | [] => Some []
  | _ => all parse_expr (split toks)
  end.

(** The type of an expression among variables [E] *)
Inductive has (E : list (ctype * string)) : expr -> ctype -> Prop :=
| has_var x t : In (t, x) E -> has E (Var x) t
| has_deref e t : has E e (CPtr t) -> has E (Deref e) t
| has_addr x t : In (t, x) E -> has E (Addr x) (CPtr t)
| has_null t : has E Null (CPtr t).
(** Assignment without a cast or a warning: the same type, or a pointer to a thing that may not be
    written through the target. *)
Definition assignable (src tgt : ctype) : Prop :=
  src = tgt \/ exists t, src = CPtr t /\ tgt = CPtr (CConst t).
(** An expression can be passed for, or be the initial value of, a variable of type [t]. *)
Definition accepts (E : list (ctype * string)) (e : expr) (t : ctype) : Prop :=
  exists s, has E e s /\ assignable s t.

(** ** The interface *)
(** The C type of a CAmkES type *)
Definition c_type (t : string) : ctype :=
  if String.eqb t "string" then CPtr (CBase "char")
  else if String.eqb t "character" then CBase "char"
  else if String.eqb t "boolean" then CBase "bool"
  else CBase t.
(** What a user of an interface writes for a parameter:
      - inputs by value, strings as const char *, arrays as a count and a pointer to their first
        element, which is const unless it is a string;
      - everything else by reference, which is const for scalars and counts that are only read. *)
Definition promised (p : param) : list (ctype * string) :=
  let T := c_type (p_type p) in
  let ro t := match p_dir p with DRefin => CConst t | _ => t end in
  let str := String.eqb (p_type p) "string" in
  match p_dir p with
  | DIn =>
      if p_array p then
        [(CBase "size_t", p_name p ++ "_sz"); (CPtr (if str then T else CConst T), p_name p)]
      else [((if str then CPtr (CConst (CBase "char")) else T), p_name p)]
  | _ =>
      if p_array p then [(CPtr (ro (CBase "size_t")), p_name p ++ "_sz"); (CPtr (CPtr T), p_name p)]
      else [(CPtr (if str then T else ro T), p_name p)]
  end%string.
Definition signature (m : method) : list (ctype * string) := flat_map promised (m_params m).
Definition result (m : method) : ctype :=
  match m_ret m with Some t => c_type t | None => CBase "void" end.
Definition prefixed (l : list (ctype * string)) : list (ctype * string) :=
  map (fun v => (fst v, "p_" ++ snd v)%string) l.

(** A name: not a keyword or punctuation.  The names of parameters are not C keywords
    (camkes/ast/objects.py, Parameter.freeze). *)
Definition word (w : string) : Prop := w <> "const" /\ w <> "*" /\ w <> ",".
Definition ok_param (p : param) : Prop := word (p_type p) /\ word (p_name p).
Definition ok_method (m : method) : Prop :=
  Forall ok_param (m_params m) /\ (forall t, m_ret m = Some t -> word t).

(** ** Local variables *)
(** [declare E ls E']: the declarations [ls] are correct among the variables [E] and add up to [E']. *)
Inductive declare : list (ctype * string) -> list local -> list (ctype * string) -> Prop :=
| declare_nil E : declare E [] E
| declare_cons E toks init t x ls E' :
    parse_decl toks = Some (t, x) ->
    (forall e, init = Some e -> accepts E e t) ->
    declare ((t, x) :: E) ls E' ->
    declare E ((toks, init) :: ls) E'.

(** ** The macros *)
(** What a macro of marshal_macros.h takes to copy things of type [t] into a message ... *)
Definition takes (E : list (ctype * string)) (c : mcall) (t : ctype) : Prop :=
  match mc_macro c, mc_args c with
  | MScalar, [p] => accepts E p (CPtr (CConst t))
  | MString, [s] => accepts E s (CPtr (CConst (CBase "char"))) /\ t = CPtr (CBase "char")
  | MArray, [a; n] => accepts E a (CPtr (CConst t)) /\ accepts E n (CPtr (CConst (CBase "size_t")))
  | MStringArray, [a; n] =>
      accepts E a (CPtr t) /\ t = CPtr (CBase "char") /\ accepts E n (CPtr (CConst (CBase "size_t")))
  | _, _ => False
  end.
(** ... and to set variables from it: they must not be const. *)
Definition sets (E : list (ctype * string)) (c : mcall) (t : ctype) : Prop :=
  match mc_macro c, mc_args c with
  | MScalar, [p] => has E p (CPtr t)
  | MString, [s] => has E s (CPtr t) /\ t = CPtr (CBase "char")
  | MArray, [a; n] => has E a (CPtr (CPtr t)) /\ has E n (CPtr (CBase "size_t"))
  | MStringArray, [a; n] =>
      has E a (CPtr (CPtr t)) /\ t = CPtr (CBase "char") /\ has E n (CPtr (CBase "size_t"))
  | _, _ => False
  end.
(** The macro for a parameter *)
Definition macro_of (array : bool) (t : string) : macro :=
  match array, String.eqb t "string" with
  | true, true => MStringArray | true, false => MArray
  | false, true => MString | false, false => MScalar
  end.

(** The parameters of the functions between variables and messages: those that fill a message take what
    the interface promises, those that read one take references to what they set. *)
Definition referenced (p : param) : list (ctype * string) :=
  let T := c_type (p_type p) in
  if p_array p then [(CPtr (CBase "size_t"), p_name p ++ "_sz"); (CPtr (CPtr T), p_name p)]%string
  else [(CPtr T, p_name p)].
Definition buffer_of (n : string) : list (ctype * string) := [(CPtr (CBase "void"), "base"); (CBase n, "size")].
Definition sent (p : param) : Prop := p_dir p <> DOut.
Definition returned (p : param) : Prop := p_dir p = DOut \/ p_dir p = DInout.
(** [sub P l l']: [l'] has the elements of [l] for which [P] holds, in order. *)
Inductive sub {A} (P : A -> Prop) : list A -> list A -> Prop :=
| sub_nil : sub P [] []
| sub_take x l l' : P x -> sub P l l' -> sub P (x :: l) (x :: l')
| sub_drop x l l' : ~ P x -> sub P l l' -> sub P (x :: l) l'.

(** A call: the function declared with parameters [params] can be called with arguments [args], of which
    the first two are the buffer and its size, the next one, if any, a reference to the result, and the
    others the variables [arg x] for the parameters x, in order. *)
Definition good_call (E : list (ctype * string)) (params args : list string) (buffer size : string)
    (ret : list string) (arg : string -> string) : Prop :=
  exists n r ps,
    parse_params params = Some (buffer_of n ++ r ++ ps) /\ (n = "size_t" \/ n = "unsigned") /\
    List.length r = List.length ret /\
    parse_args args =
      Some (Var buffer :: Var size :: map Var ret ++ map (fun v => Var (arg (snd v))) ps) /\
    Forall2 (accepts E) (map Var ret ++ map (fun v => Var (arg (snd v))) ps) (map fst (r ++ ps)).
Definition ret_name (m : method) (x : string) : list string :=
  match m_ret m with Some _ => [x] | None => [] end.

(** What the implementation is given for a parameter: the variable, or a reference to it *)
Definition given (p : param) : list expr :=
  let e x := Var ("p_" ++ x ++ "_ptr")%string in
  let e x := match p_dir p with DIn => Deref (e x) | _ => e x end in
  map (fun v => e (snd v)) (promised p).
(** Among declarations [ls] there is a pointer to each variable of [p], named after it. *)
Definition refers (p : param) (ls : list local) : Prop :=
  forall v, In v (promised p) -> exists toks t,
    In (toks, Some (Addr ("p_" ++ snd v)%string)) ls /\
    parse_decl toks = Some (CPtr t, ("p_" ++ snd v ++ "_ptr")%string).

(** The same for the result: [x] is a variable of its type, and [y] points to it from the start. *)
Definition refers_result (t x y : string) (ls : list local) : Prop :=
  exists toks toks', In (toks, None) ls /\ parse_decl toks = Some (c_type t, x) /\
    In (toks', Some (Addr x)) ls /\ parse_decl toks' = Some (CPtr (c_type t), y).

(** ** Names *)
(** What is put behind the name of a parameter *)
Definition suffixes : list string := ["_sz"; "_ptr"; "_sz_ptr"; "_ptr_sz"; "_ptr_str"; "_ptr_arr"].
Definition apart (m : method) : Prop :=
  NoDup (map p_name (m_params m)) /\
  forall p q s, In p (m_params m) -> In q (m_params m) -> In s suffixes ->
    p_name p <> (p_name q ++ s)%string.
