(** Model of numeric constant expressions: the grammar of camkes/parser/camkes.g:179-216 and
    the lifting functions of camkes/parser/stage3.py.

    Numbers are integers.  Floating point literals and the floating point results of
    negative exponents are outside the model: they are the error [OtherException] here.
    Memory exhaustion by huge shifts and powers is not modelled. *)
From Coq Require Import String Ascii List Bool NArith ZArith.
From Verif Require Import Prelude.
Import ListNotations.
Open Scope string_scope.
Open Scope list_scope.

(** camkes.g:183-210, the operator tokens.  [OAdd] and [OSub] are also the unary signs. *)
Inductive binop :=
  | OLor | OLand | OBor | OXor | OBand | OEq | ONeq | OLt | OLte | OGt | OGte
  | OLs | ORs | OAdd | OSub | OMul | ODiv | OMod | OPow.

(** The tokens of an expression.  White space and comments are ignored by the lexer
    (camkes.g:232-237). *)
Inductive token :=
  | TNum (text : string)   (* camkes.g:219 *)
  | TBool (text : string)  (* camkes.g:230 *)
  | TOp (o : binop)
  | TLpar | TRpar | TQuest | TColon | TBang | TTilde.

(** camkes.g:182-210, the rule whose operators include [o]. *)
Definition rule_of (o : binop) : nat :=
  match o with
  | OLor => 10 | OLand => 9 | OBor => 8 | OXor => 7 | OBand => 6
  | OEq | ONeq => 5
  | OLt | OLte | OGt | OGte => 4
  | OLs | ORs => 3
  | OAdd | OSub => 2
  | OMul | ODiv | OMod | OPow => 1
  end.

(** A derivation of the grammar.  [NRule n] is an application of [precedence]n for n from 1
    to 10, [NCond] and [NOne] are [precedence11], the others are [precedence0].  Parentheses
    and the unary plus are transparent in the tree that plyplus builds ('@' rules): lifting
    passes through them. *)
Inductive node :=
  | NNum (text : string)
  | NBool (text : string)
  | NParen (e : node)
  | NMinus (e : node)
  | NPlus (e : node)
  | NNot (e : node)
  | NInv (e : node)
  | NRule (n : nat) (first : node) (rest : tail)
  | NOne (e : node)
  | NCond (c a b : node)
with tail :=
  | TNil
  | TCons (o : binop) (e : node) (rest : tail).

(** camkes.g:180-216: [derived k t]: [t] is a derivation from rule [precedence]k. *)
Fixpoint derived (k : nat) (t : node) : bool :=
  match t with
  | NNum _ | NBool _ => Nat.eqb k 0
  | NParen e => Nat.eqb k 0 && derived 11 e
  | NMinus e | NPlus e | NNot e | NInv e => Nat.eqb k 0 && derived 0 e
  | NRule n f r => Nat.eqb k n && Nat.leb 1 n && Nat.leb n 10 &&
                   derived (n - 1) f && derived_tail n r
  | NOne e => Nat.eqb k 11 && derived 10 e
  | NCond c a b => Nat.eqb k 11 && derived 10 c && derived 11 a && derived 10 b
  end
with derived_tail (n : nat) (r : tail) : bool :=
  match r with
  | TNil => true
  | TCons o e r => Nat.eqb (rule_of o) n && derived (n - 1) e && derived_tail n r
  end.

(** The tokens a derivation covers. *)
Fixpoint text_of (t : node) : list token :=
  match t with
  | NNum s => [TNum s]
  | NBool s => [TBool s]
  | NParen e => TLpar :: text_of e ++ [TRpar]
  | NMinus e => TOp OSub :: text_of e
  | NPlus e => TOp OAdd :: text_of e
  | NNot e => TBang :: text_of e
  | NInv e => TTilde :: text_of e
  | NRule _ f r => text_of f ++ text_of_tail r
  | NOne e => text_of e
  | NCond c a b => text_of c ++ TQuest :: text_of a ++ TColon :: text_of b
  end
with text_of_tail (r : tail) : list token :=
  match r with
  | TNil => []
  | TCons o e r => TOp o :: text_of e ++ text_of_tail r
  end.

(** Python's [int(text, 0)] on the texts that the token [number] matches: the value of a
    digit. *)
Definition digit_of (c : ascii) : option N :=
  let n := N_of_ascii c in
  if (48 <=? n)%N && (n <=? 57)%N then Some (n - 48)%N
  else if (97 <=? n)%N && (n <=? 102)%N then Some (n - 87)%N
  else if (65 <=? n)%N && (n <=? 70)%N then Some (n - 55)%N
  else None.
Fixpoint digits_value (base : N) (acc : N) (s : string) : res N :=
  match s with
  | EmptyString => Ok acc
  | String c s =>
      match digit_of c with
      | Some d => if (d <? base)%N then digits_value base (base * acc + d)%N s
                  else Err ValueError
      | None => Err ValueError
      end
  end.
Fixpoint has_dot (s : string) : bool :=
  match s with EmptyString => false | String c s => Ascii.eqb c "." || has_dot s end.

(** stage3.py:572-575 [_lift_number].  A decimal literal with leading zeros is a ValueError
    unless it is zero.  Floats are outside the model. *)
Definition int_base0 (text : string) : res N :=
  match text with
  | EmptyString => Err ValueError
  | String c s =>
      if Ascii.eqb c "0" then
        match s with
        | String d s' =>
            if Ascii.eqb d "x" then
              if String.eqb s' "" then Err ValueError else digits_value 16 0 s'
            else v <- digits_value 10 0 s ;;
                 if (v =? 0)%N then Ok 0%N else Err ValueError
        | EmptyString => Ok 0%N
        end
      else digits_value 10 0 text
  end.
Definition lift_number (text : string) : res Z :=
  if has_dot text then Err OtherException
  else r <- int_base0 text ;; Ok (Z.of_N r).

(** stage3.py:201-204 [_lift_boolean_literal]. *)
Definition lift_boolean (text : string) : Z :=
  if String.eqb text "True" || String.eqb text "true" then 1%Z else 0%Z.

Definition int_of_bool (b : bool) : Z := if b then 1%Z else 0%Z.

(** stage3.py:585-635, one round of the loop of [_lift_numeric_expr]: the accumulated value,
    the operator and the operand.  An ArithmeticError, TypeError or ValueError becomes a
    ParseError. *)
Definition apply_op (acc : Z) (o : binop) (op : Z) : res Z :=
  match o with
  | OAdd => Ok (acc + op)%Z
  | OBand => Ok (Z.land acc op)
  | OBor => Ok (Z.lor acc op)
  | ODiv => if (op =? 0)%Z then Err ParseError else Ok (acc / op)%Z
  | OEq => Ok (int_of_bool (acc =? op)%Z)
  | OGt => Ok (int_of_bool (op <? acc)%Z)
  | OGte => Ok (int_of_bool (op <=? acc)%Z)
  | OLand => Ok (if (acc =? 0)%Z then acc else op)     (* int(acc and op) *)
  | OLor => Ok (if (acc =? 0)%Z then op else acc)      (* int(acc or op) *)
  | OLs => if (op <? 0)%Z then Err ParseError else Ok (Z.shiftl acc op)
  | OLt => Ok (int_of_bool (acc <? op)%Z)
  | OLte => Ok (int_of_bool (acc <=? op)%Z)
  | OMod => if (op =? 0)%Z then Err ParseError else Ok (acc mod op)%Z
  | OMul => Ok (acc * op)%Z
  | ONeq => Ok (int_of_bool (negb (acc =? op)%Z))
  | OPow => if (op <? 0)%Z
            then if (acc =? 0)%Z then Err ParseError else Err OtherException
            else Ok (acc ^ op)%Z
  | ORs => if (op <? 0)%Z then Err ParseError else Ok (Z.shiftr acc op)
  | OSub => Ok (acc - op)%Z
  | OXor => Ok (Z.lxor acc op)
  end.

(** stage3.py:578-635 [_lift_numeric_expr] after its children are lifted. *)
Definition lift_numeric_expr (first : Z) (ops : list (binop * Z)) : res Z :=
  foldM (fun acc p => apply_op acc (fst p) (snd p)) ops first.

(** stage3.py:638-657 [_lift_precedence11] with three children. *)
Definition lift_ternary (c a b : Z) : Z := if (c =? 0)%Z then b else a.

(** stage3.py:110-141 [lift_raw]: the children are lifted left to right, then the lifter of
    the rule is applied.  Errors other than ParseError and AssertionError become a
    ParseError (the [debug] flag is off). *)
Definition wrap {A} (r : res A) : res A :=
  match r with
  | Err (ParseError | AssertionError | OtherException) | Ok _ => r
  | Err _ => Err ParseError
  end.
Fixpoint lift (t : node) : res Z :=
  match t with
  | NNum s => wrap (lift_number s)
  | NBool s => Ok (lift_boolean s)
  | NParen e | NPlus e | NOne e => lift e
  | NMinus e => v <- lift e ;; Ok (- v)%Z                       (* stage3.py:744-745 *)
  | NNot e => v <- lift e ;; Ok (int_of_bool (v =? 0)%Z)        (* stage3.py:545-546 *)
  | NInv e => v <- lift e ;; Ok (-1 - v)%Z                      (* stage3.py:207-208 *)
  | NRule _ f r => v <- lift f ;; ops <- lift_tail r ;; wrap (lift_numeric_expr v ops)
  | NCond c a b => c <- lift c ;; a <- lift a ;; b <- lift b ;; Ok (lift_ternary c a b)
  end
with lift_tail (r : tail) : res (list (binop * Z)) :=
  match r with
  | TNil => Ok []
  | TCons o e r => v <- lift e ;; l <- lift_tail r ;; Ok ((o, v) :: l)
  end.

(** stage3.py:470-477 [_lift_dataport_type] on a size: the number of the type Buf(n). *)
Definition lift_dataport_size (t : node) : res Z :=
  v <- lift t ;; if (v <=? 0)%Z then Err ParseError else Ok v.

(** stage3.py:392-402 [thread_count] inside [_lift_connector_defn]. *)
Definition lift_thread_count (t : node) : res Z :=
  v <- lift t ;; if (v <? 0)%Z then Err ParseError else Ok v.
