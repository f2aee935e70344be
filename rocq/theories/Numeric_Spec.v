(** What an author of a specification means by a numeric expression. *)
From Coq Require Import String Ascii List Bool NArith ZArith.
From Verif Require Import Prelude DecStr Numeric_Model.
Import ListNotations.
Open Scope string_scope.
Open Scope list_scope.

(** Expressions as written: with the texts of the literals, and with parentheses that may
    be unnecessary. *)
Inductive expr :=
  | ENum (text : string) (n : N)
  | EBool (text : string) (b : bool)
  | EParen (e : expr)
  | EPlus (e : expr)
  | ENeg (e : expr)
  | ENot (e : expr)
  | EInv (e : expr)
  | EBin (o : binop) (a b : expr)
  | ECond (c a b : expr).

(** An expression has an integer value, or it is an arithmetic error, or it leaves the
    integers (a negative exponent). *)
Inductive outcome := Int (z : Z) | ArithError | NotInteger.

Definition truth (b : bool) : Z := if b then 1%Z else 0%Z.
Definition is_true (z : Z) : bool := negb (z =? 0)%Z.

(** Integer arithmetic: division rounds down and the remainder has the sign of the divisor.
    The meaning of the two logical operators is a parameter. *)
Definition meaning (land lor : Z -> Z -> Z) (o : binop) (x y : Z) : outcome :=
  match o with
  | OLor => Int (lor x y)
  | OLand => Int (land x y)
  | OBor => Int (Z.lor x y)
  | OXor => Int (Z.lxor x y)
  | OBand => Int (Z.land x y)
  | OEq => Int (truth (x =? y)%Z)
  | ONeq => Int (truth (negb (x =? y)%Z))
  | OLt => Int (truth (x <? y)%Z)
  | OLte => Int (truth (x <=? y)%Z)
  | OGt => Int (truth (y <? x)%Z)
  | OGte => Int (truth (y <=? x)%Z)
  | OLs => if (y <? 0)%Z then ArithError else Int (x * 2 ^ y)%Z
  | ORs => if (y <? 0)%Z then ArithError else Int (x / 2 ^ y)%Z
  | OAdd => Int (x + y)%Z
  | OSub => Int (x - y)%Z
  | OMul => Int (x * y)%Z
  | ODiv => if (y =? 0)%Z then ArithError else Int (x / y)%Z
  | OMod => if (y =? 0)%Z then ArithError else Int (x mod y)%Z
  | OPow => if (y <? 0)%Z then if (x =? 0)%Z then ArithError else NotInteger
            else Int (x ^ y)%Z
  end.

Definition map1 (f : Z -> Z) (a : outcome) : outcome :=
  match a with Int x => Int (f x) | _ => a end.
(** All operands are evaluated.  Leaving the integers takes precedence over errors. *)
Definition map2 (f : Z -> Z -> outcome) (a b : outcome) : outcome :=
  match a, b with
  | NotInteger, _ | _, NotInteger => NotInteger
  | ArithError, _ | _, ArithError => ArithError
  | Int x, Int y => f x y
  end.

Fixpoint value (land lor : Z -> Z -> Z) (e : expr) : outcome :=
  match e with
  | ENum _ n => Int (Z.of_N n)
  | EBool _ b => Int (truth b)
  | EParen e | EPlus e => value land lor e
  | ENeg e => map1 Z.opp (value land lor e)
  | ENot e => map1 (fun x => truth (negb (is_true x))) (value land lor e)
  | EInv e => map1 Z.lnot (value land lor e)
  | EBin o a b => map2 (meaning land lor o) (value land lor a) (value land lor b)
  | ECond c a b =>
      let pair := map2 (fun x y => Int 0%Z) (value land lor a) (value land lor b) in
      map2 (fun x _ => if is_true x then value land lor a else value land lor b)
           (value land lor c) pair
  end.

(** The logical operators of C: their value is 0 or 1. *)
Definition c_and (x y : Z) : Z := truth (is_true x && is_true y).
Definition c_or (x y : Z) : Z := truth (is_true x || is_true y).
Definition c_value : expr -> outcome := value c_and c_or.

(** The logical operators of Python: their value is the operand that decides. *)
Definition py_and (x y : Z) : Z := if is_true x then y else x.
Definition py_or (x y : Z) : Z := if is_true x then x else y.
Definition py_value : expr -> outcome := value py_and py_or.

(** How strongly an operator binds, smaller is tighter.  This is C's table, with the
    exponentiation at the level of the multiplication. *)
Definition level (o : binop) : nat :=
  match o with
  | OMul | ODiv | OMod | OPow => 1
  | OAdd | OSub => 2
  | OLs | ORs => 3
  | OLt | OLte | OGt | OGte => 4
  | OEq | ONeq => 5
  | OBand => 6
  | OXor => 7
  | OBor => 8
  | OLand => 9
  | OLor => 10
  end.
Definition expr_level (e : expr) : nat :=
  match e with
  | EBin o _ _ => level o
  | ECond _ _ _ => 11
  | _ => 0
  end.

(** The text of an expression with the parentheses that are necessary where operators of
    level at most [k] may stand: operators associate to the left, unary operators bind
    tightest. *)
Definition bracket (k l : nat) (text : list token) : list token :=
  if Nat.leb l k then text else TLpar :: text ++ [TRpar].
Fixpoint body (e : expr) : list token :=
  match e with
  | ENum s _ => [TNum s]
  | EBool s _ => [TBool s]
  | EParen e => TLpar :: body e ++ [TRpar]
  | EPlus e => TOp OAdd :: bracket 0 (expr_level e) (body e)
  | ENeg e => TOp OSub :: bracket 0 (expr_level e) (body e)
  | ENot e => TBang :: bracket 0 (expr_level e) (body e)
  | EInv e => TTilde :: bracket 0 (expr_level e) (body e)
  | EBin o a b => bracket (level o) (expr_level a) (body a) ++
                  TOp o :: bracket (level o - 1) (expr_level b) (body b)
  | ECond c a b => bracket 10 (expr_level c) (body c) ++
                   TQuest :: bracket 11 (expr_level a) (body a) ++
                   TColon :: bracket 10 (expr_level b) (body b)
  end.

(** Literals: decimal without leading zeros, hexadecimal with digits of both cases. *)
Definition hex_digits : list (ascii * N) :=
  [("0",0); ("1",1); ("2",2); ("3",3); ("4",4); ("5",5); ("6",6); ("7",7); ("8",8); ("9",9);
   ("a",10); ("b",11); ("c",12); ("d",13); ("e",14); ("f",15);
   ("A",10); ("B",11); ("C",12); ("D",13); ("E",14); ("F",15)]%char%N.
Definition digits_text (l : list (ascii * N)) : string := string_of_list_ascii (map fst l).
Definition digits_number (base : N) (l : list (ascii * N)) : N :=
  fold_left (fun v d => base * v + snd d)%N l 0%N.
Inductive literal : string -> N -> Prop :=
  | lit_decimal n : literal (dec n) n
  | lit_hex l : l <> [] -> Forall (fun d => In d hex_digits) l ->
      literal ("0x" ++ digits_text l) (digits_number 16 l).
Definition truth_literal (s : string) (b : bool) : Prop :=
  In (s, b) [("True", true); ("true", true); ("False", false); ("false", false)].
Fixpoint well_written (e : expr) : Prop :=
  match e with
  | ENum s n => literal s n
  | EBool s b => truth_literal s b
  | EParen e | EPlus e | ENeg e | ENot e | EInv e => well_written e
  | EBin _ a b => well_written a /\ well_written b
  | ECond c a b => well_written c /\ well_written a /\ well_written b
  end.

(** Operands of the logical operators that are 0 or 1 by their form. *)
Definition is_condition (e : expr) : bool :=
  match e with
  | EBool _ _ | ENot _ => true
  | EBin (OLor | OLand | OEq | ONeq | OLt | OLte | OGt | OGte) _ _ => true
  | _ => false
  end.
Fixpoint logical_on_conditions (e : expr) : bool :=
  match e with
  | ENum _ _ | EBool _ _ => true
  | EParen e | EPlus e | ENeg e | ENot e | EInv e => logical_on_conditions e
  | EBin o a b =>
      logical_on_conditions a && logical_on_conditions b &&
      match o with OLor | OLand => is_condition a && is_condition b | _ => true end
  | ECond c a b =>
      logical_on_conditions c && logical_on_conditions a && logical_on_conditions b
  end.

(** What the parser answers for an outcome; nothing is said about floats. *)
Definition answers (r : res Z) (o : outcome) : Prop :=
  match o with
  | Int z => r = Ok z
  | ArithError => r = Err ParseError
  | NotInteger => True
  end.

(** A text means what every derivation of it from the grammar evaluates to; there is one. *)
Definition text_evaluates (text : list token) (o : outcome) : Prop :=
  (exists t, derived 11 t = true /\ text_of t = text) /\
  (forall t, derived 11 t = true -> text_of t = text -> answers (lift t) o).
