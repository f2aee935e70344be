(** C44: numeric constant expressions. *)
From Coq Require Import Ascii String List Bool NArith ZArith.
From Verif Require Import Prelude DecStr Numeric_Model Numeric_Spec Numeric_Proofs.
Import ListNotations.
Open Scope string_scope.
Open Scope list_scope.

(** An expression written with C's precedences has one reading in the grammar, and that
    reading has the value of the expression, provided the operands of the logical operators
    are conditions; an arithmetic error is a parse error.  Missing: logical operators on
    other numbers (see below). *)
Theorem C44_value_partial e : well_written e -> logical_on_conditions e = true ->
  text_evaluates (body e) (c_value e).
Proof. exact (c_expression_text e). Qed.
Print Assumptions C44_value_partial.

Example C44_example :
  (* -2 + 3 * (4 - 1) << 0x2 == +(28) && !False *)
  let e := EBin OLand
             (EBin OEq (EBin OLs (EBin OAdd (ENeg (ENum "2" 2))
                (EBin OMul (ENum "3" 3) (EBin OSub (ENum "4" 4) (ENum "1" 1)))) (ENum "0x2" 2))
                (EPlus (EParen (ENum "28" 28))))
             (ENot (EBool "False" false)) in
  well_written e /\ logical_on_conditions e = true /\ c_value e = Int 1 /\
  body e = [TOp OSub; TNum "2"; TOp OAdd; TNum "3"; TOp OMul; TLpar; TNum "4"; TOp OSub;
            TNum "1"; TRpar; TOp OLs; TNum "0x2"; TOp OEq; TOp OAdd; TLpar; TNum "28"; TRpar;
            TOp OLand; TBang; TBool "False"].
Proof.
  assert (D : forall n, literal (dec n) n) by (intro; constructor).
  split; [|vm_compute; auto].
  repeat split; [exact (D 2%N)|exact (D 3%N)|exact (D 4%N)|exact (D 1%N)| |exact (D 28%N)|].
  - apply (lit_hex [("2"%char, 2%N)]); [discriminate|]. constructor; [cbn; tauto|constructor].
  - cbn. tauto.
Qed.
Example C44_example_error :
  c_value (EBin OLor (ENum "1" 1) (EBin ODiv (ENum "1" 1) (ENum "0" 0))) = ArithError.
Proof. reflexivity. Qed.

(** Without that proviso the value is the one with Python's logical operators, which give
    the deciding operand instead of 0 or 1. *)
Theorem C44_python_value e : well_written e -> text_evaluates (body e) (py_value e).
Proof. exact (python_value e). Qed.
Print Assumptions C44_python_value.

(** Finding: '2 && 3' is 3. *)
Theorem C44_logical_and_refuted : exists e,
  text_evaluates (body e) (Int 3) /\ c_value e = Int 1.
Proof. exact and_refuted. Qed.
Print Assumptions C44_logical_and_refuted.

(** Finding: unlike C's, a conditional expression is not accepted as the last part of
    another one unless it is in parentheses. *)
Theorem C44_conditional_chain c a e x :
  well_written c -> well_written a -> well_written e -> forall t,
  text_of t = bracket 10 (expr_level c) (body c) ++ TQuest :: bracket 11 (expr_level a) (body a) ++
              TColon :: bracket 10 (expr_level e) (body e) ++ TQuest :: x ->
  derived 11 t = false.
Proof. exact (conditional_chain c a e x). Qed.
Print Assumptions C44_conditional_chain.

(** A text has at most one reading. *)
Theorem C44_unambiguous t1 t2 : derived 11 t1 = true -> derived 11 t2 = true ->
  text_of t1 = text_of t2 -> t1 = t2.
Proof. exact (one_derivation t1 t2). Qed.
Print Assumptions C44_unambiguous.

(** Whatever is written, the only error reported is a parse error ([OtherException] marks
    the floating point numbers, which are not modelled). *)
Theorem C44_errors t x : lift t = Err x -> x = ParseError \/ x = OtherException.
Proof. exact (errors_are_parse_errors t x). Qed.
Print Assumptions C44_errors.

(** A decimal literal with a leading zero is refused unless it is zero. *)
Theorem C44_leading_zero l : l <> [] ->
  Forall (fun d => In d hex_digits /\ (snd d < 10)%N) l ->
  lift (NNum ("0" ++ digits_text l)) =
  if (digits_number 10 l =? 0)%N then Ok 0%Z else Err ParseError.
Proof. exact (leading_zero l). Qed.
Print Assumptions C44_leading_zero.
Example C44_leading_zero_example :
  digits_text [("1", 1%N); ("2", 2%N)]%char = "12" /\ digits_number 10 [("1", 1%N); ("2", 2%N)]%char = 12%N.
Proof. split; reflexivity. Qed.

(** The size of a buffer must be positive, a number of threads must not be negative. *)
Theorem C44_dataport_size t v : lift_dataport_size t = Ok v <-> lift t = Ok v /\ (0 < v)%Z.
Proof. exact (dataport_size t v). Qed.
Print Assumptions C44_dataport_size.
Theorem C44_thread_count t v : lift_thread_count t = Ok v <-> lift t = Ok v /\ (0 <= v)%Z.
Proof. exact (thread_count t v). Qed.
Print Assumptions C44_thread_count.
