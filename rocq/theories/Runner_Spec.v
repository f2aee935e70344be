(** What C46 and C47 say. *)
From Coq Require Import List Bool Arith NArith ZArith String Ascii.
From Verif Require Import Prelude DecStr Context_Model Runner_Model.
Import ListNotations.
Open Scope string_scope.
Open Scope list_scope.

(** The address spaces of the software instances, each once, in order of appearance. *)
Definition software (a : asm) : list inst := filter (fun i => negb (in_hardware i)) (as_insts a).
Definition is_space (a : asm) (k : string) : Prop := exists i, In i (as_insts a) /\ in_hardware i = false /\ in_space i = k.

(** The instance an entity belongs to. *)
Definition entity_inst (e : entity) : option inst :=
  match e with EInst i => Some i | EEnd _ _ i => Some i | EAssembly => None end.
(** The entity belongs to the assembly. *)
Definition entity_in (a : asm) (e : entity) : Prop :=
  match e with
  | EInst i => In i (as_insts a)
  | EEnd c true i => In c (as_conns a) /\ In i (cn_to c)
  | EEnd c false i => In c (as_conns a) /\ In i (cn_from c)
  | EAssembly => True
  end.

(** The entity an item such as component/NAME or connector/NAME/from/INDEX names; what
    follows a further slash is not looked at, and negative indices count from the end. *)
Definition ignored (rest : string) : Prop := rest = "" \/ exists r, rest = String "/" r.
Definition indexed {A} (l : list A) (z : Z) (x : A) : Prop := exists n,
  nth_error l n = Some x /\ (z = Z.of_nat n \/ z = Z.of_nat n - Z.of_nat (List.length l))%Z.
Inductive names (pyint : string -> res Z) (a : asm) : string -> entity -> Prop :=
  | names_instance i rest : In i (as_insts a) -> ignored rest ->
      names pyint a ("component/" ++ in_name i ++ rest)%string (EInst i)
  | names_to c idx z i rest : In c (as_conns a) -> pyint idx = Ok z -> indexed (cn_to c) z i ->
      ignored rest ->
      names pyint a ("connector/" ++ cn_name c ++ "/to/" ++ idx ++ rest)%string (EEnd c true i)
  | names_from c idx z i rest : In c (as_conns a) -> pyint idx = Ok z -> indexed (cn_from c) z i ->
      ignored rest ->
      names pyint a ("connector/" ++ cn_name c ++ "/from/" ++ idx ++ rest)%string (EEnd c false i)
  | names_assembly rest : ignored rest -> names pyint a ("assembly" ++ rest)%string EAssembly.

(** Each output is rendered from the item and template at its position. *)
Definition lined_up (pyint : string -> res Z) (a : asm) (outs items templates : list string) (calls : list call) : Prop :=
  List.length calls = List.length outs /\
  forall n out, nth_error outs n = Some out -> exists c item template,
    nth_error calls n = Some c /\ nth_error items n = Some item /\ nth_error templates n = Some template /\
    ca_out c = out /\ ca_template c = template /\ names pyint a item (ca_entity c).

(** No slash in a name. *)
Definition no_slash (s : string) : Prop := all_chars (fun c => negb (Ascii.eqb c "/"%char)) s = true.
