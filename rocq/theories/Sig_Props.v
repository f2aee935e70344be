(** C121, C122: the C functions of a method *)
From Coq Require Import List String Bool.
From Verif Require Import Prelude Sig_Model Sig_Spec Sig_Proofs Sig_Proofs2 Sig_Proofs3.
Import ListNotations.
Open Scope string_scope. Open Scope list_scope.

(** C121: the header of either component declares what the interface promises. *)
Theorem C121_header : forall m, ok_method m ->
  parse_params (header_params m) = Some (signature m) /\ parse_type (header_result m) = Some (result m).
Proof. exact header_ok. Qed.
Print Assumptions C121_header.

(** C121: the function the caller calls is defined with these types; its parameters have the names of
    the interface after p_. *)
Theorem C121_stub : forall m, ok_method m -> exists toks, stub_params m = Ok toks /\
  parse_params toks = Some (prefixed (signature m)) /\ parse_type (stub_result m) = Some (result m).
Proof. exact stub_ok. Qed.
Print Assumptions C121_stub.

(** C121: the other end expects the implementation to have these types. *)
Theorem C121_implementation : forall m, ok_method m -> exists toks, extern_params m = Ok toks /\
  parse_params toks = Some (signature m) /\ parse_type (extern_result m) = Some (result m).
Proof. exact extern_ok. Qed.
Print Assumptions C121_implementation.

(** C121: no two variables of the stub have the same name, if the parameters' names are apart ... *)
Theorem C121_names_partial : forall m E, ok_method m -> apart m ->
  declare (prefixed (signature m)) (stub_locals m) E -> NoDup (map snd E).
Proof. exact client_names. Qed.
Print Assumptions C121_names_partial.

(** ... but it is not enough that they are different. *)
Theorem C121_names_refuted :
  ~ (forall m, ok_method m -> NoDup (map p_name (m_params m)) ->
       forall l, parse_params (header_params m) = Some l -> NoDup (map snd l)).
Proof. exact clash_refutes. Qed.
Print Assumptions C121_names_refuted.

(** C122: the functions between variables and messages take, for the parameters sent and the ones
    returned, in order, what is promised or references to variables of the parameters' types. *)
Theorem C122_functions : forall m ins outs, ok_method m ->
  sub sent (m_params m) ins -> sub returned (m_params m) outs ->
  (exists toks, marshal_inputs_params m = Ok toks /\
     parse_params toks = Some (buffer_of "size_t" ++ prefixed (flat_map promised ins))) /\
  parse_params (unmarshal_inputs_params m) = Some (buffer_of "unsigned" ++ prefixed (flat_map referenced ins)) /\
  (exists toks, marshal_outputs_params m = Ok toks /\
     parse_params toks = Some (buffer_of "unsigned" ++
       match m_ret m with
       | Some t => [(CPtr (if String.eqb t "string" then c_type t else CConst (c_type t)), "return_var")]
       | None => []
       end ++ prefixed (flat_map promised outs))) /\
  parse_params (unmarshal_outputs_params m) = Some (buffer_of "unsigned" ++
    match m_ret m with Some t => [(CPtr (c_type t), "return_value")] | None => [] end ++
    prefixed (flat_map referenced outs)).
Proof. exact functions_ok. Qed.
Print Assumptions C122_functions.

(** C122: the stub's variables are declared correctly; it calls both functions with its own
    parameters, in order and of the types they take, and returns a value of the result type. *)
Theorem C122_caller : forall m buffer size rbuffer, ok_method m -> word buffer -> word size -> word rbuffer ->
  exists E toks,
    declare (prefixed (signature m)) (stub_locals m) E /\
    marshal_inputs_params m = Ok toks /\
    good_call E toks (call_marshal_input buffer size m) buffer size [] (fun x => x) /\
    good_call E (unmarshal_outputs_params m) (call_unmarshal_output rbuffer m) rbuffer "size"
      (ret_name m "return_ptr") (fun x => x) /\
    (forall e, stub_return m = Some e -> has E e (result m)) /\
    (stub_return m = None <-> m_ret m = None).
Proof. exact caller_ok. Qed.
Print Assumptions C122_caller.

(** C122: the server's variables are declared correctly; it unmarshals into them, gives the
    implementation what its type says, stores its result, and marshals from them. *)
Theorem C122_server : forall name m buffer size rbuffer, ok_method m -> word buffer -> word size -> word rbuffer ->
  exists E toks,
    declare [(CBase "unsigned", "size")] (flat_map server_locals (m_params m) ++ server_result_locals name m) E /\
    good_call E (unmarshal_inputs_params m) (call_unmarshal_input rbuffer m) rbuffer "size" []
      (fun x => x ++ "_ptr")%string /\
    parse_args (call_implementation m) = Some (flat_map given (m_params m)) /\
    Forall2 (accepts E) (flat_map given (m_params m)) (map fst (signature m)) /\
    (forall e, store_result name m = Some e -> has E e (result m)) /\
    (store_result name m = None <-> m_ret m = None) /\
    marshal_outputs_params m = Ok toks /\
    good_call E toks (call_marshal_output buffer size name m) buffer size
      (ret_name m (name ++ "_ret_ptr")%string) (fun x => x ++ "_ptr")%string.
Proof. exact server_ok. Qed.
Print Assumptions C122_server.

(** C122: the pointer the server uses for a variable is to this variable. *)
Theorem C122_pointers : forall p, ok_param p -> refers p (server_locals p).
Proof. exact refers_ok. Qed.
Print Assumptions C122_pointers.

(** C122: so is the pointer for the result, on both sides. *)
Theorem C122_result_pointers : forall name m t, ok_method m -> m_ret m = Some t ->
  refers_result t (name ++ "_ret")%string (name ++ "_ret_ptr")%string (server_result_locals name m) /\
  refers_result t "return_val" "return_ptr" (stub_locals m).
Proof. exact refers_result_ok. Qed.
Print Assumptions C122_result_pointers.

(** C122: each parameter is put into a message, and read from it, by the macro for its kind, which
    gets the variables of this parameter and of the right types. *)
Theorem C122_sent : forall p, ok_param p -> p_dir p <> DOut ->
  exists E, declare (prefixed (promised p)) (marshal_input_locals p) E /\
    takes E (marshal_input_call p) (c_type (p_type p)) /\
    mc_macro (marshal_input_call p) = macro_of (p_array p) (p_type p).
Proof. exact marshal_input_ok. Qed.
Print Assumptions C122_sent.
Theorem C122_read : forall p, ok_param p ->
  sets (prefixed (referenced p)) (unmarshal_call p) (c_type (p_type p)) /\
  mc_macro (unmarshal_call p) = macro_of (p_array p) (p_type p).
Proof. exact unmarshal_ok. Qed.
Print Assumptions C122_read.
Theorem C122_returned : forall p, ok_param p -> returned p ->
  takes (prefixed (promised p)) (marshal_output_call p) (c_type (p_type p)) /\
  mc_macro (marshal_output_call p) = macro_of (p_array p) (p_type p).
Proof. exact marshal_output_ok. Qed.
Print Assumptions C122_returned.
Theorem C122_result : forall t, word t ->
  sets [(CPtr (c_type t), "return_value")] (unmarshal_result_call t) (c_type t) /\
  takes [(CPtr (if String.eqb t "string" then c_type t else CConst (c_type t)), "return_var")]
    (marshal_result_call t) (c_type t) /\
  mc_macro (unmarshal_result_call t) = macro_of false t /\ mc_macro (marshal_result_call t) = macro_of false t.
Proof. exact result_macros. Qed.
Print Assumptions C122_result.

(** C122: no two variables of the server have the same name, if the parameters' names are apart and
    that of the method is not p and does not begin with p_ ... *)
Theorem C122_names_partial : forall name m E, ok_method m -> apart m -> String.prefix "p_" (name ++ "_") = false ->
  declare [(CBase "unsigned", "size")] (flat_map server_locals (m_params m) ++ server_result_locals name m) E ->
  NoDup (map snd E).
Proof. exact server_names. Qed.
Print Assumptions C122_names_partial.

(** ... but not for a method p with a parameter ret. *)
Theorem C122_names_refuted :
  ~ (forall name m E, ok_method m -> apart m ->
       declare [(CBase "unsigned", "size")] (flat_map server_locals (m_params m) ++ server_result_locals name m) E ->
       NoDup (map snd E)).
Proof. exact p_ret_refutes. Qed.
Print Assumptions C122_names_refuted.

(** A method meeting the hypotheses, and what becomes of it *)
Definition greet : method :=
  mk_method (Some "string")
    [mk_param DIn false "string" "who"; mk_param DRefin true "uint64_t" "times";
     mk_param DInout true "string" "names"; mk_param DOut false "boolean" "ok"].
Example C121_met : ok_method greet /\ apart greet /\
  header_params greet =
    ["const"; "char"; "*"; "who"; ","; "const"; "size_t"; "*"; "times_sz"; ",";
     "uint64_t"; "*"; "*"; "times"; ","; "size_t"; "*"; "names_sz"; ","; "char"; "*"; "*"; "*"; "names"; ",";
     "bool"; "*"; "ok"] /\
  String.prefix "p_" ("greet" ++ "_") = false /\
  call_implementation greet =
    ["*"; "p_who_ptr"; ","; "p_times_sz_ptr"; ","; "p_times_ptr"; ","; "p_names_sz_ptr"; ","; "p_names_ptr"; ","; "p_ok_ptr"].
Proof.
  split; [|split; [|split; [reflexivity|split; reflexivity]]].
  - split; [repeat constructor; discriminate|]. intros t [= <-]. repeat split; discriminate.
  - split; [repeat constructor; cbn; intuition discriminate|]. intros p q s Hp Hq Hs. cbn in Hp, Hq, Hs.
    repeat (destruct Hp as [<-|Hp]); try contradiction; repeat (destruct Hq as [<-|Hq]); try contradiction;
    repeat (destruct Hs as [<-|Hs]); try contradiction; discriminate.
Qed.
Example C122_met :
  sub sent (m_params greet)
    [mk_param DIn false "string" "who"; mk_param DRefin true "uint64_t" "times"; mk_param DInout true "string" "names"] /\
  sub returned (m_params greet) [mk_param DInout true "string" "names"; mk_param DOut false "boolean" "ok"] /\
  word "connector_buffer".
Proof.
  split; [|split; [|repeat split; discriminate]];
    repeat first [ apply sub_nil | apply sub_take; [first [discriminate | left; reflexivity | right; reflexivity]|]
                 | apply sub_drop; [first [intros [H|H]; discriminate | intros H; now apply H]|] ].
Qed.
