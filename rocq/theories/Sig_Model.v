(** The C functions of a method: the prototype in the header of a component
    (camkes/templates/component.template.h:52-110), the stub of the caller
    (camkes/templates/rpc-connector-common-from.c:41-100), the declaration, the variables and the calls
    of the other end (camkes/templates/rpc-connector-common-to.c:49-70 and 118-181), and the functions
    between them and the message (camkes/templates/helpers/marshal.c).

    The generated program is a list of tokens; white space is left out.  A type is one token, also
    where the grammar has two words (camkes.g:164, unsigned int).  The names of the buffers and of
    their sizes, which come from the transport, are parameters and count as one token. *)
From Coq Require Import List String Bool.
From Verif Require Import Prelude.
Import ListNotations.
Open Scope string_scope. Open Scope list_scope.

Inductive dir := DIn | DRefin | DOut | DInout.
Definition dir_eqb (a b : dir) : bool :=
  match a, b with
  | DIn, DIn | DRefin, DRefin | DOut, DOut | DInout, DInout => true
  | _, _ => false
  end.
(** Parameter and Method (camkes/ast/objects.py:891-1010), without their locations.  The type is a
    string, as asserted at marshal.c:100. *)
Record param := mk_param { p_dir : dir; p_array : bool; p_type : string; p_name : string }.
Record method := mk_method { m_ret : option string; m_params : list param }.

Definition tokens := list string.

(** macros.show_type for strings (camkes/templates/macros.py:148-160) *)
Definition show_type (t : string) : tokens :=
  if String.eqb t "string" then ["char"; "*"]
  else if String.eqb t "character" then ["char"]
  else if String.eqb t "boolean" then ["bool"]
  else [t].
Definition is_string (t : string) : bool := String.eqb t "string".

(** A loop writing a comma after each element unless [loop.last] *)
Fixpoint commas (l : list tokens) : tokens :=
  match l with
  | [] => []
  | [x] => x
  | x :: r => x ++ "," :: commas r
  end.

(** ** The header: component.template.h *)
(** 65-100; the assertion of 80 holds of every direction *)
Definition header_param (p : param) : tokens :=
  if dir_eqb (p_dir p) DIn then
    (if p_array p then
       ["size_t"; p_name p ++ "_sz"; ","]%string ++
       (if is_string (p_type p) then ["char"; "*"; "*"] else "const" :: show_type (p_type p) ++ ["*"])
     else if is_string (p_type p) then ["const"; "char"; "*"]
     else show_type (p_type p)) ++ [p_name p]
  else
    (if p_array p then
       (if dir_eqb (p_dir p) DRefin then ["const"] else []) ++ ["size_t"; "*"; p_name p ++ "_sz"; ","]%string ++
       (if is_string (p_type p) then ["char"; "*"; "*"; "*"] else show_type (p_type p) ++ ["*"; "*"])
     else if is_string (p_type p) then ["char"; "*"; "*"]
     else (if dir_eqb (p_dir p) DRefin then ["const"] else []) ++ show_type (p_type p) ++ ["*"]) ++ [p_name p].
(** 64-107 *)
Definition header_params (m : method) : tokens :=
  commas (map header_param (m_params m)) ++ (if Nat.eqb (List.length (m_params m)) 0 then ["void"] else []).
(** 54-62 *)
Definition header_result (m : method) : tokens :=
  match m_ret m with
  | Some t => if is_string t then ["char"; "*"] else show_type t
  | None => ["void"]
  end.

(** ** Parameter lists: marshal.c *)
(** show_input_parameter, 7-41 *)
Definition show_input_parameter (prefix : string) (p : param) : tokens :=
  if dir_eqb (p_dir p) DIn then
    (if p_array p then
       ["size_t"; prefix ++ p_name p ++ "_sz"; ","]%string ++
       (if is_string (p_type p) then ["char"; "*"; "*"] else "const" :: show_type (p_type p) ++ ["*"])
     else if is_string (p_type p) then ["const"; "char"; "*"]
     else show_type (p_type p)) ++ [prefix ++ p_name p]%string
  else
    (if p_array p then
       (if dir_eqb (p_dir p) DRefin then ["const"] else []) ++
       ["size_t"; "*"; prefix ++ p_name p ++ "_sz"; ","]%string ++
       (if is_string (p_type p) then ["char"; "*"; "*"; "*"] else show_type (p_type p) ++ ["*"; "*"])
     else if is_string (p_type p) then ["char"; "*"; "*"]
     else (if dir_eqb (p_dir p) DRefin then ["const"] else []) ++ show_type (p_type p) ++ ["*"])
    ++ [prefix ++ p_name p]%string.
(** show_input_parameter_list, 43-48 *)
Definition show_input_parameter_list (ps : list param) (valid : list dir) (prefix : string) : res tokens :=
  l <- mapM (fun p => if existsb (dir_eqb (p_dir p)) valid then Ok (show_input_parameter prefix p)
                      else Err AssertionError) ps ;;
  Ok (commas l).
(** show_output_parameter, 50-57 *)
Definition show_output_parameter (prefix : string) (p : param) : tokens :=
  if p_array p then
    ["size_t"; "*"; prefix ++ p_name p ++ "_sz"; ","]%string ++ show_type (p_type p) ++
    ["*"; "*"; prefix ++ p_name p]%string
  else show_type (p_type p) ++ ["*"; prefix ++ p_name p]%string.
(** show_output_parameter_list, 59-63 *)
Definition show_output_parameter_list (ps : list param) (prefix : string) : tokens :=
  commas (map (show_output_parameter prefix) ps).

(** ** The functions between variables and messages: marshal.c *)
(** The filters of from.c:41 and 44 and to.c:61 and 64 *)
Definition is_input (p : param) : bool := existsb (dir_eqb (p_dir p)) [DRefin; DIn; DInout].
Definition is_output (p : param) : bool := existsb (dir_eqb (p_dir p)) [DOut; DInout].
Definition inputs (m : method) : list param := filter is_input (m_params m).
Definition outputs (m : method) : list param := filter is_output (m_params m).

Definition comma_if (b : bool) : tokens := if b then [","] else [].
Definition some {A} (l : list A) : bool := negb (Nat.eqb (List.length l) 0).

(** make_marshal_input_symbols, 81-85 *)
Definition marshal_inputs_params (m : method) : res tokens :=
  l <- show_input_parameter_list (inputs m) [DIn; DRefin; DInout] "p_" ;;
  Ok (["void"; "*"; "base"; ","; "size_t"; "size"] ++ comma_if (some (inputs m)) ++ l).
(** make_unmarshal_output_symbols, 199-208 *)
Definition unmarshal_outputs_params (m : method) : tokens :=
  ["void"; "*"; "base"; ","; "unsigned"; "size"] ++
  comma_if (match m_ret m with Some _ => true | None => some (outputs m) end) ++
  match m_ret m with
  | Some t => show_type t ++ ["*"; "return_value"] ++ comma_if (some (outputs m))
  | None => []
  end ++ show_output_parameter_list (outputs m) "p_".
(** make_unmarshal_input_symbols, 330-334 *)
Definition unmarshal_inputs_params (m : method) : tokens :=
  ["void"; "*"; "base"; ","; "unsigned"; "size"] ++ comma_if (some (inputs m)) ++
  show_output_parameter_list (inputs m) "p_".
(** make_marshal_output_symbols, 424-435 *)
Definition marshal_outputs_params (m : method) : res tokens :=
  l <- show_input_parameter_list (outputs m) [DOut; DInout] "p_" ;;
  Ok (["void"; "*"; "base"; ","; "unsigned"; "size"] ++
      match m_ret m with
      | Some t => "," :: if is_string t then ["char"; "*"; "*"; "return_var"]
                         else "const" :: show_type t ++ ["*"; "return_var"]
      | None => []
      end ++ comma_if (some (outputs m)) ++ l).

(** Expressions and macro calls in these functions *)
Inductive expr := Var (x : string) | Deref (e : expr) | Addr (x : string) | Null.
(** A local variable with its initial value: tokens of the declaration, and the value *)
Definition local := (tokens * option expr)%type.

(** make_marshal_input_symbols, 106-137; the assignment of 113 stores the parameter into itself *)
Definition marshal_input_locals (p : param) : list local :=
  let x := p_name p in
  let ptr := ("p_" ++ x ++ "_ptr")%string in
  let ptr_sz := ("p_" ++ x ++ "_ptr_sz")%string in
  let ptr_str := ("p_" ++ x ++ "_ptr_str")%string in
  let ptr_arr := ("p_" ++ x ++ "_ptr_arr")%string in
  let v := ("p_" ++ x)%string in
  if dir_eqb (p_dir p) DIn then
    if p_array p then
      [(["size_t"; "*"; ptr_sz], Some (Addr (v ++ "_sz")%string));
       (if is_string (p_type p) then (["char"; "*"; "*"; ptr_arr], Some (Var v))
        else ("const" :: show_type (p_type p) ++ ["*"; ptr_arr], Some (Var v)))]
    else if is_string (p_type p) then [(["const"; "char"; "*"; ptr_str], Some (Var v))]
    else [(show_type (p_type p) ++ ["*"; ptr], Some (Addr v))]
  else
    if p_array p then
      [(["const"; "size_t"; "*"; ptr_sz], Some (Var (v ++ "_sz")%string));
       (if is_string (p_type p) then (["char"; "*"; "*"; ptr_arr], Some (Deref (Var v)))
        else ("const" :: show_type (p_type p) ++ ["*"; ptr_arr], Some (Deref (Var v))))]
    else if is_string (p_type p) then [(["const"; "char"; "*"; ptr_str], Some (Deref (Var v)))]
    else [("const" :: show_type (p_type p) ++ ["*"; ptr], Some (Var v))].

(** The macros of libsel4camkes/include/camkes/marshal_macros.h and their first arguments *)
Inductive macro := MScalar | MString | MArray | MStringArray.
Record mcall := MC { mc_macro : macro; mc_args : list expr }.

(** make_marshal_input_symbols, 139-149 *)
Definition marshal_input_call (p : param) : mcall :=
  let x := p_name p in
  if p_array p then
    let args := [Var ("p_" ++ x ++ "_ptr_arr")%string; Var ("p_" ++ x ++ "_ptr_sz")%string] in
    if is_string (p_type p) then MC MStringArray args else MC MArray args
  else if is_string (p_type p) then MC MString [Var ("p_" ++ x ++ "_ptr_str")%string]
  else MC MScalar [Var ("p_" ++ x ++ "_ptr")%string].
(** make_unmarshal_input_symbols, 350-361, and make_unmarshal_output_symbols, 243-253 *)
Definition unmarshal_call (p : param) : mcall :=
  let v := ("p_" ++ p_name p)%string in
  if p_array p then
    let args := [Var v; Var (v ++ "_sz")%string] in
    if is_string (p_type p) then MC MStringArray args else MC MArray args
  else if is_string (p_type p) then MC MString [Var v]
  else MC MScalar [Var v].
(** make_unmarshal_output_symbols, 212-219 *)
Definition unmarshal_result_call (t : string) : mcall :=
  MC (if is_string t then MString else MScalar) [Var "return_value"].
(** make_marshal_output_symbols, 454-464 *)
Definition marshal_output_call (p : param) : mcall :=
  let v := ("p_" ++ p_name p)%string in
  if p_array p then
    let args := [Deref (Var v); Var (v ++ "_sz")%string] in
    if is_string (p_type p) then MC MStringArray args else MC MArray args
  else if is_string (p_type p) then MC MString [Deref (Var v)]
  else MC MScalar [Var v].
(** make_marshal_output_symbols, 440-447 *)
Definition marshal_result_call (t : string) : mcall :=
  if is_string t then MC MString [Deref (Var "return_var")] else MC MScalar [Var "return_var"].

(** ** The stub of the caller: rpc-connector-common-from.c *)
(** 47-49 *)
Definition stub_result (m : method) : tokens :=
  match m_ret m with Some t => show_type t | None => ["void"] end.
(** 50; no [void] if there are no parameters *)
Definition stub_params (m : method) : res tokens :=
  show_input_parameter_list (m_params m) [DIn; DRefin; DOut; DInout] "p_".
(** 55-59 *)
Definition stub_locals (m : method) : list local :=
  (["unsigned"; "size"], None) ::
  match m_ret m with
  | Some t => [(show_type t ++ ["return_val"], None);
               (show_type t ++ ["*"; "return_ptr"], Some (Addr "return_val"))]
  | None => []
  end.
(** 62: call_marshal_input, marshal.c:165-178 *)
Definition call_marshal_input (buffer size : string) (m : method) : tokens :=
  [buffer; ","; size] ++
  flat_map (fun p => "," :: (if p_array p then ["p_" ++ p_name p ++ "_sz"; ","]%string else []) ++
                     ["p_" ++ p_name p]%string) (inputs m).
(** 80: call_unmarshal_output, marshal.c:294-314 *)
Definition call_unmarshal_output (buffer : string) (m : method) : tokens :=
  [buffer; ","; "size"] ++
  match m_ret m with Some _ => [","; "return_ptr"] | None => [] end ++
  flat_map (fun p => "," :: (if p_array p then ["p_" ++ p_name p ++ "_sz"; ","]%string else []) ++
                     ["p_" ++ p_name p]%string) (outputs m).
(** 97-99 *)
Definition stub_return (m : method) : option expr :=
  match m_ret m with Some _ => Some (Deref (Var "return_ptr")) | None => None end.

(** ** The other end: rpc-connector-common-to.c *)
(** 51-53 *)
Definition extern_result (m : method) : tokens :=
  match m_ret m with Some t => show_type t | None => ["void"] end.
(** 54-59 *)
Definition extern_params (m : method) : res tokens :=
  l <- show_input_parameter_list (m_params m) [DIn; DRefin; DOut; DInout] "" ;;
  Ok (l ++ if Nat.eqb (List.length (m_params m)) 0 then ["void"] else []).
(** 120-139 *)
Definition server_locals (p : param) : list local :=
  let v := ("p_" ++ p_name p)%string in
  if p_array p then
    [(["size_t"; v ++ "_sz"]%string, None);
     (["size_t"; "*"; v ++ "_sz_ptr"]%string, Some (Addr (v ++ "_sz")%string))] ++
    (if is_string (p_type p) then
       [(["char"; "*"; "*"; v], Some Null);
        (["char"; "*"; "*"; "*"; v ++ "_ptr"]%string, Some (Addr v))]
     else
       [(show_type (p_type p) ++ ["*"; v], Some Null);
        (show_type (p_type p) ++ ["*"; "*"; v ++ "_ptr"]%string, Some (Addr v))])
  else if is_string (p_type p) then
    [(["char"; "*"; v], Some Null); (["char"; "*"; "*"; v ++ "_ptr"]%string, Some (Addr v))]
  else
    [(show_type (p_type p) ++ [v], None);
     (show_type (p_type p) ++ ["*"; v ++ "_ptr"]%string, Some (Addr v))].
(** 154-161; [name] is the name of the method *)
Definition server_result_locals (name : string) (m : method) : list local :=
  match m_ret m with
  | Some t =>
      if is_string t then
        [(["char"; "*"; name ++ "_ret"]%string, None);
         (["char"; "*"; "*"; name ++ "_ret_ptr"]%string, Some (Addr (name ++ "_ret")%string))]
      else
        [(show_type t ++ [name ++ "_ret"]%string, None);
         (show_type t ++ ["*"; name ++ "_ret_ptr"]%string, Some (Addr (name ++ "_ret")%string))]
  | None => []
  end.
(** 143: call_unmarshal_input, marshal.c:394-409 *)
Definition call_unmarshal_input (buffer : string) (m : method) : tokens :=
  [buffer; ","; "size"] ++
  flat_map (fun p => "," :: (if p_array p then ["p_" ++ p_name p ++ "_sz_ptr"; ","]%string else []) ++
                     ["p_" ++ p_name p ++ "_ptr"]%string) (inputs m).
(** 165-173, the arguments of the implementation *)
Definition call_implementation (m : method) : tokens :=
  commas (map (fun p => (if p_array p then (if dir_eqb (p_dir p) DIn then ["*"] else []) ++
                                           ["p_" ++ p_name p ++ "_sz_ptr"; ","]%string else []) ++
                        (if dir_eqb (p_dir p) DIn then ["*"] else []) ++ ["p_" ++ p_name p ++ "_ptr"]%string)
              (m_params m)).
(** 162, the variable its result is stored in *)
Definition store_result (name : string) (m : method) : option expr :=
  match m_ret m with Some _ => Some (Deref (Var (name ++ "_ret_ptr")%string)) | None => None end.
(** 181: call_marshal_output, marshal.c:482-502 *)
Definition call_marshal_output (buffer size name : string) (m : method) : tokens :=
  [buffer; ","; size] ++
  match m_ret m with Some _ => [","; name ++ "_ret_ptr"]%string | None => [] end ++
  flat_map (fun p => "," :: (if p_array p then ["p_" ++ p_name p ++ "_sz_ptr"; ","]%string else []) ++
                     ["p_" ++ p_name p ++ "_ptr"]%string) (outputs m).
