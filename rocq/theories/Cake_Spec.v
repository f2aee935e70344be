(** What an RPC server in CakeML is expected to do, independent of the model's
    functions. *)
From Coq Require Import List NArith ZArith String.
From Verif Require Import Prelude Marshal_Model Marshal_Spec Cake_Model.
Import ListNotations.
Open Scope string_scope.
Open Scope N_scope.
Open Scope list_scope.

(** The types supported, and what they are for a client in C. *)
Inductive typed : cparam -> ptype -> Prop :=
| ty_uint8 : typed {| cp_type := "uint8_t"; cp_array := false |} (PScalar 1)
| ty_uint16 : typed {| cp_type := "uint16_t"; cp_array := false |} (PScalar 2)
| ty_uint32 : typed {| cp_type := "uint32_t"; cp_array := false |} (PScalar 4)
| ty_uint64 : typed {| cp_type := "uint64_t"; cp_array := false |} (PScalar 8)
| ty_string : typed {| cp_type := "string"; cp_array := false |} PString.

(** An argument of a C caller and what the CakeML function gets for it: the
    number, the string. *)
Inductive received : pval -> cval -> Prop :=
| rc_int bs : received (VScalar bs) (CvInt (Z.of_N (le_value bs)))
| rc_string s : received (VString s) (CvStr s).

(** A value that the CakeML function may return for a type, and the space it
    needs in a message. *)
Inductive result : ptype -> cval -> N -> Prop :=
| rs_int k z : result (PScalar k) (CvInt z) k
| rs_string s : is_cstring s -> result PString (CvStr s) (nlen s + 1).
Inductive results : list ptype -> list cval -> N -> Prop :=
| rs_nil : results [] [] 0
| rs_cons t ts v vs n ns : result t v n -> results ts vs ns -> results (t :: ts) (v :: vs) (n + ns).

(** A value returned by the CakeML function and what the C caller gets:
    integers are reduced to the width of the type, strings are the same. *)
Inductive returned : cval -> rval -> Prop :=
| rt_int z bs :
    Forall (fun b => b < 256) bs ->
    Z.of_N (le_value bs) = (z mod 256 ^ Z.of_N (nlen bs))%Z ->
    returned (CvInt z) (RScalar bs)
| rt_string s : returned (CvStr s) (RString s).

(** The clients with badge [b] use an interface with methods [ms]. *)
Definition serves (types : list (list N * list cmethod)) (b : N) (ms : list cmethod) : Prop :=
  (exists bs, In (bs, ms) types /\ In b bs) /\
  forall bs' ms', In (bs', ms') types -> In b bs' -> ms' = ms.

(** The number that a sequence of bytes stands for, most significant first. *)
Definition be_value (bs : list N) : N := le_value (rev bs).
