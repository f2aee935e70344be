(** What queries should select, and what results look like. *)
From Coq Require Import List Bool String Ascii ZArith.
From Verif Require Import Prelude DtQuery_Model.
Import ListNotations.
Open Scope string_scope.
Open Scope list_scope.

(** The property has the value: the element at the index, or (negative index,
    written [*]) all of them. *)
Inductive has_value : prop -> Z -> qval -> Prop :=
| hv_string l i s : (0 <= i)%Z -> nth_error l (Z.to_nat i) = Some s ->
    has_value (Strings l) i (QStr s)
| hv_strings l i : (i < 0)%Z -> has_value (Strings l) i (QList (map QStr l))
| hv_word l i z : (0 <= i)%Z -> nth_error l (Z.to_nat i) = Some z ->
    has_value (Words l) i (QInt z)
| hv_words l i : (i < 0)%Z -> has_value (Words l) i (QList (map QInt l))
| hv_byte l i z : (0 <= i)%Z -> nth_error l (Z.to_nat i) = Some z ->
    has_value (Bytes l) i (QInt z)
| hv_bytes l i : (i < 0)%Z -> Forall (fun z => -128 <= z <= 127)%Z l ->
    has_value (Bytes l) i (QList (map QInt l)).

(** A key of a query: a name, or a name and an index in brackets. *)
Definition no_char (c : ascii) (s : string) : Prop :=
  forall a b, s <> (a ++ String c b)%string.
(** [u] is [t] without the spaces at both ends. *)
Fixpoint spaces (s : string) : Prop :=
  match s with
  | EmptyString => True
  | String c r => c = " "%char /\ spaces r
  end.
Definition trimmed (t u : string) : Prop :=
  (exists a b, t = (a ++ u ++ b)%string /\ spaces a /\ spaces b) /\
  (forall r, u <> (" " ++ r)%string) /\ (forall r, u <> (r ++ " ")%string).
Inductive key_of (py_int : Z -> string -> option Z) : string -> string -> Z -> Prop :=
| key_plain k : no_char "[" k -> key_of py_int k k 0
| key_star k t rest : no_char "[" k -> no_char "]" t -> trimmed t "*" ->
    key_of py_int (k ++ "[" ++ t ++ "]" ++ rest)%string k (-1)
| key_decimal k t u rest i : no_char "[" k -> no_char "]" t ->
    trimmed t u -> u <> "*" -> (forall r, u <> ("0x" ++ r)%string) ->
    py_int 10%Z u = Some i ->
    key_of py_int (k ++ "[" ++ t ++ "]" ++ rest)%string k i
| key_hex k t u rest i : no_char "[" k -> no_char "]" t ->
    trimmed t ("0x" ++ u) -> py_int 16%Z ("0x" ++ u)%string = Some i ->
    key_of py_int (k ++ "[" ++ t ++ "]" ++ rest)%string k i.

(** A node has what an entry of a query asks for. *)
Definition meets (py_int : Z -> string -> option Z) (n : node)
  (a : string * qval) : Prop :=
  exists k i p, key_of py_int (fst a) k i /\
    In (k, p) (n_props n) /\ has_value p i (snd a).
Definition node_ok (n : node) : Prop := NoDup (map fst (n_props n)).

(** [l] is what is left of [m] when only elements with [P] are kept. *)
Inductive kept {A} (P : A -> Prop) : list A -> list A -> Prop :=
| kept_nil : kept P [] []
| kept_in x m l : P x -> kept P m l -> kept P (x :: m) (x :: l)
| kept_out x m l : ~ P x -> kept P m l -> kept P (x :: m) l.

(** The value is of a kind that can be compared with the property. *)
Definition small (v : qval) : Prop :=
  exists z, v = QInt z /\ (-128 <= z <= 127)%Z.
Definition comparable (p : prop) (i : Z) (v : qval) : Prop :=
  match p with
  | Strings _ => (i < 0 /\ exists l, v = QList l)%Z \/
                 (0 <= i /\ exists s, v = QStr s)%Z
  | Words _ => (i < 0 /\ exists l, v = QList l)%Z \/
               (0 <= i /\ exists z, v = QInt z)%Z
  | Bytes _ => (i < 0 /\ exists l, v = QList l /\ Forall small l)%Z \/
               (0 <= i /\ exists z, v = QInt z)%Z
  | Empty => False
  end.
Definition answerable (py_int : Z -> string -> option Z) (tree : list node)
  (a : string * qval) : Prop :=
  exists k i, key_of py_int (fst a) k i /\
    forall n p, In n tree -> In (k, p) (n_props n) -> comparable p i (snd a).

(** One string occurs in another, up to the case of letters. *)
Definition letters : list (ascii * ascii) :=
  [("A","a"); ("B","b"); ("C","c"); ("D","d"); ("E","e"); ("F","f");
   ("G","g"); ("H","h"); ("I","i"); ("J","j"); ("K","k"); ("L","l");
   ("M","m"); ("N","n"); ("O","o"); ("P","p"); ("Q","q"); ("R","r");
   ("S","s"); ("T","t"); ("U","u"); ("V","v"); ("W","w"); ("X","x");
   ("Y","y"); ("Z","z")]%char.
Definition same_letter (c d : ascii) : Prop :=
  c = d \/ In (c, d) letters \/ In (d, c) letters.
Fixpoint same_text (s t : string) : Prop :=
  match s, t with
  | EmptyString, EmptyString => True
  | String c s, String d t => same_letter c d /\ same_text s t
  | _, _ => False
  end.
Definition occurs_in (p s : string) : Prop :=
  exists a m b, s = (a ++ m ++ b)%string /\ same_text p m.
(** [n] is the only node whose path contains the given one. *)
Definition only_node (tree : list node) (path : string) (n : node) : Prop :=
  In n tree /\ occurs_in path (n_path n) /\
  forall m, In m tree -> occurs_in path (n_path m) -> m = n.
(** What the property [name] of /aliases or /chosen says. *)
Definition says (d : option (list (string * prop))) (name s : string) : Prop :=
  exists ps, d = Some ps /\ dget ps name = Some (Strings [s]).
(** The part before the first colon (what follows are options). *)
Definition before_colon (s t : string) : Prop :=
  no_char ":" t /\ (s = t \/ exists r, s = (t ++ ":" ++ r)%string).

(** Looking up keys one after the other. *)
Inductive looked_up : dval -> list string -> dval -> Prop :=
| lu_here v : looked_up v [] v
| lu_key d k v ks w : dget d k = Some v -> looked_up v ks w ->
    looked_up (DDict d) (k :: ks) w.

Fixpoint every_char (p : ascii -> bool) (s : string) : Prop :=
  match s with
  | EmptyString => True
  | String c r => p c = true /\ every_char p r
  end.

(** Word characters of Latin-1: ASCII letters, digits and underscore, the
    ordinal indicators, superscripts, micro sign and fractions, and letters
    with diacritics (not the signs for multiplication and division). *)
Definition word (c : ascii) : bool :=
  let n := N_of_ascii c in
  existsb (Ascii.eqb c)
    (list_ascii_of_string
       "abcdefghijklmnopqrstuvwxyzABCDEFGHIJKLMNOPQRSTUVWXYZ0123456789_")
  || existsb (N.eqb n) [170; 178; 179; 181; 185; 186; 188; 189; 190]%N
  || ((192 <=? n)%N && negb (n =? 215)%N && negb (n =? 247)%N).
Fixpoint underscored (s : string) : string :=
  match s with
  | EmptyString => ""
  | String c r => String (if word c then c else "_"%char) (underscored r)
  end.
(** A word followed by a newline is taken for a word. *)
Definition word_line (s : string) : Prop :=
  exists t, t <> "" /\ every_char word t /\
    s = (t ++ String "010"%char "")%string.
