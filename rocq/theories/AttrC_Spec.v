(** How a C compiler reads the initialiser of a constant, as far as needed (C88),
    and what the value of an attribute should be in C; well-formedness of a sequence
    of struct definitions (C89). *)
From Coq Require Import List String Ascii Bool NArith.
From Verif Require Import Prelude AttrC_Model.
Import ListNotations.
Open Scope string_scope.
Open Scope list_scope.

Definition backslash : ascii := ascii_of_nat 92.
Definition nl : ascii := ascii_of_nat 10.
Definition dquote : ascii := ascii_of_nat 34.

(** A backslash before the end of a line joins the line with the next. *)
Fixpoint splice (s : string) : string :=
  match s with
  | String c s' =>
      match s' with
      | String d s'' => if Ascii.eqb c backslash && Ascii.eqb d nl then splice s''
                        else String c (splice s')
      | EmptyString => s
      end
  | EmptyString => s
  end.

(** Tokens. *)
Inductive tok :=
| TL | TR | TComma | TDot | TEq
| TWord (w : string)
| TStr (s : string).

Definition between (a b c : ascii) : bool :=
  Nat.leb (nat_of_ascii a) (nat_of_ascii c) && Nat.leb (nat_of_ascii c) (nat_of_ascii b).
Definition alnum (c : ascii) : bool :=
  between "a" "z" c || between "A" "Z" c || between "0" "9" c || Ascii.eqb c "_".
(** First and later characters of a number or an identifier. *)
Definition word_start (c : ascii) : bool := alnum c || Ascii.eqb c "-".
Definition word_char (c : ascii) : bool :=
  alnum c || Ascii.eqb c "." || Ascii.eqb c "+" || Ascii.eqb c "-".

Inductive lstate :=
| Plain
| InWord (w : string)
| InStr (s : string)
| InEsc (s : string).

Definition snoc (s : string) (c : ascii) : string := (s ++ String c "")%string.

(** A character between tokens: the token it is, and the state after it. *)
Definition start (c : ascii) : option (list tok * lstate) :=
  if Ascii.eqb c " " || Ascii.eqb c nl then Some ([], Plain)
  else if Ascii.eqb c "{" then Some ([TL], Plain)
  else if Ascii.eqb c "}" then Some ([TR], Plain)
  else if Ascii.eqb c "," then Some ([TComma], Plain)
  else if Ascii.eqb c "." then Some ([TDot], Plain)
  else if Ascii.eqb c "=" then Some ([TEq], Plain)
  else if Ascii.eqb c dquote then Some ([], InStr "")
  else if word_start c then Some ([], InWord (String c ""))
  else None.
(** A character after a backslash in a string literal. *)
Definition escape (c : ascii) : option ascii :=
  if Ascii.eqb c "n" then Some nl
  else if Ascii.eqb c "t" then Some (ascii_of_nat 9)
  else if Ascii.eqb c backslash then Some backslash
  else if Ascii.eqb c dquote then Some dquote
  else None.

Fixpoint lex (s : string) (st : lstate) : option (list tok) :=
  match s with
  | EmptyString =>
      match st with
      | Plain => Some []
      | InWord w => Some [TWord w]
      | _ => None
      end
  | String c s =>
      match st with
      | Plain =>
          match start c with
          | Some (ts, st) => option_map (app ts) (lex s st)
          | None => None
          end
      | InWord w =>
          if word_char c then lex s (InWord (snoc w c))
          else match start c with
               | Some (ts, st) => option_map (app (TWord w :: ts)) (lex s st)
               | None => None
               end
      | InStr l =>
          if Ascii.eqb c dquote then option_map (cons (TStr l)) (lex s Plain)
          else if Ascii.eqb c backslash then lex s (InEsc l)
          else if Ascii.eqb c nl then None
          else lex s (InStr (snoc l c))
      | InEsc l =>
          match escape c with
          | Some e => lex s (InStr (snoc l e))
          | None => None
          end
      end
  end.

(** A value in C: a string, a number or name, or a list in braces whose items may be
    for named fields. *)
Inductive cval :=
| CStr (s : string)
| CWord (w : string)
| CBraces (items : list (option string * cval)).

Fixpoint p_value (fuel : nat) (ts : list tok) : option (cval * list tok) :=
  match fuel with
  | O => None
  | S fuel =>
    match ts with
    | TStr s :: ts => Some (CStr s, ts)
    | TWord w :: ts => Some (CWord w, ts)
    | TL :: ts =>
        match p_items fuel ts with
        | Some (items, ts) => Some (CBraces items, ts)
        | None => None
        end
    | _ => None
    end
  end
with p_items (fuel : nat) (ts : list tok) : option (list (option string * cval) * list tok) :=
  match fuel with
  | O => None
  | S fuel =>
    let item name ts :=
      match p_value fuel ts with
      | Some (v, TComma :: ts) =>
          match p_items fuel ts with
          | Some (items, ts) => Some ((name, v) :: items, ts)
          | None => None
          end
      | Some (v, TR :: ts) => Some ([(name, v)], ts)
      | _ => None
      end in
    match ts with
    | TR :: ts => Some ([], ts)
    | TDot :: TWord n :: TEq :: ts => item (Some n) ts
    | _ => item None ts
    end
  end.

(** What the text of an initialiser is read as. *)
Definition c_read (s : string) : option cval :=
  match lex (splice s) Plain with
  | Some ts => match p_value (S (List.length ts)) ts with
               | Some (v, []) => Some v
               | _ => None
               end
  | None => None
  end.

(** The C value that the setting of an attribute stands for: strings and literals
    are themselves, a dictionary for a struct gives each field of the struct its
    value, and a list is the list of its elements. *)
Inductive stands_for : ctype -> value -> cval -> Prop :=
| sf_str n s : stands_for (Named n) (VStr s) (CStr s)
| sf_lit n w : stands_for (Named n) (VLit w) (CWord w)
| sf_struct n fs d items : stands_for_fields fs d items ->
    stands_for (Struct n fs) (VDict d) (CBraces items)
with stands_for_fields : list field -> list (string * value) -> list (option string * cval) -> Prop :=
| sf_nil d : stands_for_fields [] d []
| sf_cons n arr t fs d x c items :
    get n d = Some x -> stands_for_attr arr t x c -> stands_for_fields fs d items ->
    stands_for_fields ((n, arr, t) :: fs) d ((Some n, c) :: items)
with stands_for_attr : bool -> ctype -> value -> cval -> Prop :=
| sf_single t v c : stands_for t v c -> stands_for_attr false t v c
| sf_array t l cs : stands_for_list t l cs -> stands_for_attr true t (VList l) (CBraces cs)
with stands_for_list : ctype -> list value -> list (option string * cval) -> Prop :=
| sf_end t : stands_for_list t [] []
| sf_next t v l c cs : stands_for t v c -> stands_for_list t l cs ->
    stands_for_list t (v :: l) ((None, c) :: cs).

(** Strings, literals and field names that mean themselves in C. *)
Fixpoint chars (f : ascii -> bool) (s : string) : bool :=
  match s with EmptyString => true | String c s => f c && chars f s end.
Definition plain_string (s : string) : bool :=
  chars (fun c => negb (Ascii.eqb c dquote || Ascii.eqb c backslash || Ascii.eqb c nl)) s.
Definition plain_word (s : string) : bool :=
  match s with
  | EmptyString => false
  | String c s => word_start c && chars word_char s
  end.
Inductive plain : cval -> Prop :=
| plain_str s : plain_string s = true -> plain (CStr s)
| plain_lit w : plain_word w = true -> plain (CWord w)
| plain_braces items :
    (forall n v, In (n, v) items ->
       plain v /\ match n with Some n => plain_word n = true | None => True end) ->
    plain (CBraces items).

(** A sequence of struct definitions is well-formed if no struct is defined twice and
    the struct types of fields are defined before.  [known] are the names defined so
    far. *)
Inductive well_formed (known : list string) : list def -> Prop :=
| wf_nil : well_formed known []
| wf_cons name fs defs :
    ~ In name known ->
    (forall n t l, In (t, n, l) fs -> forall s, t = ("struct " ++ s)%string -> In s known) ->
    well_formed (name :: known) defs ->
    well_formed known ((name, fs) :: defs).

(** The types that occur in a type. *)
Inductive part : ctype -> ctype -> Prop :=
| part_self t : part t t
| part_field n fs f t : In f fs -> part (f_type f) t -> part (Struct n fs) t.

(** The values of structs in the settings: [uses t array v s] says that a value of
    type [t], or an array of such values, uses the struct [s] with a value; [None] if
    there is none (not set, or an empty array). *)
Inductive uses : ctype -> bool -> option value -> string * list field * option value -> Prop :=
| uses_single n fs v : uses (Struct n fs) false v (n, fs, v)
| uses_element n fs l x : In x l -> uses (Struct n fs) true (Some (VList l)) (n, fs, Some x)
| uses_empty n fs v :
    v = None \/ v = Some (VList []) \/ v = Some (VDict []) \/ v = Some (VStr "") ->
    uses (Struct n fs) true v (n, fs, None)
| uses_absent n fs m arr t s : In (m, arr, t) fs -> uses t arr None s ->
    uses (Struct n fs) true (Some (VDict [])) s
| uses_field n fs m arr t d s : In (m, arr, t) fs -> uses t arr (get m d) s ->
    uses (Struct n fs) false (Some (VDict d)) s.

(** The value gives field [f] an array of [k] elements. *)
Definition has_elements (v : option value) (f : string) (k : N) : Prop :=
  exists d l, v = Some (VDict d) /\ get f d = Some (VList l) /\ N.of_nat (List.length l) = k.

(** No array, at any depth, has a struct with a struct among its fields as its
    elements. *)
Inductive flat_arrays : bool -> ctype -> Prop :=
| flat_named arr n : flat_arrays arr (Named n)
| flat_single n fs : (forall m arr t, In (m, arr, t) fs -> flat_arrays arr t) ->
    flat_arrays false (Struct n fs)
| flat_array n fs : (forall m arr t, In (m, arr, t) fs -> exists k, t = Named k) ->
    flat_arrays true (Struct n fs).

(** Type, name and whether it is an array, of a field as declared by the user and as
    printed. *)
Definition signature (f : field) : string * string * bool := (show_type (f_type f), f_name f, f_array f).
Definition printed (x : string * string * option N) : string * string * bool :=
  (fst (fst x), snd (fst x), match snd x with Some _ => true | None => false end).

(** The C types of the types of attributes. *)
Inductive c_type : ctype -> string -> Prop :=
| ct_string : c_type (Named "string") "char *"
| ct_character : c_type (Named "character") "char"
| ct_boolean : c_type (Named "boolean") "bool"
| ct_other n : ~ In n ["string"; "character"; "boolean"] -> c_type (Named n) n
| ct_struct n fs : c_type (Struct n fs) ("struct " ++ n).
