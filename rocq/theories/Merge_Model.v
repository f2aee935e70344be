(** Model of camkes/parser/stage9.py: merging of connections that share an end. *)
From Coq Require Import List String Bool.
From Verif Require Import Prelude.
Import ListNotations.
Open Scope string_scope. Open Scope list_scope.

(** A connection: name, connector type (name) and the two lists of ends.  An end of
    the implementation is a ConnectionEnd compared structurally: direction, instance,
    interface.  Here an end is the string "instance.interface" and the direction is
    given by the list it is in. *)
Record mconn := mk_mconn { m_name : string; m_type : string;
  m_from : list string; m_to : list string }.

(** Structural equality of AST nodes (camkes/ast/base.py:118-167). *)
Definition tup (c : mconn) := (m_name c, m_type c, m_from c, m_to c).
Definition mconn_eqb (a b : mconn) : bool := eqb (tup a) (tup b).
Lemma mconn_eqb_eq a b : mconn_eqb a b = true <-> a = b.
Proof.
  unfold mconn_eqb. rewrite eqb_eq. destruct a, b. unfold tup. simpl.
  split; [intros E; injection E; intros; subst; reflexivity|intros E; injection E; intros; subst; reflexivity].
Qed.
#[global] Instance Eqb_mconn : Eqb mconn := {| eqb := mconn_eqb; eqb_spec := reflect_of _ mconn_eqb_eq |}.

(** Python sets, as duplicate-free lists in insertion order (the iteration order of a
    real set is unspecified; the theorems only speak about membership). *)
Definition sadd {A} {E : Eqb A} (s : list A) (x : A) : list A := if memb x s then s else s ++ [x].
Definition sunion {A} {E : Eqb A} (s t : list A) : list A := fold_left sadd t s.
Definition smeets {A} {E : Eqb A} (s t : list A) : bool := existsb (fun x => memb x t) s.

Definition endkey : Type := bool * string.   (* true: a to end *)
(** add_connections (stage9.py:34-42): [chain(to_ends, from_ends)]. *)
Definition ends_of (c : mconn) : list endkey :=
  map (fun e => (true, e)) (m_to c) ++ map (fun e => (false, e)) (m_from c).
Definition note_end (c : mconn) (cand : dict endkey (list mconn)) (i : endkey) :=
  match dget cand i with
  | Some s => dset cand i (sadd s c)
  | None => dset cand i [c]
  end.
Definition add_connections (cs : list mconn) : dict endkey (list mconn) :=
  fold_left (fun cand c => fold_left (note_end c) (ends_of c) cand) cs [].

(** First half of consolidate (stage9.py:49-57). *)
Fixpoint merge_in (i : list mconn) (multi : list (list mconn)) : list (list mconn) :=
  match multi with
  | [] => [i]
  | j :: multi => if smeets i j then sunion j i :: multi else j :: merge_in i multi
  end.
Definition groups (cand : dict endkey (list mconn)) : list (list mconn) :=
  fold_left (fun multi kv => merge_in (snd kv) multi) cand [].

(** [".".join(sorted(names))] (stage9.py:64). *)
Fixpoint sinsert (x : string) (l : list string) : list string :=
  match l with
  | [] => [x]
  | y :: l => if String.leb x y then x :: y :: l else y :: sinsert x l
  end.
Definition ssort (l : list string) : list string := fold_right sinsert [] l.
Definition join_name (l : list string) : string := String.concat "." l.

(** One group (stage9.py:61-79); [None]: skipped. *)
Definition build (g : list mconn) : res (option mconn) :=
  match g with
  | [_] => Ok None
  | _ =>
    let to_ends := fold_left (fun s c => sunion s (m_to c)) g [] in
    let from_ends := fold_left (fun s c => sunion s (m_from c)) g [] in
    match g with
    | [] => Err AssertionError     (* unreachable: Connection(None, ...) *)
    | c :: rest =>
      if forallb (fun d => String.eqb (m_type d) (m_type c)) rest
      then Ok (Some (mk_mconn (join_name (ssort (map m_name g))) (m_type c) from_ends to_ends))
      else Err ParseError
    end
  end.

(** [list.remove] *)
Fixpoint lremove (c : mconn) (l : list mconn) : res (list mconn) :=
  match l with
  | [] => Err ValueError
  | x :: l => if eqb c x then Ok l else l' <- lremove c l ;; Ok (x :: l')
  end.

(** Parse9.transform (stage9.py:91-98) on the list of connections. *)
Definition apply_group (l : list mconn) (g : list mconn) : res (list mconn) :=
  o <- build g ;;
  match o with
  | None => Ok l
  | Some n => l <- foldM (fun l c => lremove c l) g l ;; Ok (l ++ [n])
  end.
Definition merge (cs : list mconn) : res (list mconn) :=
  foldM apply_group (groups (add_connections cs)) cs.
