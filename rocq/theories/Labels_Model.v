(** Model of integrity_group_labels (camkes/templates/macros.py:473-526). *)
From Coq Require Import List String Bool.
From Verif Require Import Prelude.
Import ListNotations.
Open Scope string_scope. Open Scope list_scope.

(** What the function reads of an instance (name, address_space and the
    [integrity_label] setting) and of a connection (name, names of the instances at
    its ends). *)
Record linst := mk_linst { li_name : string; li_space : string; li_label : option string }.
Record lconn := mk_lconn { lc_name : string; lc_ends : list string }.

(** get_canonical_label (macros.py:492-501). *)
Fixpoint canon_loop (fuel : nat) (g : dict string string) (group : string)
  (seen : list string) : res string :=
  match dget g group with
  | None => Ok group
  | Some nxt =>
    if memb nxt seen then Err TemplateError else
    match fuel with
    | O => Err OutOfFuel
    | S fuel => canon_loop fuel g nxt (seen ++ [nxt])
    end
  end.
Definition canon (g : dict string string) (l : string) : res string :=
  canon_loop (List.length g) g l [l].

(** macros.py:506-508 *)
Definition step_group (g : dict string string) (c : linst) : res (dict string string) :=
  if String.eqb (li_space c) (li_name c) then Ok g
  else l <- canon g (li_space c) ;; Ok (dset g (li_name c) l).
(** macros.py:511-514 *)
Definition step_label (g : dict string string) (c : linst) : res (dict string string) :=
  match li_label c with
  | None => Ok g
  | Some l => l <- canon g l ;; Ok (dset g (li_name c) l)
  end.
(** macros.py:517-521; [len(set(labels)) == 1]. *)
Definition step_conn (g : dict string string) (c : lconn) : res (dict string string) :=
  labels <- mapM (canon g) (lc_ends c) ;;
  match labels with
  | [] => Ok g
  | l :: ls => if forallb (String.eqb l) ls then Ok (dset g (lc_name c) l) else Ok g
  end.
Definition raw_labels (is : list linst) (cs : list lconn) : res (dict string string) :=
  g <- foldM step_group is [] ;;
  g <- foldM step_label is g ;;
  foldM step_conn cs g.
(** macros.py:523-526 *)
Definition integrity_group_labels (is : list linst) (cs : list lconn)
  : res (dict string string) :=
  g <- raw_labels is cs ;;
  mapM (fun kv => l <- canon g (snd kv) ;; Ok (fst kv, l)) g.
