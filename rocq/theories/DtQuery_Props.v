(** C43, C57, C58: device-tree queries and their results. *)
From Coq Require Import List Bool String Ascii ZArith Lia.
From Verif Require Import Prelude DtQuery_Model DtQuery_Spec DtQuery_Proofs
  DtQuery_Proofs2.
Import ListNotations.
Open Scope string_scope.
Open Scope list_scope.

(** ** C43 *)

(** Renaming keeps every property, under its own name with underscores, if
    the new names are distinct. *)
Theorem C43_keeps_partial : forall V (d : dict string V), NoDup (map fst d) ->
  (forall a b, In a (map fst d) -> In b (map fst d) ->
     rename a = rename b -> a = b) ->
  update_dict_keys d = map (fun kv => (rename (fst kv), snd kv)) d.
Proof. exact @update_keeps. Qed.
Print Assumptions C43_keeps_partial.

(** If not, a property is lost. *)
Theorem C43_keeps_refuted : exists (d : dict string Z) k v,
  In (k, v) d /\ NoDup (map fst d) /\
  update_dict_keys d = [("reg_names", 2%Z)] /\ v <> 2%Z.
Proof. exact update_loses. Qed.
Print Assumptions C43_keeps_refuted.

(** The new name: every character other than a word character becomes an
    underscore, except for a newline at the end of a word. *)
Theorem C43_names : forall k, (word_line k -> rename k = k) /\
  (~ word_line k -> rename k = underscored k).
Proof. exact rename_names. Qed.
Print Assumptions C43_names.

(** A setting whose value is a query gets the dict of the result, with names
    changed in the result and in each item of ["query"]. *)
Theorem C43_whole : forall queries s kind args q d items,
  s_value s = inr (kind, (args, [])) -> queries kind = Some q ->
  q args = Ok d -> NoDup (map fst d) ->
  (forall a b, In a (map fst d) -> In b (map fst d) ->
     rename a = rename b -> a = b) ->
  dget d "query" = Some (DList (map DDict items)) ->
  Forall (fun i => NoDup (map fst i)) items ->
  Forall (fun i => forall a b, In a (map fst i) -> In b (map fst i) ->
    rename a = rename b -> a = b) items ->
  exists r e, resolve_setting queries s = Ok r /\
    s_value r = inl (DDict e) /\
    dget e "query" = Some (DList
      (map (fun i => DDict (map (fun kv => (rename (fst kv), snd kv)) i))
         items)) /\
    forall k w, In (k, w) d -> k <> "query" -> dget e (rename k) = Some w.
Proof. exact whole_result. Qed.
Print Assumptions C43_whole.

(** A query followed by keys gives the list of what is found under them, in
    each item. *)
Theorem C43_lookup : forall queries s kind args lookup q d items v,
  lookup <> [] ->
  s_value s = inr (kind, (args, lookup)) -> queries kind = Some q ->
  q args = Ok d -> dget d "query" = Some (DList items) ->
  (exists r, resolve_setting queries s = Ok r /\ s_value r = inl v) <->
  (exists vs, v = DList vs /\
     Forall2 (fun i w => looked_up i lookup w) items vs).
Proof. exact lookup_result. Qed.
Print Assumptions C43_lookup.

(** The settings stay in place, only queries are replaced, none is left. *)
Theorem C43_settings : forall queries ss rs, resolve queries ss = Ok rs ->
  Forall2 (fun s r => s_instance r = s_instance s /\
             s_attribute r = s_attribute s /\
             (exists v, s_value r = inl v) /\
             (forall v, s_value s = inl v -> r = s)) ss rs.
Proof. exact resolve_settings. Qed.
Print Assumptions C43_settings.

Theorem C43_unknown : forall queries ss s kind rest,
  In s ss -> s_value s = inr (kind, rest) -> queries kind = None ->
  exists e, resolve queries ss = Err e.
Proof. exact unknown_query. Qed.
Print Assumptions C43_unknown.

Definition ex_queries (kind : string)
  : option (list query -> res (dict string dval)) :=
  if String.eqb kind "dtb" then
    Some (fun _ => Ok [("query", DList [DDict [("reg", DList [DInt 4]);
                                              ("#size-cells", DInt 1)]]);
                       ("dtb-size", DList [DInt 99])])
  else None.
Example C43_ex :
  resolve ex_queries
    [Setting "c" "x" (inl (DInt 1)); Setting "c" "y" (inr ("dtb", ([], [])));
     Setting "c" "z" (inr ("dtb", ([], ["reg"])))] =
  Ok [Setting "c" "x" (inl (DInt 1));
      Setting "c" "y" (inl (DDict
        [("query", DList [DDict [("reg", DList [DInt 4]);
                                 ("_size_cells", DInt 1)]]);
         ("dtb_size", DList [DInt 99])]));
      Setting "c" "z" (inl (DList [DList [DInt 4]]))].
Proof. reflexivity. Qed.
Example C43_ex_hyp : NoDup ["reg"; "#size-cells"] /\
  forall a b, In a ["reg"; "#size-cells"] -> In b ["reg"; "#size-cells"] ->
    rename a = rename b -> a = b.
Proof.
  split.
  - repeat (constructor; [cbn; intuition discriminate|]). constructor.
  - intros a b [<-|[<-|[]]] [<-|[<-|[]]]; vm_compute; congruence.
Qed.

(** ** C57

    [py_int] is Python's [int], [search] its regular expressions. *)

(** A query by path and properties yields exactly the nodes of the tree, in
    its order, whose path matches and that have the properties, provided some
    node's path matches. *)
Theorem C57_query_partial : forall py_int search tree sp q f r,
  q_alias q = "" -> q_chosen q = "" ->
  Forall node_ok tree -> q_path q <> "" -> search (q_path q) = Some f ->
  (exists n, In n tree /\ f (n_path n) = true) \/ q_props q = [] ->
  match_query py_int search tree sp q = Ok r ->
  kept (fun n => f (n_path n) = true /\
                 Forall (meets py_int n) (q_props q)) tree r.
Proof. exact query_exact. Qed.
Print Assumptions C57_query_partial.

(** Otherwise the path is ignored. *)
Theorem C57_query_refuted : exists tree q f r n,
  q_path q <> "" /\ q_props q <> [] /\
  match_query (fun _ _ => None) (fun _ => Some f) tree (Special None None) q
    = Ok r /\ In n r /\ f (n_path n) = false.
Proof. exact path_ignored. Qed.
Print Assumptions C57_query_refuted.

(** A query by properties only. *)
Theorem C57_props : forall py_int search tree sp q r,
  q_alias q = "" -> q_chosen q = "" ->
  Forall node_ok tree -> q_path q = "" -> q_props q <> [] ->
  match_query py_int search tree sp q = Ok r ->
  kept (fun n => Forall (meets py_int n) (q_props q)) tree r.
Proof. exact query_props. Qed.
Print Assumptions C57_props.

(** Such a query is answered, if the keys are well-formed and the values can
    be compared with the properties. *)
Theorem C57_answers : forall py_int search tree sp q,
  q_alias q = "" -> q_chosen q = "" -> Forall node_ok tree ->
  (q_path q <> "" -> search (q_path q) <> None) ->
  Forall (answerable py_int tree) (q_props q) ->
  exists r, match_query py_int search tree sp q = Ok r.
Proof. exact query_answers. Qed.
Print Assumptions C57_answers.

(** Each query contributes its first match, or nothing. *)
Theorem C57_select : forall py_int search tree sp qs r, qs <> [] ->
  select py_int search tree sp qs = Ok r <->
  exists rs,
    Forall2 (fun q l => match_query py_int search tree sp q = Ok l) qs rs /\
    r = map (fun l => match l with n :: _ => Some n | [] => None end) rs.
Proof. exact select_spec. Qed.
Print Assumptions C57_select.

Theorem C57_first : forall A (P : A -> Prop) l r, kept P l r ->
  match r with
  | [] => Forall (fun x => ~ P x) l
  | x :: _ => exists before after, l = before ++ x :: after /\ P x /\
                Forall (fun y => ~ P y) before
  end.
Proof. exact @kept_first. Qed.
Print Assumptions C57_first.

(** The form of keys. *)
Theorem C57_key : forall py_int key k i,
  parse_key py_int key = Ok (k, i) <-> key_of py_int key k i.
Proof. exact parse_key_spec. Qed.
Print Assumptions C57_key.

Definition ex_int (base : Z) (s : string) : option Z :=
  if String.eqb s "1" then Some 1%Z else None.
Definition ex_tree : list node :=
  [Node "/soc" []; Node "/soc/a" [("reg", Words [4; 5]%Z)];
   Node "/soc/b" [("reg", Words [4; 6]%Z); ("names", Strings ["x"; "y"])]].
Example C57_ex :
  select ex_int (fun q => Some (search_escaped q)) ex_tree (Special None None)
    [Query "" "" "soc" [("reg[ 1 ]", QInt 6)];
     Query "" "" "" [("names[*]", QList [QStr "x"; QStr "y"])];
     Query "" "" "SOC" []; Query "" "" "soc" [("reg", QInt 9)]]
  = Ok [Some (Node "/soc/b" [("reg", Words [4; 6]%Z);
                             ("names", Strings ["x"; "y"])]);
        Some (Node "/soc/b" [("reg", Words [4; 6]%Z);
                             ("names", Strings ["x"; "y"])]);
        Some (Node "/soc" []); None].
Proof. reflexivity. Qed.
Example C57_ex_hyp : Forall node_ok ex_tree.
Proof.
  repeat constructor; cbn; intuition discriminate.
Qed.

Example C57_ex_answerable : answerable ex_int ex_tree ("reg[ 1 ]", QInt 6).
Proof.
  exists "reg", 1%Z. split.
  - apply parse_key_spec. reflexivity.
  - cbn. intros n p [<-|[<-|[<-|[]]]]; cbn; intuition; try discriminate;
      match goal with H : _ = _ |- _ => inversion H end; cbn; right;
      (split; [lia|eauto]).
Qed.

(** ** C58 *)

(** An alias resolves to the only node whose path contains the aliased path;
    it fails if there is none or more. *)
Theorem C58_alias_partial : forall py_int search tree sp q r, NoDup tree ->
  q_alias q <> "" ->
  match_query py_int search tree sp q = Ok r <->
  exists n path, r = [n] /\ says (aliases sp) (q_alias q) path /\
    only_node tree path n.
Proof. exact query_alias_iff. Qed.
Print Assumptions C58_alias_partial.

(** What /chosen names is a path or an alias, up to the first colon. *)
Theorem C58_chosen_partial : forall py_int search tree sp q r, NoDup tree ->
  q_alias q = "" -> q_chosen q <> "" ->
  match_query py_int search tree sp q = Ok r <->
  exists n s t, r = [n] /\ says (chosen sp) (q_chosen q) s /\
    before_colon s t /\
    (((exists u, t = ("/" ++ u)%string) /\ only_node tree t n) \/
     ((forall u, t <> ("/" ++ u)%string) /\
      exists path, says (aliases sp) t path /\ only_node tree path n)).
Proof. exact query_chosen_iff. Qed.
Print Assumptions C58_chosen_partial.

Theorem C58_alias_ambiguous : forall tree sp name path n m,
  n_path n <> n_path m ->
  says (aliases sp) name path -> In n tree -> In m tree ->
  occurs_in path (n_path n) -> occurs_in path (n_path m) ->
  match_alias tree sp name = Err ParseError.
Proof. exact alias_ambiguous'. Qed.
Print Assumptions C58_alias_ambiguous.

(** So the node at the aliased path is not found if it has a child... *)
Theorem C58_child_refuted : exists tree path n,
  In n tree /\ n_path n = path /\
  (forall m, In m tree -> n_path m = path -> m = n) /\
  match_alias tree (Special (Some [("serial0", Strings [path])]) None)
    "serial0" = Err ParseError.
Proof. exact alias_child. Qed.
Print Assumptions C58_child_refuted.

(** ... and a node at another path may be found instead. *)
Theorem C58_other_refuted : exists tree path r n,
  match_alias tree (Special (Some [("serial0", Strings [path])]) None)
    "serial0" = Ok r /\ In n r /\ n_path n <> path.
Proof. exact alias_elsewhere. Qed.
Print Assumptions C58_other_refuted.

Example C58_ex :
  match_chosen ex_tree
    (Special (Some [("serial0", Strings ["/soc/b"])])
             (Some [("stdout-path", Strings ["serial0:115200n8"])]))
    "stdout-path"
  = Ok [Node "/soc/b" [("reg", Words [4; 6]%Z);
                       ("names", Strings ["x"; "y"])]].
Proof. reflexivity. Qed.
Example C58_ex_hyp : NoDup ex_tree /\
  says (Some [("serial0", Strings ["/soc/b"])]) "serial0" "/soc/b" /\
  before_colon "serial0:115200n8" "serial0" /\
  only_node ex_tree "/SOC/b" (Node "/soc/b" [("reg", Words [4; 6]%Z);
                                             ("names", Strings ["x"; "y"])]).
Proof.
  split; [|split; [|split]].
  - repeat (constructor; [cbn; intuition discriminate|]). constructor.
  - eexists. split; reflexivity.
  - split; [apply cut_none; reflexivity|]. right. exists "115200n8". reflexivity.
  - split; [cbn; tauto|]. split; [apply search_escaped_occurs; reflexivity|].
    intros m Hm Ho. apply search_escaped_occurs in Ho.
    destruct Hm as [<-|[<-|[<-|[]]]]; [discriminate|discriminate|reflexivity].
Qed.
