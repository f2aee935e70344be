From Coq Require Import List String Ascii Bool Lia Permutation.
From Coq Require Import ssreflect ssrbool.
From Verif Require Import Prelude Flatten_Model Flatten_Spec.
Import ListNotations.
Open Scope string_scope.
Open Scope list_scope.

(** * Strings and dotted names *)
Lemma app_empty_r (s : string) : (s ++ "" = s)%string.
Proof. by elim: s => [|a s IH] //=; rewrite IH. Qed.

Lemma dot_free_app_inj a b s t :
  dot_free a -> dot_free b -> (a ++ "." ++ s = b ++ "." ++ t)%string -> a = b /\ s = t.
Proof.
  elim: a b => [|x a IH] [|y b] /=.
  - by move=> _ _ [].
  - by move=> _ /andP [/negP n _] [e _]; subst y; case: n.
  - by move=> /andP [/negP n _] _ [e _]; subst x; case: n.
  - move=> /andP [_ da] /andP [_ db] [<- E]. by case: (IH _ da db E) => -> ->.
Qed.
Lemma dot_free_ne a b s : dot_free a -> a <> (b ++ "." ++ s)%string.
Proof.
  elim: b a => [|y b IH] [|x a] //=.
  - by move=> /andP [/negP n _] [e _]; subst x; case: n.
  - by move=> /andP [_ da] [_ E]; apply: IH E.
Qed.

Lemma dotted_cons n p : p <> [] -> dotted (n :: p) = (n ++ "." ++ dotted p)%string.
Proof. by case: p. Qed.

Lemma dotted_inj p q :
  Forall dot_free p -> Forall dot_free q -> p <> [] -> q <> [] ->
  dotted p = dotted q -> p = q.
Proof.
  elim: p q => [|a p IH] [|b q] //= Hp Hq _ _.
  inversion Hp; inversion Hq; subst.
  case: p IH H2 {Hp} => [|a' p] IH Hp; case: q H6 {Hq} => [|b' q] Hq.
  - by move=> ->.
  - by move=> E; case: (dot_free_ne a b _ H1 E).
  - by move=> E; case: (dot_free_ne b a _ H5 (eq_sym E)).
  - move=> E. case: (dot_free_app_inj _ _ _ _ H1 H5 E) => -> E'.
    by rewrite (IH _ Hp Hq _ _ E').
Qed.

Lemma string_length_app a b : String.length (a ++ b)%string = String.length a + String.length b.
Proof. by elim: a => [|x a IH] //=; rewrite IH. Qed.

Lemma NoDup_app_intro A (l m : list A) :
  NoDup l -> NoDup m -> (forall x, In x l -> In x m -> False) -> NoDup (l ++ m).
Proof.
  elim: l => [|a l IH] //= N M D. inversion N as [|? ? NI N']; subst. constructor.
  - move=> /in_app_iff [|I] //. by apply: (D a) => //; left.
  - apply: IH => // x X. apply: D. by right.
Qed.

(** * Induction on components *)
Lemma comp_rect' (P : comp -> Prop) :
  (forall l cs es ss ats, Forall (fun i => P (itype i)) l -> P (Comp l cs es ss ats)) ->
  forall c, P c.
Proof.
  move=> H. fix F 1. case=> l cs es ss ats. apply: H.
  elim: l => [|[n a t] l IH]; constructor; [exact: F|exact: IH].
Qed.

(** * A closed form of infer_all *)
Definition body (parent : option string) (a : acc) (i : inst) : res acc :=
  h <- infer_all (itype i) (Some (iname i)) ;; step_inst parent a i h.

Lemma infer_all_eq l cs es ss ats parent :
  infer_all (Comp l cs es ss ats) parent =
  (a <- foldM (body parent) l (mk_acc [] [] [] [] [] []) ;;
   cs' <- mapM (adjust_conn parent (a_derived a)) (cs ++ a_conns a) ;;
   al <- foldM (add_export parent (a_derived a)) es (a_aliases a) ;;
   Ok (mk_hoisted (a_imm a ++ a_child a) cs' al
        (map (derive_setting parent) (ss ++ a_settings a)))).
Proof.
  simpl infer_all. f_equal.
  move: (mk_acc _ _ _ _ _ _) => a0. elim: l a0 => [|[n s t] l IH] a0 //=.
  rewrite /body /=. case: (infer_all t (Some n)) => [h|e] //=.
  case: (step_inst _ _ _ _) => [a|e] //=.
Qed.

Arguments infer_all : simpl never.

(** Every entry of [derived] maps a name to its mangled form. *)
Definition mangling (parent : option string) (d : dict string string) :=
  forall n m, dget d n = Some m -> m = mangle parent n.

Lemma iname_derive parent i : iname (derive_inst parent i) = mangle parent (iname i).
Proof. by case: parent. Qed.

Lemma mangling_dset parent d i :
  mangling parent d -> mangling parent (dset d (iname i) (iname (derive_inst parent i))).
Proof.
  move=> H n m. rewrite dget_dset. case: eqb_spec => [->|_]; last exact: H.
  by case=> <-; rewrite iname_derive.
Qed.
Definition reg_all parent (l : list inst) d :=
  fold_left (fun d i2 => dset d (iname i2) (iname (derive_inst parent i2))) l d.
Lemma mangling_reg parent l d : mangling parent d -> mangling parent (reg_all parent l d).
Proof. elim: l d => [|i l IH] d //= H. apply: IH. exact: mangling_dset. Qed.
Lemma keys_reg parent l d n :
  In n (dkeys (reg_all parent l d)) <-> In n (map iname l) \/ In n (dkeys d).
Proof.
  elim: l d => [|i l IH] d /=; first by split; [right|case].
  rewrite IH dkeys_dset. split; intuition.
Qed.

Lemma derived_ok parent d n :
  mangling parent d -> In n (dkeys d) -> derived_get d n = Ok (mangle parent n).
Proof.
  move=> M /dget_keys. rewrite /derived_get.
  case E: (dget d n) => [m|] // _. by rewrite (M _ _ E).
Qed.
Lemma derived_inv parent d n m :
  mangling parent d -> derived_get d n = Ok m -> m = mangle parent n.
Proof. move=> M. rewrite /derived_get. by case E: (dget d n) => [m'|] // [<-]; apply: M. Qed.

(** Lists of dictionary updates. *)
Definition dsets {K V} {E : Eqb K} (l : list (K * V)) (d : dict K V) : dict K V :=
  fold_left (fun d kv => dset d (fst kv) (snd kv)) l d.
Fixpoint glast {K V} {E : Eqb K} (l : list (K * V)) (k : K) : option V :=
  match l with
  | [] => None
  | (k', v) :: l => match glast l k with
                    | Some v' => Some v'
                    | None => if eqb k k' then Some v else None end
  end.
Lemma dget_dsets K V (E : Eqb K) (l : list (K * V)) d k :
  dget (dsets l d) k = match glast l k with Some v => Some v | None => dget d k end.
Proof.
  elim: l d => [|[k' v] l IH] d //=. rewrite IH dget_dset /=.
  case: (glast l k) => [w|] //. by case: eqb_spec.
Qed.
Lemma glast_app K V (E : Eqb K) (l m : list (K * V)) k :
  glast (l ++ m)%list k = match glast m k with Some v => Some v | None => glast l k end.
Proof.
  elim: l => [|[k' v] l IH] //=; first by case: glast.
  rewrite IH. by case: (glast m k).
Qed.
Lemma glast_None K V (E : Eqb K) (l : list (K * V)) k :
  ~ In k (map fst l) -> glast l k = None.
Proof.
  elim: l => [|[k' v] l IH] //= H. have IH' : glast l k = None by apply: IH => I; apply: H; right.
  rewrite IH'. case: eqb_spec => // e. by case: H; left.
Qed.
Lemma glast_In K V (E : Eqb K) (l : list (K * V)) k v : glast l k = Some v -> In (k, v) l.
Proof.
  elim: l => [|[k' v'] l IH] //=. case G: (glast l k) => [w|].
  - by move=> E'; right; apply: IH; rewrite -E'.
  - case: eqb_spec => // -> [->]. by left.
Qed.
Lemma glast_dget K V (E : Eqb K) (l : list (K * V)) k :
  NoDup (dkeys l) -> glast l k = dget l k.
Proof.
  elim: l => [|[k' v] l IH] //= H. inversion H as [|? ? N ND]; subst.
  rewrite IH //. case: eqb_spec => [->|n]; last by case: dget.
  by rewrite (proj2 (dget_None _ l k') N).
Qed.
Lemma NoDup_dsets K V (E : Eqb K) (l : list (K * V)) d :
  NoDup (dkeys d) -> NoDup (dkeys (dsets l d)).
Proof. elim: l d => [|[k v] l IH] d //= H. apply: IH. exact: NoDup_dset. Qed.
Lemma dsets_app K V (E : Eqb K) (l m : list (K * V)) d :
  dsets (l ++ m)%list d = dsets m (dsets l d).
Proof. by rewrite /dsets fold_left_app. Qed.

Definition mangle_ptr parent (p : iptr) : iptr := (mangle parent (fst p), snd p).
Definition mangle_kv parent (kv : iptr * iptr) : iptr * iptr :=
  (mangle_ptr parent (fst kv), mangle_ptr parent (snd kv)).
Definition export_kv (p : string) (parent : option string) (e : export) : iptr * iptr :=
  ((p, x_dest e), (mangle parent (x_inst e), x_iface e)).

Definition mangle_end parent (e : cend) : cend :=
  mk_cend match e_inst e with None => parent | Some n => Some (mangle parent n) end (e_iface e).
Definition mangle_conn parent (c : conn) : conn :=
  mk_conn (mangle parent (c_name c)) (c_type c)
    (map (mangle_end parent) (c_from c)) (map (mangle_end parent) (c_to c)).

(** References available at this level: the names registered in [derived]. *)
Definition end_ref (parent : option string) (ks : list string) (e : cend) : Prop :=
  match e_inst e with None => parent <> None | Some n => In n ks end.
Definition conn_ref parent ks (c : conn) : Prop :=
  Forall (end_ref parent ks) (c_from c) /\ Forall (end_ref parent ks) (c_to c).

Lemma adjust_end_ok parent d e :
  mangling parent d -> end_ref parent (dkeys d) e ->
  adjust_end parent d e = Ok (mangle_end parent e).
Proof.
  move=> M. rewrite /end_ref /adjust_end /mangle_end.
  case: (e_inst e) => [n|].
  - by move=> /(derived_ok _ _ _ M) ->.
  - by case: parent {M}.
Qed.
Lemma adjust_end_inv parent d e e' :
  mangling parent d -> adjust_end parent d e = Ok e' ->
  e' = mangle_end parent e /\ e_inst e' <> None.
Proof.
  move=> M. rewrite /adjust_end /mangle_end. case: (e_inst e) => [n|].
  - case G: (derived_get d n) => [m|] //= [<-]. by rewrite (derived_inv _ _ _ _ M G).
  - by case: parent {M} => [p|] //= [<-].
Qed.
Lemma mapM_ok A B (f : A -> res B) (g : A -> B) l :
  (forall a, In a l -> f a = Ok (g a)) -> mapM f l = Ok (map g l).
Proof.
  elim: l => [|a l IH] //= H. rewrite H; first by left.
  rewrite /= IH // => b Hb. by apply: H; right.
Qed.
Lemma adjust_conn_ok parent d c :
  mangling parent d -> conn_ref parent (dkeys d) c ->
  adjust_conn parent d c = Ok (mangle_conn parent c).
Proof.
  move=> M [/Forall_forall Hf /Forall_forall Ht].
  have E: c_from (derive_conn parent c) = c_from c /\ c_to (derive_conn parent c) = c_to c
       /\ c_name (derive_conn parent c) = mangle parent (c_name c)
       /\ c_type (derive_conn parent c) = c_type c by case: parent {M Hf Ht}.
  case: E => [E1 [E2 [E3 E4]]].
  rewrite /adjust_conn E1 E2 E3 E4.
  rewrite (mapM_ok _ _ _ (mangle_end parent)); first by move=> e He; apply: adjust_end_ok => //; apply: Hf.
  rewrite /= (mapM_ok _ _ _ (mangle_end parent)) //.
  by move=> e He; apply: adjust_end_ok => //; apply: Ht.
Qed.
Lemma mapM_inv A B (f : A -> res B) (g : A -> B) l bs :
  (forall a b, f a = Ok b -> b = g a) -> mapM f l = Ok bs -> bs = map g l.
Proof.
  move=> H /mapM_Ok. elim=> [|a b l' bs' Hab _ ->] //=. by rewrite (H _ _ Hab).
Qed.
Lemma adjust_conn_inv parent d c c' :
  mangling parent d -> adjust_conn parent d c = Ok c' -> c' = mangle_conn parent c.
Proof.
  move=> M. have E: c_from (derive_conn parent c) = c_from c /\ c_to (derive_conn parent c) = c_to c
       /\ c_name (derive_conn parent c) = mangle parent (c_name c)
       /\ c_type (derive_conn parent c) = c_type c by case: parent {M}.
  case: E => [E1 [E2 [E3 E4]]].
  rewrite /adjust_conn E1 E2 E3 E4 /mangle_conn.
  move=> /bind_Ok [f [Hf /bind_Ok [t [Ht [<-]]]]].
  have Q: forall a b, adjust_end parent d a = Ok b -> b = mangle_end parent a.
  { by move=> a b /(adjust_end_inv _ _ _ _ M) []. }
  by rewrite (mapM_inv _ _ _ _ _ _ Q Hf) (mapM_inv _ _ _ _ _ _ Q Ht).
Qed.

Lemma foldM_alias_inv parent d l a a' :
  mangling parent d -> foldM (adjust_alias d) l a = Ok a' ->
  a' = dsets (map (mangle_kv parent) l) a.
Proof.
  move=> M. elim: l a => [|[[ki kf] [vi vf]] l IH] a /=; first by case.
  move=> /bind_Ok [b [/bind_Ok [k' [Hk /bind_Ok [v' [Hv [<-]]]]] /IH ->]].
  by rewrite (derived_inv _ _ _ _ M Hk) (derived_inv _ _ _ _ M Hv).
Qed.
Lemma foldM_alias_ok parent d l a :
  mangling parent d ->
  Forall (fun kv : iptr * iptr => In (fst (fst kv)) (dkeys d) /\ In (fst (snd kv)) (dkeys d)) l ->
  foldM (adjust_alias d) l a = Ok (dsets (map (mangle_kv parent) l) a).
Proof.
  move=> M H. elim: H a => [|[[ki kf] [vi vf]] l' [/= H1 H2] _ IH] a //=.
  by rewrite !(derived_ok parent) //= IH.
Qed.
Lemma foldM_export_inv p d l a a' :
  mangling (Some p) d -> foldM (add_export (Some p) d) l a = Ok a' ->
  a' = dsets (map (export_kv p (Some p)) l) a.
Proof.
  move=> M. elim: l a => [|e l IH] a /=; first by case.
  move=> /bind_Ok [b [/bind_Ok [k' [Hk [<-]]] /IH ->]].
  by rewrite (derived_inv _ _ _ _ M Hk).
Qed.
Lemma foldM_export_ok p d l a :
  mangling (Some p) d -> Forall (fun e => In (x_inst e) (dkeys d)) l ->
  foldM (add_export (Some p) d) l a = Ok (dsets (map (export_kv p (Some p)) l) a).
Proof.
  move=> M H. elim: H a => [|e l' H1 _ IH] a //=.
  by rewrite (derived_ok (Some p)) //= IH.
Qed.

(** Closed form of the accumulators, given the results for the instances. *)
Definition acc_of parent (l : list inst) (hs : list hoisted) (a : acc) : Prop :=
  a_imm a = map (derive_inst parent) l /\
  a_child a = flat_map (fun h => map (derive_inst parent) (h_insts h)) hs /\
  mangling parent (a_derived a) /\
  (forall n, In n (dkeys (a_derived a)) <->
     In n (map iname l) \/ In n (map iname (flat_map h_insts hs))) /\
  a_conns a = flat_map h_conns hs /\
  a_aliases a = dsets (map (mangle_kv parent) (flat_map h_aliases hs)) [] /\
  a_settings a = flat_map h_settings hs.

Definition hoists (i : inst) (h : hoisted) : Prop :=
  infer_all (itype i) (Some (iname i)) = Ok h.

(** Aliases of a hoisted result refer to hoisted instances or the parent. *)
Definition alias_refs (n : string) (h : hoisted) : Prop :=
  Forall (fun kv : iptr * iptr =>
    (fst (fst kv) = n \/ In (fst (fst kv)) (map iname (h_insts h))) /\
    (fst (snd kv) = n \/ In (fst (snd kv)) (map iname (h_insts h)))) (h_aliases h).

Lemma acc_of_step parent l hs a i h :
  acc_of parent l hs a ->
  forall a', step_inst parent a i h = Ok a' -> acc_of parent (l ++ [i]) (hs ++ [h]) a'.
Proof.
  move=> [E1 [E2 [M [K [E3 [E4 E5]]]]]] a'. rewrite /step_inst.
  have M2 := mangling_dset _ _ i (mangling_reg _ (h_insts h) _ M).
  rewrite -/(reg_all parent (h_insts h) (a_derived a)).
  move=> /bind_Ok [al [/(foldM_alias_inv _ _ _ _ _ M2) -> [<-]]].
  do !split => /=.
  - by rewrite E1 map_app.
  - by rewrite E2 flat_map_app /= app_nil_r.
  - exact: M2.
  - rewrite dkeys_dset keys_reg K !map_app flat_map_app map_app /= app_nil_r !in_app_iff /=.
    intuition.
  - rewrite dkeys_dset keys_reg K !map_app flat_map_app map_app /= app_nil_r !in_app_iff /=.
    intuition.
  - by rewrite E3 flat_map_app /= app_nil_r.
  - by rewrite E4 flat_map_app map_app dsets_app /= app_nil_r.
  - by rewrite E5 flat_map_app /= app_nil_r.
Qed.

Lemma body_inv parent l l0 hs0 a0 a :
  acc_of parent l0 hs0 a0 -> foldM (body parent) l a0 = Ok a ->
  exists hs, Forall2 hoists l hs /\ acc_of parent (l0 ++ l) (hs0 ++ hs) a.
Proof.
  elim: l l0 hs0 a0 => [|i l IH] l0 hs0 a0 A /=.
  - case=> <-. exists []. rewrite !app_nil_r. split=> //.
  - rewrite {1}/body. move=> /bind_Ok [a1 [/bind_Ok [h [Hh S]] F]].
    case: (IH _ _ _ (acc_of_step _ _ _ _ _ _ A _ S) F) => [hs [H2 A2]].
    exists (h :: hs). rewrite -!app_assoc /= in A2. split=> //. by constructor.
Qed.

Lemma acc_of_nil parent : acc_of parent [] [] (mk_acc [] [] [] [] [] []).
Proof. rewrite /acc_of /=. do !split=> //; by [case|]. Qed.

Lemma body_ok parent l l0 hs0 a0 hs :
  acc_of parent l0 hs0 a0 -> Forall2 hoists l hs ->
  Forall2 (fun i h => alias_refs (iname i) h) l hs ->
  exists a, foldM (body parent) l a0 = Ok a /\ acc_of parent (l0 ++ l) (hs0 ++ hs) a.
Proof.
  move=> A H. elim: H l0 hs0 a0 A => [|i h l' hs' Hh _ IH] l0 hs0 a0 A R /=.
  - exists a0. by rewrite !app_nil_r.
  - inversion R as [|? ? ? ? R1 R2]; subst.
    rewrite {1}/body Hh /=.
    have [a1 S]: exists a1, step_inst parent a0 i h = Ok a1.
    { rewrite /step_inst. case: A => [_ [_ [M _]]].
      have M2 := mangling_dset _ _ i (mangling_reg _ (h_insts h) _ M).
      rewrite -/(reg_all parent (h_insts h) (a_derived a0)).
      rewrite (foldM_alias_ok parent _ _ _ M2); last by eexists.
      apply: Forall_impl R1 => kv. rewrite !dkeys_dset !keys_reg. intuition. }
    rewrite S /=. have A1 := acc_of_step _ _ _ _ _ _ A _ S.
    case: (IH _ _ _ A1 R2) => [a [F A2]]. exists a. split=> //.
    by rewrite -!app_assoc in A2.
Qed.

(** The hoisted result in closed form. *)
Definition export_kvs parent (es : list export) : list (iptr * iptr) :=
  match parent with None => [] | Some p => map (export_kv p (Some p)) es end.
Definition result_of parent (c : comp) (hs : list hoisted) : hoisted :=
  mk_hoisted
    (map (derive_inst parent) (insts_of c ++ flat_map h_insts hs))
    (map (mangle_conn parent) (conns_of c ++ flat_map h_conns hs))
    (dsets (map (mangle_kv parent) (flat_map h_aliases hs)
             ++ export_kvs parent (exports_of c)) [])
    (map (derive_setting parent) (settings_of c ++ flat_map h_settings hs)).

Lemma map_flat_map A B C (f : B -> C) (g : A -> list B) l :
  map f (flat_map g l) = flat_map (fun a => map f (g a)) l.
Proof. elim: l => [|a l IH] //=. by rewrite map_app IH. Qed.

Lemma infer_all_inv c parent h :
  infer_all c parent = Ok h ->
  exists hs, Forall2 hoists (insts_of c) hs /\ h = result_of parent c hs /\
    (parent = None -> exports_of c = []) /\
    Forall (fun cc => Forall (fun e => e_inst e <> None) (c_from cc ++ c_to cc)) (h_conns h).
Proof.
  case: c => l cs es ss ats. rewrite infer_all_eq.
  move=> /bind_Ok [a [F /bind_Ok [cs' [C /bind_Ok [al [X [<-]]]]]]].
  case: (body_inv _ _ _ _ _ _ (acc_of_nil parent) F) => [hs [H [E1 [E2 [M [K [E3 [E4 E5]]]]]]]].
  simpl in E1, E2, K, E3, E4, E5.
  exists hs. split=> //. split; last split.
  - rewrite /result_of /=. rewrite E1 E2 E5 !map_app.
    have Q: forall x y, adjust_conn parent (a_derived a) x = Ok y -> y = mangle_conn parent x.
    { move=> x y. exact: adjust_conn_inv. }
    rewrite (mapM_inv _ _ _ _ _ _ Q C) E3 map_app (map_flat_map _ _ _ _ h_insts).
    f_equal. rewrite dsets_app -E4.
    case: parent F C X M K E1 E2 E4 Q => [p|] F C X M K E1 E2 E4 Q /=.
    + exact: foldM_export_inv M X.
    + by case: es X => [|e es] //= [].
  - move=> N. subst parent. by case: es X.
  - simpl. move/mapM_Ok: C. elim=> [|x y l' m' Hxy _ IH]; constructor=> //.
    move: Hxy. rewrite /adjust_conn. move=> /bind_Ok [f [Hf /bind_Ok [t [Ht [<-]]]]] /=.
    have Q: forall l m, mapM (adjust_end parent (a_derived a)) l = Ok m -> Forall (fun e => e_inst e <> None) m.
    { move=> l1 m1 /mapM_Ok. elim=> [|u v ? ? Huv _ IH2]; constructor=> //.
      by case: (adjust_end_inv _ _ _ _ M Huv). }
    apply/Forall_app; split; [exact: Q Hf|exact: Q Ht].
Qed.

Lemma infer_all_ok c parent hs :
  Forall2 hoists (insts_of c) hs ->
  Forall2 (fun i h => alias_refs (iname i) h) (insts_of c) hs ->
  (parent = None -> exports_of c = []) ->
  (forall n, In n (map x_inst (exports_of c)) -> In n (map iname (insts_of c))) ->
  Forall (conn_ref parent (map iname (insts_of c) ++ map iname (flat_map h_insts hs)))
         (conns_of c ++ flat_map h_conns hs) ->
  infer_all c parent = Ok (result_of parent c hs).
Proof.
  case: c => l cs es ss ats /= H R X XI C. rewrite infer_all_eq.
  case: (body_ok _ _ _ _ _ _ (acc_of_nil parent) H R) => [a [-> [E1 [E2 [M [K [E3 [E4 E5]]]]]]]].
  simpl in *. rewrite (mapM_ok _ _ _ (mangle_conn parent)).
  { move=> cc. rewrite E3 => I. apply: adjust_conn_ok => //.
    move/Forall_forall: C => /(_ _ I) [C1 C2].
    have Q: forall e, end_ref parent (map iname l ++ map iname (flat_map h_insts hs)) e ->
                 end_ref parent (dkeys (a_derived a)) e.
    { move=> e. rewrite /end_ref. case: (e_inst e) => // n. by rewrite K in_app_iff. }
    split; [exact: Forall_impl C1|exact: Forall_impl C2]. }
  rewrite /=.
  have ->: foldM (add_export parent (a_derived a)) es (a_aliases a) =
    Ok (dsets (export_kvs parent es) (a_aliases a)).
  { case: parent X {H R C E1 E2 E4} M K => [p|] X M K /=.
    - apply: foldM_export_ok => //. apply/Forall_forall => e He. apply/K. left. apply: XI. exact: in_map.
    - by rewrite X. }
  rewrite /= /result_of /=.
  by rewrite dsets_app -E4 E1 E2 E3 E5 !map_app (map_flat_map _ _ _ _ h_insts).
Qed.

(** * Paths *)
Definition pre (parent : option string) (p : path) : path :=
  match parent with None => p | Some n => n :: p end.

Lemma mangle_dotted parent p : p <> [] -> mangle parent (dotted p) = dotted (pre parent p).
Proof. case: parent => [n|] //= H. by case: p H. Qed.
Lemma mangle_one parent n : mangle parent n = dotted (pre parent [n]).
Proof. by case: parent. Qed.
Lemma pre_app parent p q : pre parent (p ++ q) = pre parent p ++ q.
Proof. by case: parent. Qed.
Lemma pre_cons_ne parent n p : pre parent (n :: p) <> [].
Proof. by case: parent. Qed.

Lemma walk_eq c :
  walk c = ([], c) :: flat_map (fun i => map (fun pc => (iname i :: fst pc, snd pc)) (walk (itype i)))
                               (insts_of c).
Proof.
  case: c => l cs es ss ats /=. f_equal. elim: l => [|[n a t] l IH] //=. by rewrite IH.
Qed.
Arguments walk : simpl never.

Definition all_of {A} (f : comp -> list A) (c : comp) : list (path * A) :=
  flat_map (fun pc => map (pair (fst pc)) (f (snd pc))) (walk c).
Lemma flat_map_map A B C (g : A -> B) (f : B -> list C) l :
  flat_map f (map g l) = flat_map (fun a => f (g a)) l.
Proof. elim: l => [|a l IH] //=. by rewrite IH. Qed.
Lemma flat_map_flat_map A B C (g : A -> list B) (f : B -> list C) l :
  flat_map f (flat_map g l) = flat_map (fun a => flat_map f (g a)) l.
Proof. elim: l => [|a l IH] //=. by rewrite flat_map_app IH. Qed.
Lemma all_of_eq A (f : comp -> list A) c :
  all_of f c = map (pair []) (f c) ++
    flat_map (fun i => map (fun px => (iname i :: fst px, snd px)) (all_of f (itype i))) (insts_of c).
Proof.
  rewrite /all_of walk_eq /= flat_map_flat_map. f_equal.
  apply: flat_map_ext => i. rewrite flat_map_map map_flat_map. apply: flat_map_ext => pc.
  by rewrite map_map.
Qed.

Definition path_set (parent : option string) (ps : path * setting) :=
  setting_at (pre parent (fst ps)) (snd ps).
Lemma derive_setting_own parent s : derive_setting parent s = setting_at (pre parent []) s.
Proof. rewrite /derive_setting /setting_at. case: parent => [n|] //=. by case: s => ? ? []. Qed.
Lemma derive_setting_at parent n p s :
  derive_setting parent (setting_at (n :: p) s) = setting_at (pre parent (n :: p)) s.
Proof.
  case: parent => [m|] //=. rewrite /setting_at /=. f_equal.
  case: (s_val s) => //= r.
Qed.

Lemma Forall2_flat_map A B C (R : A -> B -> Prop) (f : B -> list C) (g : A -> list C) l m :
  (forall a b, In a l -> R a b -> f b = g a) -> Forall2 R l m -> flat_map f m = flat_map g l.
Proof.
  move=> H F. elim: F H => [|a b l' m' Hab _ IH] H //=.
  rewrite (H a b) //; first by left. rewrite IH //= => a' b' I. by apply: H; right.
Qed.

Lemma Forall2_In_r A B (R : A -> B -> Prop) l m b :
  Forall2 R l m -> In b m -> exists a, In a l /\ R a b.
Proof.
  elim=> [|x y l' m' Hxy _ IH] //= [<-|I]; first by exists x; split=> //; left.
  case: (IH I) => a [? ?]. exists a. split=> //. by right.
Qed.
Lemma Forall2_In_l A B (R : A -> B -> Prop) l m a :
  Forall2 R l m -> In a l -> exists b, In b m /\ R a b.
Proof.
  elim=> [|x y l' m' Hxy _ IH] //= [<-|I]; first by exists y; split=> //; left.
  case: (IH I) => b [? ?]. exists b. split=> //. by right.
Qed.

Lemma settings_char c parent h :
  infer_all c parent = Ok h -> h_settings h = map (path_set parent) (all_of settings_of c).
Proof.
  elim/comp_rect': c parent h => l cs es ss ats IH parent h /infer_all_inv [hs [H [-> _]]].
  rewrite /result_of /= all_of_eq /= !map_app map_map. f_equal.
  - apply: map_ext => s. exact: derive_setting_own.
  - rewrite !map_flat_map. apply: Forall2_flat_map H => i h' I Hi.
    move/Forall_forall: IH => /(_ _ I _ _ Hi) ->. rewrite !map_map.
    apply: map_ext => -[p s]. exact: derive_setting_at.
Qed.

Definition path_inst (parent : option string) (pi : path * inst) :=
  inst_at (pre parent (fst pi)) (snd pi).
Lemma derive_inst_own parent i : derive_inst parent i = inst_at (pre parent []) i.
Proof. case: parent => [n|] //=. by case: i. Qed.
Lemma derive_inst_at parent n p i :
  derive_inst parent (inst_at (n :: p) i) = inst_at (pre parent (n :: p)) i.
Proof. by case: parent. Qed.
Lemma insts_char c parent h :
  infer_all c parent = Ok h -> h_insts h = map (path_inst parent) (all_of insts_of c).
Proof.
  elim/comp_rect': c parent h => l cs es ss ats IH parent h /infer_all_inv [hs [H [-> _]]].
  rewrite /result_of /= all_of_eq /= !map_app map_map. f_equal.
  - apply: map_ext => s. exact: derive_inst_own.
  - rewrite !map_flat_map. apply: Forall2_flat_map H => i h' I Hi.
    move/Forall_forall: IH => /(_ _ I _ _ Hi) ->. rewrite !map_map.
    apply: map_ext => -[p s]. exact: derive_inst_at.
Qed.

Definition path_end (parent : option string) (p : path) (e : cend) : cend :=
  mk_cend match e_inst e, p with
          | None, [] => parent
          | _, _ => Some (dotted (pre parent (end_path p e)))
          end (e_iface e).
Definition path_conn (parent : option string) (pc : path * conn) : conn :=
  mk_conn (dotted (pre parent (fst pc ++ [c_name (snd pc)]))) (c_type (snd pc))
    (map (path_end parent (fst pc)) (c_from (snd pc)))
    (map (path_end parent (fst pc)) (c_to (snd pc))).
Lemma mangle_end_own parent e : mangle_end parent e = path_end parent [] e.
Proof.
  rewrite /mangle_end /path_end /end_path. case: (e_inst e) => [n|] //=.
  by rewrite mangle_one.
Qed.
Lemma mangle_end_at parent n p e :
  mangle_end parent (path_end (Some n) p e) = path_end parent (n :: p) e.
Proof.
  rewrite /mangle_end /path_end /end_path. case: (e_inst e) => [m|] //=.
  - by rewrite -/(dotted (n :: p ++ [m])) mangle_dotted.
  - case: p => [|a p] /=; by rewrite ?mangle_one //; case: parent.
Qed.
Lemma conns_char c parent h :
  infer_all c parent = Ok h -> h_conns h = map (path_conn parent) (all_of conns_of c).
Proof.
  elim/comp_rect': c parent h => l cs es ss ats IH parent h /infer_all_inv [hs [H [-> _]]].
  rewrite /result_of /= all_of_eq /= !map_app map_map. f_equal.
  - apply: map_ext => k. rewrite /path_conn /mangle_conn /= mangle_one.
    f_equal; apply: map_ext => e; exact: mangle_end_own.
  - rewrite !map_flat_map. apply: Forall2_flat_map H => i h' I Hi.
    move/Forall_forall: IH => /(_ _ I _ _ Hi) ->. rewrite !map_map.
    apply: map_ext => -[p k]. rewrite /path_conn /mangle_conn /=. rewrite !map_map.
    f_equal.
    + rewrite -/(dotted (iname i :: p ++ [c_name k])) mangle_dotted //.
    + apply: map_ext => e; exact: mangle_end_at.
    + apply: map_ext => e; exact: mangle_end_at.
Qed.

(** * at_path and walk *)
Lemma at_path_snoc root p c i :
  at_path root p c -> In i (insts_of c) -> at_path root (p ++ [iname i]) (itype i).
Proof.
  elim=> [c' I|c' j q d J _ IH I] /=.
  - apply: at_below I _. exact: at_here.
  - apply: at_below J _. exact: IH.
Qed.
Lemma walk_at c p d : In (p, d) (walk c) <-> at_path c p d.
Proof.
  elim/comp_rect': c p d => l cs es ss ats IH p d. rewrite walk_eq /= in_flat_map. split.
  - case=> [[<- <-]|[i [I /in_map_iff [[q d'] [[<- <-] Q]]]]]; first exact: at_here.
    apply: at_below => //=. by apply (Forall_forall _ _) with (x := i) in IH => //; apply/IH.
  - move=> A. inversion A as [|? i q ? I Q]; subst; first by left.
    right. exists i. split=> //. apply/in_map_iff. exists (q, d). split=> //.
    apply (Forall_forall _ _) with (x := i) in IH => //. by apply/IH.
Qed.
Lemma all_of_In A (f : comp -> list A) c p x :
  In (p, x) (all_of f c) <-> exists d, at_path c p d /\ In x (f d).
Proof.
  rewrite /all_of in_flat_map. split.
  - move=> [[q d] [/walk_at W /in_map_iff [y [[<- <-] Y]]]]. by exists d.
  - move=> [d [/walk_at W X]]. exists (p, d). split=> //. apply/in_map_iff. by exists x.
Qed.
Lemma wf_sub c i : wf c -> In i (insts_of c) -> wf (itype i).
Proof. move=> W I p d A. apply: (W (iname i :: p)). exact: at_below. Qed.

Lemma NoDup_map_In A B (f : A -> B) l x y :
  NoDup (map f l) -> In x l -> In y l -> f x = f y -> x = y.
Proof.
  elim: l => [|a l IH] //= N. inversion N as [|? ? H ND]; subst.
  move=> [<-|Hx] [<-|Hy] E //.
  - case: H. rewrite E. exact: in_map.
  - case: H. rewrite -E. exact: in_map.
  - exact: IH.
Qed.
Lemma at_path_det c p d d' : wf c -> at_path c p d -> at_path c p d' -> d = d'.
Proof.
  move=> W A. elim: A W d' => [c' _|c' i q d0 I _ IH W] d' A'.
  - by inversion A'.
  - inversion A' as [|? j ? ? J A2]; subst.
    case: (W [] c' (at_here _)) => [N _].
    have ? := NoDup_map_In _ _ _ _ _ _ N J I ltac:(assumption). subst.
    apply: IH => //. exact: wf_sub W I.
Qed.
Lemma at_path_dot_free c p d : wf c -> at_path c p d -> Forall dot_free p.
Proof.
  move=> W A. elim: A W => [c' _|c' i q d0 I _ IH W]; constructor.
  - case: (W [] c' (at_here _)) => [_ /Forall_forall F]. exact: F.
  - apply: IH. exact: wf_sub W I.
Qed.

(** * Aliases *)
Definition alias_key parent p f : iptr := (dotted (pre parent p), f).
Definition alias_val parent p (e : export) : iptr := (dotted (pre parent (p ++ [x_inst e])), x_iface e).
Definition alias_spec parent c (al : aliases) : Prop :=
  NoDup (dkeys al) /\
  (forall k v, In (k, v) al -> exists p d e, at_path c p d /\ pre parent p <> [] /\
      last_export (exports_of d) (snd k) = Some e /\
      k = alias_key parent p (snd k) /\ v = alias_val parent p e) /\
  (forall p d f e, at_path c p d -> pre parent p <> [] ->
      last_export (exports_of d) f = Some e ->
      In (alias_key parent p f, alias_val parent p e) al).

Lemma glast_export n es f :
  glast (map (export_kv n (Some n)) es) (n, f) =
  option_map (fun e => (mangle (Some n) (x_inst e), x_iface e)) (last_export es f).
Proof.
  elim: es => [|e es IH] //=. rewrite IH.
  case: (last_export es f) => [e'|] //=.
  rewrite /prod_eqb /= String.eqb_refl /= String.eqb_sym.
  by case: String.eqb.
Qed.
Lemma last_export_In es f e : last_export es f = Some e -> In e es.
Proof.
  elim: es => [|x es IH] //=. case: (last_export es f) IH => [e'|] IH.
  - move=> E. right. exact: IH.
  - case: String.eqb => // -[->]. by left.
Qed.
Lemma glast_unique K V (E : Eqb K) (l : list (K * V)) k v :
  In (k, v) l -> (forall v', In (k, v') l -> v' = v) -> glast l k = Some v.
Proof.
  move=> I U. case G: (glast l k) => [w|]; first by rewrite (U _ (glast_In _ _ _ _ _ _ G)).
  exfalso. elim: l I G {U} => [|[k' v'] l IH] //= [[-> ->]|I].
  - case: (glast l k) => //. by rewrite eqb_refl.
  - case G': (glast l k) IH => [w|] // IH _. by apply: IH.
Qed.

Lemma alias_key_inj parent c p q d d' f :
  wf c -> (forall n, parent = Some n -> dot_free n) ->
  at_path c p d -> at_path c q d' -> pre parent p <> [] -> pre parent q <> [] ->
  alias_key parent p f = alias_key parent q f -> p = q.
Proof.
  move=> W D P Q NP NQ [E].
  have FP: Forall dot_free (pre parent p).
  { case: parent D {E NP NQ} => [n|] D /=; last exact: at_path_dot_free W P.
    constructor; [exact: D|exact: at_path_dot_free W P]. }
  have FQ: Forall dot_free (pre parent q).
  { case: parent D {E NP NQ FP} => [n|] D /=; last exact: at_path_dot_free W Q.
    constructor; [exact: D|exact: at_path_dot_free W Q]. }
  have := dotted_inj _ _ FP FQ NP NQ E. case: parent {D E NP NQ FP FQ} => [n|] //=. by case.
Qed.

Lemma alias_char c parent h :
  wf c -> (forall n, parent = Some n -> dot_free n) ->
  infer_all c parent = Ok h -> alias_spec parent c (h_aliases h).
Proof.
  elim/comp_rect': c parent h => l cs es ss ats IH parent h W D /infer_all_inv [hs [H [-> [X _]]]].
  rewrite /result_of /=.
  set kids := map (mangle_kv parent) (flat_map h_aliases hs).
  set own := export_kvs parent es.
  have ND: NoDup (dkeys (dsets (kids ++ own) [])) by apply: NoDup_dsets; constructor.
  have DG: forall k, dget (dsets (kids ++ own) []) k =
      match glast own k with Some v => Some v | None => glast kids k end.
  { move=> k. rewrite dget_dsets glast_app /=. case: glast => //. by case: glast. }
  have K1: forall k v, In (k, v) kids -> exists i p d e, In i l /\ at_path (itype i) p d /\
      last_export (exports_of d) (snd k) = Some e /\
      k = alias_key parent (iname i :: p) (snd k) /\ v = alias_val parent (iname i :: p) e.
  { move=> k v. rewrite /kids map_flat_map in_flat_map => [[h' [Hh' /in_map_iff [[k0 v0] [[<- <-] I0]]]]].
    have [i [Ii Hi]]: exists i, In i l /\ hoists i h'.
    { exact: Forall2_In_r H Hh'. }
    have W' := wf_sub _ _ W Ii.
    have D': forall n, Some (iname i) = Some n -> dot_free n.
    { move=> n [<-]. case: (W [] _ (at_here _)) => [_ /Forall_forall F]. exact: F. }
    move/Forall_forall: IH => /(_ _ Ii _ _ W' D' Hi) [_ [A1 _]].
    case: (A1 _ _ I0) => p [d [e [P [_ [L [-> ->]]]]]].
    exists i, p, d, e. do !split=> //=.
    - rewrite /mangle_ptr /alias_key /=. f_equal.
      by rewrite -/(dotted (iname i :: p)) mangle_dotted.
    - rewrite /mangle_ptr /alias_val /=. f_equal.
      by rewrite -/(dotted (iname i :: p ++ [x_inst e])) mangle_dotted. }
  have O1: forall k v, glast own k = Some v -> exists n e, parent = Some n /\ fst k = n /\
      last_export es (snd k) = Some e /\ v = alias_val parent [] e.
  { move=> [k f] v G. have := glast_In _ _ _ _ _ _ G. rewrite /own in G *.
    case: parent G {W D IH K1 DG ND kids X own} => [n|] //= G /in_map_iff [e [[Ek Ef Ev] Ie]]. rewrite -{1}Ek in G. rewrite /= -Ek.
    rewrite glast_export in G. case: (last_export es f) G => [e'|] //= [<-].
    by exists n, e'. }
  have O2: forall n f, parent = Some n -> glast own (n, f) =
      option_map (alias_val parent []) (last_export es f).
  { move=> n f E. rewrite /own E /= glast_export. by case: last_export. }
  split=> //. split.
  - move=> k v /(In_dget _ _ _ _ ND). rewrite DG.
    case G: (glast own k) => [w|].
    + case=> <-. case: (O1 _ _ G) => n [e [E [K [L ->]]]].
      exists [], (Comp l cs es ss ats), e. do !split=> //; first exact: at_here.
      * by rewrite E.
      * rewrite /alias_key E /=. case: k K {G L} => k f /= ->. done.
    + move=> G2. have I2 := glast_In _ _ _ _ _ _ G2. case: (K1 _ _ I2) => [i [p [d [e [Ii [P [L [E1 E2]]]]]]]].
      exists (iname i :: p), d, e. do !split=> //; first exact: at_below.
      exact: pre_cons_ne.
  - move=> p d f e P NP L. apply: dget_In. rewrite DG.
    inversion P as [|? i q ? Ii Q]; subst.
    + (* own exports *)
      have [n E]: exists n, parent = Some n by move: NP; case: (parent) => // n _; exists n.
      by rewrite /alias_key {1}E /= O2 //= L.
    + have W' := wf_sub _ _ W Ii.
      have -> : glast own (alias_key parent (iname i :: q) f) = None.
      { case G: glast => [w|] //. case: (O1 _ _ G) => n [e' [E [K _]]].
        rewrite E /alias_key /= in K.
        have Dn := D _ E.
        by case: (dot_free_ne n n (dotted (iname i :: q)) Dn). }
      have D': forall n, Some (iname i) = Some n -> dot_free n.
      { move=> n [<-]. case: (W [] _ (at_here _)) => [_ /Forall_forall F]. exact: F. }
      apply: glast_unique.
      * have [h' [Ih Hi]]: exists h', In h' hs /\ hoists i h'.
        { exact: Forall2_In_l H Ii. }
        move/Forall_forall: IH => /(_ _ Ii _ _ W' D' Hi) [_ [_ A2]].
        have I0 := A2 _ _ _ _ Q (fun e => ltac:(discriminate e)) L.
        rewrite /kids map_flat_map. apply/in_flat_map. exists h'. split=> //.
        apply/in_map_iff. eexists. split; last exact: I0.
        rewrite /mangle_kv /mangle_ptr /alias_key /alias_val /=.
        by rewrite -/(dotted (iname i :: q)) -/(dotted (iname i :: q ++ [x_inst e])) !mangle_dotted.
      * move=> v' /K1 [i2 [p2 [d2 [e2 [I2 [P2 [L2 [E2 ->]]]]]]]].
        have A2 : at_path (Comp l cs es ss ats) (iname i2 :: p2) d2 by apply: at_below.
        have NP2 := pre_cons_ne parent (iname i2) p2.
        simpl in E2.
        have E3 := alias_key_inj _ _ _ _ _ _ _ W D P A2 NP NP2 E2.
        rewrite -E3 in A2. have E4 := at_path_det _ _ _ _ W P A2. rewrite -E4 /= L in L2.
        case: L2 => <-. by rewrite -E3.
Qed.
