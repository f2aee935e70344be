(** Proofs about allocation (C29), and Isabelle symbols (C30). *)
From Coq Require Import ssreflect ssrbool List Bool Arith NArith String Ascii Lia.
From Verif Require Import Prelude DecStr Context_Model Context_Spec Context_Proofs.
Import ListNotations.
Open Scope string_scope.
Open Scope list_scope.

(** ** Isabelle symbols *)
Lemma digits_end s : s <> EmptyString -> all_chars is_digit s = true -> ends_in_digit s.
Proof.
  elim: s => [|c s IH] // _ /= /andP [Hc Hs]. case: s IH Hs => [|y s] IH Hs; first by exists c.
  have [d Hd] := IH ltac:(discriminate) Hs. by exists d.
Qed.
Lemma tail_digits a a' d d' : ~ ends_in_digit a -> ~ ends_in_digit a' ->
  all_chars is_digit d = true -> all_chars is_digit d' = true ->
  (a ++ d = a' ++ d')%string -> d = d'.
Proof.
  elim: a a' => [|x a IH] [|x' a'] //= Ha Ha' Hd Hd' E.
  - rewrite E in Hd. exfalso. apply: Ha'. apply: digits_end => //.
    move: Hd => /= /andP [-> ]. rewrite all_chars_app => /andP [-> _] //.
  - rewrite -E in Hd'. exfalso. apply: Ha. apply: digits_end => //.
    move: Hd' => /= /andP [-> ]. rewrite all_chars_app => /andP [-> _] //.
  - case: E => E1 E2. subst x'.
    have Hsub : forall y b, ~ ends_in_digit (String y b) -> ~ ends_in_digit b.
    { move=> y b H [c [H1 H2]]. apply: H. exists c. by case: b H1. }
    exact: (IH _ (Hsub _ _ Ha) (Hsub _ _ Ha') Hd Hd' E2).
Qed.
Definition itag (t : string) : string := match t with EmptyString => "s" | _ => t end.
Lemma isabelle_answer s t : snd (isabelle_symbol s t) = VStr (itag t ++ dec (c_counter s) ++ "'")%string.
Proof. by []. Qed.
Lemma itag_digit t : ~ ends_in_digit t -> ~ ends_in_digit (itag t).
Proof. case: t => //= _ [c [[<-] ]]. by []. Qed.

Lemma i_sym_lemma ops st outs i j ti tj vi vj : run ctx0 ops = Ok (st, outs) -> i <> j ->
  nth_error ops i = Some (OISymbol ti) -> nth_error ops j = Some (OISymbol tj) ->
  ~ ends_in_digit ti -> ~ ends_in_digit tj ->
  nth_error outs i = Some vi -> nth_error outs j = Some vj -> fst vi <> fst vj.
Proof.
  have Main : forall i j ti tj vi vj, run ctx0 ops = Ok (st, outs) -> (i < j)%nat ->
    nth_error ops i = Some (OISymbol ti) -> nth_error ops j = Some (OISymbol tj) ->
    ~ ends_in_digit ti -> ~ ends_in_digit tj ->
    nth_error outs i = Some vi -> nth_error outs j = Some vj -> fst vi <> fst vj.
  { move=> {}i {}j {}ti {}tj {}vi {}vj R Hij Hi Hj Ti Tj Oi Oj.
    have [si [sj [si' [sj' [wi [wj [Ei [Ej [Oi' [Oj' Hc]]]]]]]]]] := sym_counters _ _ _ _ _ _ _ R Hij Hi Hj eq_refl.
    rewrite Oi in Oi'; rewrite Oj in Oj'. move: Oi' Oj' => [?] [?]; subst wi wj.
    move: Ei Ej. cbn [exec]. rewrite /isabelle_symbol -/(itag ti) -/(itag tj).
    move=> [_ <-] [_ <-]. cbn [fst]. move=> [E].
    rewrite -!string_app_assoc in E. have {}E := string_app_inj_r _ _ _ E.
    have := tail_digits _ _ _ _ (itag_digit _ Ti) (itag_digit _ Tj) (dec_digits _) (dec_digits _) E.
    move=> /dec_inj. lia. }
  move=> R Hij Hi Hj Ti Tj Oi Oj. have [H|H] : (i < j \/ j < i)%nat by lia.
  - exact: (Main _ _ _ _ _ _ R H Hi Hj Ti Tj Oi Oj).
  - move=> E. by apply: (Main _ _ _ _ _ _ R H Hj Hi Tj Ti Oj Oi).
Qed.

Lemma last_char_app2 a b : b <> EmptyString -> last_char (a ++ b)%string = last_char b.
Proof.
  move=> Hb. elim: a => [|x a IH] //=. rewrite IH. case E: (a ++ b)%string => [|y s] //.
  by case: a E IH => [|z a] //=; case: b Hb.
Qed.
Lemma c_i_differ_lemma ops st outs i j ti tj vi vj : run ctx0 ops = Ok (st, outs) ->
  nth_error ops i = Some (OCSymbol ti) -> nth_error ops j = Some (OISymbol tj) ->
  nth_error outs i = Some vi -> nth_error outs j = Some vj -> fst vi <> fst vj.
Proof.
  move=> R Hi Hj Oi Oj.
  have [si [vsi [si' [wi [resti [_ [Ei [Oi' _]]]]]]]] := run_nth _ _ _ _ _ _ R Hi.
  have [sj [vsj [sj' [wj [restj [_ [Ej [Oj' _]]]]]]]] := run_nth _ _ _ _ _ _ R Hj.
  rewrite Oi in Oi'; rewrite Oj in Oj'. move: Oi' Oj' => [?] [?]; subst wi wj.
  move: Ei Ej. cbn [exec]. rewrite /isabelle_symbol /c_symbol -/(itag tj).
  move=> [_ <-] [_ <-]. cbn [fst]. move=> [E].
  have [c [Hc Hd]] := dec_last (c_counter si).
  have Hne : dec (c_counter si) <> EmptyString by move=> E0; rewrite E0 in Hc.
  have L1 : last_char ("_camkes_" ++ ti ++ "_" ++ dec (c_counter si))%string = Some c.
  { rewrite -!string_app_assoc last_char_app2 //. }
  have L2 : last_char (itag tj ++ dec (c_counter sj) ++ "'")%string = Some "'"%char.
  { rewrite -!string_app_assoc. exact: last_char_app. }
  have L3 : Some c = Some "'"%char by rewrite -L1 -L2; congr last_char.
  case: L3 => ?. by subst c.
Qed.

(** ** Objects *)
Lemma find_obj_spec os n i j : find_obj os n i = Some j ->
  (i <= j)%nat /\ exists o, nth_error os (j - i) = Some o /\ ko_name o = n.
Proof.
  elim: os i => [|o os IH] i //=. case: (String.eqb_spec (ko_name o) n) => [e [<-]|ne].
  - split; first by lia. exists o. by rewrite Nat.sub_diag.
  - move=> /IH [H [o' [H1 H2]]]. split; first by lia. exists o'.
    have -> : j - i = S (j - S i) by lia. by rewrite /=.
Qed.
Lemma find_obj_None os n i : find_obj os n i = None <-> ~ In n (map ko_name os).
Proof.
  elim: os i => [|o os IH] i /=; first by split; tauto.
  case: (String.eqb_spec (ko_name o) n) => [e|ne]; first by split=> // H; case: H; left.
  rewrite IH. split; first by move=> H [].
  by move=> H H1; apply: H; right.
Qed.
Lemma find_obj_app os os' n i j : find_obj os n i = Some j -> find_obj (os ++ os') n i = Some j.
Proof. elim: os i => [|o os IH] i //=. case: String.eqb => //. exact: IH. Qed.
Lemma find_obj_app_None os os' n i : find_obj os n i = None ->
  find_obj (os ++ os') n i = find_obj os' n (i + List.length os).
Proof.
  elim: os i => [|o os IH] i /=; first by rewrite Nat.add_0_r.
  case: String.eqb => // /IH ->. by rewrite Nat.add_succ_r.
Qed.

(** The objects allocated so far are the first requests for each full name, in order. *)
Definition table_step (os : list kobj) (o : op) : list kobj :=
  match obj_request o with
  | Some k => match find_obj os (ko_name k) 0 with Some _ => os | None => os ++ [k] end
  | None => os
  end.
Definition table (ops : list op) : list kobj := fold_left table_step ops [].
Lemma table_snoc ops o : table (ops ++ [o]) = table_step (table ops) o.
Proof. by rewrite /table fold_left_app. Qed.
Lemma table_NoDup ops : NoDup (map ko_name (table ops)).
Proof.
  elim/rev_ind: ops => [|o ops IH]; first by constructor.
  rewrite table_snoc /table_step. case: (obj_request o) => [k|] //.
  case E: (find_obj _ _ _) => //. rewrite map_app /=. move/find_obj_None in E.
  have : NoDup (ko_name k :: rev (map ko_name (table ops))).
  { constructor; first by rewrite -in_rev. exact: NoDup_rev. }
  move=> /NoDup_rev /=. by rewrite rev_involutive.
Qed.

(** What alloc_obj does when the store only knows objects under their own names. *)
Definition objs_inv (s : ctx) : Prop :=
  swf (c_store s) /\
  forall l k v, content (c_store s) (ObjClient l) k = Some v ->
    exists n i, k = (full_name l n ++ "_obj")%string /\ v = VObj i /\
                find_obj (c_objs s) (full_name l n) 0 = Some i.

Lemma full_inj l n n' : full_name l n = full_name l n' -> n = n'.
Proof. rewrite /full_name => E. have {}E := string_app_inj_l _ _ _ E. exact: (string_app_inj_l "_" _ _ E). Qed.
Lemma client_neq_o_c l l' sp : eqb (ObjClient l) (CapClient l' sp) = false. Proof. by []. Qed.

Definition grow (os : list kobj) (k : kobj) : list kobj :=
  match find_obj os (ko_name k) 0 with Some _ => os | None => os ++ [k] end.
Lemma grow_mono os k n i : find_obj os n 0 = Some i -> find_obj (grow os k) n 0 = Some i.
Proof. move=> H. rewrite /grow. case: (find_obj os (ko_name k) 0) => //. exact: find_obj_app. Qed.
Lemma grow_found os k : exists i, find_obj (grow os k) (ko_name k) 0 = Some i.
Proof.
  rewrite /grow. case E: (find_obj os (ko_name k) 0) => [i|]; first by exists i.
  rewrite find_obj_app_None //=. rewrite String.eqb_refl. by eexists.
Qed.

Lemma alloc_obj_spec s l n t ol s' v b : objs_inv s -> alloc_obj s l n t ol = (s', v, b) ->
  objs_inv s' /\ c_objs s' = grow (c_objs s) (mk_kobj (full_name l n) t ol) /\
  c_spaces s' = c_spaces s /\
  (exists i, v = VObj i /\ find_obj (c_objs s') (full_name l n) 0 = Some i) /\
  (forall l' sp k, content (c_store s') (CapClient l' sp) k = content (c_store s) (CapClient l' sp) k).
Proof.
  move=> [W I]. rewrite /alloc_obj => E.
  have [W1 [H [_ [H1 H2]]]] := guard_spec _ _ _ _ _ _ _ W (fun s => obj_alloc_store _ _ _ s) E.
  have Hcap : forall l' sp k, content (c_store s') (CapClient l' sp) k = content (c_store s) (CapClient l' sp) k.
  { move=> l' sp k. by rewrite H. }
  have Main : c_objs s' = grow (c_objs s) (mk_kobj (full_name l n) t ol) /\ c_spaces s' = c_spaces s /\
    exists i, v = VObj i /\ find_obj (c_objs s') (full_name l n) 0 = Some i.
  { case Ek: (keep (content (c_store s) (ObjClient l) (full_name l n ++ "_obj")%string)).
    - have [E1 [E2 [E3 _]]] := H1 Ek. have [n' [i [En [Ev Hf]]]] := I _ _ _ E1.
      have En' := string_app_inj_r _ _ _ En. rewrite -En' in Hf.
      rewrite E2 /grow /= Hf. do 2 (split; [done|]). by exists i.
    - have [s0 [E1 [E2 [_ [E3 [E4 [E5 _]]]]]]] := H2 Ek.
      move: E3 E4 E5. rewrite /obj_alloc /grow /= E1.
      case Ef: (find_obj _ _ 0) => [i|] /= <- -> ->.
      + do 2 (split; [done|]). exists i. by rewrite E1.
      + do 2 (split; [done|]). eexists. split; first by reflexivity.
        by rewrite find_obj_app_None //= String.eqb_refl. }
  have [M1 [M2 [i [M3 M4]]]] := Main.
  split; [split=> //|do 3 (split; [done||by exists i|])] => //.
  move=> l' k v'. rewrite H. case: (eqb_spec (ObjClient l') (ObjClient l)) => [[?]|ne]; last first.
  { move=> /I [n' [i' [-> [-> Hf]]]]. exists n', i'. do 2 (split; [done|]). rewrite M1. exact: grow_mono. }
  subst l'. case: (eqb_spec k (full_name l n ++ "_obj")%string) => [->|ne].
  - move=> [<-]. exists n, i. by [].
  - move=> /I [n' [i' [-> [-> Hf]]]]. exists n', i'. do 2 (split; [done|]). rewrite M1. exact: grow_mono.
Qed.

(** ** Capabilities *)
Fixpoint pos {A} {E : Eqb A} (a : A) (l : list A) : option nat :=
  match l with
  | [] => None
  | x :: l => if eqb a x then Some 0 else option_map S (pos a l)
  end.
Lemma pos_None A (E : Eqb A) (a : A) l : pos a l = None <-> ~ In a l.
Proof.
  elim: l => [|x l IH] /=; first by split; tauto.
  case: eqb_spec => [->|ne]; first by split=> // H; case: H; left.
  case P: (pos a l) IH => [i|] IH /=; split=> //.
  - move=> H. exfalso. have : ~ In a l by move=> H1; apply: H; right. by move=> /IH.
  - move=> _ [e|H1]; first by apply: ne. by move: H1; apply/IH.
Qed.
Lemma pos_nth A (E : Eqb A) (a : A) l i : pos a l = Some i -> nth_error l i = Some a.
Proof.
  elim: l i => [|x l IH] i //=. case: eqb_spec => [-> [<-] //|ne].
  case P: (pos a l) => [j|] //= [<-] /=. exact: IH.
Qed.
Lemma pos_app A (E : Eqb A) (a : A) l l' i : pos a l = Some i -> pos a (l ++ l') = Some i.
Proof.
  elim: l i => [|x l IH] i //=. case: eqb => //. case P: (pos a l) => [j|] //= [<-].
  by rewrite (IH _ P).
Qed.
Lemma pos_snoc A (E : Eqb A) (a : A) l : pos a l = None -> pos a (l ++ [a]) = Some (List.length l).
Proof.
  elim: l => [|x l IH] /=; first by rewrite eqb_refl.
  case: eqb => //. case P: (pos a l) IH => [j|] // IH _. by rewrite (IH eq_refl).
Qed.
Lemma pos_snoc_ne A (E : Eqb A) (a b : A) l : a <> b -> pos a (l ++ [b]) = pos a l.
Proof. move=> ne. elim: l => [|x l IH] /=; [by rewrite (proj2 (eqb_neq _ a b) ne)|by rewrite IH]. Qed.

Definition keys_step (sp : nat) (ks : list (string * string)) (o : op) : list (string * string) :=
  match cap_key o with
  | Some (sp', l, n) => if eqb sp' sp then (if memb (l, n) ks then ks else ks ++ [(l, n)]) else ks
  | None => ks
  end.
Definition keys (ops : list op) (sp : nat) : list (string * string) := fold_left (keys_step sp) ops [].
Lemma keys_snoc ops o sp : keys (ops ++ [o]) sp = keys_step sp (keys ops sp) o.
Proof. by rewrite /keys fold_left_app. Qed.
Lemma keys_NoDup ops sp : NoDup (keys ops sp).
Proof.
  elim/rev_ind: ops => [|o ops IH]; first by constructor.
  rewrite keys_snoc /keys_step. case: (cap_key o) => [[[sp' l] n]|] //. case: eqb => //.
  case Em: (memb _ _) => //. move/memb_nIn in Em.
  have : NoDup ((l, n) :: rev (keys ops sp)).
  { constructor; first by rewrite -in_rev. exact: NoDup_rev. }
  move=> /NoDup_rev /=. by rewrite rev_involutive.
Qed.
Lemma keys_In ops sp l n : In (l, n) (keys ops sp) <-> exists o, In o ops /\ is_key (sp, l, n) o = true.
Proof.
  elim/rev_ind: ops => [|o ops IH]; first by split=> // [[o []]].
  rewrite keys_snoc. 
  have Hex : (exists o0, In o0 (ops ++ [o]) /\ is_key (sp, l, n) o0 = true) <->
             In (l, n) (keys ops sp) \/ is_key (sp, l, n) o = true.
  { rewrite IH. split.
    - move=> [o0 [H1 H2]]. destruct (in_app_or _ _ _ H1) as [H|[H|[]]].
      + left. by exists o0.
      + right. by subst.
    - move=> [[o0 [H1 H2]]|H]; [exists o0|exists o]; split=> //; apply: in_or_app; [by left|right; by left]. }
  rewrite Hex. rewrite /is_key /keys_step. case: (cap_key o) => [[[sp' l'] n']|]; last by split; [by left|case].
  case: (eqb_spec sp' sp) => [->|ne]; last first.
  { split; first by left. case=> // /eqb_eq [] /ne. by []. }
  case Em: (memb _ _).
  - split; first by left. case=> // /eqb_eq [<- <-]. by apply/memb_In.
  - rewrite in_app_iff /=. split.
    + case; first by left. case=> // [[-> ->]]. right. by apply/prod_eqb_eq.
    + case; first by left. move=> /prod_eqb_eq [<- <-]. right. by left.
Qed.

Definition cap_target (objs : list kobj) (o : op) : option (nat * option N) :=
  match o with
  | OAllocCap _ _ _ (Some i) _ bd => Some (i, bd)
  | OAlloc l _ n _ _ _ bd => option_map (fun i => (i, bd)) (find_obj objs (full_name l n) 0)
  | _ => None
  end.
Definition first_cap0 (objs : list kobj) (ops : list op) (key : nat * string * string) : option kcap :=
  match find (is_key key) ops with
  | Some (OAllocCap _ _ _ (Some o) _ bd) => Some (mk_kcap o (asked_rights ops key) bd)
  | Some (OAlloc l _ n _ _ _ bd) =>
      match find_obj objs (full_name l n) 0 with
      | Some o => Some (mk_kcap o (asked_rights ops key) bd)
      | None => None
      end
  | _ => None
  end.
Lemma numberedE objs name i : find_obj objs name i = option_map (fun n => i + n)%nat (numbered objs name).
Proof.
  elim: objs i => [|o objs IH] i; first by [].
  cbn [find_obj numbered]. destruct (eqb (ko_name o) name); first by cbn; rewrite Nat.add_0_r.
  rewrite IH. case: (numbered objs name) => [n|] //=. by rewrite Nat.add_succ_r.
Qed.
Lemma first_capE objs ops key : first_cap0 objs ops key = first_cap objs ops key.
Proof.
  rewrite /first_cap0 /first_cap. case: (find _ _) => [[]|] // l sp n t ol r bd.
  rewrite numberedE. by case: (numbered _ _).
Qed.
Lemma first_cap_eq objs ops key : first_cap0 objs ops key =
  match find (is_key key) ops with
  | Some o => option_map (fun p => mk_kcap (fst p) (asked_rights ops key) (snd p)) (cap_target objs o)
  | None => None
  end.
Proof.
  rewrite /first_cap0. case: (find _ _) => [o|] //. case: o => //= l sp n.
  - by case.
  - move=> t ol r bd. by case: find_obj.
Qed.

Lemma find_app_l A (f : A -> bool) l l' a : find f l = Some a -> find f (l ++ l') = Some a.
Proof. elim: l => [|x l IH] //=. case: (f x) => //. Qed.
Lemma find_app_r A (f : A -> bool) l l' : find f l = None -> find f (l ++ l') = find f l'.
Proof. elim: l => [|x l IH] //=. case: (f x) => //. Qed.
Lemma find_key_None ops sp l n : ~ In (l, n) (keys ops sp) -> find (is_key (sp, l, n)) ops = None.
Proof.
  move=> H. case E: (find _ _) => [o|] //. exfalso. apply: H. apply/keys_In. exists o.
  exact: find_some E.
Qed.
Lemma find_key_Some ops sp l n : In (l, n) (keys ops sp) -> exists o, find (is_key (sp, l, n)) ops = Some o.
Proof.
  move=> /keys_In [o [H1 H2]]. case E: (find _ _) => [o'|]; first by exists o'.
  have := find_none _ _ E o H1. by rewrite H2.
Qed.

Lemma asked_snoc f ops o key : asked f (ops ++ [o]) key = asked f ops key || (is_key key o && f (cap_rights o)).
Proof. by rewrite /asked existsb_app /= orb_false_r. Qed.
Lemma asked_none f ops sp l n : ~ In (l, n) (keys ops sp) -> asked f ops (sp, l, n) = false.
Proof.
  move=> H. rewrite /asked. case E: (existsb _ _) => //. exfalso.
  apply existsb_exists in E. case: E => o [H1 /andP [H2 _]]. apply: H. apply/keys_In. by exists o.
Qed.
Lemma upgrade_union c r : kc_rights (upgrade c r) =
  mk_rights (r_read (kc_rights c) || r_read r) (r_write (kc_rights c) || r_write r)
            (r_grant (kc_rights c) || r_grant r) (r_grantreply (kc_rights c) || r_grantreply r).
Proof. case: c => o [[] [] [] []] b; case: r => [[] [] [] []]; by []. Qed.

Definition caps_inv (s : ctx) (ops : list op) (objs : list kobj) : Prop :=
  (forall sp, space_slots s sp = map (fun k => first_cap0 objs ops (sp, fst k, snd k)) (keys ops sp)) /\
  (forall l sp n, content (c_store s) (CapClient l sp) (n ++ "_cap")%string =
                  option_map VSlot (pos (l, n) (keys ops sp))).

Lemma set_nth_map A B (f g : A -> B) l i a b : NoDup l -> nth_error l i = Some a -> g a = b ->
  (forall x, In x l -> x <> a -> g x = f x) -> set_nth (map f l) i b = map g l.
Proof.
  elim: l i => [|x l IH] [|i] //= Hn.
  - move=> [?] Hg Hx. subst x. inversion Hn as [|? ? Hni Hnd]; subst. congr (_ :: _).
    apply: map_ext_in => y Hy. symmetry. apply: Hx; first by right. by move=> e; rewrite e in Hy.
  - move=> Hi Hg Hx. inversion Hn as [|? ? Hni Hnd]; subst. congr (_ :: _).
    + symmetry. apply: Hx; first by left. move=> e; subst. apply: Hni. exact: nth_error_In Hi.
    + apply: IH => // y Hy. apply: Hx. by right.
Qed.

Lemma first_cap_other objs ops o key : is_key key o = false -> first_cap0 objs (ops ++ [o]) key = first_cap0 objs ops key.
Proof.
  move=> Hk. rewrite !first_cap_eq. case E: (find _ ops) => [o'|].
  - rewrite (find_app_l _ _ _ _ _ E). rewrite /asked_rights !asked_snoc Hk /= !orb_false_r. by [].
  - rewrite (find_app_r _ _ _ _ E) /= Hk. by [].
Qed.

Lemma slots_dset s s' sp x sp' : c_spaces s' = dset (c_spaces s) sp x -> space_slots s' sp' =
  if eqb sp' sp then x else space_slots s sp'.
Proof. move=> E. rewrite /space_slots E dget_dset. by case: eqb. Qed.

Lemma cap_suffix_inj n n' : (n ++ "_cap" = n' ++ "_cap")%string -> n = n'.
Proof. exact: string_app_inj_r. Qed.
