(** Proofs about device-tree queries. *)
From Coq Require Import ssreflect ssrbool.
From Coq Require Import List Bool String Ascii ZArith Lia.
From Verif Require Import Prelude DtQuery_Model DtQuery_Spec.
Import ListNotations.
Open Scope string_scope.
Open Scope list_scope.

(** The specification, in terms of the functions of the model. *)
Inductive key_of0 (py_int : Z -> string -> option Z) : string -> string -> Z -> Prop :=
| key_plain0 k : no_char "[" k -> key_of0 py_int k k 0
| key_star0 k t rest : no_char "[" k -> no_char "]" t -> strip t = "*" ->
    key_of0 py_int (k ++ "[" ++ t ++ "]" ++ rest)%string k (-1)
| key_index0 k t rest i : no_char "[" k -> no_char "]" t -> strip t <> "*" ->
    py_int (if prefix "0x" (strip t) then 16 else 10)%Z (strip t) = Some i ->
    key_of0 py_int (k ++ "[" ++ t ++ "]" ++ rest)%string k i.
Definition occurs0 (p s : string) : Prop :=
  exists a b, lowers s = (a ++ lowers p ++ b)%string.

(** ** Trimming *)
Lemma sapp_assoc (a b c : string) : ((a ++ b) ++ c = a ++ (b ++ c))%string.
Proof. elim: a => [|x a IH] //=. by rewrite IH. Qed.
Lemma sapp_nil (a : string) : (a ++ "")%string = a.
Proof. elim: a => [|x a IH] //=. by rewrite IH. Qed.
Lemma lstrip_spec s : exists a, s = (a ++ lstrip s)%string /\ spaces a /\
  forall r, lstrip s <> String " " r.
Proof.
  elim: s => [|c s [a [E [Ha Hr]]]] /=; first by exists "".
  case: Ascii.eqb_spec => [->|Hc].
  - exists (String " " a). by rewrite /= -E.
  - exists "". split=> //. split=> // r [H _]. by apply: Hc.
Qed.
Lemma rstrip_spec s : exists b, s = (rstrip s ++ b)%string /\ spaces b /\
  forall r, rstrip s <> (r ++ " ")%string.
Proof.
  elim: s => [|c s [b [E [Hb Hr]]]]; first by exists ""; split=> //; split=> // - [].
  cbn [rstrip]. case Es: (rstrip s) E Hr => [|d t] E Hr.
  - case: Ascii.eqb_spec => [->|Hc].
    + exists (String " " b). rewrite {1}E. split=> //.
    + exists b. rewrite {1}E. split=> //. split=> // r Hr2.
      case: r Hr2 => [|x r] /= Hr2; first by case: Hr2.
      case: Hr2 => _. by case: r.
  - exists b. rewrite {1}E. split=> //. split=> // r Hr2.
    case: r Hr2 => [|x r] /= Hr2; first by case: Hr2.
    case: Hr2 => _. exact: (Hr r).
Qed.
Lemma lstrip_app a u : spaces a -> (forall r, u <> String " " r) ->
  lstrip (a ++ u)%string = u.
Proof.
  elim: a => [|c a IH] /= Ha Hu.
  - case: u Hu => [|d u] Hu //=. case: Ascii.eqb_spec => // E.
    by case: (Hu u); rewrite E.
  - case: Ha => -> Ha. exact: IH.
Qed.
Lemma rstrip_spaces b : spaces b -> rstrip b = "".
Proof. elim: b => [|c b IH] //= [-> Hb]. by rewrite IH. Qed.
Lemma rstrip_app u b : spaces b -> (forall r, u <> (r ++ " ")%string) ->
  rstrip (u ++ b)%string = u.
Proof.
  move=> Hb. elim: u => [|c u IH] Hu /=; first exact: rstrip_spaces.
  rewrite IH; first by move=> r E; apply: (Hu (String c r)); rewrite E.
  case: u Hu {IH} => [|d u] Hu //. case: Ascii.eqb_spec => // E.
  by case: (Hu ""); rewrite E.
Qed.
Lemma strip_trimmed t u : strip t = u <-> trimmed t u.
Proof.
  rewrite /strip. split.
  - move=> <-. have [a [E [Ha Hl]]] := lstrip_spec t.
    have [b [E2 [Hb Hr]]] := rstrip_spec (lstrip t).
    split; [|split].
    + exists a, b. by rewrite -E2.
    + move=> r H. rewrite H /= in E2. exact: (Hl _ E2).
    + exact: Hr.
  - move=> [[a [b [-> [Ha Hb]]]] [Hl Hr]].
    case: u Hl Hr => [|c u] Hl Hr.
    + have Hs : forall x y, spaces x -> spaces y -> spaces (x ++ y)%string.
      { elim=> [|d x IH] //= y [-> Hx] Hy. split=> //. exact: IH. }
      have [a' [E [_ _]]] := lstrip_spec (a ++ "" ++ b)%string.
      have : spaces (a ++ "" ++ b)%string by apply: Hs.
      rewrite {1}E => Hsp. have {}Hsp : spaces (lstrip (a ++ "" ++ b)%string).
      { move: Hsp. elim: (a') => [|d x IH] //= [_ Hx]. exact: IH. }
      exact: rstrip_spaces.
    + rewrite lstrip_app //.
      * move=> r [Hc _]. apply: (Hl u). by rewrite /= Hc.
      * by rewrite rstrip_app.
Qed.

(** ** Comparing values *)
Lemma as_strs_map vs l : as_strs vs = Some l <-> vs = map QStr l.
Proof.
  elim: vs l => [|v vs IH] l /=.
  - split; first by move=> [<-]. by case: l.
  - case: v => [z|s|m].
    + split=> //. by case: l.
    + case E: (as_strs vs) => [l'|] /=.
      * split; first by move=> [<-] /=; congr (_ :: _); apply IH.
        case: l => //= x l [-> H]. apply IH in H. rewrite E in H. by case: H => ->.
      * split=> //. case: l => //= x l [_ H]. apply IH in H. by rewrite E in H.
    + split=> //. by case: l.
Qed.
Lemma as_ints_map vs l : as_ints vs = Some l <-> vs = map QInt l.
Proof.
  elim: vs l => [|v vs IH] l /=.
  - split; first by move=> [<-]. by case: l.
  - case: v => [z|s|m].
    + case E: (as_ints vs) => [l'|] /=.
      * split; first by move=> [<-] /=; congr (_ :: _); apply IH.
        case: l => //= x l [-> H]. apply IH in H. rewrite E in H. by case: H => ->.
      * split=> //. case: l => //= x l [_ H]. apply IH in H. by rewrite E in H.
    + split=> //. by case: l.
    + split=> //. by case: l.
Qed.
Lemma list_eqb_eq {A} (f : A -> A -> bool) : (forall x y, f x y = true <-> x = y) ->
  forall a b, list_eqb f a b = true <-> a = b.
Proof.
  move=> Hf. elim=> [|x a IH] [|y b] //=. rewrite andb_true_iff Hf IH.
  split; first by move=> [-> ->]. by move=> [-> ->].
Qed.
Lemma check_bytes_map l : check_bytes (map QInt l) = Ok tt <->
  Forall (fun z => -128 <= z <= 127)%Z l.
Proof.
  elim: l => [|z l IH] /=; first by split.
  case E: ((-128 <=? z) && (z <=? 127))%Z.
  - rewrite IH. apply andb_true_iff in E.
    split; first by move=> H; constructor => //; lia.
    by move=> H; inversion H.
  - split=> // H. inversion H as [|? ? Hz]; subst.
    apply andb_false_iff in E. lia.
Qed.

Lemma compare_has p i v : compare_prop p i v = Ok true <-> has_value p i v.
Proof.
  have Hs : forall l i s, (0 <= i)%Z ->
    match nth_error l (Z.to_nat i) with Some x => String.eqb x s | None => false end = true
    <-> nth_error l (Z.to_nat i) = Some s.
  { move=> l j s _. case: nth_error => [x|]; last by split.
    split; first by move/String.eqb_eq => ->. move=> [->]. by apply String.eqb_refl. }
  have Hz : forall l i s, (0 <= i)%Z ->
    match nth_error l (Z.to_nat i) with Some x => Z.eqb x s | None => false end = true
    <-> nth_error l (Z.to_nat i) = Some s.
  { move=> l j s _. case: nth_error => [x|]; last by split.
    split; first by move/Z.eqb_eq => ->. move=> [->]. by apply Z.eqb_refl. }
  case: p => [l|l|l|] /=.
  - rewrite /compare_string. case: Z.ltb_spec => Hi; split.
    + case: v => // vs [H]. move: H. case E: (as_strs vs) => [ss|] // H.
      apply as_strs_map in E. subst vs.
      apply (list_eqb_eq _ String.eqb_eq) in H. subst. by constructor.
    + move=> H. inversion H; subst; try lia. congr Ok.
      have -> : as_strs (map QStr l) = Some l by apply as_strs_map.
      by apply (list_eqb_eq _ String.eqb_eq).
    + case: v => // s [H]. apply Hs in H => //. by constructor.
    + move=> H. inversion H; subst; try lia. congr Ok. by apply Hs.
  - rewrite /compare_integers. case: Z.ltb_spec => Hi; split.
    + case: v => // vs /= [H]. move: H. case E: (as_ints vs) => [ss|] // H.
      apply as_ints_map in E. subst vs.
      apply (list_eqb_eq _ Z.eqb_eq) in H. subst. by constructor.
    + move=> H. inversion H; subst; try lia. cbn [bind]. congr Ok.
      have -> : as_ints (map QInt l) = Some l by apply as_ints_map.
      by apply (list_eqb_eq _ Z.eqb_eq).
    + case: v => // s [H]. apply Hz in H => //. by constructor.
    + move=> H. inversion H; subst; try lia. congr Ok. by apply Hz.
  - rewrite /compare_integers. case: Z.ltb_spec => Hi; split.
    + case: v => // vs. case Ec: (check_bytes vs) => [[]|] //= [H].
      move: H. case E: (as_ints vs) => [ss|] // H.
      apply as_ints_map in E. subst vs. apply check_bytes_map in Ec.
      apply (list_eqb_eq _ Z.eqb_eq) in H. subst. by constructor.
    + move=> H. inversion H as [| | | | |? ? ? HF]; subst; try lia.
      apply check_bytes_map in HF. rewrite HF. cbn [bind]. congr Ok.
      have -> : as_ints (map QInt l) = Some l by apply as_ints_map.
      by apply (list_eqb_eq _ Z.eqb_eq).
    + case: v => // s [H]. apply Hz in H => //. by constructor.
    + move=> H. inversion H; subst; try lia. congr Ok. by apply Hz.
  - split=> // H. inversion H.
Qed.

(** ** Keys *)
Lemma cut_some c s a b : cut c s = Some (a, b) ->
  s = (a ++ String c b)%string /\ no_char c a.
Proof.
  elim: s a b => [|x s IH] a b //=. case: Ascii.eqb_spec => [->|Hx].
  - move=> [<- <-]. split=> //. by case.
  - case E: (cut c s) => [[a' b']|] // [<- <-]. have [-> Hn] := IH _ _ E.
    split=> //. move=> [|y u] w /= [E1 E2]; first by case: Hx.
    by apply: (Hn u w).
Qed.
Lemma cut_none c s : cut c s = None <-> no_char c s.
Proof.
  split.
  - move=> H a b E. subst s. elim: a H => [|x a IH] /=.
    + by rewrite Ascii.eqb_refl.
    + case: Ascii.eqb => //. case Ec: (cut c _) IH => [[u v]|] IH //.
  - case E: (cut c s) => [[a b]|] // H. apply cut_some in E. case: E => E _.
    by case: (H a b).
Qed.
Lemma cut_app c a b : no_char c a -> cut c (a ++ String c b)%string = Some (a, b).
Proof.
  elim: a => [|x a IH] H /=; first by rewrite Ascii.eqb_refl.
  case: Ascii.eqb_spec => [E|_].
  - by case: (H "" a); rewrite E.
  - rewrite IH // => u v E. by apply: (H (String x u) v); rewrite E.
Qed.

Lemma prefix_app p s : prefix p s = true <-> exists b, s = (p ++ b)%string.
Proof.
  elim: p s => [|c p IH] s /=.
  - split; [by move=> _; exists s|by case: s].
  - case: s => [|x s]; first by split=> // [[b]].
    have -> : prefix (String c p) (String x s) =
      match ascii_dec c x with left _ => prefix p s | right _ => false end by [].
    destruct (ascii_dec c x) as [->|Hne].
    + rewrite IH. split; first by move=> [b ->]; exists b. by move=> [b [->]]; exists b.
    + split=> // [[b [E _]]]. by case: Hne.
Qed.
Section Engine.
Variable py_int : Z -> string -> option Z.
Variable search : string -> option (string -> bool).

Lemma parse_key_spec0 key k i : parse_key py_int key = Ok (k, i) <-> key_of0 py_int key k i.
Proof.
  rewrite /parse_key. split.
  - case E: (cut "[" key) => [[a r]|]; last first.
    { move=> [<- <-]. apply: key_plain0. by apply cut_none. }
    apply cut_some in E. case: E => [-> Ha].
    case E: (cut "]" r) => [[t rest]|] //.
    apply cut_some in E. case: E => [-> Ht].
    case: String.eqb_spec => Hs.
    + move=> [<- <-]. by apply: key_star0.
    + case E: (if _ then _ else _) => [j|] // [<- <-].
      apply: key_index0 => //. move: E. by case: prefix.
  - move=> H. inversion H as [k' Hk|k' t rest Hk Ht Hs|k' t rest j Hk Ht Hs Hi]; subst.
    + have -> : cut "[" k = None by apply cut_none. done.
    + rewrite cut_app // cut_app // Hs. done.
    + rewrite cut_app // cut_app //.
      have -> : String.eqb (strip t) "*" = false by apply/String.eqb_neq.
      move: Hi. by case: prefix => ->.
Qed.

Lemma parse_key_spec key k i :
  parse_key py_int key = Ok (k, i) <-> key_of py_int key k i.
Proof.
  rewrite parse_key_spec0. split=> H.
  - inversion H as [k' Hk|k' t rest Hk Ht Hs|k' t rest j Hk Ht Hs Hi]; subst.
    + exact: key_plain.
    + apply: key_star => //. by apply strip_trimmed.
    + case Ep: (prefix "0x" (strip t)) Hi => Hi.
      * apply prefix_app in Ep. move: Ep => [u Eu]. apply: (key_hex _ _ _ u) => //.
        -- by apply strip_trimmed.
        -- by rewrite -Eu.
      * apply: (key_decimal _ _ _ (strip t)) => //.
        -- by apply strip_trimmed.
        -- move=> r Er. have : prefix "0x" (strip t) = true.
           { apply prefix_app. by exists r. }
           by rewrite Ep.
  - inversion H as [k' Hk|k' t rest Hk Ht Hs|k' t u rest j Hk Ht Hs Hn Hx Hi
      |k' t u rest j Hk Ht Hs Hi]; subst.
    + exact: key_plain0.
    + apply: key_star0 => //. by apply strip_trimmed.
    + apply strip_trimmed in Hs. subst u. apply: key_index0 => //.
      case Ep: (prefix "0x" (strip t)) => //.
      apply prefix_app in Ep. move: Ep => [r Er]. by case: (Hx r).
    + apply strip_trimmed in Hs. apply: key_index0 => //; rewrite Hs //.
      have -> : prefix "0x" ("0x" ++ u) = true by apply prefix_app; exists u.
      done.
Qed.

Lemma find_prop_spec ps k : NoDup (map fst ps) ->
  (exists p, find_prop ps k = Ok (Some p) /\ In (k, p) ps) \/
  (find_prop ps k = Ok None /\ ~ In k (map fst ps)).
Proof.
  rewrite /find_prop. elim: ps => [|[n p] ps IH] /= Hn; first by right; split=> //; case.
  inversion Hn as [|? ? Hni Hnd]; subst. case: String.eqb_spec => [E|Hne].
  - subst n. left. have -> : List.filter (fun q => String.eqb (fst q) k) ps = [].
    { move: Hni. elim: ps {IH Hn Hnd} => [|[m q] ps IH] //= Hk.
      case: String.eqb_spec => [E|_]; first by case: Hk; left.
      apply: IH. by move=> H; case: Hk; right. }
    exists p. split=> //. by left.
  - case: (IH Hnd) => [[q [H1 H2]]|[H1 H2]].
    + left. exists q. split=> //. by right.
    + right. split=> //. by case.
Qed.

Lemma match_attrs_true n attrs : node_ok n ->
  match_attrs py_int n attrs = Ok true <-> Forall (meets py_int n) attrs.
Proof.
  move=> Hn. elim: attrs => [|[key v] attrs IH] /=; first by split.
  have Hin : forall k p q, In (k, p) (n_props n) -> In (k, q) (n_props n) -> p = q.
  { move=> k p q Hp Hq. 
    have Ep : dget (n_props n) k = Some p by apply: In_dget.
    have Eq : dget (n_props n) k = Some q by apply: In_dget.
    rewrite Ep in Eq. by case: Eq. }
  split.
  - case Ek: (parse_key py_int key) => [[k i]|] //=.
    have [[p [-> Hp]]|[-> _]] := find_prop_spec _ k Hn => //=.
    case Ec: (compare_prop p i v) => [[]|] //= H.
    constructor; last by apply IH.
    exists k, i, p. split; first by apply parse_key_spec. split=> //.
    by apply compare_has.
  - move=> H. inversion H as [|? ? [k [i [p [Hk [Hp Hv]]]]] HF]; subst.
    cbn [fst snd] in Hk, Hv. apply parse_key_spec in Hk. rewrite Hk /=.
    have [[q [-> Hq]]|[_ Hq]] := find_prop_spec _ k Hn; last first.
    { case: Hq. by apply (in_map fst) in Hp. }
    rewrite (Hin _ _ _ Hq Hp) /=. apply compare_has in Hv. rewrite Hv /=.
    by apply IH.
Qed.

Lemma filterM_kept f P ns r :
  (forall n b, In n ns -> f n = Ok b -> (b = true <-> P n)) ->
  filterM f ns = Ok r -> kept P ns r.
Proof.
  elim: ns r => [|n ns IH] r /= Hf; first by move=> [<-]; constructor.
  case E: (f n) => [b|] //=. case Er: (filterM f ns) => [r'|] //= [<-].
  have Hb := Hf n b (or_introl eq_refl) E.
  have HK : kept P ns r' by apply: IH => // m c Hm; apply: Hf; right.
  case: b Hb {E} => Hb.
  - apply: kept_in => //. by apply Hb.
  - apply: kept_out => //. move/Hb. done.
Qed.

Lemma match_by_attrs_spec tree attrs set r : Forall node_ok tree -> Forall node_ok set ->
  attrs <> [] ->
  match_nodes_by_attrs py_int tree attrs set = Ok r ->
  kept (fun n => Forall (meets py_int n) attrs)
    (match set with [] => tree | _ => set end) r.
Proof.
  move=> Ht Hs Hne. rewrite /match_nodes_by_attrs. case: attrs Hne => // a attrs _ H.
  have H' : filterM (fun n => match_attrs py_int n (a :: attrs))
              (match set with [] => tree | _ => set end) = Ok r by case: (set) H.
  apply: filterM_kept H' => n b Hin E. rewrite -match_attrs_true; last by rewrite E; split; [move=> ->|move=> [->]].
  case: (set) Hs Hin => [|m ms] Hs Hin.
  - rewrite Forall_forall in Ht. exact: Ht.
  - rewrite Forall_forall in Hs. exact: Hs.
Qed.

Lemma filter_kept {A} (f : A -> bool) l : kept (fun x => f x = true) l (List.filter f l).
Proof.
  elim: l => [|x l IH] /=; first by constructor.
  case E: (f x); [exact: kept_in|]. apply: kept_out => //. by rewrite E.
Qed.

Lemma kept_kept {A} (P Q : A -> Prop) l m r :
  kept P l m -> kept Q m r -> kept (fun x => P x /\ Q x) l r.
Proof.
  move=> H. elim: H r => [|x l' m' HP _ IH|x l' m' HP _ IH] r Hr.
  - inversion Hr. constructor.
  - inversion Hr; subst.
    + apply: kept_in => //. exact: IH.
    + apply: kept_out; first by case. exact: IH.
  - apply: kept_out; first by case. exact: IH.
Qed.

(** Queries by path and properties. *)
Lemma query_exact tree sp q f r : q_alias q = "" -> q_chosen q = "" ->
  Forall node_ok tree -> q_path q <> "" -> search (q_path q) = Some f ->
  (exists n, In n tree /\ f (n_path n) = true) \/ q_props q = [] ->
  match_query py_int search tree sp q = Ok r ->
  kept (fun n => f (n_path n) = true /\ Forall (meets py_int n) (q_props q)) tree r.
Proof.
  move=> Ha Hc Hok Hp Hf Hne. rewrite /match_query Ha Hc /=.
  have -> : String.eqb (q_path q) "" = false by apply/String.eqb_neq.
  rewrite /= /match_nodes_by_path Hf /=.
  case E: (q_props q) Hne => [|a l] Hne.
  - move=> [<-]. have := kept_kept _ (fun _ => True) _ _ _
        (filter_kept (fun n => f (n_path n)) tree).
    move=> H. have {}H : kept (fun n => f (n_path n) = true /\ True) tree
                     (List.filter (fun n => f (n_path n)) tree).
    { apply: H. elim: List.filter => [|x m IH]; by constructor. }
    elim: H => [|x m' l' [HP _] _ IH|x m' l' HP _ IH]; first by constructor.
    + by apply: kept_in.
    + apply: kept_out => // [[H1 _]]. by apply HP.
  - case: Hne => // [[n [Hn Hfn]]] H.
    have Hset : Forall node_ok (List.filter (fun n => f (n_path n)) tree).
    { apply Forall_forall => x Hx. apply filter_In in Hx. case: Hx => [Hx _].
      rewrite Forall_forall in Hok. exact: Hok. }
    have Hal : a :: l <> [] by [].
    have Hk := match_by_attrs_spec _ _ _ _ Hok Hset Hal H.
    have Hin : In n (List.filter (fun n => f (n_path n)) tree) by apply filter_In.
    have Hk' : kept (fun n => Forall (meets py_int n) (a :: l))
                 (List.filter (fun n => f (n_path n)) tree) r.
    { by case: (List.filter _ tree) Hin Hk. }
    exact: kept_kept (filter_kept (fun n => f (n_path n)) tree) Hk'.
Qed.
Lemma query_props tree sp q r : q_alias q = "" -> q_chosen q = "" ->
  Forall node_ok tree -> q_path q = "" -> q_props q <> [] ->
  match_query py_int search tree sp q = Ok r ->
  kept (fun n => Forall (meets py_int n) (q_props q)) tree r.
Proof.
  move=> Ha Hc Hok Hp Hne. rewrite /match_query Ha Hc Hp /=.
  case E: (q_props q) Hne => [|a l] // _ H.
  have Hal : a :: l <> [] by [].
  exact: (match_by_attrs_spec tree (a :: l) [] r Hok (Forall_nil _) Hal H).
Qed.

(** The first of what is kept. *)
Lemma kept_first {A} (P : A -> Prop) l r : kept P l r ->
  match r with
  | [] => Forall (fun x => ~ P x) l
  | x :: _ => exists before after, l = before ++ x :: after /\ P x /\
                Forall (fun y => ~ P y) before
  end.
Proof.
  elim=> [|x m l' HP _ _|x m l' HP _ IH].
  - constructor.
  - by exists [], m.
  - case: l' IH => [|y l'] IH; first by constructor.
    case: IH => [b [a [-> [Hy Hb]]]]. exists (x :: b), a. split=> //. split=> //.
    by constructor.
Qed.

Lemma contains_occurs p s : contains p s = true <->
  exists a b, s = (a ++ p ++ b)%string.
Proof.
  elim: s => [|c s IH]; cbn [contains].
  - rewrite orb_false_r prefix_app. split.
    + move=> [b E]. by exists "", b.
    + move=> [[|x a] [b E]] //. by exists b.
  - rewrite orb_true_iff. split.
    + case=> [H|/IH [a [b ->]]]; last by exists (String c a), b.
      have [b ->] : exists b, String c s = (p ++ b)%string by apply prefix_app.
      by exists "", b.
    + move=> [[|x a] [b E]].
      * left. apply: (proj2 (prefix_app p (String c s))). by exists b.
      * right. apply IH. case: E => _ ->. by exists a, b.
Qed.
Lemma search_escaped_occurs0 p s : search_escaped p s = true <-> occurs0 p s.
Proof. exact: contains_occurs. Qed.
Definition all_ascii : list ascii :=
  map (fun n => ascii_of_nat n) (seq 0 256).
Lemma all_asciiP c : In c all_ascii.
Proof.
  apply in_map_iff. exists (nat_of_ascii c). split; first exact: ascii_nat_embedding.
  apply in_seq. have := nat_ascii_bounded c. lia.
Qed.
Definition same_letterb (c d : ascii) : bool :=
  Ascii.eqb c d || existsb (fun p => Ascii.eqb c (fst p) && Ascii.eqb d (snd p)) letters
  || existsb (fun p => Ascii.eqb d (fst p) && Ascii.eqb c (snd p)) letters.
Lemma same_letterP c d : same_letterb c d = true <-> same_letter c d.
Proof.
  rewrite /same_letterb /same_letter orb_true_iff orb_true_iff Ascii.eqb_eq.
  have H : forall c d, existsb (fun p => Ascii.eqb c (fst p) && Ascii.eqb d (snd p)) letters = true
    <-> In (c, d) letters.
  { move=> x y. rewrite existsb_exists. split.
    - move=> [[u v] [Hi /andP [/Ascii.eqb_eq Eu /Ascii.eqb_eq Ev]]].
      cbn in Eu, Ev. by subst.
    - move=> Hi. exists (x, y). split=> //=. by rewrite !Ascii.eqb_refl. }
  have H1 := H c d. have H2 := H d c. tauto.
Qed.
Lemma lower_table : forallb (fun c => forallb (fun d =>
  Bool.eqb (Ascii.eqb (lower c) (lower d)) (same_letterb c d)) all_ascii) all_ascii = true.
Proof. by vm_compute. Qed.
Lemma lower_same c d : lower c = lower d <-> same_letter c d.
Proof.
  have := lower_table. rewrite forallb_forall => /(_ c (all_asciiP c)).
  rewrite forallb_forall => /(_ d (all_asciiP d)) /Bool.eqb_prop E.
  by rewrite -same_letterP -E Ascii.eqb_eq.
Qed.
Lemma lowers_same s t : lowers s = lowers t <-> same_text s t.
Proof.
  elim: s t => [|c s IH] [|d t] //=. rewrite -IH -lower_same.
  split; first by move=> [-> ->]. by move=> [-> ->].
Qed.
Lemma lowers_app s t : lowers (s ++ t) = (lowers s ++ lowers t)%string.
Proof. elim: s => [|c s IH] //=. by rewrite IH. Qed.
Lemma lowers_split s a b : lowers s = (a ++ b)%string ->
  exists u v, s = (u ++ v)%string /\ lowers u = a /\ lowers v = b.
Proof.
  elim: a s => [|c a IH] s /=.
  - move=> E. by exists "", s.
  - case: s => [|d s] //= [<- E]. have [u [v [-> [<- <-]]]] := IH _ E.
    by exists (String d u), v.
Qed.
Lemma occursE p s : occurs0 p s <-> occurs_in p s.
Proof.
  split.
  - move=> [a [b E]]. have [u [v [-> [_ Ev]]]] := lowers_split _ _ _ E.
    have [m [w [-> [Em _]]]] := lowers_split _ _ _ Ev.
    exists u, m, w. split=> //. by apply lowers_same.
  - move=> [a [m [b [-> /lowers_same E]]]]. exists (lowers a), (lowers b).
    by rewrite !lowers_app E.
Qed.
Lemma search_escaped_occurs p s : search_escaped p s = true <-> occurs_in p s.
Proof. by rewrite search_escaped_occurs0 occursE. Qed.

Lemma alias_sound tree sp name r : match_alias tree sp name = Ok r ->
  exists n path, r = [n] /\ In n tree /\
    one_string (aliases sp) name = Ok path /\
    occurs_in path (n_path n) /\
    forall m, In m tree -> occurs_in path (n_path m) -> m = n.
Proof.
  rewrite /match_alias /node_at. case E: one_string => [path|] //=.
  case Ef: (List.filter _ tree) => [|n [|m l]] // [<-].
  have Hn : In n (List.filter (fun n => search_escaped path (n_path n)) tree)
    by rewrite Ef; left.
  exists n, path. split=> //. apply filter_In in Hn. case: Hn => [Hn Hs].
  split=> //. split=> //. split; first by apply search_escaped_occurs.
  move=> m Hm /search_escaped_occurs Ho.
  have : In m (List.filter (fun n => search_escaped path (n_path n)) tree)
    by apply filter_In.
  rewrite Ef. by case.
Qed.
Lemma alias_complete tree sp name path n : NoDup tree ->
  one_string (aliases sp) name = Ok path -> In n tree ->
  occurs_in path (n_path n) ->
  (forall m, In m tree -> occurs_in path (n_path m) -> m = n) ->
  match_alias tree sp name = Ok [n].
Proof.
  move=> Hnd Hs Hn Ho Hu. rewrite /match_alias Hs /= /node_at.
  have Hf : forall m, In m (List.filter (fun n => search_escaped path (n_path n)) tree)
            -> m = n.
  { move=> m /filter_In [Hm /search_escaped_occurs Hom]. exact: Hu. }
  have Hin : In n (List.filter (fun n => search_escaped path (n_path n)) tree).
  { apply filter_In. split=> //. by apply search_escaped_occurs. }
  have Hndf := NoDup_filter (fun n => search_escaped path (n_path n)) Hnd.
  case: (List.filter _ tree) Hf Hin Hndf => [|a [|b l]] Hf Hin Hndf //.
  - by rewrite (Hf a (or_introl eq_refl)).
  - exfalso. inversion Hndf as [|? ? Hni _]; subst. apply: Hni.
    rewrite (Hf a (or_introl eq_refl)) -(Hf b (or_intror (or_introl eq_refl))).
    by left.
Qed.

Lemma alias_ambiguous tree sp name path n m : n_path n <> n_path m ->
  one_string (aliases sp) name = Ok path -> In n tree -> In m tree ->
  occurs_in path (n_path n) -> occurs_in path (n_path m) ->
  match_alias tree sp name = Err ParseError.
Proof.
  move=> Hne Hs Hn Hm Hon Hom. rewrite /match_alias Hs /= /node_at.
  have H1 : In n (List.filter (fun n => search_escaped path (n_path n)) tree)
    by apply filter_In; split=> //; apply search_escaped_occurs.
  have H2 : In m (List.filter (fun n => search_escaped path (n_path n)) tree)
    by apply filter_In; split=> //; apply search_escaped_occurs.
  case: (List.filter _ tree) H1 H2 => [|a [|b l]] //= [->|//] [E|//].
  by rewrite E in Hne.
Qed.

Lemma select_spec tree sp qs r : qs <> [] ->
  select py_int search tree sp qs = Ok r <->
  exists rs, Forall2 (fun q l => match_query py_int search tree sp q = Ok l) qs rs /\
    r = map (fun l => match l with n :: _ => Some n | [] => None end) rs.
Proof.
  move=> Hne. rewrite /select. split.
  - case E: mapM => [rs|] //=. apply mapM_Ok in E.
    move=> H. exists rs. split=> //. case: rs E H => [|x rs] E H //. by case: H.
  - move=> [rs [HF ->]]. have E : mapM (match_query py_int search tree sp) qs = Ok rs by apply mapM_Ok.
    rewrite E /=. case: rs HF {E} => [|x rs] HF //. inversion HF; subst. by case: Hne.
Qed.
End Engine.

(** ** The stage *)
Lemma underscores_word s : every_char is_word (underscores s).
Proof.
  elim: s => [|c s IH] //=. split=> //. by case E: (is_word c).
Qed.
Lemma words_only_every s : every_char is_word s -> words_only s = true.
Proof.
  elim: s => [|c [|d s] IH] //= [Hc Hs].
  - by rewrite Hc.
  - rewrite Hc. exact: IH.
Qed.
Lemma key_regexp_every s : s <> "" -> every_char is_word s -> key_regexp s = true.
Proof. case: s => [|c s] //= _ [-> Hs]. exact: words_only_every. Qed.

Lemma rename_idem k : rename (rename k) = rename k.
Proof.
  rewrite /rename. case E: (key_regexp k); first by rewrite E.
  case Ek: (underscores k) => [|c s] //.
  rewrite -Ek key_regexp_every //; first by rewrite Ek.
  exact: underscores_word.
Qed.

Lemma dset_new {V} (d : dict string V) k v : ~ In k (map fst d) -> dset d k v = d ++ [(k, v)].
Proof.
  elim: d => [|[k' v'] d IH] H //. cbn [dset map In fst app] in H |- *.
  case: (eqb_spec k k') => [E|_].
  - case: H. by left.
  - rewrite IH //. by move=> Hin; apply H; right.
Qed.
Lemma ddel_head {V} (d : dict string V) k v : ddel ((k, v) :: d) k = d.
Proof. cbn [ddel]. by rewrite eqb_refl. Qed.

Lemma NoDup_head {A} (l : list A) x m : NoDup (l ++ x :: m) -> ~ In x l /\ ~ In x m /\ NoDup (l ++ m).
Proof.
  move=> H. have H1 := NoDup_remove_2 _ _ _ H. have H2 := NoDup_remove_1 _ _ _ H.
  split; [|split] => // Hin; apply H1; apply in_or_app; tauto.
Qed.

Lemma fold_rename {V} (l all done : dict string V) :
  (forall a b, In a (map fst all) -> In b (map fst all) -> rename a = rename b -> a = b) ->
  incl l all -> NoDup (map fst l) ->
  (forall k, In k (map fst done) -> exists a, In a (map fst all) /\ ~ In a (map fst l) /\ k = rename a) ->
  fold_left (fun acc kv => dset (ddel acc (fst kv)) (rename (fst kv)) (snd kv)) l (l ++ done)
  = done ++ map (fun kv => (rename (fst kv), snd kv)) l.
Proof.
  move=> Hinj. elim: l done => [|[k v] l IH] done Hincl Hnd Hd.
  - by rewrite /= app_nil_r.
  - cbn [fold_left app fst snd]. rewrite ddel_head.
    inversion Hnd as [|? ? Hni Hnd']; subst.
    have Hk : In k (map fst all) by apply (in_map fst _ _ (Hincl (k, v) (or_introl eq_refl))).
    have Hl : forall a, In a (map fst l) -> In a (map fst all).
    { move=> a /in_map_iff [[a' w] [<- Hin]]. apply: in_map. apply: Hincl. by right. }
    rewrite dset_new.
    { rewrite map_app => Hi. destruct (in_app_or _ _ _ Hi) as [H|H].
      - have E := Hinj _ _ (Hl _ H) Hk (rename_idem k). by rewrite E in H.
      - have [a [Ha [Hal E]]] := Hd _ H. have := Hinj _ _ Hk Ha E => Eq. subst a.
        apply: Hal. by left. }
    rewrite -app_assoc IH.
    + move=> x Hx. apply: Hincl. by right.
    + done.
    + move=> k'. rewrite map_app => Hi. destruct (in_app_or _ _ _ Hi) as [H|H].
      * have [a [Ha [Hal E]]] := Hd _ H. exists a. split=> //. split=> //.
        by move=> Hin; apply: Hal; right.
      * case: H => // H. exists k. by repeat split.
    + rewrite -app_assoc. done.
Qed.

Lemma update_keeps {V} (d : dict string V) : NoDup (map fst d) ->
  (forall a b, In a (map fst d) -> In b (map fst d) -> rename a = rename b -> a = b) ->
  update_dict_keys d = map (fun kv => (rename (fst kv), snd kv)) d.
Proof.
  move=> Hnd Hinj. rewrite /update_dict_keys.
  have := fold_rename d d [] Hinj (fun x H => H) Hnd.
  rewrite app_nil_r /= => -> //.
Qed.

Lemma update_loses : exists (d : dict string Z) k v, In (k, v) d /\ NoDup (map fst d) /\
  update_dict_keys d = [("reg_names", 2%Z)] /\ v <> 2%Z.
Proof.
  exists [("reg-names", 1%Z); ("reg_names", 2%Z)], "reg-names", 1%Z.
  split; first by left. split; last by [].
  repeat (constructor; first by cbn; intuition discriminate). constructor.
Qed.

Lemma rename_good k : key_regexp k = false -> every_char is_word (rename k).
Proof. rewrite /rename => ->. exact: underscores_word. Qed.
Lemma rename_word k : every_char is_word k -> rename k = k.
Proof.
  case: k => [|c k] H //. by rewrite /rename key_regexp_every.
Qed.
Lemma words_only_split s : words_only s = true ->
  every_char is_word s \/ exists t, s = (t ++ String "010"%char "")%string.
Proof.
  elim: s => [|c [|d s] IH] H; first by left.
  - cbn in H. apply orb_true_iff in H. case: H => [H|/Ascii.eqb_eq ->]; first by left.
    right. by exists "".
  - change (is_word c && words_only (String d s) = true) in H.
    apply andb_true_iff in H. case: H => [Hc Hs].
    case: (IH Hs) => [H|[t ->]]; first by left; split.
    right. by exists (String c t).
Qed.
Lemma rename_chars k : (forall t, k <> (t ++ String "010"%char "")%string) ->
  every_char is_word (rename k).
Proof.
  move=> Hk. rewrite /rename. case E: (key_regexp k); last by apply underscores_word.
  case: k E Hk => [|c k] //= /andP [Hc Hw] Hk.
  case: (words_only_split _ Hw) => [H|[t E]]; first by split.
  case: (Hk (String c t)). by rewrite E.
Qed.

Section Stage.
Variable queries : string -> option (list query -> res (dict string dval)).

Lemma resolve_settings ss rs : resolve queries ss = Ok rs ->
  Forall2 (fun s r => s_instance r = s_instance s /\ s_attribute r = s_attribute s /\
             (exists v, s_value r = inl v) /\
             (forall v, s_value s = inl v -> r = s)) ss rs.
Proof.
  move/mapM_Ok. elim=> [|s r ss' rs' H _ IH]; first by constructor.
  constructor=> //. move: H. rewrite /resolve_setting.
  case Ev: (s_value s) => [v|[kind [args lookup]]].
  - move=> [<-]. split=> //. split=> //. split=> //. by exists v.
  - case: (queries kind) => [q|] //. case: (q args) => [d|] //=.
    case: lookup Ev => [|k ks] Ev.
    + case: (dget _ "query") => [[]|] // items. case: (mapM _ _) => [it|] //= [<-] /=.
      repeat split=> //. by eexists.
    + case: (dget _ "query") => [[]|] // items. case: (mapM _ _) => [it|] //= [<-] /=.
      repeat split=> //. by eexists.
Qed.

Lemma unknown_query ss s kind rest : In s ss -> s_value s = inr (kind, rest) ->
  queries kind = None -> exists e, resolve queries ss = Err e.
Proof.
  move=> Hin Hv Hq. rewrite /resolve. elim: ss Hin => [|t ss IH] //= [->|Hin].
  - rewrite /resolve_setting Hv. case: rest Hv => a l Hv. rewrite Hq. by exists ParseError.
  - case: (resolve_setting _ t) => [r|e]; last by exists e.
    have [e ->] := IH Hin. by exists e.
Qed.

Lemma foldM_looked_up v ks w : foldM index ks v = Ok w <-> looked_up v ks w.
Proof.
  elim: ks v => [|k ks IH] v /=.
  - split; first by move=> [<-]; constructor. move=> H. by inversion H.
  - split.
    + case: v => // d. rewrite {1}/index. case E: (dget d k) => [u|] //= H.
      apply: lu_key; first exact: E. by apply IH.
    + move=> H. inversion H as [|d k' u ks' w' E Hu]; subst.
      cbn [index]. rewrite E /=. by apply IH.
Qed.

Lemma lookup_result s kind args lookup q d items v : lookup <> [] ->
  s_value s = inr (kind, (args, lookup)) -> queries kind = Some q ->
  q args = Ok d -> dget d "query" = Some (DList items) ->
  (exists r, resolve_setting queries s = Ok r /\ s_value r = inl v) <->
  (exists vs, v = DList vs /\ Forall2 (fun i w => looked_up i lookup w) items vs).
Proof.
  move=> Hne Hv Hq Hd Hi. rewrite /resolve_setting Hv Hq Hd /=.
  case: lookup Hne Hv => // k ks _ Hv. rewrite Hi.
  split.
  - move=> [r [Hr Hval]]. move: Hr. case E: (mapM _ items) => [vs|] //= [Hr].
    subst r. case: Hval => <-. exists vs. split=> //. apply mapM_Ok in E.
    elim: E => [|a b l m H _ IH]; constructor=> //. by apply foldM_looked_up.
  - move=> [vs [-> HF]].
    have -> : mapM (fun v => foldM index (k :: ks) v) items = Ok vs.
    { apply mapM_Ok. elim: HF => [|a b l m H _ IH]; constructor=> //. by apply foldM_looked_up. }
    by eexists.
Qed.

Lemma whole_result s kind args q d items :
  s_value s = inr (kind, (args, [])) -> queries kind = Some q ->
  q args = Ok d -> NoDup (map fst d) ->
  (forall a b, In a (map fst d) -> In b (map fst d) -> rename a = rename b -> a = b) ->
  dget d "query" = Some (DList (map DDict items)) ->
  Forall (fun i => NoDup (map fst i)) items ->
  Forall (fun i => forall a b, In a (map fst i) -> In b (map fst i) ->
    rename a = rename b -> a = b) items ->
  exists r e, resolve_setting queries s = Ok r /\
    s_value r = inl (DDict e) /\
    dget e "query" = Some (DList
      (map (fun i => DDict (map (fun kv => (rename (fst kv), snd kv)) i)) items)) /\
    forall k w, In (k, w) d -> k <> "query" -> dget e (rename k) = Some w.
Proof.
  move=> Hv Hq Hd Hnd Hinj Hi HF1 HF2. rewrite /resolve_setting Hv Hq Hd /=.
  have Hin : In ("query", DList (map DDict items)) d by apply dget_In in Hi.
  rewrite update_keeps //.
  set e := map _ d.
  have Hnde : NoDup (map fst e).
  { rewrite /e map_map /=. have -> : map (fun kv => rename (fst kv)) d = map rename (map fst d) by rewrite map_map.
    move: Hinj Hnd {e Hd Hin Hi}. elim: (map fst d) => [|a l IH] Hinj Hnd /=; first by constructor.
    inversion Hnd as [|? ? Hni Hnd']; subst. constructor.
    - move=> /in_map_iff [b [E Hb]]. apply: Hni.
      have -> : a = b by apply: Hinj => //; [by left|by right].
      done.
    - apply: IH => // x y Hx Hy. apply: Hinj; by right. }
  have Hget : forall k w, In (k, w) d -> dget e (rename k) = Some w.
  { move=> k w H. apply In_dget => //. rewrite /e. apply in_map_iff. by exists (k, w). }
  have -> : dget e "query" = Some (DList (map DDict items)).
  { have := Hget _ _ Hin. by rewrite rename_word. }
  have -> : mapM rename_item (map DDict items) = Ok
    (map (fun i => DDict (map (fun kv => (rename (fst kv), snd kv)) i)) items).
  { elim: items HF1 HF2 {Hi Hin} => [|i items IH] HF1 HF2 //=.
    inversion HF1; inversion HF2; subst. rewrite IH //=. by rewrite update_keeps. }
  do 2 eexists. split; first reflexivity. split; first reflexivity. split.
  - by rewrite dget_dset_eq.
  - move=> k w H Hk. rewrite dget_dset_ne; last by apply: Hget.
    move=> E. apply: Hk. apply: Hinj => //.
    + by apply (in_map fst) in H.
    + by apply (in_map fst) in Hin.
Qed.
End Stage.

(** ** Counterexamples *)
Lemma path_ignored : exists tree q f r n,
  q_path q <> "" /\ q_props q <> [] /\
  match_query (fun _ _ => None) (fun _ => Some f) tree (Special None None) q
    = Ok r /\ In n r /\ f (n_path n) = false.
Proof.
  exists [Node "/soc/uart" [("status", Strings ["okay"])]].
  exists (Query "" "" "/nowhere" [("status", QStr "okay")]), (fun _ => false).
  do 2 eexists. repeat split; try by []. by left.
Qed.

Lemma alias_child : exists tree path n,
  In n tree /\ n_path n = path /\
  (forall m, In m tree -> n_path m = path -> m = n) /\
  match_alias tree (Special (Some [("serial0", Strings [path])]) None) "serial0"
    = Err ParseError.
Proof.
  exists [Node "/soc/uart@1" []; Node "/soc/uart@1/bluetooth" []], "/soc/uart@1",
    (Node "/soc/uart@1" []).
  split; first by left. split=> //. split; last by [].
  by move=> m [<-|[<-|[]]].
Qed.

Lemma alias_elsewhere : exists tree path r n,
  match_alias tree (Special (Some [("serial0", Strings [path])]) None) "serial0"
    = Ok r /\ In n r /\ n_path n <> path.
Proof.
  exists [Node "/soc/uart@10" []], "/soc/uart@1". do 2 eexists.
  split; first by reflexivity. split; first by left. done.
Qed.
