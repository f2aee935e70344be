(** Lemmas for [RpcMem_Props]: the outcomes one by one, counterexamples and an
    implementation that meets the requirements. *)
From Coq Require Import List NArith Bool Arith Lia ssreflect.
From Verif Require Import Prelude Marshal_Model Marshal_Spec RpcMem_Model
  RpcMem_Spec RpcMem_Proofs RpcMem_Proofs2 RpcMem_Proofs3.
Import ListNotations.
Open Scope N_scope.
Open Scope list_scope.

Lemma serve_defined W mal tr n ret ps impl fits buf m : sane m ->
  returnable ret -> orderly ret ps impl ->
  serve W mal tr n ret ps impl fits buf m <> None.
Proof.
  move=> S Rt Or.
  by case: (serve_ok W mal tr n ret ps impl fits buf m S Rt Or) => h [m' [-> _]].
Qed.
Lemma serve_refused W mal tr n ret ps impl fits buf m e m' : sane m ->
  serve W mal tr n ret ps impl fits buf m = Some (Refused e, m') ->
  reported e -> unchanged m m'.
Proof.
  move=> S. rewrite /serve.
  case: (u_inputs_ok W mal tr n buf (map fresh_slot ps) m S)
    => r [ss [m1 [E [S1 [Sh [Fi H]]]]]].
  rewrite E. case: r E H => [o|e'] E H.
  - case: (impl ss m1) => [[rc after] m2].
    case: (match ret with Some _ => _ | None => _ end) => [rv|] //.
    case: (read_slots _ _) => [vs|] //. case: (free_ret _ _ _) => [m3|] //.
    case: (free_slots _ _) => [m4|] //. by case: (fits _).
  - move=> [<- <-]. by case: H.
Qed.
Lemma serve_done W mal tr n ret ps impl fits buf m h m' : sane m ->
  returnable ret -> orderly ret ps impl ->
  serve W mal tr n ret ps impl fits buf m = Some (h, m') ->
  h = Answered \/ h = Unsent ->
  exists ss m1 ins rc after m2 rb outs,
    sane m1 /\ arguments ps ss m1 ins /\ acquired m (concat ins) m1 /\
    impl ss m1 = (rc, after, m2) /\
    ret_owns m2 ret rc rb /\
    Forall2 (slot_owns m2) (variables ss after) outs /\
    released m2 (rb ++ concat outs) m'.
Proof.
  move=> S Rt Or E H.
  case: (serve_ok W mal tr n ret ps impl fits buf m S Rt Or) => h0 [m0 [E0 H0]].
  rewrite E0 in E. case: E => Eh Em. subst h0 m0.
  by case: H => Eh; subst h.
Qed.

Lemma serve_response W mal tr n ret ps impl fits buf m h m' :
  serve W mal tr n ret ps impl fits buf m = Some (h, m') ->
  h = Answered \/ h = Unsent ->
  exists o ss m1 rc after m2 rv vs,
    u_inputs W mal tr n buf (map fresh_slot ps) m = Some (Ok o, ss, m1) /\
    impl ss m1 = (rc, after, m2) /\
    match ret with
    | None => rv = []
    | Some t => exists v, read_param m2 t rc = Some v /\ rv = [v]
    end /\
    read_slots m2
      (filter (fun s => match s_dir s with DOut | DInout => true | _ => false end)
         (variables ss after)) = Some vs /\
    (h = Answered <-> fits (rv ++ vs) = true).
Proof.
  rewrite /serve. case: (u_inputs _ _ _ _ _ _ _) => [[[[o|e] ss] m1]|] //;
    last by move=> [<- _] [].
  case Ei: (impl ss m1) => [[rc after] m2].
  case Er: (match ret with Some _ => _ | None => _ end) => [rv|] //.
  rewrite pass_back_spec.
  have Ef : filter is_output (variables ss after) = filter (fun s => match s_dir s with DOut | DInout => true | _ => false end) (variables ss after).
  { apply: filter_ext => s. by rewrite /is_output; case: (s_dir s). }
  rewrite Ef.
  case Es: (read_slots _ _) => [vs|] //. case: (free_ret _ _ _) => [m3|] //.
  case: (free_slots _ _) => [m4|] //. move=> [<- _] _.
  exists o, ss, m1, rc, after, m2, rv, vs. split => //. split => //. split.
  - move: Er. case: (ret) => [t|]; last by move=> [<-].
    case: (read_param _ _ _) => [v|] // [<-]. by exists v.
  - rewrite Es. split => //. by case: (fits _).
Qed.

Lemma call_defined W mal tr ret server ss m olds : sane m -> returnable ret ->
  caller ss m olds -> call W mal tr ret server ss m <> None.
Proof.
  move=> S Rt C.
  by case: (call_ok W mal tr ret server ss m olds S Rt C)
    => o [rc [ss' [m' [-> _]]]].
Qed.
Lemma call_unsent W mal tr ret server ss m olds rc ss' m' : sane m ->
  returnable ret -> caller ss m olds ->
  call W mal tr ret server ss m = Some (NotSent, rc, ss', m') ->
  ss' = ss /\ unchanged m m'.
Proof.
  move=> S Rt C E.
  case: (call_ok W mal tr ret server ss m olds S Rt C)
    => o [rc0 [s0 [m0 [E0 [_ [_ H]]]]]].
  rewrite E0 in E. case: E => ? ? ? ?. by subst.
Qed.
Lemma call_returned W mal tr ret server ss m olds rc ss' m' : sane m ->
  returnable ret -> caller ss m olds ->
  call W mal tr ret server ss m = Some (Returned, rc, ss', m') ->
  map (fun s => (s_dir s, s_type s)) ss' = map (fun s => (s_dir s, s_type s)) ss
  /\ filter (fun s => negb (is_output s)) ss'
     = filter (fun s => negb (is_output s)) ss
  /\ exists rb news,
    ret_owns m' ret rc rb /\
    Forall2 (slot_owns m') (filter is_output ss') news /\
    NoDup (rb ++ concat news) /\
    (forall b, In b (rb ++ concat news) -> m_live m b = None) /\
    (forall b, ~ In b (rb ++ concat news) ->
       (In b (concat olds) -> m_live m' b = None) /\
       (~ In b (concat olds) -> m_live m' b = m_live m b)).
Proof.
  move=> S Rt C E.
  case: (call_ok W mal tr ret server ss m olds S Rt C)
    => o [rc0 [s0 [m0 [E0 [Sh [Fl H]]]]]].
  rewrite E0 in E. case: E => ? ? ? ?. by subst.
Qed.

Lemma skipn_F2 A B (P : A -> B -> Prop) k l r :
  Forall2 P l r -> Forall2 P (skipn k l) (skipn k r).
Proof.
  elim: k l r => [|k IH] l r F //=. inversion F; subst => //. exact: IH.
Qed.
Lemma call_failed W mal tr ret server ss m olds e rc ss' m' : sane m ->
  returnable ret -> caller ss m olds ->
  call W mal tr ret server ss m = Some (BadReply e, rc, ss', m') ->
  reported e ->
  filter (fun s => negb (is_output s)) ss'
  = filter (fun s => negb (is_output s)) ss /\
  exists k, (k <= length olds)%nat /\
    released m (concat (firstn k olds)) m' /\
    skipn k (filter is_output ss') = skipn k (filter is_output ss) /\
    Forall2 (fun s o => match s_dir s with
                        | DInout => slot_owns m' s o | _ => o = [] end)
      (skipn k (filter is_output ss')) (skipn k olds).
Proof.
  move=> S Rt C E Re.
  case: (call_ok W mal tr ret server ss m olds S Rt C)
    => o [rc0 [s0 [m0 [E0 [Sh [Fl H]]]]]].
  rewrite E0 in E. case: E => ? ? ? ?. subst.
  split => //. case: (H Re) => k [Lk [R Sk]]. exists k.
  split => //. split => //. split => //. rewrite Sk.
  case: C => [_ [F N]].
  rewrite -(firstn_skipn k olds) concat_app in N.
  move: N => /nodup_app [_ [_ D]].
  have F' := skipn_F2 _ _ _ k _ _ F.
  have G : forall b, In b (concat (skipn k olds)) -> m_live m' b = m_live m b.
  { move=> b I. apply: (proj2 (R b)) => J. exact: (D _ J I). }
  clear -F' G. move: F' G. move: (skipn k olds) => os.
  move: (skipn k (filter is_output ss)) => l.
  elim=> [|s o0 l' os' P _ IH] G; first constructor.
  constructor.
  - move: P. case: (s_dir s) => // O. apply: (owns_frame _ _ _ _ _ O) => b I.
    apply: G. by apply: in_or_app; left.
  - apply: IH => b I. apply: G. by apply: in_or_app; right.
Qed.

(** An implementation: the answer is a fresh string. *)
Definition greet : implementation := fun ss m =>
  match ss with
  | [a; b] =>
      (Cell [] None Junk,
       [a; Slot DOut PString (Cell [] None (Blk (m_next m)))],
       Mem (S (m_next m)) (upd (m_live m) (m_next m) (Some (BBytes [72; 105]))))
  | _ => (Cell [] None Junk, ss, m)
  end.
Definition greet_params : list (dir * ptype) :=
  [(DInout, PStrArray); (DOut, PString)].

Lemma greet_shape ss m ins : arguments greet_params ss m ins ->
  exists ca cb bs, ss = [Slot DInout PStrArray ca; Slot DOut PString cb] /\
    ins = [bs] /\ owns m PStrArray ca bs /\ NoDup bs.
Proof.
  move=> [Sh [F [N _]]].
  case: ss Sh F => [|[d t ca] [|[d' t' cb] [|]]] //= [? ? ? ?]. subst.
  cbn [filter is_input s_dir]. move=> F. inversion F as [|? bs ? r O F' ]; subst.
  inversion F'; subst. exists ca, cb, bs. split => //. split => //.
  split => //. by move: N; rewrite /= app_nil_r.
Qed.
Lemma owns_fun m t c bs bs' : owns m t c bs -> owns m t c bs' -> bs = bs'.
Proof.
  case.
  - move=> k c' O. by inversion O.
  - move=> c' b s P L O. inversion O; subst. congruence.
  - move=> k c' n b s Z P L O. inversion O; subst; congruence.
  - move=> k c' Z P O. inversion O; subst; congruence.
  - move=> c' b qs Z P L V O. inversion O as [| | | |? b' qs' Z' P' L' V'|]; subst.
    + have ? : b = b' by congruence. subst b'. f_equal.
      have E : map Blk qs = map Blk qs' by congruence.
      clear -E. elim: qs qs' E => [|q qs IH] [|q' qs'] //= [-> E].
      by rewrite (IH _ E).
    + congruence.
  - move=> c' Z P O. inversion O; subst; congruence.
Qed.
Lemma greet_orderly : orderly None greet_params greet.
Proof.
  move=> ss m ins S A.
  case: (greet_shape _ _ _ A) => ca [cb [bs [E1 [E2 [O N]]]]]. subst ss ins. rewrite /=.
  have G : ~ In (m_next m) bs.
  { move=> I. move: (owns_below _ _ _ _ _ S O I). lia. }
  exists [], [bs; [m_next m]]. split => //. split.
  - constructor.
    { apply: (owns_frame _ _ _ _ _ O) => b I. rewrite /= upd_ne // => E.
      by subst b. }
    constructor; last constructor.
    apply: (owns_string _ _ _ [72; 105]) => //=. by rewrite upd_eq.
  - rewrite /=. apply/nodup_app. split => //.
    split; first by constructor; [case|constructor].
    move=> x I [E|[]]. by subst x.
Qed.
Lemma greet_tidy : tidy None greet_params greet.
Proof.
  move=> ss m ins S A.
  case: (greet_shape _ _ _ A) => ca [cb [bs [E1 [E2 [O N]]]]]. subst ss ins. rewrite /=.
  set m' := Mem _ _. move=> rb outs -> F b.
  inversion F as [|? o1 ? r1 O1 F1]; subst.
  inversion F1 as [|? o2 ? r2 O2 F2]; subst. inversion F2; subst.
  have G : ~ In (m_next m) bs.
  { move=> I. move: (owns_below _ _ _ _ _ S O I). lia. }
  have O1' : owns m' PStrArray ca bs.
  { apply: (owns_frame _ _ _ _ _ O) => x I. rewrite /= upd_ne // => E.
    by subst x. }
  have ? : o1 = bs := owns_fun _ _ _ _ _ O1 O1'. subst o1.
  have ? : o2 = [m_next m].
  { inversion O2 as [|? b' s' P' L'| | | |]; subst. move: P' => /= [<-]. done. }
  subst o2. rewrite /= app_nil_r. split.
  - move=> /in_app_iff [I|[<-|[]]]; first by left. right. exact: S.
  - move=> J. right. split.
    + move=> I. apply: J. by apply: in_or_app; left.
    + rewrite upd_ne // => E. subst b. apply: J. by apply: in_or_app; right; left.
Qed.

(** A memory with a few blocks. *)
Definition mem_of (l : list blk) : mem := Mem (length l) (nth_error l).
Lemma mem_of_sane l : sane (mem_of l).
Proof. move=> b /= L. exact: (proj2 (nth_error_None l b) L). Qed.

(** An implementation that leaves its output parameters alone. *)
Definition idle : implementation := fun ss m => (Cell [] None Junk, ss, m).
Lemma idle_undefined :
  serve 8 (fun _ _ => true) true 1 None [(DOut, PString)] idle (fun _ => true)
    [] (mem_of []) = None.
Proof. reflexivity. Qed.

(** A reply that breaks off: a string, and nothing where a second one should
    be. *)
Definition two_strings : list slot :=
  [Slot DInout PString (Cell [] None (Blk 0));
   Slot DInout PString (Cell [] None (Blk 1));
   Slot DInout PString (Cell [] None (Blk 2))].
Definition two_mem : mem := mem_of [BBytes [65]; BBytes [66]; BBytes [67]].
Lemma two_caller : caller two_strings two_mem [[0]; [1]; [2]]%nat.
Proof.
  have F : Forall2 (slot_owns two_mem) two_strings [[0]; [1]; [2]]%nat.
  { constructor; first by apply: (owns_string _ _ _ [65]).
    constructor; first by apply: (owns_string _ _ _ [66]).
    constructor; first by apply: (owns_string _ _ _ [67]). constructor. }
  split; first by exists [[0]; [1]; [2]]%nat.
  split.
  { constructor; first by apply: (owns_string _ _ _ [65]).
    constructor; first by apply: (owns_string _ _ _ [66]).
    constructor; first by apply: (owns_string _ _ _ [67]). constructor. }
  cbn. repeat constructor => //=; intuition lia.
Qed.
Lemma failed_dangling :
  exists W mal tr ret server ss m olds e rc ss' m',
    sane m /\ returnable ret /\ caller ss m olds /\
    call W mal tr ret server ss m = Some (BadReply e, rc, ss', m') /\
    reported e /\
    (exists s b, In s ss' /\ s_dir s = DInout /\ s_type s = PString /\
       c_ptr (s_cell s) = Blk b /\ m_live m' b = None) /\
    (exists s b, In s ss' /\ s_dir s = DInout /\ s_type s = PString /\
       c_ptr (s_cell s) = Blk b /\ m_live m' b <> None).
Proof.
  exists 8, (fun _ _ => true), true, None, (fun _ => Some [66; 0]),
    two_strings, two_mem, [[0]; [1]; [2]]%nat.
  case E: (call 8 (fun _ _ => true) true None (fun _ => Some [66; 0])
             two_strings two_mem) => [[[[o rc] ss'] m']|]; last by [].
  case: o E => [|e|] E; [by []| |by []].
  exists e, rc, ss', m'.
  split; first exact: mem_of_sane. split; first done.
  split; first exact: two_caller. split; first reflexivity.
  vm_compute in E. injection E as <- <- <- <-.
  split; first by left. split.
  - eexists _, 3%nat. split; first by left. by [].
  - eexists _, 2%nat. split; first by right; right; left. by [].
Qed.
