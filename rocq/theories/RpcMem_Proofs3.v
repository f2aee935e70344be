(** Lemmas for [RpcMem_Props]: the two unmarshalling functions, the handling of
    a request and the client stub. *)
From Coq Require Import List NArith Bool Arith Lia Permutation ssreflect.
From Verif Require Import Prelude Marshal_Model Marshal_Spec RpcMem_Model
  RpcMem_Spec RpcMem_Proofs RpcMem_Proofs2.
Import ListNotations.
Open Scope N_scope.
Open Scope list_scope.

Lemma perm_concat_rev A (l : list (list A)) :
  Permutation (concat (rev l)) (concat l).
Proof.
  elim: l => [|a l IH] //=. rewrite concat_app /= app_nil_r.
  apply: Permutation_trans; first exact: Permutation_app_comm.
  exact: Permutation_app_head.
Qed.
Lemma F2_len A B (P : A -> B -> Prop) l r : Forall2 P l r -> length l = length r.
Proof. by elim=> //= a b l' r' _ _ ->. Qed.
Lemma F2_rev A B (P : A -> B -> Prop) l r :
  Forall2 P l r -> Forall2 P (rev l) (rev r).
Proof.
  elim=> [|a b l' r' H _ IH] /=; first constructor.
  apply: Forall2_app => //. by constructor.
Qed.

Lemma cleanup_ok pick k ss m news :
  Forall2 (slot_owns m) (firstn k (filter pick ss)) news ->
  NoDup (concat news) ->
  exists m', cleanup pick k ss m = Some m' /\ released m (concat news) m' /\
             m_next m' = m_next m.
Proof.
  move=> F N. rewrite /cleanup.
  case: (free_slots_ok _ _ _ (F2_rev _ _ _ _ _ F)).
  - apply: (Permutation_NoDup _ N). apply: Permutation_sym.
    exact: perm_concat_rev.
  - move=> m' [E [R X]]. exists m'. split => //. split => //.
    apply: (released_eq _ _ _ _ _ R) => b.
    split; apply: Permutation_in; first exact: perm_concat_rev.
    apply: Permutation_sym. exact: perm_concat_rev.
Qed.

Definition blank (l : list slot) : list (list nat) := map (fun _ => []) l.
Lemma concat_blank l : concat (blank l) = [].
Proof. by elim: l. Qed.
Lemma before_blank m l : Forall2 (before (fun _ => false) m) l (blank l).
Proof. elim: l => [|s l IH]; by constructor. Qed.

Lemma dir_input d t c c' : is_input (Slot d t c) = is_input (Slot d t c').
Proof. done. Qed.
Lemma dir_output d t c c' : is_output (Slot d t c) = is_output (Slot d t c').
Proof. done. Qed.

Lemma u_end_err W tr size r e : u_end W tr size r = Err e ->
  r = Err e \/ (exists o, r = Ok o) /\ e = ValueError.
Proof.
  case: r => [o|e'] /=; last by move=> [->]; left.
  case: (_ && _) => // [[<-]]. right. split => //. by exists o.
Qed.
Lemma u_end_ok W tr size r o : u_end W tr size r = Ok o -> r = Ok o.
Proof. case: r => [o'|e'] //=. by case: (_ && _). Qed.

Lemma u_inputs_ok W mal tr n buf ss m : sane m ->
  exists r ss' m', u_inputs W mal tr n buf ss m = Some (r, ss', m') /\
    sane m' /\ map shape ss' = map shape ss /\
    filter (fun s => negb (is_input s)) ss'
    = filter (fun s => negb (is_input s)) ss /\
    match r with
    | Ok _ => exists ins,
        Forall2 (slot_owns m') (filter is_input ss') ins /\
        NoDup (concat ins) /\ acquired m (concat ins) m' /\
        exists vs, read_slots m' (filter is_input ss') = Some vs /\
        forall mal0, constant mal mal0 ->
          unmarshal_inputs W mal0 tr n (map s_type (filter is_input ss)) buf
          = Ok vs
    | Err e => (reported e -> unchanged m m') /\
        forall mal0, constant mal mal0 ->
          unmarshal_inputs W mal0 tr n (map s_type (filter is_input ss)) buf
          = Err e
    end.
Proof.
  move=> S. rewrite /u_inputs /unmarshal_inputs.
  case: (if 1 <? n then type_to_fit_integer n else Ok 0) => [off|e]; last first.
  { exists (Err e), ss, m. by repeat split. }
  cbn [bind].
  case: (u_loop_ok is_input (fun _ => false) W mal buf (nlen buf) dir_input ss
           off m (blank (filter is_input ss)) S (before_blank _ _)).
  { rewrite concat_blank. constructor. }
  move=> r [ss' [k [m1 [E [S1 [L [Sh [Fi [news [F [N [Nf [Lo [Kn [Ok' Er]]]]]]]]]]]]]]].
  rewrite E. rewrite concat_blank in Lo.
  have Kn' : known r -> forall x, ~ In x (concat news) -> m_live m1 x = m_live m x.
  { move=> K x J. apply: (proj2 (Kn K x J)) => I.
    move: (in_gone _ _ _ _ _ I). by rewrite concat_blank. }
  case Ue: (u_end W tr (nlen buf) r) => [o|e].
  - have Er' := u_end_ok _ _ _ _ _ Ue. subst r.
    case: (Ok' _ eq_refl) => [Ek [vs [Rv Mv]]].
    exists (Ok o), ss', m1. split => //. split => //. split => //. split => //.
    exists news. rewrite Ek firstn_all in F. split => //. split => //.
    split.
    { move=> b. split; first by move=> I; apply: S; exact: Nf.
      exact: Kn'. }
    exists vs. split => // mal0 M. rewrite (Mv _ M) /= /finish /=.
    move: Ue. rewrite /u_end. by case: (_ && _).
  - case: (cleanup_ok _ _ _ _ _ F N) => m2 [Ec [R X]]. rewrite Ec.
    exists (Err e), ss', m2. split => //.
    split; first exact: (released_sane _ _ _ S1 R X).
    split => //. split => //. split.
    + move=> Re x.
      have K : known r.
      { case: (u_end_err _ _ _ _ _ Ue) => [->|[[o ->] _]] //. }
      case: (in_dec Nat.eq_dec x (concat news)) => I.
      * rewrite (proj1 (R x) I). symmetry. apply: S. exact: Nf.
      * rewrite (proj2 (R x) I). exact: Kn'.
    + move=> mal0 M. case: (u_end_err _ _ _ _ _ Ue) => [Ee|[[o Eo] Ev]].
      * subst r. case: (Er _ eq_refl) => _ [_ Mp]. by rewrite (Mp _ M).
      * subst r e. case: (Ok' _ eq_refl) => [_ [vs [_ Mv]]].
        rewrite (Mv _ M) /= /finish /=. move: Ue. rewrite /u_end.
        by case: (_ && _).
Qed.

Lemma free_ret_ok ret m c bs : returnable ret -> ret_owns m ret c bs ->
  exists m', free_ret ret c m = Some m' /\ released m bs m' /\
             m_next m' = m_next m.
Proof.
  case: ret => [[k||k|]|] //= _.
  - move=> O. inversion O; subst. exists m.
    by split; [|split; [exact: released_nil|]].
  - move=> O. inversion O as [|? b s P Lv| | | |]; subst. rewrite P.
    apply: hfree_live. by rewrite Lv.
  - move=> ->. exists m. by split; [|split; [exact: released_nil|]].
Qed.
Lemma ret_frame ret m m' c bs : ret_owns m ret c bs ->
  (forall b, In b bs -> m_live m' b = m_live m b) -> ret_owns m' ret c bs.
Proof. case: ret => [t|] //=. exact: owns_frame. Qed.

Definition read_ret (m : mem) (ret : option ptype) (c : cell)
  : option (list rval) :=
  match ret with
  | None => Some []
  | Some t => match read_param m t c with
              | Some v => Some [v] | None => None end
  end.
Definition ret_types (ret : option ptype) (ts : list ptype) : list ptype :=
  match ret with None => ts | Some t => t :: ts end.

Lemma u_outputs_ok W mal tr ret buf rc ss m olds : returnable ret -> sane m ->
  Forall2 (before frees_old m) (filter is_output ss) olds ->
  NoDup (concat olds) ->
  exists r rc' ss' m',
    u_outputs W mal tr ret buf rc ss m = Some (r, rc', ss', m') /\
    map shape ss' = map shape ss /\
    filter (fun s => negb (is_output s)) ss'
    = filter (fun s => negb (is_output s)) ss /\
    match r with
    | Ok _ => exists rb news,
        ret_owns m' ret rc' rb /\
        Forall2 (slot_owns m') (filter is_output ss') news /\
        NoDup (rb ++ concat news) /\
        (forall b, In b (rb ++ concat news) -> m_live m b = None) /\
        (forall b, ~ In b (rb ++ concat news) ->
           (In b (concat olds) -> m_live m' b = None) /\
           (~ In b (concat olds) -> m_live m' b = m_live m b)) /\
        exists rv vs, read_ret m' ret rc' = Some rv /\
          read_slots m' (filter is_output ss') = Some vs /\
          forall mal0, constant mal mal0 ->
            unmarshal_outputs W mal0 tr ret
              (map s_type (filter is_output ss)) buf = Ok (rv ++ vs)
    | Err e => (reported e ->
        exists k, (k <= length olds)%nat /\
          released m (concat (firstn k olds)) m' /\
          skipn k (filter is_output ss') = skipn k (filter is_output ss)) /\
        forall mal0, constant mal mal0 ->
          unmarshal_outputs W mal0 tr ret
            (map s_type (filter is_output ss)) buf = Err e
    end.
Proof.
  move=> Rt S F N. rewrite /u_outputs.
  have [r0 [rc1 [m1 [E1 [S1 [L1 H1]]]]]] : exists r0 rc1 m1,
    match ret with
    | Some t => u_param W mal buf (nlen buf) 0 t rc m
    | None => Some (Ok 0, rc, m) end = Some (r0, rc1, m1) /\ sane m1 /\
    (m_next m <= m_next m1)%nat /\
    match r0 with
    | Ok o => exists rb rv, ret_owns m1 ret rc1 rb /\ NoDup rb /\
        (forall b, In b rb -> (m_next m <= b)%nat) /\
        (forall x, ~ In x rb -> m_live m1 x = m_live m x) /\
        read_ret m1 ret rc1 = Some rv /\
        forall mal0 ts, constant mal mal0 ->
          unmarshal_params W mal0 buf (nlen buf) 0 (ret_types ret ts)
          = q <- unmarshal_params W mal0 buf (nlen buf) o ts ;;
            Ok (rv ++ fst q, snd q)
    | Err e => (reported e -> unchanged m m1) /\
        forall mal0 ts, constant mal mal0 ->
          unmarshal_params W mal0 buf (nlen buf) 0 (ret_types ret ts) = Err e
    end.
  { case: ret Rt => [t|] Rt; last first.
    { exists (Ok 0), rc, m. split => //. split => //. split => //.
      exists [], []. repeat split => //; try constructor. move=> mal0 ts _ /=.
      by case: (unmarshal_params _ _ _ _ _ _) => [[a b]|e]. }
    case: (u_param_ok W mal buf (nlen buf) 0 t rc m S)
      => r0 [rc1 [m1 [E [S1 [L [O Er]]]]]].
    exists r0, rc1, m1. split => //. split => //. split => //.
    case: r0 E O Er => [o|e] E O Er.
    - case: O => bs [v [Ow [Nb [Fr [U [Rd Mv]]]]]].
      exists bs, [v]. split => //. split => //. split => //. split => //.
      split; first by rewrite /= Rd.
      move=> mal0 ts M. cbn [ret_types unmarshal_params].
      by rewrite (Mv _ M).
    - case: O => [Re _]. split => // mal0 ts M.
      cbn [ret_types unmarshal_params]. by rewrite (Er _ eq_refl _ M). }
  rewrite E1. case: r0 E1 H1 => [off|e] E1 H1; last first.
  { case: H1 => [Re Mp]. exists (Err e), rc1, ss, m1. split => //. split => //.
    split => //. split.
    - move=> K. exists 0%nat. split; first lia. split => // b. split => // _.
      exact: Re.
    - move=> mal0 M. rewrite /unmarshal_outputs.
      by rewrite (Mp mal0 (map s_type (filter is_output ss)) M). }
  case: H1 => rb [rv [Or [Nr [Fr [U [Rr Mr]]]]]].
  have Bo : forall b, In b (concat olds) -> (b < m_next m)%nat.
  { move=> b. exact: before_below S F. }
  have F1 : Forall2 (before frees_old m1) (filter is_output ss) olds.
  { apply: (before_frame _ _ _ _ _ F) => b I. apply: U => J.
    move: (Fr _ J) (Bo _ I). lia. }
  have Lr : forall b, In b rb -> (b < m_next m1)%nat.
  { move=> b I. case: (le_lt_dec (m_next m1) b) => // G. exfalso.
    move: Or. rewrite /ret_owns. case: (ret) => [t|] Or; last by subst rb.
    exact: (owns_live _ _ _ _ _ Or I (S1 _ G)). }
  case: (u_loop_ok is_output frees_old W mal buf (nlen buf) dir_output ss
           off m1 olds S1 F1 N).
  move=> r [ss' [k [m2 [E [S2 [L [Sh [Fi [news [Fn [Nn [Nf [Lo [Kn [Ok' Er]]]]]]]]]]]]]]].
  rewrite E.
  have Fr2 : forall b, In b rb -> m_live m2 b = m_live m1 b.
  { move=> b I. apply: Lo; first exact: Lr. move=> J.
    move: (Bo _ J) (Fr _ I). lia. }
  have Dj : forall x, In x rb -> ~ In x (concat news).
  { move=> x I J. move: (Lr _ I) (Nf _ J). lia. }
  case Ue: (u_end W tr (nlen buf) r) => [o|e].
  - have Er' := u_end_ok _ _ _ _ _ Ue. subst r.
    case: (Ok' _ eq_refl) => [Ek [vs [Rv Mv]]].
    exists (Ok o), rc1, ss', m2. split => //. split => //. split => //.
    exists rb, news. rewrite Ek firstn_all in Fn.
    split; first exact: (ret_frame _ _ _ _ _ Or Fr2).
    split => //.
    split; first by apply/nodup_app.
    split.
    { move=> b /in_app_iff [I|I]; apply: S; first exact: Fr.
      move: (Nf _ I). lia. }
    split.
    { move=> b J.
      have Jr : ~ In b rb by move=> I; apply: J; apply: in_or_app; left.
      have Jn : ~ In b (concat news) by move=> I; apply: J; apply: in_or_app; right.
      case: (Kn Logic.I b Jn) => [G1 G2]. split; first exact: G1.
      move=> G. rewrite (G2 G). exact: U. }
    exists rv, vs. split.
    { move: Rr Or. rewrite /read_ret /ret_owns. case: (ret) => [t|] // Rr Or.
      by rewrite (read_frame _ _ _ _ _ Or Fr2). }
    split => // mal0 M. rewrite /unmarshal_outputs -/(ret_types ret _).
    rewrite (Mr _ _ M) (Mv _ M) /= /finish /=.
    move: Ue. rewrite /u_end. by case: (_ && _).
  - case: (cleanup_ok _ _ _ _ _ Fn Nn) => m3 [Ec [R3 X3]]. rewrite Ec.
    have Or3 : ret_owns m3 ret rc1 rb.
    { apply: (ret_frame _ _ _ _ _ Or) => b I. rewrite -(Fr2 b I).
      apply: (proj2 (R3 b)). exact: Dj. }
    case: (free_ret_ok _ _ _ _ Rt Or3) => m4 [E4 [R4 X4]]. rewrite E4.
    exists (Err e), rc1, ss', m4. split => //. split => //. split => //.
    split.
    + move=> Re.
      have K : known r.
      { case: (u_end_err _ _ _ _ _ Ue) => [->|[[o ->] _]] //. }
      have [j [Hj [Hg Hs]]] : exists j, (j <= length olds)%nat /\
          gone r k olds = concat (firstn j olds) /\
          skipn j (filter is_output ss') = skipn j (filter is_output ss).
      { case: (u_end_err _ _ _ _ _ Ue) => [Ee|[[o Eo] Ev]]; subst r.
        - exists (Datatypes.S k). case: (Er _ eq_refl) => Lk [Sk _].
          split => //. move: (F2_len _ _ _ _ _ F). lia.
        - exists (length olds). split => //=. rewrite firstn_all. split => //.
          have Ll : length ss' = length ss.
          { by rewrite -(map_length shape ss') Sh map_length. }
          have Lf : length (filter is_output ss') = length (filter is_output ss).
          { clear -Sh. elim: ss ss' Sh => [|[d t c] ss IH] [|[d' t' c'] ss'] //=.
            move=> [E1 E2 E]. subst d' t'.
            rewrite (dir_output d t c' c).
            case: (is_output _) => /=; by rewrite (IH _ E). }
          rewrite !skipn_all2 //; move: (F2_len _ _ _ _ _ F); lia. }
      exists j. split => //. split => // x.
      have R := released_trans _ _ _ _ _ R3 R4.
      rewrite -Hg. case: (in_dec Nat.eq_dec x (concat news ++ rb)) => I.
      * rewrite (proj1 (R x) I).
        have Hx : (m_next m <= x)%nat.
        { move: I => /in_app_iff [I|I]; [move: (Nf _ I); lia|exact: Fr]. }
        split => // _. by rewrite S.
      * rewrite (proj2 (R x) I).
        have In' : ~ In x (concat news) by move=> J; apply: I; apply: in_or_app; left.
        have Ir : ~ In x rb by move=> J; apply: I; apply: in_or_app; right.
        case: (Kn K x In') => [G1 G2]. split; first exact: G1.
        move=> G. rewrite (G2 G). exact: U.
    + move=> mal0 M. rewrite /unmarshal_outputs -/(ret_types ret _) (Mr _ _ M).
      case: (u_end_err _ _ _ _ _ Ue) => [Ee|[[o Eo] Ev]]; subst r.
      * case: (Er _ eq_refl) => _ [_ Mp]. by rewrite (Mp _ M).
      * subst e. case: (Ok' _ eq_refl) => [_ [vs [_ Mv]]].
        rewrite (Mv _ M) /= /finish /=. move: Ue. rewrite /u_end.
        by case: (_ && _).
Qed.

Lemma F2_filter A B (P : A -> B -> Prop) f l r : Forall2 P l r ->
  exists r', Forall2 P (filter f l) r'.
Proof.
  elim=> [|a b l' r' H _ [r1 F]]; first by exists []; constructor.
  rewrite /=. case: (f a); last by exists r1.
  exists (b :: r1). by constructor.
Qed.

Lemma args_of ps ss m1 ins :
  map shape ss = map shape (map fresh_slot ps) ->
  filter (fun s => negb (is_input s)) ss
  = filter (fun s => negb (is_input s)) (map fresh_slot ps) ->
  Forall2 (slot_owns m1) (filter is_input ss) ins -> NoDup (concat ins) ->
  arguments ps ss m1 ins.
Proof.
  move=> Sh Fi F N. split; last split => //; last split => //.
  - rewrite -/(map shape ss) Sh map_map /=. clear.
    elim: ps => [|[d t] ps IH] //=. by rewrite IH.
  - move=> s I D.
    have: In s (filter (fun s => negb (is_input s)) ss).
    { apply/filter_In. split => //. by rewrite /is_input D. }
    rewrite Fi => /filter_In [/in_map_iff [p [<- _]] _] /=.
    by case: (snd p).
Qed.

Lemma pass_back_spec ss : forall after, pass_back ss after = variables ss after.
Proof.
  rewrite /variables. elim: ss => [|s ss IH] [|s' after] //=.
  rewrite IH. case: s => d t c /=. by case: d.
Qed.
Lemma serve_ok W mal tr n ret ps impl fits buf m : sane m ->
  returnable ret -> orderly ret ps impl ->
  exists h m', serve W mal tr n ret ps impl fits buf m = Some (h, m') /\
    match h with
    | Refused e => reported e -> unchanged m m'
    | _ => exists ss m1 ins rc after m2 rb outs,
        sane m1 /\ arguments ps ss m1 ins /\ acquired m (concat ins) m1 /\
        impl ss m1 = (rc, after, m2) /\
        ret_owns m2 ret rc rb /\
        Forall2 (slot_owns m2) (variables ss after) outs /\
        released m2 (rb ++ concat outs) m'
    end.
Proof.
  move=> S Rt Or. rewrite /serve.
  case: (u_inputs_ok W mal tr n buf (map fresh_slot ps) m S)
    => r [ss [m1 [E [S1 [Sh [Fi H]]]]]].
  rewrite E. case: r E H => [o|e] E H; last first.
  { exists (Refused e), m1. split => //. by case: H. }
  case: H => ins [F [N [A _]]].
  have Ar := args_of _ _ _ _ Sh Fi F N.
  move: (Or ss m1 ins S1 Ar). case Ei: (impl ss m1) => [[rc after] m2].
  rewrite pass_back_spec.
  move=> [rb [outs [Ro [Fo No]]]].
  have [rv Erv] : exists rv, match ret with
      | None => Some []
      | Some t => match read_param m2 t rc with
                  | Some v => Some [v] | None => None end end = Some rv.
  { move: Ro. rewrite /ret_owns. case: (ret) => [t|] Ro; last by exists [].
    case: (owns_read _ _ _ _ Ro) => v ->. by eexists. }
  rewrite Erv.
  case: (F2_filter _ _ _ is_output _ _ Fo) => r' Fr'.
  case: (F2_read _ _ _ Fr') => vs ->.
  move: (No) => /nodup_app [N1 [N2 D]].
  case: (free_ret_ok _ _ _ _ Rt Ro) => m3 [-> [R3 X3]].
  case: (free_slots_ok (variables ss after) m3 outs) => //.
  { apply: (F2_frame _ _ _ _ Fo) => b I. apply: (proj2 (R3 b)) => J.
    exact: (D _ J I). }
  move=> m4 [-> [R4 X4]].
  have R := released_trans _ _ _ _ _ R3 R4.
  eexists _, m4. split; first reflexivity.
  case: (fits _); by exists ss, m1, ins, rc, after, m2, rb, outs.
Qed.

Lemma serve_tidy W mal tr n ret ps impl fits buf m h m' : sane m ->
  returnable ret -> orderly ret ps impl -> tidy ret ps impl ->
  serve W mal tr n ret ps impl fits buf m = Some (h, m') ->
  (forall e, h = Refused e -> reported e) ->
  unchanged m m'.
Proof.
  move=> S Rt Or Td Es K.
  case: (serve_ok W mal tr n ret ps impl fits buf m S Rt Or) => h0 [m0 [E0 H]].
  rewrite E0 in Es. case: Es => Eh Em. subst h0 m0.
  case: h E0 K H => [e||] E0 K H; first by apply: H; exact: K.
  all: case: H => ss [m1 [ins [rc [after [m2 [rb [outs [S1 [Ar [A [Ei [Ro [Fo R]]]]]]]]]]]]] b.
  all: move: (Td ss m1 ins S1 Ar); rewrite Ei => T.
  all: case: (T rb outs Ro Fo b) => [T1 T2].
  all: case: (in_dec Nat.eq_dec b (rb ++ concat outs)) => I.
  1,3: rewrite (proj1 (R b) I);
       case: (in_dec Nat.eq_dec b (concat ins)) => J;
       [by rewrite (proj1 (A b) J)
       |case: (T1 I) => G //; by rewrite -(proj2 (A b) J)].
  all: rewrite (proj2 (R b) I); case: (T2 I) => [[J G]|[J G]];
       [by rewrite G (proj1 (A b) J)|by rewrite G; exact: (proj2 (A b) J)].
Qed.

(** What reaches the implementation is what the message says. *)
Lemma serve_values W mal0 tr n buf ps m : sane m ->
  exists r ss m', u_inputs W (fun _ => mal0) tr n buf (map fresh_slot ps) m
                  = Some (r, ss, m') /\
    unmarshal_inputs W mal0 tr n
      (map snd (filter (fun p => match fst p with DOut => false | _ => true end)
                  ps)) buf
    = match r with
      | Ok _ => match read_slots m' (filter is_input ss) with
                | Some vs => Ok vs | None => Err AssertionError end
      | Err e => Err e
      end.
Proof.
  move=> S.
  case: (u_inputs_ok W (fun _ => mal0) tr n buf (map fresh_slot ps) m S)
    => r [ss [m1 [E [S1 [Sh [_ H]]]]]].
  exists r, ss, m1. split => //.
  have -> : map snd (filter (fun p : dir * ptype =>
      match fst p with DOut => false | _ => true end) ps)
    = map s_type (filter is_input (map fresh_slot ps)).
  { clear. elim: ps => [|[d t] ps IH] //=. rewrite /is_input /=.
    case: d => //=; by rewrite IH. }
  case: r E H => [o|e] E H.
  - case: H => ins [_ [_ [_ [vs [-> M]]]]]. exact: M.
  - case: H => _ M. exact: M.
Qed.

(** The variables of a caller: those it passes in are in order, and the blocks
    of the ones passed both ways are referred to once. *)
Lemma caller_before ss m olds : caller ss m olds ->
  Forall2 (before frees_old m) (filter is_output ss) olds.
Proof.
  move=> [_ [F _]]. apply: (F2i _ _ _ _ _ _ _ F) => s o.
  rewrite /before /frees_old. by case: (s_dir s).
Qed.
Lemma call_ok W mal tr ret server ss m olds : sane m -> returnable ret ->
  caller ss m olds ->
  exists o rc ss' m', call W mal tr ret server ss m = Some (o, rc, ss', m') /\
    map shape ss' = map shape ss /\
    filter (fun s => negb (is_output s)) ss'
    = filter (fun s => negb (is_output s)) ss /\
    match o with
    | NotSent => ss' = ss /\ unchanged m m'
    | BadReply e => reported e ->
        exists k, (k <= length olds)%nat /\
          released m (concat (firstn k olds)) m' /\
          skipn k (filter is_output ss') = skipn k (filter is_output ss)
    | Returned => exists rb news,
        ret_owns m' ret rc rb /\
        Forall2 (slot_owns m') (filter is_output ss') news /\
        NoDup (rb ++ concat news) /\
        (forall b, In b (rb ++ concat news) -> m_live m b = None) /\
        (forall b, ~ In b (rb ++ concat news) ->
           (In b (concat olds) -> m_live m' b = None) /\
           (~ In b (concat olds) -> m_live m' b = m_live m b))
    end.
Proof.
  move=> S Rt C. have F := caller_before _ _ _ C. case: C => [[ins Fi] [_ N]].
  rewrite /call.
  case: (F2_read _ _ _ Fi) => vs ->.
  case: (server vs) => [reply|]; last first.
  { by exists NotSent, (Cell [] None Null), ss, m. }
  case: (u_outputs_ok W mal tr ret reply (Cell [] None Null) ss m olds Rt S F N)
    => r [rc' [ss' [m' [E [Sh [Fl H]]]]]].
  rewrite E. case: r E H => [o|e] E H.
  - exists Returned, rc', ss', m'. split => //. split => //. split => //.
    case: H => rb [news [A [B [C [D' [G _]]]]]]. by exists rb, news.
  - exists (BadReply e), (Cell [] None Null), ss', m'. split => //. split => //.
    split => //. by case: H.
Qed.

Lemma call_values W mal0 tr ret reply rc ss m olds : sane m -> returnable ret ->
  caller ss m olds ->
  exists r rc' ss' m',
    u_outputs W (fun _ => mal0) tr ret reply rc ss m = Some (r, rc', ss', m') /\
    unmarshal_outputs W mal0 tr ret (map s_type (filter is_output ss)) reply
    = match r with
      | Ok _ =>
          match (match ret with
                 | None => Some []
                 | Some t => match read_param m' t rc' with
                             | Some v => Some [v] | None => None end
                 end), read_slots m' (filter is_output ss') with
          | Some rv, Some vs => Ok (rv ++ vs)
          | _, _ => Err AssertionError
          end
      | Err e => Err e
      end.
Proof.
  move=> S Rt C. have F := caller_before _ _ _ C. case: C => [_ [_ N]].
  case: (u_outputs_ok W (fun _ => mal0) tr ret reply rc ss m olds Rt S F N)
    => r [rc' [ss' [m' [E [Sh [Fl H]]]]]].
  exists r, rc', ss', m'. split => //. case: r E H => [o|e] E H.
  - case: H => rb [news [_ [_ [_ [_ [_ [rv [vs [Er [Es M]]]]]]]]]].
    rewrite /read_ret in Er. rewrite Er Es. exact: M.
  - case: H => _ M. exact: M.
Qed.
