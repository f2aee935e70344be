(** Refused, malformed and oversized messages; files. *)
From Coq Require Import List NArith ZArith Bool String Lia ssreflect ssrbool.
From Verif Require Import Prelude Marshal_Model Marshal_Spec Marshal_Proofs Cake_Model Cake_Spec
  Cake_Proofs Cake_Proofs2.
Import ListNotations.
Open Scope string_scope.
Open Scope N_scope.
Open Scope list_scope.

(** ** Types *)
Lemma int_type_typed t k :
  int_type t = Some k -> typed {| cp_type := t; cp_array := false |} (PScalar k).
Proof.
  rewrite /int_type.
  do 4 (case: (String.eqb_spec t _) => [->|_]; [by move=> [<-]; constructor|]). done.
Qed.
Lemma types_unmarshal_lemma p :
  (exists t, typed p t) <-> forall buf off, cake_unmarshal buf off p <> Err TemplateError.
Proof.
  split.
  - move=> [t Ht] buf off. case: Ht; rewrite /cake_unmarshal /=.
    1-4: rewrite /bytes_to_int.
    1-4: match goal with |- context [bytes_to_int_loop _ _ ?n] => move: n (0) => n0 ac end.
    1-4: suff : forall e, bytes_to_int_loop buf off n0 ac = Err e -> e = IndexError by
      case: (bytes_to_int_loop _ _ _ _) => //= e H [E]; rewrite E in H; by have := H _ eq_refl.
    1-4: elim: n0 ac => [|q IH] ac e //=; rewrite /sub; case: nth_error => //= [b|[<-] //]; by apply: IH.
    rewrite /read_c_string.
    have H : forall f i e, nul_byte_idx f buf (nlen buf) i = Err e -> e = IndexError \/ e = OutOfFuel.
    { elim=> [|f IH] i e; cbn [nul_byte_idx]; case: (_ =? _) => //;
        rewrite /sub; case: nth_error => /= [x|]; try (by move=> [<-]; left);
        case: (x =? 0) => //; [by move=> [<-]; right|by apply: IH]. }
    case E: nul_byte_idx => [n|e] /=.
    + rewrite /mread. by case: (_ <=? _).
    + move=> [X]. subst e. by case: (H _ _ _ E).
  - move=> H. move: (H [] 0). rewrite /cake_unmarshal.
    case: p H => t ar H /=. case: ar H => // H.
    case E: (int_type t) => [k|].
    + move=> _. exists (PScalar k). by apply: int_type_typed.
    + case: (String.eqb_spec t "string") => [->|_] //. exists PString. constructor.
Qed.
Lemma types_marshal_lemma p :
  (exists t, typed p t) <-> exists buf off v r, cake_marshal buf off p v = Ok r.
Proof.
  split.
  - move=> [t Ht]. exists (repeat 0 8), 0.
    have : exists v n, result t v n /\ n <= 8.
    { case: Ht; [exists (CvInt 0), 1|exists (CvInt 0), 2|exists (CvInt 0), 4
        |exists (CvInt 0), 8|exists (CvStr []), 1]; (split; [|lia]); try constructor.
      constructor. }
    move=> [v [n [Hr Hn]]]. exists v.
    have := cake_marshal_wire 8 [] (repeat 0 8) p t v n Ht Hr ltac:(exact: Hn).
    by cbn [app]; change (nlen (@nil N)) with 0 => ->; eexists.
  - move=> [buf [off [v [r]]]]. rewrite /cake_marshal.
    case: p => t ar /=. case: ar => //.
    case E: (int_type t) => [k|].
    + move=> _. exists (PScalar k). by apply: int_type_typed.
    + case: (String.eqb_spec t "string") => [->|_]; [exists PString; constructor|by case: v].
Qed.

(** ** Unknown badges and methods *)
Lemma unknown_badge_lemma W types b a :
  (forall bs ms, In (bs, ms) types -> ~ In b bs) -> cake_request W types b a = Err KeyError.
Proof.
  move=> H. rewrite /cake_request.
  have -> : type_of_badge types b = None.
  { elim: types H => [|[bs ms] types IH] H //=.
    case E: existsb; [|by apply: IH => bs' ms' Hi; apply: (H bs' ms'); right].
    move/existsb_exists: E => [x [Hx /N.eqb_eq E]]. subst x. by case: (H bs ms); [left|]. }
  done.
Qed.
Lemma unknown_method_lemma W types b ms w (pre x rest : list N) :
  serves types b ms -> 1 < nlen ms -> log2 (nlen ms) = Ok w -> nlen pre = 2 * W + 1 ->
  nlen x = w -> nlen ms <= le_value x -> cake_request W types b (pre ++ x ++ rest) = Err KeyError.
Proof.
  move=> Hs H1 Hw Hp Hx Hv. rewrite /cake_request (type_of_badge_serves _ _ _ Hs).
  have -> : (nlen ms <=? 1) = false by apply N.leb_gt.
  rewrite Hw /reserved -Hp. cbn [bind]. rewrite bytes_to_intE //. cbn [bind fst snd].
  have -> : nth_error ms (N.to_nat (le_value x)) = None; [|done].
  apply nth_error_None. rewrite /nlen in Hv. lia.
Qed.

(** ** A message that is too short *)
Lemma stale_lemma W ep b1 b2 x m1 a :
  word_size W -> nlen a = 122 * W + 1 -> b1 < 256 ^ W -> b2 < 256 ^ W -> nlen (x :: m1) = W ->
  let types := [([b1; b2], [{| cm_in := [{| cp_type := "uint8_t"; cp_array := false |}];
                               cm_out := [] |}])] in
  exists a1 l1 a2,
    cake_recv W ep b1 (x :: m1) a = Ok (a1, l1, b1) /\
    cake_recv W ep b2 [] a1 = Ok (a2, 0, b2) /\
    cake_request W types b2 a2 = Ok (0, [CvInt (Z.of_N x)]) /\
    dispatch W always false [[PScalar 1]] [] = Err ValueError.
Proof.
  move=> HW Ha H1 H2 Hl types.
  have Hbig := pow_big _ HW. change (2 ^ 32) with 4294967296 in Hbig.
  have Hw8 : 0 < W <= 8 by case: HW => ->.
  have [s [y [z [o [Ea [Hy [Hz Ho]]]]]]] := parts _ _ Ha. subst a.
  rewrite recv_parts //; [lia|lia|].
  eexists _, _, _. split; [reflexivity|].
  have := recv_parts W ep b2 0 (le (N.to_nat W) (nlen (x :: m1))) (le (N.to_nat W) b1)
    ((x :: m1) ++ skipn (N.to_nat (nlen (x :: m1))) o) []
    ltac:(by rewrite nlen_le) ltac:(by rewrite nlen_le) ltac:(rewrite nlen_nil; lia) H2
    ltac:(rewrite nlen_nil; lia).
  rewrite (nlen_nil (A := N)) /=. move=> ->. split; [reflexivity|]. split; [|by case: HW => ->].
  rewrite /cake_request /types /=.
  have -> : (b2 =? b1) || ((b2 =? b2) || false) = true by rewrite N.eqb_refl orbT.
  have -> : nlen [{| cm_in := [{| cp_type := "uint8_t"; cp_array := false |}]; cm_out := [] |}] <=? 1
    = true by [].
  cbn [bind fst snd N.to_nat nth_error cm_in cake_unmarshals].
  rewrite /cake_unmarshal. cbn [cp_array cp_type int_type String.eqb Ascii.eqb Bool.eqb].
  have := bytes_to_intE ([0] ++ le (N.to_nat W) 0 ++ le (N.to_nat W) b2) [x]
    (m1 ++ skipn (N.to_nat (nlen (x :: m1))) o) 1 eq_refl.
  have -> : nlen ([0] ++ le (N.to_nat W) 0 ++ le (N.to_nat W) b2) = reserved W
    by rewrite !nlen_app !nlen_le nlen1 /reserved; lia.
  rewrite -!app_assoc. cbn [app]. move=> ->. cbn [bind le_value fold_right].
  by rewrite N.mul_0_r N.add_0_r.
Qed.

(** ** A string that is too long *)
Lemma is_cstring_firstn n s : is_cstring s -> is_cstring (firstn n s).
Proof. rewrite /is_cstring => H. apply Forall_forall => x Hx.
  move/Forall_forall: H; apply. rewrite -(firstn_skipn n s). by apply in_or_app; left. Qed.

Lemma truncate_same s (pre rest : list N) :
  nlen rest < nlen s + 1 -> 1 <= nlen rest ->
  cake_marshal (pre ++ rest) (nlen pre) {| cp_type := "string"; cp_array := false |} (CvStr s)
  = cake_marshal (pre ++ rest) (nlen pre) {| cp_type := "string"; cp_array := false |}
      (CvStr (firstn (N.to_nat (nlen rest - 1)) s)).
Proof.
  move=> H H1. rewrite /cake_marshal.
  cbn [cp_array cp_type int_type String.eqb Ascii.eqb Bool.eqb].
  rewrite nlen_app nlen_firstn.
  have -> : (nlen pre + nlen rest <? nlen pre + 1) = false by apply N.ltb_ge; lia.
  have E : nlen pre + nlen rest - nlen pre - 1 = nlen rest - 1 by lia.
  rewrite E.
  have -> : (nlen s <=? nlen rest - 1) = false by apply N.leb_gt; lia.
  have -> : N.min (nlen rest - 1) (nlen s) = nlen rest - 1 by lia.
  have -> : (nlen rest - 1 <=? nlen rest - 1) = true by apply N.leb_le; lia.
  by rewrite firstn_firstn Nat.min_id.
Qed.

Lemma truncated_lemma W ep s a ib :
  word_size W -> nlen a = 122 * W + 1 -> nlen ib = 120 * W -> is_cstring s -> 120 * W <= nlen s ->
  exists msg a',
    cake_respond W ep [({| cp_type := "string"; cp_array := false |}, CvStr s)] a ib = Ok (msg, a') /\
    unmarshal_outputs W always false (Some PString) [] msg
      = Ok [RString (firstn (N.to_nat (120 * W - 1)) s)].
Proof.
  move=> HW Ha Hib Hs Hl.
  have Hw8 : 0 < W <= 8 by case: HW => ->.
  set t := firstn (N.to_nat (120 * W - 1)) s.
  have Ht : is_cstring t by apply: is_cstring_firstn.
  have Et : nlen t = 120 * W - 1 by rewrite /t nlen_firstn; lia.
  have [msg [a' [rs [E1 [E2 E3]]]]] := respond_lemma W ep (Some PString) []
    [{| cp_type := "string"; cp_array := false |}] [CvStr t] (nlen t + 1 + 0) a ib HW Ha Hib
    ltac:(lia) ltac:(constructor; [constructor|constructor])
    ltac:(constructor; [by constructor|constructor]).
  exists msg, a'. split.
  - rewrite -E1. rewrite /cake_respond. cbn [combine cake_marshals].
    have [q [x [y [m [Ea [Hx [Hy Hm]]]]]]] := parts _ _ Ha.
    have Hres : nlen ([q] ++ x ++ y) = reserved W by rewrite !nlen_app nlen1 /reserved; lia.
    have -> : a = ([q] ++ x ++ y) ++ m by rewrite Ea -!app_assoc.
    rewrite -Hres truncate_same; [lia|lia|]. by rewrite Hm.
  - rewrite E2. f_equal. inversion E3 as [|? ? ? ? R1 R2]; subst.
    inversion R2; subst. by inversion R1; subst.
Qed.

(** ** Files *)
Lemma be_lemma k z : (0 <= z < 256 ^ Z.of_nat k)%Z ->
  nlen (be k z) = N.of_nat k /\ Z.of_N (be_value (be k z)) = z.
Proof.
  move=> H. rewrite /be /be_value rev_involutive /nlen rev_length itb_length. split=> //.
  rewrite itb_value // Z.div_1_r Z.mod_small //.
Qed.

Lemma put_status (o : N) (x r : list N) st v : nlen x = nlen v ->
  (a <- mwrite (o :: x ++ r) 0 [st] ;; mwrite a 1 v) = Ok (st :: v ++ r).
Proof.
  move=> H. have -> := mwrite_mid [] [o] (x ++ r) [st] eq_refl. cbn [app bind].
  have := mwrite_mid [st] x r v. cbn [app]. change (nlen [st]) with 1. by move=> ->.
Qed.
Lemma put_failure (o : N) (r : list N) : mwrite (o :: r) 0 [1] = Ok (1 :: r).
Proof. exact: (mwrite_mid [] [o] r [1] eq_refl). Qed.

Lemma open_out_lemma fd o (x r : list N) : nlen x = 8 -> (fd < 2 ^ 31)%Z ->
  ((0 <= fd)%Z -> exists v, ffi_open_out fd (o :: x ++ r) = Ok (0 :: v ++ r) /\ nlen v = 8 /\
     Z.of_N (be_value v) = fd) /\
  ((fd < 0)%Z -> ffi_open_out fd (o :: x ++ r) = Ok (1 :: x ++ r)).
Proof.
  move=> Hx Hf. rewrite /ffi_open_out. split=> H.
  - have -> : (0 <=? fd)%Z = true by apply Z.leb_le.
    have [Hl Hv] := be_lemma 8 fd ltac:(split; [lia|]; change (256 ^ Z.of_nat 8)%Z with 18446744073709551616%Z; change (2 ^ 31)%Z with 2147483648%Z in Hf; lia).
    exists (be 8 fd). split; [|by split]. apply: put_status => //.
  - have -> : (0 <=? fd)%Z = false by apply Z.leb_gt.
    exact: put_failure.
Qed.
Lemma open_in_lemma fd o (x r : list N) : nlen x = 8 ->
  exists st y, ffi_open_in fd (o :: x ++ r) = Ok (st :: y) /\ (st = 0 <-> (fd < 0)%Z).
Proof.
  move=> Hx. rewrite /ffi_open_in. case: (Z.ltb_spec fd 0) => H.
  - rewrite (put_status o x r) ?Hx; [by rewrite /be /nlen rev_length itb_length|].
    by eexists _, _.
  - rewrite put_failure. eexists _, _. split; [reflexivity|]. split=> //. lia.
Qed.

Lemma read_lemma rd (f n0 n1 b2 b3 : _) fb (old rest : list N) data k :
  nlen fb = 8 -> f = Z.of_N (be_value fb) ->
  rd f (be_value [n0; n1]) = (k, data) -> (k < 65536)%Z -> nlen data = nlen old ->
  ((0 <= k)%Z -> exists h l, ffi_read rd fb ([n0; n1; b2; b3] ++ old ++ rest)
     = Ok ([0; h; l; b3] ++ data ++ rest) /\ Z.of_N (be_value [h; l]) = k) /\
  ((k < 0)%Z -> exists y, ffi_read rd fb ([n0; n1; b2; b3] ++ old ++ rest) = Ok (1 :: y)).
Proof.
  move=> Hfb Hf Hrd Hk Hd.
  have Hm : forall B (g : list N -> res B), (z <- mread fb 0 8 ;; g z) = g fb.
  { move=> B g. have := mread_app [] fb []. rewrite app_nil_r Hfb. cbn [app].
    by change (nlen (@nil N)) with 0 => ->. }
  rewrite /ffi_read Hm.
  have -> : mread ([n0; n1; b2; b3] ++ old ++ rest) 0 2 = Ok [n0; n1]
    by exact: (mread_app [] [n0; n1] ([b2; b3] ++ old ++ rest)).
  cbn [bind]. rewrite !unle_value -!/(be_value _) -Hf Hrd.
  have -> := mwrite_mid [n0; n1; b2; b3] old rest data Hd. cbn [bind].
  split=> H.
  - have -> : (k <? 0)%Z = false by apply Z.ltb_ge.
    have [Hl Hv] := be_lemma 2 k ltac:(split; [lia|]; change (256 ^ Z.of_nat 2)%Z with 65536%Z; lia).
    case Eb: (be 2 k) Hl Hv => [|h [|l [|? ?]]] Hl Hv; try by rewrite /nlen /= in Hl; lia.
    exists h, l. split=> //.
    exact: (put_status n0 [n1; b2] (b3 :: _) 0 [h; l]).
  - have -> : (k <? 0)%Z = true by apply Z.ltb_lt.
    eexists. exact: put_failure.
Qed.

Lemma write_lemma wr f n0 n1 o0 o1 fb (pre data rest : list N) k :
  nlen fb = 8 -> f = Z.of_N (be_value fb) ->
  nlen data = be_value [n0; n1] -> nlen pre = be_value [o0; o1] ->
  wr f data = k -> (k < 65536)%Z ->
  ((0 <= k)%Z -> exists h l, ffi_write wr fb ([n0; n1; o0; o1] ++ pre ++ data ++ rest)
     = Ok ([0; h; l; o1] ++ pre ++ data ++ rest) /\ Z.of_N (be_value [h; l]) = k) /\
  ((k < 0)%Z -> ffi_write wr fb ([n0; n1; o0; o1] ++ pre ++ data ++ rest)
     = Ok ([1; n1; o0; o1] ++ pre ++ data ++ rest)).
Proof.
  move=> Hfb Hf Hd Hp Hwr Hk.
  have Hm : forall B (g : list N -> res B), (z <- mread fb 0 8 ;; g z) = g fb.
  { move=> B g. have := mread_app [] fb []. rewrite app_nil_r Hfb. cbn [app].
    by change (nlen (@nil N)) with 0 => ->. }
  rewrite /ffi_write Hm.
  have -> : mread ([n0; n1; o0; o1] ++ pre ++ data ++ rest) 0 2 = Ok [n0; n1]
    by exact: (mread_app [] [n0; n1] ([o0; o1] ++ pre ++ data ++ rest)).
  cbn [bind].
  have -> : mread ([n0; n1; o0; o1] ++ pre ++ data ++ rest) 2 2 = Ok [o0; o1]
    by exact: (mread_app [n0; n1] [o0; o1] (pre ++ data ++ rest)).
  cbn [bind]. rewrite !unle_value -!/(be_value _) -Hf -Hd -Hp.
  have := mread_app ([n0; n1; o0; o1] ++ pre) data rest.
  rewrite nlen_app -app_assoc. change (nlen [n0; n1; o0; o1]) with 4. move=> ->. cbn [bind].
  rewrite Hwr. split=> H.
  - have -> : (k <? 0)%Z = false by apply Z.ltb_ge.
    have [Hl Hv] := be_lemma 2 k ltac:(split; [lia|]; change (256 ^ Z.of_nat 2)%Z with 65536%Z; lia).
    case Eb: (be 2 k) Hl Hv => [|h [|l [|? ?]]] Hl Hv; try by rewrite /nlen /= in Hl; lia.
    exists h, l. split=> //.
    exact: (put_status n0 [n1; o0] (o1 :: _) 0 [h; l]).
  - have -> : (k <? 0)%Z = true by apply Z.ltb_lt.
    exact: put_failure.
Qed.

Lemma close_lemma cl f fb o (r : list N) : nlen fb = 8 -> f = Z.of_N (be_value fb) ->
  exists st, ffi_close cl fb (o :: r) = Ok (st :: r) /\
    ((cl f = 0%Z /\ st = 0) \/ (cl f <> 0%Z /\ st = 1)).
Proof.
  move=> Hfb Hf. rewrite /ffi_close.
  have := mread_app [] fb []. rewrite app_nil_r Hfb. cbn [app].
  change (nlen (@nil N)) with 0 => ->. cbn [bind].
  rewrite unle_value -/(be_value _) -Hf.
  have -> : forall v, mwrite (o :: r) 0 [v] = Ok (v :: r)
    by move=> v; exact: (mwrite_mid [] [o] r [v] eq_refl).
  eexists. split; [reflexivity|].
  case: (Z.eqb_spec (cl f) 0) => H; [left|right]; by split.
Qed.
