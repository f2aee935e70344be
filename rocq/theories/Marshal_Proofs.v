(** Proofs about RPC marshalling: sending side, and the round trip. *)
From Coq Require Import List Arith NArith Bool Lia ssreflect ssrbool.
From Verif Require Import Prelude Marshal_Model Marshal_Spec.
Import ListNotations.
Open Scope N_scope.
Open Scope list_scope.

(** ** Lists and lengths *)
Lemma nlen_app {A} (a b : list A) : nlen (a ++ b) = nlen a + nlen b.
Proof. rewrite /nlen app_length. lia. Qed.
Lemma nlen_nil {A} : nlen (@nil A) = 0. Proof. done. Qed.
Lemma nlen_cons {A} (x : A) l : nlen (x :: l) = 1 + nlen l.
Proof. rewrite /nlen. cbn [List.length]. lia. Qed.
Lemma nlen1 {A} (x : A) : nlen [x] = 1. Proof. done. Qed.
Lemma nlen_nat {A} (l : list A) : N.to_nat (nlen l) = List.length l.
Proof. rewrite /nlen. lia. Qed.
Lemma nlen_skipn {A} (l : list A) n :
  nlen (skipn (N.to_nat n) l) = nlen l - n.
Proof. rewrite /nlen skipn_length. lia. Qed.
Lemma nlen_firstn {A} (l : list A) n :
  nlen (firstn (N.to_nat n) l) = N.min n (nlen l).
Proof. rewrite /nlen firstn_length. lia. Qed.
Lemma skipn_nlen_app {A} (a b : list A) :
  skipn (N.to_nat (nlen a)) (a ++ b) = b.
Proof. by rewrite nlen_nat skipn_app skipn_all Nat.sub_diag. Qed.
Lemma firstn_nlen_app {A} (a b : list A) :
  firstn (N.to_nat (nlen a)) (a ++ b) = a.
Proof.
  by rewrite nlen_nat firstn_app firstn_all Nat.sub_diag /= app_nil_r.
Qed.

Lemma skipn_plus {A} (l : list A) n m :
  skipn m (skipn n l) = skipn (n + m)%nat l.
Proof.
  elim: n l => [|n IH] l //. case: l => [|x l]; [by rewrite !skipn_nil|].
  exact: IH.
Qed.

Lemma le_length k x : List.length (le k x) = k.
Proof. elim: k x => [|k IH] x //=. by rewrite IH. Qed.
Lemma nlen_le k x : nlen (le (N.to_nat k) x) = k.
Proof. rewrite /nlen le_length. lia. Qed.
Lemma unle_le k x : x < 256 ^ N.of_nat k -> unle (le k x) = x.
Proof.
  elim: k x => [|k IH] x.
  - cbn. lia.
  - move=> H. cbn [le unle]. rewrite IH.
    + apply N.div_lt_upper_bound; [lia|].
      rewrite Nat2N.inj_succ N.pow_succ_r' in H. lia.
    + rewrite {3}(N.div_mod x 256); lia.
Qed.

(** ** Sizes *)
Definition small (n : N) : Prop := n < 2 ^ 31.

Lemma szmod_big W : word_size W -> 2 ^ 32 <= szmod W.
Proof. by case=> ->. Qed.
Lemma word_pos W : word_size W -> 0 < W /\ W <= 8.
Proof. by case=> ->. Qed.
Lemma szmod_pow W : szmod W = 256 ^ W.
Proof. rewrite /szmod N.pow_mul_r. done. Qed.

Lemma umod_val : umod = 4294967296. Proof. done. Qed.
Lemma small_val n : small n -> n < 2147483648. Proof. done. Qed.

Lemma usz_small W x : word_size W -> x < 2 ^ 32 -> usz W x = x.
Proof.
  move=> HW H. rewrite /usz. apply N.mod_small.
  have := szmod_big _ HW. lia.
Qed.
Lemma u32_small x : x < 2 ^ 32 -> u32 x = x.
Proof. move=> H. by apply N.mod_small. Qed.

Lemma usz_sub W size off :
  word_size W -> small size -> off <= size ->
  usz W (size + szmod W - off) = size - off.
Proof.
  move=> HW Hs Ho. rewrite /usz.
  replace (size + szmod W - off) with ((size - off) + 1 * szmod W) by lia.
  rewrite N.mod_add; [have := szmod_big _ HW; lia|].
  apply N.mod_small. have := szmod_big _ HW. move: (small_val _ Hs).
  change (2 ^ 32) with 4294967296. lia.
Qed.
Lemma u32_sub size off :
  small size -> off <= size -> u32 (size + umod - off) = size - off.
Proof.
  move=> Hs Ho. rewrite /u32.
  replace (size + umod - off) with ((size - off) + 1 * umod) by lia.
  rewrite N.mod_add; [done|].
  apply N.mod_small. move: (small_val _ Hs). rewrite umod_val. lia.
Qed.

Lemma send_overE W size off d :
  word_size W -> small size -> off <= size ->
  send_over W size off d = (size - off <? d).
Proof. move=> HW Hs Ho. by rewrite /send_over usz_sub. Qed.
Lemma recv_overE size off d :
  small size -> off <= size -> recv_over size off d = (size - off <? d).
Proof. move=> Hs Ho. by rewrite /recv_over u32_sub. Qed.

(** ** Memory *)
Lemma mwrite_app pre rest bs :
  nlen bs <= nlen rest ->
  mwrite (pre ++ rest) (nlen pre) bs
  = Ok (pre ++ bs ++ skipn (N.to_nat (nlen bs)) rest).
Proof.
  move=> H. rewrite /mwrite nlen_app.
  have -> : (nlen pre + nlen bs <=? nlen pre + nlen rest) = true
    by apply N.leb_le; lia.
  rewrite firstn_nlen_app. f_equal. f_equal. f_equal.
  rewrite skipn_app skipn_all2 /=; [rewrite /nlen; lia|].
  f_equal. rewrite /nlen. lia.
Qed.
Lemma mread_app pre bs rest :
  mread (pre ++ bs ++ rest) (nlen pre) (nlen bs) = Ok bs.
Proof.
  rewrite /mread !nlen_app.
  have -> : (nlen pre + nlen bs <=? nlen pre + (nlen bs + nlen rest)) = true
    by apply N.leb_le; lia.
  by rewrite skipn_nlen_app firstn_nlen_app.
Qed.

(** ** Sending *)

(** The bytes of an argument. *)
Fact wire_str_key : unit. Proof. exact tt. Qed.
Definition wire_str (s : list N) : list N :=
  match wire_str_key with tt => s ++ [0] end.
Lemma wire_strE s : wire_str s = s ++ [0].
Proof. rewrite /wire_str. by case: wire_str_key. Qed.
Definition wire (W : N) (v : pval) : list N :=
  match v with
  | VScalar bs => bs
  | VString s => wire_str s
  | VArray es => le (N.to_nat W) (nlen es) ++ concat es
  | VStrArray ss => le (N.to_nat W) (nlen ss) ++ concat (map wire_str ss)
  end.
Definition wires (W : N) (vs : list pval) : list N := concat (map (wire W) vs).

Lemma nlen_wire_str s : nlen (wire_str s) = nlen s + 1.
Proof. by rewrite wire_strE nlen_app. Qed.
Lemma nlen_wire_strs ss :
  nlen (concat (map wire_str ss))
  = fold_right (fun s n => nlen s + 1 + n) 0 ss.
Proof.
  elim: ss => [|s ss IH] //=. by rewrite nlen_app nlen_wire_str IH.
Qed.
Lemma nlen_wire W v : nlen (wire W v) = wire_size W v.
Proof.
  case: v => [bs|s|es|ss] //=; rewrite ?nlen_wire_str ?nlen_app ?nlen_le //.
  by rewrite nlen_wire_strs.
Qed.
Lemma nlen_wires W vs : nlen (wires W vs) = wire_total W vs.
Proof.
  rewrite /wires. elim: vs => [|v vs IH] //=. by rewrite nlen_app nlen_wire IH.
Qed.

(** Writing [bs] at the end of [pre]. *)
Definition put (pre rest bs : list N) : res (list N * N) :=
  if nlen bs <=? nlen rest
  then Ok (pre ++ bs ++ skipn (N.to_nat (nlen bs)) rest, nlen (pre ++ bs))
  else Err ValueError.

Lemma put_put pre rest a b :
  (p <- put pre rest a ;;
   put (pre ++ a) (skipn (N.to_nat (nlen a)) rest) b)
  = put pre rest (a ++ b).
Proof.
  rewrite /put (nlen_app a b).
  case: (N.leb_spec (nlen a) (nlen rest)) => H; cbn [bind].
  - rewrite nlen_skipn.
    case: (N.leb_spec (nlen b) (nlen rest - nlen a)) => H1;
    case: (N.leb_spec (nlen a + nlen b) (nlen rest)) => H2; try lia; auto.
    by rewrite !N2Nat.inj_add skipn_plus -!app_assoc.
  - case: (N.leb_spec (nlen a + nlen b) (nlen rest)) => H2; [lia|done].
Qed.

Lemma put_nil pre rest : put pre rest [] = Ok (pre ++ rest, nlen pre).
Proof.
  rewrite /put. have -> : (nlen (@nil N) <=? nlen rest) = true
    by apply N.leb_le; rewrite nlen_nil; lia.
  by rewrite app_nil_r.
Qed.

Lemma put_bind pre rest a b (f : list N * N -> res (list N * N)) :
  (nlen a <= nlen rest ->
   f (pre ++ a ++ skipn (N.to_nat (nlen a)) rest, nlen (pre ++ a))
   = put (pre ++ a) (skipn (N.to_nat (nlen a)) rest) b) ->
  (p <- put pre rest a ;; f p) = put pre rest (a ++ b).
Proof.
  move=> H. rewrite -put_put /put.
  case: (N.leb_spec (nlen a) (nlen rest)) => H1 //=.
  by rewrite H.
Qed.

Lemma put_size (pre rest a : list N) :
  nlen a <= nlen rest ->
  nlen (pre ++ a) + nlen (skipn (N.to_nat (nlen a)) rest)
  = nlen pre + nlen rest.
Proof. move=> H. rewrite nlen_app nlen_skipn. lia. Qed.

Lemma marshal_scalar_put W pre rest size bs :
  word_size W -> small size -> size = nlen pre + nlen rest ->
  marshal_scalar W (pre ++ rest) size (nlen pre) bs = put pre rest bs.
Proof.
  move=> HW Hs Hz. rewrite /marshal_scalar send_overE //; [lia|].
  rewrite /put. move: (small_val _ Hs) => ?.
  case: (N.ltb_spec (size - nlen pre) (nlen bs)) => H;
  case: (N.leb_spec (nlen bs) (nlen rest)) => H1; try lia; auto.
  rewrite mwrite_app //= u32_small; [change (2^32) with 4294967296; lia|].
  by rewrite nlen_app.
Qed.

Lemma marshal_string_put W pre rest size s :
  word_size W -> small size -> size = nlen pre + nlen rest ->
  marshal_string W (pre ++ rest) size (nlen pre) s
  = put pre rest (wire_str s).
Proof.
  move=> HW Hs Hz. rewrite /marshal_string. move: (small_val _ Hs) => ?.
  rewrite send_overE //; [lia|]. rewrite usz_sub //; [lia|].
  rewrite usz_small //; [change (2^32) with 4294967296; lia|].
  rewrite /put nlen_wire_str.
  case: (N.ltb_spec (size - nlen pre) (N.min (nlen s) (size - nlen pre) + 1)) => H;
  case: (N.leb_spec (nlen s + 1) (nlen rest)) => H1; try lia; auto.
  rewrite -wire_strE.
  rewrite mwrite_app; [rewrite nlen_wire_str; lia|].
  cbn [bind]. rewrite nlen_wire_str.
  rewrite u32_small; [change (2^32) with 4294967296; lia|].
  rewrite nlen_app nlen_wire_str. do 2 f_equal. lia.
Qed.

Lemma marshal_strings_put W pre rest size ss :
  word_size W -> small size -> size = nlen pre + nlen rest ->
  marshal_strings W (pre ++ rest) size (nlen pre) ss
  = put pre rest (concat (map wire_str ss)).
Proof.
  move=> HW Hs. elim: ss pre rest => [|s ss IH] pre rest Hz.
  - cbn [map concat marshal_strings]. rewrite put_nil //.
  - cbn [marshal_strings map concat]. rewrite marshal_string_put //.
    apply: put_bind => H. cbn [fst snd].
    rewrite app_assoc IH //. by rewrite put_size.
Qed.

Lemma concat_fixed k (es : list (list N)) :
  Forall (fun e => nlen e = k) es -> nlen (concat es) = k * nlen es.
Proof.
  elim=> [|e l He _ IH]; cbn [concat]; [rewrite !nlen_nil; lia|].
  rewrite nlen_app nlen_cons He IH. lia.
Qed.

Lemma mread_all bs : mread bs 0 (nlen bs) = Ok bs.
Proof.
  rewrite /mread. have -> : (0 + nlen bs <=? nlen bs) = true
    by apply N.leb_le; lia.
  by rewrite nlen_nat /= firstn_all.
Qed.

Lemma marshal_param_put W pre rest size t v :
  word_size W -> small size -> size = nlen pre + nlen rest ->
  has_type W t v ->
  marshal_param W (pre ++ rest) size (nlen pre) (t, v)
  = put pre rest (wire W v).
Proof.
  move=> HW Hs Hz Ht. move: (small_val _ Hs) => Hsv.
  case: Ht => [k bs Hk|s Hc|k es Hk Hf Hb|ss Hf Hb]; cbn [marshal_param wire].
  - by apply: marshal_scalar_put.
  - by apply: marshal_string_put.
  - rewrite /marshal_array.
    have E : forall (f : list N * N -> res (list N * N)),
      (if send_over W size (nlen pre) W then Err ValueError
       else buf1 <- mwrite (pre ++ rest) (nlen pre)
              (le (N.to_nat W) (nlen es)) ;;
            f (buf1, u32 (nlen pre + W)))
      = (p <- marshal_scalar W (pre ++ rest) size (nlen pre)
             (le (N.to_nat W) (nlen es)) ;; f p).
    { move=> f. rewrite /marshal_scalar nlen_le.
      case: (send_over W size (nlen pre) W) => //.
      by case: (mwrite _ _ _). }
    have Hcat := concat_fixed _ _ Hf.
    rewrite (E (fun p =>
      if send_over W size (snd p) (usz W (k * nlen es)) then Err ValueError
      else src <- mread (concat es) 0 (usz W (k * nlen es)) ;;
           buf2 <- mwrite (fst p) (snd p) src ;;
           Ok (buf2, u32 (snd p + usz W (k * nlen es))))).
    rewrite marshal_scalar_put //.
    apply: put_bind => H. cbn [fst snd].
    have Eu : usz W (k * nlen es) = nlen (concat es).
    { rewrite /usz N.mod_small ?Hcat //. }
    rewrite Eu mread_all app_assoc. cbn [bind].
    have := marshal_scalar_put W
      (pre ++ le (N.to_nat W) (nlen es))
      (skipn (N.to_nat (nlen (le (N.to_nat W) (nlen es)))) rest)
      size (concat es) HW Hs.
    rewrite put_size // => Es. rewrite -(Es Hz) /marshal_scalar.
    by case: (send_over _ _ _ _).
  - rewrite /marshal_string_array.
    have E : forall (f : list N * N -> res (list N * N)),
      (if send_over W size (nlen pre) W then Err ValueError
       else buf1 <- mwrite (pre ++ rest) (nlen pre)
              (le (N.to_nat W) (nlen ss)) ;;
            f (buf1, u32 (nlen pre + W)))
      = (p <- marshal_scalar W (pre ++ rest) size (nlen pre)
             (le (N.to_nat W) (nlen ss)) ;; f p).
    { move=> f. rewrite /marshal_scalar nlen_le.
      case: (send_over W size (nlen pre) W) => //.
      by case: (mwrite _ _ _). }
    rewrite (E (fun p => marshal_strings W (fst p) size (snd p) ss)).
    rewrite marshal_scalar_put //.
    apply: put_bind => H. cbn [fst snd].
    rewrite app_assoc marshal_strings_put //. by rewrite put_size.
Qed.

Lemma marshal_params_put W ts vs : word_size W -> Forall2 (has_type W) ts vs ->
  forall pre rest size,
  small size -> size = nlen pre + nlen rest ->
  marshal_params W (pre ++ rest) size (nlen pre) (combine ts vs)
  = put pre rest (wires W vs).
Proof.
  move=> HW HF. elim: HF => [|t v ts' vs' Ht HF IH] pre rest size Hs Hz.
  - cbn [combine marshal_params]. rewrite /wires. cbn [map concat].
    have -> : (nlen pre <=? size) = true by apply N.leb_le; lia.
    by rewrite put_nil.
  - cbn [combine marshal_params]. rewrite marshal_param_put //.
    rewrite /wires. cbn [map concat].
    apply: put_bind => H. cbn [fst snd].
    rewrite app_assoc IH //. by rewrite put_size.
Qed.

(** ** Method indices *)
Lemma type_to_fit_Ok n w :
  type_to_fit_integer n = Ok w ->
  (w = 1 \/ w = 2 \/ w = 4 \/ w = 8) /\ n <= 256 ^ w.
Proof.
  rewrite /type_to_fit_integer.
  case: (N.leb_spec n (2 ^ 8)) => H; [move=> [<-]; split; [auto|done]|].
  case: (N.leb_spec n (2 ^ 16)) => H2; [move=> [<-]; split; [auto|done]|].
  case: (N.leb_spec n (2 ^ 32)) => H3; [move=> [<-]; split; [auto|done]|].
  case: (N.leb_spec n (2 ^ 64)) => H4 //. move=> [<-]; split; [auto|done].
Qed.
Lemma type_to_fit_total n :
  n <= 2 ^ 64 -> exists w, type_to_fit_integer n = Ok w.
Proof.
  rewrite /type_to_fit_integer => H.
  case: (n <=? 2 ^ 8); [eauto|]. case: (n <=? 2 ^ 16); [eauto|].
  case: (n <=? 2 ^ 32); [eauto|].
  case: (N.leb_spec n (2 ^ 64)); [eauto|lia].
Qed.

Definition index_wire (n i : N) : list N :=
  if 1 <? n then
    match type_to_fit_integer n with
    | Ok w => le (N.to_nat w) i
    | Err _ => []
    end
  else [].

Lemma marshal_inputs_put W n i ts vs buf :
  word_size W -> small (nlen buf) -> n <= 2 ^ 64 ->
  Forall2 (has_type W) ts vs ->
  marshal_inputs W n i (combine ts vs) buf
  = put [] buf (index_wire n i ++ wires W vs).
Proof.
  move=> HW Hs Hn HF. rewrite /marshal_inputs /index_wire.
  case: (1 <? n).
  - have [w Ew] := type_to_fit_total _ Hn. rewrite Ew. cbn [bind].
    have E := marshal_scalar_put W [] buf (nlen buf) (le (N.to_nat w) i)
                HW Hs eq_refl.
    cbn [app] in E. change (nlen (@nil N)) with 0 in E. rewrite E.
    apply: put_bind => H. cbn [fst snd].
    rewrite app_assoc. apply: marshal_params_put => //. by rewrite put_size.
  - cbn [bind fst snd app].
    by apply: (marshal_params_put W ts vs HW HF [] buf).
Qed.

Lemma marshal_outputs_put W rt rv ts vs buf :
  word_size W -> small (nlen buf) ->
  match rt, rv with
  | Some t, Some v => has_type W t v | None, None => True | _, _ => False
  end ->
  Forall2 (has_type W) ts vs ->
  marshal_outputs W
    (match rt, rv with Some t, Some v => Some (t, v) | _, _ => None end)
    (combine ts vs) buf
  = put [] buf (wires W (match rv with Some v => v :: vs | None => vs end)).
Proof.
  move=> HW Hs Hr HF. rewrite /marshal_outputs.
  case: rt rv Hr => [t|] [v|] // Hr.
  - by apply: (marshal_params_put W (t :: ts) (v :: vs) HW
               (Forall2_cons _ _ Hr HF) [] buf).
  - by apply: (marshal_params_put W ts vs HW HF [] buf).
Qed.

(** ** Receiving what was sent *)
Lemma strnlen_str s rest n :
  is_cstring s -> nlen s < n -> strnlen (wire_str s ++ rest) n = Ok (nlen s).
Proof.
  rewrite wire_strE. elim: s n => [|b s IH] n Hc Hn /=.
  - by case: (n =? 0).
  - rewrite nlen_cons in Hn *.
    have -> : (n =? 0) = false by apply N.eqb_neq; lia.
    inversion Hc; subst.
    have -> : (b =? 0) = false by apply N.eqb_neq.
    rewrite IH //; [lia|]. cbn [bind]. f_equal. lia.
Qed.
Lemma cstr_str s rest : is_cstring s -> cstr (wire_str s ++ rest) = Ok s.
Proof.
  rewrite wire_strE. elim: s => [|b s IH] Hc //=.
  inversion Hc; subst.
  have -> : (b =? 0) = false by apply N.eqb_neq.
  by rewrite IH.
Qed.

Lemma unmarshal_string_wire W pre s rest size :
  word_size W -> small size -> is_cstring s ->
  size = nlen (pre ++ wire_str s ++ rest) ->
  unmarshal_string W always (pre ++ wire_str s ++ rest) size (nlen pre)
  = Ok (s, nlen (pre ++ wire_str s)).
Proof.
  move=> HW Hs Hc Hz. rewrite /unmarshal_string /at_off skipn_nlen_app.
  move: (small_val _ Hs) => Hsv.
  rewrite ?nlen_app ?nlen_wire_str in Hz *.
  rewrite u32_sub //; [lia|]. rewrite strnlen_str //; [lia|]. cbn [bind].
  rewrite recv_overE //; [lia|].
  rewrite usz_small //; [change (2 ^ 32) with 4294967296; lia|].
  have -> : (size - nlen pre <? nlen s + 1) = false by apply N.ltb_ge; lia.
  rewrite cstr_str //. cbn [bind always].
  rewrite u32_small; [change (2 ^ 32) with 4294967296; lia|].
  do 2 f_equal. lia.
Qed.

Lemma unmarshal_strings_wire W cap size : word_size W -> small size ->
  forall ss fuel pre rest i count,
  Forall is_cstring ss ->
  size = nlen (pre ++ concat (map wire_str ss) ++ rest) ->
  (List.length ss <= fuel)%nat ->
  count = i + nlen ss -> W * count <= cap ->
  unmarshal_strings fuel W always
    (pre ++ concat (map wire_str ss) ++ rest) size cap i count (nlen pre)
  = Ok (ss, nlen (pre ++ concat (map wire_str ss))).
Proof.
  move=> HW Hs. move: (small_val _ Hs) => Hsv.
  elim=> [|s ss IH] fuel pre rest i count Hc Hz Hf Hn Hcap.
  - have E : (i <? count) = false
      by apply N.ltb_ge; rewrite Hn nlen_nil; lia.
    cbn [map concat app]. rewrite app_nil_r.
    case: fuel Hf => [|fuel] Hf; cbn [unmarshal_strings]; by rewrite E.
  - rewrite nlen_cons in Hn.
    case: fuel Hf => [|fuel] Hf; [cbn in Hf; lia|].
    cbn [unmarshal_strings].
    have -> : (i <? count) = true by apply N.ltb_lt; lia.
    cbn [map concat] in Hz |- *. rewrite -!app_assoc in Hz *.
    inversion Hc; subst x l.
    rewrite /at_off skipn_nlen_app.
    have Hz' := Hz. rewrite ?nlen_app ?nlen_wire_str in Hz'.
    rewrite u32_sub //; [lia|]. rewrite strnlen_str //; [lia|]. cbn [bind].
    rewrite recv_overE //; [lia|].
    rewrite usz_small //; [change (2 ^ 32) with 4294967296; lia|].
    have -> : (size - nlen pre <? nlen s + 1) = false by apply N.ltb_ge; lia.
    rewrite cstr_str //. cbn [bind always].
    have -> : (cap <? (i + 1) * W) = false.
    { apply N.ltb_ge. have : (i + 1) * W <= count * W; [|lia].
      apply N.mul_le_mono_r. lia. }
    rewrite u32_small; [change (2 ^ 32) with 4294967296; lia|].
    replace (nlen pre + (nlen s + 1)) with (nlen (pre ++ wire_str s))
      by (rewrite ?nlen_app ?nlen_wire_str; lia).
    rewrite app_assoc (IH fuel (pre ++ wire_str s) rest (i + 1) count) //.
    + by rewrite -app_assoc.
    + cbn in Hf. lia.
    + lia.
    + by rewrite -app_assoc.
Qed.

Lemma unmarshal_param_wire W pre t v rest size :
  word_size W -> small size -> has_type W t v ->
  size = nlen (pre ++ wire W v ++ rest) ->
  exists r,
    unmarshal_param W always (pre ++ wire W v ++ rest) size (nlen pre) t
    = Ok (r, nlen (pre ++ wire W v)) /\ delivered v r.
Proof.
  move=> HW Hs Ht Hz. move: (small_val _ Hs) (word_pos _ HW) => Hsv [Wp W8].
  case: Ht Hz => [k bs Hk|s Hc|k es Hk Hf Hb|ss Hf Hb] Hz;
    cbn [unmarshal_param wire] in Hz |- *.
  - exists (RScalar bs). split; [|constructor].
    rewrite /unmarshal_scalar -Hk. rewrite !nlen_app in Hz *.
    rewrite recv_overE //; [lia|].
    have -> : (size - nlen pre <? nlen bs) = false by apply N.ltb_ge; lia.
    rewrite mread_app. cbn [bind fst snd].
    rewrite u32_small //. change (2 ^ 32) with 4294967296; lia.
  - exists (RString s). split; [|constructor].
    by rewrite unmarshal_string_wire.
  - exists (RArray (nlen es) (concat es)). split; [|constructor].
    have Hcat := concat_fixed _ _ Hf.
    have Hc : nlen es < 256 ^ N.of_nat (N.to_nat W).
    { rewrite N2Nat.id -szmod_pow /szmod. nia. }
    have Hz' := Hz. rewrite !nlen_app nlen_le in Hz'.
    rewrite /unmarshal_array. rewrite recv_overE //; [lia|].
    have -> : (size - nlen pre <? W) = false by apply N.ltb_ge; lia.
    rewrite -!app_assoc.
    have Er := mread_app pre (le (N.to_nat W) (nlen es)) (concat es ++ rest).
    rewrite nlen_le in Er. rewrite Er. cbn [bind].
    rewrite unle_le //. cbn [always].
    have -> : usz W (k * nlen es) = nlen (concat es).
    { rewrite /usz N.mod_small ?Hcat //. }
    rewrite u32_small; [change (2 ^ 32) with 4294967296; lia|].
    rewrite recv_overE //; [lia|].
    have -> : (size - (nlen pre + W) <? nlen (concat es)) = false
      by apply N.ltb_ge; lia.
    rewrite app_assoc.
    replace (nlen pre + W) with (nlen (pre ++ le (N.to_nat W) (nlen es)))
      by (rewrite nlen_app nlen_le; lia).
    rewrite mread_app. cbn [bind fst snd].
    rewrite u32_small; [rewrite nlen_app nlen_le;
      change (2 ^ 32) with 4294967296; lia|].
    do 2 f_equal. rewrite !nlen_app. lia.
  - exists (RStrArray (nlen ss) ss). split; [|constructor].
    have Hc : nlen ss < 256 ^ N.of_nat (N.to_nat W).
    { rewrite N2Nat.id -szmod_pow /szmod. nia. }
    have Hz' := Hz. rewrite !nlen_app nlen_le in Hz'.
    rewrite /unmarshal_string_array. rewrite recv_overE //; [lia|].
    have -> : (size - nlen pre <? W) = false by apply N.ltb_ge; lia.
    rewrite -!app_assoc.
    have Er := mread_app pre (le (N.to_nat W) (nlen ss))
                 (concat (map wire_str ss) ++ rest).
    rewrite nlen_le in Er. rewrite Er. cbn [bind].
    rewrite unle_le //. cbn [always].
    have -> : usz W (W * nlen ss) = W * nlen ss.
    { rewrite /usz N.mod_small //. }
    rewrite u32_small; [change (2 ^ 32) with 4294967296; lia|].
    replace (nlen pre + W) with (nlen (pre ++ le (N.to_nat W) (nlen ss)))
      by (rewrite nlen_app nlen_le; lia).
    rewrite app_assoc.
    rewrite (unmarshal_strings_wire W (W * nlen ss) size HW Hs ss) //=;
      [by rewrite Hz -!app_assoc| |lia|by rewrite app_assoc].
    rewrite !app_length.
    have : (List.length ss <= List.length (concat (map wire_str ss)))%nat.
    { clear. elim: ss => [|s ss IH] //=. rewrite app_length wire_strE
        app_length /=. lia. }
    lia.
Qed.

Lemma unmarshal_params_wire W ts vs : word_size W ->
  Forall2 (has_type W) ts vs ->
  forall pre rest size,
  small size -> size = nlen (pre ++ wires W vs ++ rest) ->
  exists rs,
    unmarshal_params W always (pre ++ wires W vs ++ rest) size (nlen pre) ts
    = Ok (rs, nlen (pre ++ wires W vs)) /\ Forall2 delivered vs rs.
Proof.
  move=> HW HF. elim: HF => [|t v ts' vs' Ht HF IH] pre rest size Hs Hz.
  - exists []. rewrite /= app_nil_r. by split.
  - rewrite /wires in Hz *. cbn [map concat unmarshal_params] in Hz |- *.
    rewrite -!app_assoc in Hz *.
    have [r [Er Hr]] := unmarshal_param_wire W pre t v
      (concat (map (wire W) vs') ++ rest) size HW Hs Ht Hz.
    rewrite Er. cbn [bind fst snd].
    have [rs [Ers Hrs]] := IH (pre ++ wire W v) rest size Hs
      ltac:(by rewrite -!app_assoc).
    rewrite -app_assoc /wires in Ers. rewrite Ers. cbn [bind fst snd].
    exists (r :: rs). split; [|by constructor].
    by rewrite -!app_assoc.
Qed.

(** ** Rounding *)
Lemma round_up_ge W n : 0 < W -> n <= round_up W n.
Proof.
  move=> H. rewrite /round_up.
  have := N.div_mod (n + W - 1) W ltac:(lia).
  have := N.mod_lt (n + W - 1) W ltac:(lia). nia.
Qed.
Lemma round_up_le W n m :
  0 < W -> n <= m -> m mod W = 0 -> round_up W n <= m.
Proof.
  move=> H Hn Hm. rewrite /round_up.
  have E : m = m / W * W.
  { rewrite {1}(N.div_mod m W); [lia|]. rewrite Hm. lia. }
  rewrite E. apply N.mul_le_mono_r.
  have H2 : n + W - 1 < W * (m / W + 1) by lia.
  have H0 : W <> 0 by lia.
  have := N.div_lt_upper_bound _ _ _ H0 H2. lia.
Qed.

(** ** The round trip *)
Lemma put_Ok pre rest bs buf' n :
  put pre rest bs = Ok (buf', n) ->
  nlen bs <= nlen rest /\
  buf' = pre ++ bs ++ skipn (N.to_nat (nlen bs)) rest /\
  n = nlen (pre ++ bs).
Proof.
  rewrite /put. case: (N.leb_spec (nlen bs) (nlen rest)) => H //.
  by move=> [<- <-].
Qed.

Lemma dispatch_index_wire n i rest :
  n <= 2 ^ 64 -> i < n -> small (nlen (index_wire n i ++ rest)) ->
  dispatch_index n (index_wire n i ++ rest) = Ok i.
Proof.
  move=> Hn Hi. rewrite /dispatch_index /index_wire.
  case: (N.leb_spec n 1) => H1.
  - move=> _. f_equal. lia.
  - have -> : (1 <? n) = true by apply N.ltb_lt.
    have [w Ew] := type_to_fit_total _ Hn. rewrite Ew => Hs. cbn [bind].
    have [_ Hw] := type_to_fit_Ok _ _ Ew.
    move: (small_val _ Hs) => Hsv. rewrite /unmarshal_scalar.
    rewrite recv_overE //; [lia|].
    rewrite nlen_app nlen_le in Hsv *.
    have -> : (w + nlen rest - 0 <? w) = false by apply N.ltb_ge; lia.
    have Er := mread_app [] (le (N.to_nat w) i) rest.
    cbn [app] in Er. change (nlen (@nil N)) with 0 in Er.
    rewrite nlen_le in Er. rewrite Er. cbn [bind fst snd].
    rewrite unle_le // N2Nat.id. lia.
Qed.

Lemma index_wire_len n i :
  n <= 2 ^ 64 ->
  (if 1 <? n then type_to_fit_integer n else Ok 0)
  = Ok (nlen (index_wire n i)).
Proof.
  move=> Hn. rewrite /index_wire. case: (1 <? n) => //.
  have [w Ew] := type_to_fit_total _ Hn. by rewrite Ew nlen_le.
Qed.

Lemma unmarshal_inputs_wire W n i ts vs rest tr :
  word_size W -> n <= 2 ^ 64 -> Forall2 (has_type W) ts vs ->
  small (nlen (index_wire n i ++ wires W vs ++ rest)) ->
  (tr = true \/
   round_up W (nlen (index_wire n i ++ wires W vs))
   = nlen (index_wire n i ++ wires W vs ++ rest)) ->
  exists rs,
    unmarshal_inputs W always tr n ts (index_wire n i ++ wires W vs ++ rest)
    = Ok rs /\ Forall2 delivered vs rs.
Proof.
  move=> HW Hn HF Hs Htr. rewrite /unmarshal_inputs (index_wire_len _ i) //.
  cbn [bind].
  have [rs [-> Hd]] := unmarshal_params_wire W ts vs HW HF
    (index_wire n i) rest _ Hs eq_refl.
  cbn [bind]. exists rs. split=> //. rewrite /finish. cbn [fst snd].
  case: Htr => [->|E] //. by rewrite E N.eqb_refl andb_false_r.
Qed.

Lemma ipc_wire W buf bs :
  word_size W -> nlen bs <= nlen buf -> nlen buf mod W = 0 ->
  exists rest,
    ipc W (bs ++ skipn (N.to_nat (nlen bs)) buf) (nlen bs) = bs ++ rest /\
    nlen (bs ++ rest) = round_up W (nlen bs) /\
    nlen (bs ++ rest) <= nlen buf.
Proof.
  move=> HW Hle Hm. have [Wp _] := word_pos _ HW. rewrite /ipc.
  have H1 := round_up_ge W (nlen bs) Wp.
  have H2 := round_up_le W (nlen bs) (nlen buf) Wp Hle Hm.
  exists (firstn (N.to_nat (round_up W (nlen bs) - nlen bs))
            (skipn (N.to_nat (nlen bs)) buf)).
  split; [|split].
  - rewrite firstn_app firstn_all2; [rewrite /nlen in H1 *; lia|].
    do 2 f_equal. rewrite /nlen. lia.
  - rewrite nlen_app nlen_firstn nlen_skipn. lia.
  - rewrite nlen_app nlen_firstn nlen_skipn. lia.
Qed.

Lemma request_round_trip W methods i ts vs buf buf' n :
  word_size W -> small (nlen buf) ->
  nlen methods <= 2 ^ 64 ->
  nth_error methods (N.to_nat i) = Some ts ->
  Forall2 (has_type W) ts vs ->
  marshal_inputs W (nlen methods) i (combine ts vs) buf = Ok (buf', n) ->
  nlen buf' = nlen buf /\ n <= nlen buf /\
  (nlen buf mod W = 0 ->
   exists rs,
     dispatch W always false methods (ipc W buf' n) = Ok (i, rs) /\
     Forall2 delivered vs rs) /\
  exists rs,
    dispatch W always true methods buf' = Ok (i, rs) /\
    Forall2 delivered vs rs.
Proof.
  move=> HW Hs Hn Hi HF. rewrite marshal_inputs_put // => Hput.
  have [Hle [Eb En]] := put_Ok _ _ _ _ _ Hput. cbn [app] in Eb, En.
  have Hlt : i < nlen methods.
  { have : nth_error methods (N.to_nat i) <> None by rewrite Hi.
    move=> /nth_error_Some. rewrite /nlen. lia. }
  have Enth : nth (N.to_nat i) methods [] = ts by apply nth_error_nth.
  have D : forall rest tr,
    small (nlen (index_wire (nlen methods) i ++ wires W vs ++ rest)) ->
    (tr = true \/
     round_up W (nlen (index_wire (nlen methods) i ++ wires W vs))
     = nlen (index_wire (nlen methods) i ++ wires W vs ++ rest)) ->
    exists rs,
      dispatch W always tr methods
        (index_wire (nlen methods) i ++ wires W vs ++ rest) = Ok (i, rs) /\
      Forall2 delivered vs rs.
  { move=> rest tr Hsm Htr. rewrite /dispatch dispatch_index_wire //.
    cbn [bind]. have -> : (i <? nlen methods) = true by apply N.ltb_lt.
    rewrite Enth.
    have [rs [-> Hd]] := unmarshal_inputs_wire W _ i ts vs rest tr HW Hn HF
      Hsm Htr.
    exists rs. by split. }
  split; [|split; [|split]].
  - rewrite Eb nlen_app nlen_skipn. lia.
  - by rewrite En.
  - move=> Hm.
    have [rest [E1 [E2 E3]]] := ipc_wire W buf _ HW Hle Hm.
    rewrite Eb En E1 -app_assoc. rewrite -app_assoc in E2, E3.
    apply: D.
    + rewrite /small in Hs *. lia.
    + by right.
  - rewrite Eb -app_assoc. apply: D; [|by left].
    rewrite app_assoc /small nlen_app nlen_skipn. rewrite /small in Hs. lia.
Qed.

Definition opt_list {A} (o : option A) (l : list A) : list A :=
  match o with Some x => x :: l | None => l end.

Lemma response_round_trip W rt rv ts vs buf buf' n :
  word_size W -> small (nlen buf) ->
  match rt, rv with
  | Some t, Some v => has_type W t v | None, None => True | _, _ => False
  end ->
  Forall2 (has_type W) ts vs ->
  marshal_outputs W
    (match rt, rv with Some t, Some v => Some (t, v) | _, _ => None end)
    (combine ts vs) buf = Ok (buf', n) ->
  nlen buf' = nlen buf /\ n <= nlen buf /\
  (nlen buf mod W = 0 ->
   exists rs,
     unmarshal_outputs W always false rt ts (ipc W buf' n) = Ok rs /\
     Forall2 delivered
       (match rv with Some v => v :: vs | None => vs end) rs) /\
  exists rs,
    unmarshal_outputs W always true rt ts buf' = Ok rs /\
    Forall2 delivered (match rv with Some v => v :: vs | None => vs end) rs.
Proof.
  move=> HW Hs Hr HF. rewrite marshal_outputs_put // => Hput.
  have [Hle [Eb En]] := put_Ok _ _ _ _ _ Hput. cbn [app] in Eb, En.
  have HF' : Forall2 (has_type W)
    (match rt with None => ts | Some t => t :: ts end)
    (match rv with Some v => v :: vs | None => vs end).
  { case: rt rv Hr {Hput Hle Eb En} => [t|] [v|] // Hr. by constructor. }
  move: Hle Eb En HF'. clear Hput Hr.
  move: (match rv with Some v => v :: vs | None => vs end) => ws.
  move=> Hle Eb En HF'.
  have D : forall rest tr,
    small (nlen (wires W ws ++ rest)) ->
    (tr = true \/
     round_up W (nlen (wires W ws)) = nlen (wires W ws ++ rest)) ->
    exists rs,
      unmarshal_outputs W always tr rt ts (wires W ws ++ rest) = Ok rs /\
      Forall2 delivered ws rs.
  { move=> rest tr Hsm Htr. rewrite /unmarshal_outputs.
    have [rs [Er Hd]] := unmarshal_params_wire W _ ws HW HF'
      [] rest _ Hsm eq_refl.
    cbn [app] in Er. change (nlen (@nil N)) with 0 in Er. rewrite Er.
    cbn [bind]. exists rs. split=> //. rewrite /finish. cbn [fst snd].
    case: Htr => [->|E] //. by rewrite E N.eqb_refl andb_false_r. }
  split; [|split; [|split]].
  - rewrite Eb nlen_app nlen_skipn. lia.
  - by rewrite En.
  - move=> Hm.
    have [rest [E1 [E2 E3]]] := ipc_wire W buf _ HW Hle Hm.
    rewrite Eb En E1. apply: D; [|by right].
    rewrite /small in Hs *. lia.
  - rewrite Eb. apply: D; [|by left].
    rewrite /small nlen_app nlen_skipn. rewrite /small in Hs. lia.
Qed.

(** A request is accepted exactly when it fits. *)
Lemma index_wire_bytes n i w :
  index_bytes n w -> exists w', nlen (index_wire n i) = w' /\ w' <= w /\
  index_bytes n w'.
Proof.
  rewrite /index_bytes /index_wire.
  case=> [[H ->]|[H [Hw Hn]]].
  - exists 0. have -> : (1 <? n) = false by apply N.ltb_ge.
    split=> //. split; [lia|]. by left.
  - have -> : (1 <? n) = true by apply N.ltb_lt.
    have Hn64 : n <= 2 ^ 64.
    { apply: (N.le_trans _ _ _ Hn). change (2 ^ 64) with (256 ^ 8).
      apply N.pow_le_mono_r; lia. }
    have [w' Ew] := type_to_fit_total _ Hn64. rewrite Ew nlen_le.
    have [Hw' Hn'] := type_to_fit_Ok _ _ Ew.
    exists w'. split=> //. split; [|by right].
    move: Ew. rewrite /type_to_fit_integer.
    case: (N.leb_spec n (2 ^ 8)) => H8; [move=> [<-]; lia|].
    have ? : w <> 1 by move=> ?; subst w; cbn in Hn; cbn in H8; lia.
    case: (N.leb_spec n (2 ^ 16)) => H16; [move=> [<-]; lia|].
    have ? : w <> 2 by move=> ?; subst w; cbn in Hn; cbn in H16; lia.
    case: (N.leb_spec n (2 ^ 32)) => H32; [move=> [<-]; lia|].
    have ? : w <> 4 by move=> ?; subst w; cbn in Hn; cbn in H32; lia.
    case: (n <=? 2 ^ 64) => //. move=> [<-]. lia.
Qed.

Lemma marshal_inputs_accepts W n i ts vs buf :
  word_size W -> small (nlen buf) -> n <= 2 ^ 64 ->
  Forall2 (has_type W) ts vs ->
  exists w, index_bytes n w /\
  (w + wire_total W vs <= nlen buf ->
   exists buf', marshal_inputs W n i (combine ts vs) buf
                = Ok (buf', w + wire_total W vs)) /\
  (nlen buf < w + wire_total W vs ->
   marshal_inputs W n i (combine ts vs) buf = Err ValueError).
Proof.
  move=> HW Hs Hn HF. rewrite marshal_inputs_put // /put.
  exists (nlen (index_wire n i)). rewrite !nlen_app nlen_wires.
  split; [|split].
  - rewrite /index_bytes /index_wire.
    case: (N.ltb_spec 1 n) => H; [right|by left].
    have [w Ew] := type_to_fit_total _ Hn. rewrite Ew nlen_le.
    have := type_to_fit_Ok _ _ Ew. tauto.
  - move=> H. move: (H) => /N.leb_le ->. by eexists.
  - move=> H. by move: (H) => /N.leb_gt ->.
Qed.
