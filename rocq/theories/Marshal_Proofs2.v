(** Proofs about RPC marshalling: arbitrary received messages, the lock. *)
From Coq Require Import List Arith NArith Bool Lia ssreflect ssrbool.
From Verif Require Import Prelude Marshal_Model Marshal_Spec Marshal_Proofs.
Import ListNotations.
Open Scope N_scope.
Open Scope list_scope.

Lemma mread_Ok buf off n :
  off + n <= nlen buf ->
  exists bs, mread buf off n = Ok bs /\ nlen bs = n /\
             bs = firstn (N.to_nat n) (skipn (N.to_nat off) buf).
Proof.
  move=> H. rewrite /mread. move: (H) => /N.leb_le ->.
  eexists. split; [done|]. split=> //.
  rewrite nlen_firstn nlen_skipn. lia.
Qed.

Lemma strnlen_bounded mem n :
  n <= nlen mem ->
  exists m, strnlen mem n = Ok m /\ m <= n /\
    (m < n -> exists s rest, mem = s ++ 0 :: rest /\ is_cstring s /\
                             nlen s = m).
Proof.
  elim: mem n => [|b mem IH] n Hn.
  - rewrite nlen_nil in Hn. have -> : n = 0 by lia.
    exists 0. by do 2 split.
  - cbn [strnlen]. case: (N.eqb_spec n 0) => [->|Hn0].
    + exists 0. by do 2 split.
    + case: (N.eqb_spec b 0) => [->|Hb].
      * exists 0. split=> //. split; [lia|]. move=> _.
        exists [], mem. by repeat split.
      * rewrite nlen_cons in Hn.
        have Hle : n - 1 <= nlen mem by lia.
        have [m [-> [Hm Hs]]] := IH _ Hle.
        exists (m + 1). split=> //. split; [lia|]. move=> Hlt.
        have Hlt' : m < n - 1 by lia.
        have [s [rest [-> [Hc Hl]]]] := Hs Hlt'.
        exists (b :: s), rest. split=> //. split; [by constructor|].
        rewrite nlen_cons. lia.
Qed.

Lemma cstr_app s rest : is_cstring s -> cstr (s ++ 0 :: rest) = Ok s.
Proof.
  move=> H. have := cstr_str s rest H. by rewrite wire_strE -app_assoc.
Qed.

(** One string of an arbitrary message: rejected, or inside the message. *)
Lemma string_at W buf size off :
  word_size W -> small size -> size = nlen buf -> off <= size ->
  exists n, strnlen (at_off buf off) (u32 (size + umod - off)) = Ok n /\
  (recv_over size off (usz W (n + 1)) = true \/
   recv_over size off (usz W (n + 1)) = false /\
   exists s, cstr (at_off buf off) = Ok s /\ is_cstring s /\ nlen s = n /\
     off + n + 1 <= size).
Proof.
  move=> HW Hs Hz Ho. move: (small_val _ Hs) => Hsv.
  rewrite u32_sub //.
  have Hlen : size - off <= nlen (at_off buf off).
  { rewrite /at_off nlen_skipn. lia. }
  have [n [-> [Hn Hstr]]] := strnlen_bounded _ _ Hlen.
  exists n. split=> //. rewrite recv_overE //.
  rewrite usz_small //; [change (2 ^ 32) with 4294967296; lia|].
  case: (N.ltb_spec (size - off) (n + 1)) => H; [by left|right].
  split=> //. have Hlt : n < size - off by lia.
  have [s [rest [E [Hc Hl]]]] := Hstr Hlt.
  exists s. rewrite E cstr_app //. repeat split=> //. lia.
Qed.

Lemma unle_value bs : unle bs = le_value bs.
Proof. reflexivity. Qed.

Definition backed_mod (W : N) (t : ptype) (r : rval) : Prop :=
  match t, r with
  | PArray k, RArray count block =>
      nlen block = (k * count) mod 2 ^ (8 * W)
  | _, _ => backed t r
  end.

Definition param_ok (W : N) (buf : list N) (size : N) (t : ptype)
    (x : res (rval * N)) : Prop :=
  match x with
  | Ok (r, off') => off' <= size /\ backed_mod W t r
  | Err e => reported e \/
             (t = PStrArray /\ e = IndexError /\ overflowing_count W buf)
  end.

Lemma strings_ok W mal buf size cap : word_size W -> small size ->
  size = nlen buf ->
  forall fuel i count off,
  off <= size -> (N.to_nat (size - off) < fuel)%nat ->
  match unmarshal_strings fuel W mal buf size cap i count off with
  | Ok (ss, off') => off' <= size /\ nlen ss = count - i
  | Err e => reported e \/ (e = IndexError /\ exists j, j < count /\
                            cap < (j + 1) * W)
  end.
Proof.
  move=> HW Hs Hz. move: (small_val _ Hs) => Hsv.
  elim=> [|fuel IH] i count off Ho Hf; [lia|].
  cbn [unmarshal_strings].
  case: (N.ltb_spec i count) => Hi; [|rewrite nlen_nil; split; lia].
  have [n [-> Hc]] := string_at W buf size off HW Hs Hz Ho. cbn [bind].
  case: Hc => [->|[-> [s [-> [Hc [Hl Hle]]]]]]; [by left; left|].
  cbn [bind].
  case: (N.ltb_spec cap ((i + 1) * W)) => Hcap.
  { right. split=> //. by exists i. }
  case: (mal _); [|by left; right].
  rewrite u32_small; [change (2 ^ 32) with 4294967296; lia|].
  have Ho' : off + (n + 1) <= size by lia.
  have Hf' : (N.to_nat (size - (off + (n + 1))) < fuel)%nat by lia.
  have := IH (i + 1) count (off + (n + 1)) Ho' Hf'.
  case: (unmarshal_strings _ _ _ _ _ _ _ _ _) => [[ss off']|e] //=.
  move=> [H1 H2]. split=> //. rewrite nlen_cons H2. lia.
Qed.

Lemma unmarshal_param_ok W mal buf size off t :
  word_size W -> small size -> size = nlen buf -> off <= size ->
  param_ok W buf size t (unmarshal_param W mal buf size off t).
Proof.
  move=> HW Hs Hz Ho. move: (small_val _ Hs) (word_pos _ HW) => Hsv [Wp W8].
  case: t => [k| |k|]; cbn [unmarshal_param].
  - rewrite /unmarshal_scalar recv_overE //.
    case: (N.ltb_spec (size - off) k) => H; [by left; left|].
    have Hle : off + k <= nlen buf by lia.
    have [bs [-> [Hl _]]] := mread_Ok _ _ _ Hle.
    cbn [bind fst snd]. rewrite u32_small;
      [change (2 ^ 32) with 4294967296; lia|].
    split; [lia|exact: Hl].
  - rewrite /unmarshal_string.
    have [n [-> Hc]] := string_at W buf size off HW Hs Hz Ho. cbn [bind].
    case: Hc => [->|[-> [s [-> [Hc [Hl Hle]]]]]]; [by left; left|].
    cbn [bind]. case: (mal _); [|by left; right].
    cbn [bind fst snd]. rewrite u32_small;
      [change (2 ^ 32) with 4294967296; lia|].
    split; [lia|exact: Hc].
  - rewrite /unmarshal_array recv_overE //.
    case: (N.ltb_spec (size - off) W) => H; [by left; left|].
    have Hle : off + W <= nlen buf by lia.
    have [bs [-> [Hl _]]] := mread_Ok _ _ _ Hle. cbn [bind].
    case: (mal _); [|by left; right].
    rewrite u32_small; [change (2 ^ 32) with 4294967296; lia|].
    rewrite recv_overE //; [lia|].
    case: (N.ltb_spec (size - (off + W)) (usz W (k * unle bs))) => H2;
      [by left; left|].
    have Hle2 : off + W + usz W (k * unle bs) <= nlen buf by lia.
    have [bs2 [-> [Hl2 _]]] := mread_Ok _ _ _ Hle2. cbn [bind fst snd].
    rewrite u32_small; [change (2 ^ 32) with 4294967296; lia|].
    split; [lia|exact: Hl2].
  - rewrite /unmarshal_string_array recv_overE //.
    case: (N.ltb_spec (size - off) W) => H; [by left; left|].
    have Hle : off + W <= nlen buf by lia.
    have [bs [-> [Hl Ebs]]] := mread_Ok _ _ _ Hle. cbn [bind].
    case: (mal _); [|by left; right].
    rewrite u32_small; [change (2 ^ 32) with 4294967296; lia|].
    have Ho' : off + W <= size by lia.
    have Hf' : (N.to_nat (size - (off + W)) < S (List.length buf))%nat.
    { rewrite Hz /nlen. lia. }
    have := strings_ok W mal buf size (usz W (W * unle bs)) HW Hs Hz
              (S (List.length buf)) 0 (unle bs) (off + W) Ho' Hf'.
    case: (unmarshal_strings _ _ _ _ _ _ _ _ _) => [[ss off']|e];
      cbn [bind fst snd param_ok].
    + move=> [H1 H2]. split=> //=. rewrite H2. lia.
    + move=> [Hr|[-> [j [Hj Hcap]]]]; [by left|right].
      split=> //. split=> //. exists off, (unle bs). split=> //.
      split; [by rewrite Ebs unle_value|].
      change (2 ^ (8 * W)) with (szmod W).
      case: (N.le_gt_cases (szmod W) (W * unle bs)) => // Hlt.
      rewrite /usz N.mod_small // in Hcap. nia.
Qed.

Definition params_ok (W : N) (buf : list N) (size : N) (ts : list ptype)
    (x : res (list rval * N)) : Prop :=
  match x with
  | Ok (rs, off') => off' <= size /\ Forall2 (backed_mod W) ts rs
  | Err e => reported e \/
             (In PStrArray ts /\ e = IndexError /\ overflowing_count W buf)
  end.

Lemma unmarshal_params_ok W mal buf size ts : word_size W -> small size ->
  size = nlen buf -> forall off, off <= size ->
  params_ok W buf size ts (unmarshal_params W mal buf size off ts).
Proof.
  move=> HW Hs Hz. elim: ts => [|t ts IH] off Ho; cbn [unmarshal_params].
  - split=> //.
  - have := unmarshal_param_ok W mal buf size off t HW Hs Hz Ho.
    case: (unmarshal_param _ _ _ _ _ _) => [[r off']|e]; cbn [bind fst snd].
    + move=> [Ho' Hb]. have := IH off' Ho'.
      case: (unmarshal_params _ _ _ _ _ _) => [[rs off'']|e];
        cbn [bind fst snd].
      * move=> [H1 H2]. split=> //. by constructor.
      * move=> [?|[? [? ?]]]; [by left|right]. split=> //. by right.
    + move=> [?|[-> [? ?]]]; [by left|right]. split=> //. by left.
Qed.

Definition received_ok (W : N) (buf : list N) (ts : list ptype)
    (x : res (list rval)) : Prop :=
  match x with
  | Ok rs => Forall2 (backed_mod W) ts rs
  | Err e => reported e \/
             (In PStrArray ts /\ e = IndexError /\ overflowing_count W buf)
  end.

Lemma unmarshal_outputs_ok W mal tr ret ts buf :
  word_size W -> small (nlen buf) ->
  received_ok W buf (match ret with None => ts | Some t => t :: ts end)
    (unmarshal_outputs W mal tr ret ts buf).
Proof.
  move=> HW Hs. rewrite /unmarshal_outputs.
  move: (match ret with None => ts | Some t => t :: ts end) => us.
  have H0 : 0 <= nlen buf by lia.
  have := unmarshal_params_ok W mal buf (nlen buf) us HW Hs eq_refl 0 H0.
  case: (unmarshal_params _ _ _ _ _ _) => [[rs off]|e]; cbn [bind].
  - move=> [_ H]. rewrite /finish. cbn [fst snd].
    case: (_ && _); [by left; left|done].
  - done.
Qed.

Lemma unmarshal_inputs_ok W mal tr n ts buf :
  word_size W -> small (nlen buf) ->
  (1 < n -> exists w, type_to_fit_integer n = Ok w /\ w <= nlen buf) ->
  received_ok W buf ts (unmarshal_inputs W mal tr n ts buf).
Proof.
  move=> HW Hs Hn. rewrite /unmarshal_inputs.
  have [off [E Ho]] : exists off,
    (if 1 <? n then type_to_fit_integer n else Ok 0) = Ok off /\
    off <= nlen buf.
  { case: (N.ltb_spec 1 n) => H; [exact: Hn|]. exists 0. split=> //. lia. }
  rewrite E. cbn [bind].
  have := unmarshal_params_ok W mal buf (nlen buf) ts HW Hs eq_refl off Ho.
  case: (unmarshal_params _ _ _ _ _ _) => [[rs off']|e]; cbn [bind].
  - move=> [_ H]. rewrite /finish. cbn [fst snd].
    case: (_ && _); [by left; left|done].
  - done.
Qed.

Lemma dispatch_index_ok n buf :
  small (nlen buf) -> n <= 2 ^ 64 ->
  match dispatch_index n buf with
  | Ok c => 1 < n -> exists w, type_to_fit_integer n = Ok w /\
              w <= nlen buf /\ c = unle (firstn (N.to_nat w) buf)
  | Err e => e = ValueError
  end.
Proof.
  move=> Hs Hn. rewrite /dispatch_index.
  case: (N.leb_spec n 1) => H; [lia|].
  have [w Ew] := type_to_fit_total _ Hn. rewrite Ew. cbn [bind].
  have H0 : 0 <= nlen buf by lia.
  rewrite /unmarshal_scalar recv_overE //.
  case: (N.ltb_spec (nlen buf - 0) w) => H1 //.
  have Hle : 0 + w <= nlen buf by lia.
  have [bs [-> [Hl Eb]]] := mread_Ok _ _ _ Hle. cbn [bind fst snd].
  move=> _. exists w. split=> //. split; [lia|]. by rewrite Eb.
Qed.

Lemma dispatch_ok W mal tr methods buf :
  word_size W -> small (nlen buf) -> nlen methods <= 2 ^ 64 ->
  match dispatch W mal tr methods buf with
  | Ok (c, rs) => exists ts,
      nth_error methods (N.to_nat c) = Some ts /\
      Forall2 (backed_mod W) ts rs
  | Err e => reported e \/ e = KeyError \/
      (e = IndexError /\ overflowing_count W buf /\
       exists ts, In ts methods /\ In PStrArray ts)
  end.
Proof.
  move=> HW Hs Hn. rewrite /dispatch.
  have := dispatch_index_ok _ _ Hs Hn.
  case: (dispatch_index _ _) => [c|e]; cbn [bind]; [|by move=> ->; left; left].
  move=> Hw. case: (N.ltb_spec c (nlen methods)) => Hc; [|by right; left].
  have Hlt : (N.to_nat c < List.length methods)%nat by rewrite /nlen in Hc; lia.
  have Enth := nth_error_nth' methods [] Hlt.
  have := unmarshal_inputs_ok W mal tr (nlen methods)
            (nth (N.to_nat c) methods []) buf HW Hs.
  have Hw' : 1 < nlen methods -> exists w,
    type_to_fit_integer (nlen methods) = Ok w /\ w <= nlen buf.
  { move=> H. have [w [? [? _]]] := Hw H. by exists w. }
  move=> /(_ Hw').
  case: (unmarshal_inputs _ _ _ _ _ _) => [rs|e]; cbn [bind].
  - move=> H. eexists. by split; [exact: Enth|].
  - move=> [?|[Hi [-> Ho]]]; [by left|right; right].
    split=> //. split=> //. eexists. split; [|exact: Hi].
    exact: (nth_error_In _ _ Enth).
Qed.

(** An index that is not one of the interface's methods. *)
Lemma dispatch_bad_index W mal tr methods w buf :
  small (nlen buf) -> 1 < nlen methods -> nlen methods <= 2 ^ 64 ->
  type_to_fit_integer (nlen methods) = Ok w -> w <= nlen buf ->
  nlen methods <= unle (firstn (N.to_nat w) buf) ->
  dispatch W mal tr methods buf = Err KeyError.
Proof.
  move=> Hs H1 Hn Ew Hl Hu. rewrite /dispatch.
  rewrite /dispatch_index. have -> : (nlen methods <=? 1) = false
    by apply N.leb_gt.
  rewrite Ew. cbn [bind].
  have H0 : 0 <= nlen buf by lia.
  rewrite /unmarshal_scalar recv_overE //.
  have -> : (nlen buf - 0 <? w) = false by apply N.ltb_ge; lia.
  have Hle : 0 + w <= nlen buf by lia.
  have [bs [-> [_ Eb]]] := mread_Ok _ _ _ Hle. cbn [bind fst snd].
  cbn [N.to_nat skipn] in Eb. rewrite Eb.
  by move: (Hu) => /N.ltb_ge ->.
Qed.

(** ** Findings *)
Lemma array_count_wraps :
  exists (buf : list N) (count : N) (block : list N),
    nlen buf = 8 /\
    dispatch 8 always false [[PArray 4]] buf = Ok (0, [RArray count block]) /\
    block = [] /\ 2 ^ 62 <= count.
Proof.
  exists (le 8 (2 ^ 62)), (2 ^ 62), []. by vm_compute.
Qed.

Lemma string_array_overruns :
  exists (buf : list N),
    nlen buf = 16 /\
    dispatch 8 always false [[PStrArray]] buf = Err IndexError.
Proof.
  exists (le 8 (2 ^ 61 + 1) ++ repeat 0 8). by vm_compute.
Qed.

(** ** The lock *)
Lemma client_call_ok W mal n i tvs ret outs server buf lock rs lock' :
  client_call W mal n i tvs ret outs server buf lock = Some (Ok rs, lock') ->
  lock' = lock.
Proof.
  rewrite /client_call. case: (N.eqb_spec lock 0) => // H.
  case: (marshal_inputs _ _ _ _ _) => [[buf' k]|e] //.
  case: (unmarshal_outputs _ _ _ _ _ _) => [vs|e] // [_ <-]. lia.
Qed.

Lemma client_call_stuck :
  exists (buf : list N) (big : list N) (server : list N -> list N),
    (exists e, client_call 8 always 1 0 [(PString, VString big)] None [] server
                 buf 1 = Some (Err e, 0)) /\
    forall tvs, client_call 8 always 1 0 tvs None [] server buf 0 = None.
Proof.
  exists (repeat 0 8), (repeat 1 8), (fun m => m).
  split; [|done]. exists ValueError. by vm_compute.
Qed.

Lemma backed_mod_guarded W t r :
  backed_mod W t r -> backed_unless_wrap W t r.
Proof.
  case: t r => [k| |k|] [bs|s|c b|c ss] //=.
  move=> -> H. by rewrite N.mod_small.
Qed.
Lemma backed_mod_Forall2 W ts rs :
  Forall2 (backed_mod W) ts rs -> Forall2 (backed_unless_wrap W) ts rs.
Proof.
  elim=> [|t r ts' rs' H _ IH]; constructor=> //.
  exact: backed_mod_guarded.
Qed.

Lemma dispatch_safe W mal tr methods buf :
  word_size W -> nlen buf < 2 ^ 31 -> nlen methods <= 2 ^ 64 ->
  match dispatch W mal tr methods buf with
  | Ok (c, rs) => exists ts,
      nth_error methods (N.to_nat c) = Some ts /\
      Forall2 (backed_unless_wrap W) ts rs
  | Err e => reported e \/ e = KeyError \/
      (e = IndexError /\ overflowing_count W buf /\
       exists ts, In ts methods /\ In PStrArray ts)
  end.
Proof.
  move=> HW Hs Hn. have := dispatch_ok W mal tr methods buf HW Hs Hn.
  case: (dispatch _ _ _ _ _) => [[c rs]|e] //.
  move=> [ts [H1 H2]]. exists ts. split=> //. exact: backed_mod_Forall2.
Qed.
Lemma unmarshal_outputs_safe W mal tr ret ts buf :
  word_size W -> nlen buf < 2 ^ 31 ->
  match unmarshal_outputs W mal tr ret ts buf with
  | Ok rs => Forall2 (backed_unless_wrap W)
               (match ret with None => ts | Some t => t :: ts end) rs
  | Err e => reported e \/
      (e = IndexError /\ overflowing_count W buf /\
       In PStrArray (match ret with None => ts | Some t => t :: ts end))
  end.
Proof.
  move=> HW Hs. have := unmarshal_outputs_ok W mal tr ret ts buf HW Hs.
  case: (unmarshal_outputs _ _ _ _ _ _) => [rs|e] /=.
  - exact: backed_mod_Forall2.
  - move=> [?|[? [? ?]]]; [by left|by right].
Qed.

Lemma index_fit n w :
  type_to_fit_integer n = Ok w -> 1 < n -> index_bytes n w.
Proof. move=> E H. right. have := type_to_fit_Ok _ _ E. tauto. Qed.

Lemma dispatch_index_round_trip W methods i ts vs buf buf' n :
  word_size W -> nlen buf < 2 ^ 31 -> nlen methods <= 2 ^ 64 ->
  nth_error methods (N.to_nat i) = Some ts ->
  Forall2 (has_type W) ts vs ->
  marshal_inputs W (nlen methods) i (combine ts vs) buf = Ok (buf', n) ->
  forall tail, nlen (firstn (N.to_nat n) buf' ++ tail) < 2 ^ 31 ->
  dispatch_index (nlen methods) (firstn (N.to_nat n) buf' ++ tail) = Ok i.
Proof.
  move=> HW Hs Hn Hi HF. rewrite marshal_inputs_put // => Hput tail.
  have [Hle [Eb En]] := put_Ok _ _ _ _ _ Hput. cbn [app] in Eb, En.
  have Hlt : i < nlen methods.
  { have : nth_error methods (N.to_nat i) <> None by rewrite Hi.
    move=> /nth_error_Some. rewrite /nlen. lia. }
  rewrite Eb En firstn_nlen_app -app_assoc => Hsm.
  by apply: dispatch_index_wire.
Qed.
Lemma dispatch_rejects W mal tr methods w buf :
  nlen buf < 2 ^ 31 -> 1 < nlen methods -> nlen methods <= 2 ^ 64 ->
  index_bytes (nlen methods) w -> w <= nlen buf ->
  (forall w', index_bytes (nlen methods) w' -> w <= w') ->
  nlen methods <= unle (firstn (N.to_nat w) buf) ->
  dispatch W mal tr methods buf = Err KeyError.
Proof.
  move=> Hs H1 Hn Hib Hl Hmin Hu.
  have [w' Ew] := type_to_fit_total _ Hn.
  have E : w = w'.
  { have H2 := Hmin _ (index_fit _ _ Ew H1).
    have [w2 [E2 [Hw2 _]]] := index_wire_bytes _ 0 _ Hib.
    move: E2. rewrite /index_wire Ew.
    have -> : (1 <? nlen methods) = true by apply N.ltb_lt.
    rewrite nlen_le. lia. }
  subst w'. by apply: (dispatch_bad_index _ _ _ _ w).
Qed.
