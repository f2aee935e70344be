(** Accepted messages: what was received is what the message says. *)
From Coq Require Import List NArith Lia ssreflect ssrbool.
From Verif Require Import Prelude Marshal_Model Marshal_Spec Marshal_Proofs
  Marshal_Proofs2.
Import ListNotations.
Open Scope N_scope.

(** [enc] is what [buf] holds from [off] to [off']. *)
Definition holds_at (buf : list N) (off off' : N) (enc : list N) : Prop :=
  at_off buf off = enc ++ at_off buf off' /\ off' = off + nlen enc /\ off' <= nlen buf.

Lemma holds_read buf off n bs : mread buf off n = Ok bs -> holds_at buf off (off + n) bs /\ nlen bs = n.
Proof.
  rewrite /mread. case: (N.leb_spec (off + n) (nlen buf)) => // L [<-].
  have E : nlen (firstn (N.to_nat n) (skipn (N.to_nat off) buf)) = n.
  { rewrite nlen_firstn nlen_skipn. lia. }
  split=> //. rewrite /holds_at E. split; [|split=> //].
  rewrite /at_off N2Nat.inj_add -skipn_plus. by rewrite firstn_skipn.
Qed.
Lemma holds_app buf o1 o2 o3 a b : holds_at buf o1 o2 a -> holds_at buf o2 o3 b -> holds_at buf o1 o3 (a ++ b).
Proof.
  move=> [A1 [A2 A3]] [B1 [B2 B3]]. split; [by rewrite -app_assoc -B1|]. rewrite nlen_app. lia.
Qed.
Lemma holds_nil buf off : off <= nlen buf -> holds_at buf off off [].
Proof. move=> H. split=> //. rewrite nlen_nil. lia. Qed.

Lemma cstr_inv mem s : cstr mem = Ok s -> exists rest, mem = s ++ 0 :: rest /\ is_cstring s.
Proof.
  elim: mem s => [|b mem IH] s //=. case: (N.eqb_spec b 0) => [->|Hb].
  - move=> [<-]. exists mem. by split.
  - case E: (cstr mem) => [x|] //= [<-]. have [rest [-> C]] := IH _ E. exists rest. split=> //. by constructor.
Qed.
Lemma holds_string buf off s : off + nlen s + 1 <= nlen buf -> cstr (at_off buf off) = Ok s ->
  holds_at buf off (off + (nlen s + 1)) (s ++ [0]) /\ is_cstring s.
Proof.
  move=> L /cstr_inv [rest [E C]]. split=> //. split; [|rewrite nlen_app nlen1; lia].
  rewrite -app_assoc /= E. f_equal. f_equal.
  rewrite /at_off N2Nat.inj_add -skipn_plus -/(at_off buf off) E.
  have -> : s ++ 0 :: rest = (s ++ [0]) ++ rest by rewrite -app_assoc.
  have -> : nlen s + 1 = nlen (s ++ [0]) by rewrite nlen_app.
  by rewrite skipn_nlen_app.
Qed.

Section S.
Variables (W : N) (mal : N -> bool) (buf : list N).
Hypothesis (HW : word_size W) (Hs : small (nlen buf)).
Notation size := (nlen buf).

Lemma strings_enc cap : forall fuel i count off ss off', off <= size ->
  unmarshal_strings fuel W mal buf size cap i count off = Ok (ss, off') ->
  holds_at buf off off' (concat (map (fun s => s ++ [0]) ss)) /\ Forall is_cstring ss.
Proof.
  move: (small_val _ Hs) => Hsv.
  elim=> [|fuel IH] i count off ss off' Ho; cbn [unmarshal_strings].
  - case: ifP => // _ [<- <-]. split=> //. exact: holds_nil.
  - case: (N.ltb_spec i count) => Hi; last by move=> [<- <-]; split=> //; exact: holds_nil.
    have [n [-> Hc]] := string_at W buf size off HW Hs eq_refl Ho. cbn [bind].
    case: Hc => [->|[-> [s [Ec [Hc [Hl Hle]]]]]] //. rewrite Ec. cbn [bind].
    case: (cap <? _) => //. case: (mal _) => //.
    rewrite u32_small; [change (2 ^ 32) with 4294967296; lia|].
    case E: (unmarshal_strings _ _ _ _ _ _ _ _ _) => [[ss' o']|] //=. move=> [<- <-].
    have Ho' : off + (n + 1) <= size by lia.
    have [H1 H2] := IH _ _ _ _ _ Ho' E. subst n.
    have [H3 H4] := holds_string _ _ _ Hle Ec.
    split; last by constructor. cbn [map concat]. exact: (holds_app _ _ _ _ _ _ H3 H1).
Qed.

Lemma param_enc t off r off' : off <= size -> unmarshal_param W mal buf size off t = Ok (r, off') ->
  exists enc, encodes W r enc /\ holds_at buf off off' enc.
Proof.
  move: (small_val _ Hs) (word_pos _ HW) => Hsv [Wp W8] Ho.
  case: t => [k| |k|]; cbn [unmarshal_param].
  - rewrite /unmarshal_scalar recv_overE //.
    case: (N.ltb_spec (size - off) k) => H //.
    case E: (mread buf off k) => [bs|] //=. move=> [<- <-]. have [H1 H2] := holds_read _ _ _ _ E.
    rewrite u32_small; [change (2 ^ 32) with 4294967296; lia|]. exists bs. split=> //. by constructor.
  - rewrite /unmarshal_string.
    have [n [-> Hc]] := string_at W buf size off HW Hs eq_refl Ho. cbn [bind].
    case: Hc => [->|[-> [s [Ec [Hc [Hl Hle]]]]]] //. rewrite Ec.
    cbn [bind]. case: (mal _) => //=. move=> [<- <-]. subst n.
    rewrite u32_small; [change (2 ^ 32) with 4294967296; lia|].
    have [H3 H4] := holds_string _ _ _ Hle Ec. exists (s ++ [0]). split; first by constructor.
    by rewrite -N.add_assoc.
  - rewrite /unmarshal_array recv_overE //.
    case: (N.ltb_spec (size - off) W) => H //.
    case E: (mread buf off W) => [bs|] //=. have [H1 H2] := holds_read _ _ _ _ E.
    case: (mal _) => //.
    rewrite u32_small; [change (2 ^ 32) with 4294967296; lia|].
    rewrite recv_overE //; [lia|].
    case: (N.ltb_spec (size - (off + W)) (usz W (k * unle bs))) => H3 //.
    case E2: (mread buf (off + W) _) => [bs2|] //=. move=> [<- <-]. have [H4 H5] := holds_read _ _ _ _ E2.
    rewrite u32_small; [change (2 ^ 32) with 4294967296; lia|].
    exists (bs ++ bs2). split; first by rewrite unle_value; constructor.
    exact: (holds_app _ _ _ _ _ _ H1 H4).
  - rewrite /unmarshal_string_array recv_overE //.
    case: (N.ltb_spec (size - off) W) => H //.
    case E: (mread buf off W) => [bs|]; last by []. cbn [bind]. have [H1 H2] := holds_read _ _ _ _ E.
    case: (mal _); last by [].
    rewrite u32_small; [change (2 ^ 32) with 4294967296; lia|].
    have Ho' : off + W <= size by lia.
    case E2: (unmarshal_strings _ _ _ _ _ _ _ _ _) => [[ss o']|]; last by []. cbn [bind fst snd]. move=> [<- <-].
    have [H3 H4] := strings_enc _ _ _ _ _ _ _ Ho' E2.
    exists (bs ++ concat (map (fun s => s ++ [0]) ss)). split; first by rewrite unle_value; constructor.
    exact: (holds_app _ _ _ _ _ _ H1 H3).
Qed.

Lemma params_enc ts : forall off rs off', off <= size -> unmarshal_params W mal buf size off ts = Ok (rs, off') ->
  exists body, Forall2 (encodes W) rs body /\ holds_at buf off off' (concat body).
Proof.
  elim: ts => [|t ts IH] off rs off' Ho; cbn [unmarshal_params].
  - move=> [<- <-]. exists []. split; [constructor|exact: holds_nil].
  - case E: (unmarshal_param _ _ _ _ _ _) => [[r o1]|] //=.
    case E2: (unmarshal_params _ _ _ _ _ _) => [[rs2 o2]|] //=. move=> [<- <-].
    have [enc [H1 H2]] := param_enc _ _ _ _ Ho E. have O1 : o1 <= size by case: H2 => [_ [_ ?]].
    have [body [H3 H4]] := IH _ _ _ O1 E2.
    exists (enc :: body). split; [by constructor|]. exact: (holds_app _ _ _ _ _ _ H2 H4).
Qed.

Lemma finish_enc tr rs off rs' : off <= size -> finish W tr size (rs, off) = Ok rs' ->
  rs' = rs /\ (tr = false -> size < off + W).
Proof.
  move=> Ho. rewrite /finish /=. have [Wp _] := word_pos _ HW.
  case: tr => /=; first by move=> [->].
  case: (N.eqb_spec (round_up W off) size) => //= E [->]. split=> // _. rewrite -E /round_up.
  have := N.mul_div_le (off + W - 1) W ltac:(lia). lia.
Qed.

Lemma outputs_enc tr ret ts rs : unmarshal_outputs W mal tr ret ts buf = Ok rs ->
  exists body rest, buf = concat body ++ rest /\ Forall2 (encodes W) rs body /\ (tr = false -> nlen rest < W).
Proof.
  rewrite /unmarshal_outputs. case E: (unmarshal_params _ _ _ _ _ _) => [[rs1 off]|] //=. move=> F.
  have [body [H1 H2]] := params_enc _ 0 _ _ ltac:(lia) E. have [H3 [H4 H5]] := H2.
  have [-> H6] := finish_enc _ _ _ _ H5 F. exists body, (at_off buf off).
  split; [exact: H3|]. split=> // T. rewrite /at_off nlen_skipn. have := H6 T. lia.
Qed.

Lemma index_bytes_fit n w : type_to_fit_integer n = Ok w -> 1 < n -> index_bytes n w.
Proof.
  rewrite /type_to_fit_integer => H L. right. split=> //. move: H.
  case: (N.leb_spec n (2 ^ 8)) => L1; first by move=> [<-]; split; [tauto|exact: L1].
  case: (N.leb_spec n (2 ^ 16)) => L2; first by move=> [<-]; split; [tauto|exact: L2].
  case: (N.leb_spec n (2 ^ 32)) => L3; first by move=> [<-]; split; [tauto|exact: L3].
  case: (N.leb_spec n (2 ^ 64)) => L4 //; by move=> [<-]; split; [tauto|exact: L4].
Qed.

Lemma dispatch_enc tr methods c rs : nlen methods <= 2 ^ 64 ->
  dispatch W mal tr methods buf = Ok (c, rs) ->
  exists ib body rest, buf = ib ++ concat body ++ rest /\
    index_bytes (nlen methods) (nlen ib) /\ (1 < nlen methods -> c = le_value ib) /\
    Forall2 (encodes W) rs body /\ (tr = false -> nlen rest < W).
Proof.
  move=> Hn. rewrite /dispatch. have := dispatch_index_ok _ _ Hs Hn.
  case: (dispatch_index _ _) => [c'|] //=. move=> Hw. case: (c' <? _) => //.
  rewrite /unmarshal_inputs.
  have [off [ib [E [Ho [Hi [Hb Hv]]]]]] : exists off ib,
    (if 1 <? nlen methods then type_to_fit_integer (nlen methods) else Ok 0) = Ok off /\
    off <= size /\ holds_at buf 0 off ib /\ index_bytes (nlen methods) (nlen ib) /\
    (1 < nlen methods -> c' = le_value ib).
  { case: (N.ltb_spec 1 (nlen methods)) => H.
    - have [w [H1 [H2 H3]]] := Hw H. exists w, (firstn (N.to_nat w) buf).
      have L : nlen (firstn (N.to_nat w) buf) = w by rewrite nlen_firstn; lia.
      split=> //. split=> //. split.
      { rewrite /holds_at L. split; [by rewrite /at_off firstn_skipn|lia]. }
      rewrite L. split; [exact: index_bytes_fit|]. move=> _. by rewrite H3 unle_value.
    - exists 0, []. split=> //. split; [lia|]. split; [apply: holds_nil; lia|]. split; [left; rewrite nlen_nil; lia|lia]. }
  rewrite E. cbn [bind]. case E2: (unmarshal_params _ _ _ _ _ _) => [[rs1 off2]|] //=.
  case F: (finish _ _ _ _) => [rs2|] //= [<- <-].
  have [body [H1 H2]] := params_enc _ _ _ _ Ho E2.
  have H3 := holds_app _ _ _ _ _ _ Hi H2. have [H4 [H5 H6]] := H3.
  have [-> H7] := finish_enc _ _ _ _ H6 F.
  exists ib, body, (at_off buf off2). split; [by rewrite app_assoc -H4|].
  split=> //. split=> //. split=> // T. rewrite /at_off nlen_skipn. have := H7 T. lia.
Qed.
End S.

Lemma dispatch_from_message W mal tr methods buf c rs :
  word_size W -> nlen buf < 2 ^ 31 -> nlen methods <= 2 ^ 64 ->
  dispatch W mal tr methods buf = Ok (c, rs) ->
  exists ib body rest, buf = ib ++ concat body ++ rest /\
    index_bytes (nlen methods) (nlen ib) /\ (1 < nlen methods -> c = le_value ib) /\
    Forall2 (encodes W) rs body /\ (tr = false -> nlen rest < W).
Proof. move=> HW Hs. exact: dispatch_enc. Qed.
Lemma response_from_message W mal tr ret ts buf rs :
  word_size W -> nlen buf < 2 ^ 31 ->
  unmarshal_outputs W mal tr ret ts buf = Ok rs ->
  exists body rest, buf = concat body ++ rest /\ Forall2 (encodes W) rs body /\ (tr = false -> nlen rest < W).
Proof. move=> HW Hs. exact: outputs_enc. Qed.
Lemma dispatch_rejects_value W mal tr methods w buf :
  nlen buf < 2 ^ 31 -> 1 < nlen methods -> nlen methods <= 2 ^ 64 ->
  index_bytes (nlen methods) w -> w <= nlen buf ->
  (forall w', index_bytes (nlen methods) w' -> w <= w') ->
  nlen methods <= le_value (firstn (N.to_nat w) buf) ->
  dispatch W mal tr methods buf = Err KeyError.
Proof. rewrite -unle_value. exact: dispatch_rejects. Qed.

(** A whole call through a shared buffer. *)
Lemma whole_call : forall W methods i ts vs rt rv ots ovs buf buf' n lock server,
  word_size W -> nlen buf < 2 ^ 31 -> nlen methods <= 2 ^ 64 ->
  nth_error methods (N.to_nat i) = Some ts -> Forall2 (has_type W) ts vs ->
  match rt, rv with Some t, Some v => has_type W t v | None, None => True | _, _ => False end ->
  Forall2 (has_type W) ots ovs ->
  marshal_inputs W (nlen methods) i (combine ts vs) buf = Ok (buf', n) -> 0 < lock ->
  (forall request args, dispatch W always true methods request = Ok (i, args) ->
     Forall2 delivered vs args -> exists n',
     marshal_outputs W (match rt, rv with Some t, Some v => Some (t, v) | _, _ => None end)
       (combine ots ovs) request = Ok (server request, n')) ->
  exists rs, client_call W always (nlen methods) i (combine ts vs) rt ots server buf lock = Some (Ok rs, lock) /\
    Forall2 delivered (match rv with Some v => v :: ovs | None => ovs end) rs.
Proof.
  move=> W methods i ts vs rt rv ots ovs buf buf' n lock server HW HB HM HN HT HR HO HI HL HS.
  have [L [_ [_ [args [D V]]]]] := request_round_trip W methods i ts vs buf buf' n HW HB HM HN HT HI.
  have [n' S] := HS _ _ D V.
  have HB' : nlen buf' < 2 ^ 31 by rewrite L.
  have [_ [_ [_ [rs [U R]]]]] := response_round_trip W rt rv ots ovs buf' _ n' HW HB' HR HO S.
  exists rs. split=> //. rewrite /client_call HI U. case: (N.eqb_spec lock 0) => [E|N]; first lia.
  do 2 f_equal. lia.
Qed.
