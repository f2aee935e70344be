(** Calls of the RPC server in CakeML. *)
From Coq Require Import List NArith ZArith Bool String Lia ssreflect ssrbool.
From Verif Require Import Prelude Marshal_Model Marshal_Spec Marshal_Proofs Cake_Model Cake_Spec
  Cake_Proofs.
Import ListNotations.
Open Scope string_scope.
Open Scope N_scope.
Open Scope list_scope.

(** The parts of the array: status, two words, message. *)
Lemma split_at (a : list N) n : n <= nlen a -> exists x y, a = x ++ y /\ nlen x = n.
Proof.
  move=> H. exists (firstn (N.to_nat n) a), (skipn (N.to_nat n) a).
  rewrite firstn_skipn. split=> //. rewrite nlen_firstn. lia.
Qed.
Lemma parts W (a : list N) : nlen a = 122 * W + 1 ->
  exists s x y m, a = [s] ++ x ++ y ++ m /\ nlen x = W /\ nlen y = W /\ nlen m = 120 * W.
Proof.
  move=> H. have [u [v [Eu Hu]]] := split_at a 1 ltac:(lia). subst a.
  rewrite nlen_app Hu in H.
  have [x [v' [Ev Hx]]] := split_at v W ltac:(lia). subst v. rewrite nlen_app Hx in H.
  have [y [m [Ev Hy]]] := split_at v' W ltac:(lia). subst v'. rewrite nlen_app Hy in H.
  case: u Hu => [|s u] Hu; [done|]. case: u Hu => [|? u] Hu; [|rewrite !nlen_cons in Hu; lia].
  exists s, x, y, m. do 3 split=> //. lia.
Qed.

Lemma le_val W x : x < 256 ^ W -> le_value (le (N.to_nat W) x) = x.
Proof. move=> H. rewrite -unle_value unle_le // N2Nat.id //. Qed.

Lemma recv_parts W ep badge s (x y m msg : list N) :
  nlen x = W -> nlen y = W -> nlen msg <= nlen m -> badge < 256 ^ W -> nlen msg < 256 ^ W ->
  cake_recv W ep badge msg ([s] ++ x ++ y ++ m)
  = Ok ([0] ++ le (N.to_nat W) (nlen msg) ++ le (N.to_nat W) badge ++ msg
          ++ skipn (N.to_nat (nlen msg)) m, nlen msg, badge).
Proof.
  move=> Hx Hy Hm Hb Hl. rewrite /cake_recv /store_message.
  change 1 with (nlen [s]) at 1.
  rewrite (mwrite_mid [s] x) ?nlen_itb //. cbn [bind].
  change 1 with (nlen [s]) at 1.
  rewrite (mwrite_mid [s]) ?nlen_itb ?nlen_le //. cbn [bind].
  have -> : 1 + W = nlen ([s] ++ le (N.to_nat W) (nlen msg)) by rewrite nlen_app nlen_le.
  rewrite app_assoc (mwrite_mid _ y) ?nlen_le //. cbn [bind].
  have -> : 1 + 2 * W = nlen (([s] ++ le (N.to_nat W) (nlen msg)) ++ le (N.to_nat W) badge)
    by rewrite !nlen_app !nlen_le nlen1; lia.
  rewrite app_assoc mwrite_app //. cbn [bind].
  have E0 : forall r, mwrite ([s] ++ r) 0 [0] = Ok ([0] ++ r).
  { move=> r. exact: (mwrite_mid [] [s] r [0]). }
  rewrite -!app_assoc E0. cbn [bind].
  change 1 with (nlen [0]) at 1. rewrite (bytes_to_intE [0]) ?nlen_le //. cbn [bind].
  have -> : nlen ([s] ++ le (N.to_nat W) (nlen msg)) = nlen ([0] ++ le (N.to_nat W) (nlen msg))
    by rewrite !nlen_app.
  rewrite [in bytes_to_int _ _ _]app_assoc bytes_to_intE ?nlen_le //. cbn [bind].
  by rewrite !le_val.
Qed.

Lemma type_of_badge_serves types b ms : serves types b ms -> type_of_badge types b = Some ms.
Proof.
  move=> [[bs [Hi Hb]] Hu].
  elim: types Hi Hu => [|[bs' ms'] types IH] //= Hi Hu.
  case E: (existsb (N.eqb b) bs').
  - f_equal. apply: (Hu bs'); [by left|].
    move/existsb_exists: E => [x [Hx /N.eqb_eq ->]]. done.
  - apply: IH.
    + case: Hi => // Hi. inversion Hi; subst.
      have : existsb (N.eqb b) bs = true by apply/existsb_exists; exists b; split=> //; apply N.eqb_refl.
      by rewrite E.
    + move=> bs'' ms'' Hi'. apply: Hu. by right.
Qed.

Lemma log2_fit n w : type_to_fit_integer n = Ok w -> log2 n = Ok w.
Proof.
  rewrite /type_to_fit_integer /log2.
  by do 4 (case: (_ <=? _)).
Qed.

Lemma request_decoded W types b ms i m ts vs pre rest :
  serves types b ms -> nlen ms <= 2 ^ 64 -> nth_error ms (N.to_nat i) = Some m ->
  Forall2 typed (cm_in m) ts -> Forall2 (has_type W) ts vs -> nlen pre = reserved W ->
  exists cs,
    cake_request W types b (pre ++ index_wire (nlen ms) i ++ wires W vs ++ rest) = Ok (i, cs) /\
    Forall2 received vs cs.
Proof.
  move=> Hs Hn Hi HT HF Hp. rewrite /cake_request (type_of_badge_serves _ _ _ Hs).
  have Hlt : i < nlen ms.
  { have : nth_error ms (N.to_nat i) <> None by rewrite Hi.
    move=> /nth_error_Some. rewrite /nlen. lia. }
  rewrite /index_wire. case: (N.leb_spec (nlen ms) 1) => H1.
  - have -> : (1 <? nlen ms) = false by apply N.ltb_ge.
    cbn [bind fst snd]. have E : i = 0 by lia. subst i. rewrite Hi.
    have [cs [Ec Hc]] := cake_unmarshals_wire W rest _ pre _ _ HT HF.
    rewrite -Hp. cbn [app]. rewrite Ec. cbn [bind]. by exists cs.
  - have -> : (1 <? nlen ms) = true by apply N.ltb_lt.
    have [w Ew] := type_to_fit_total _ Hn. rewrite Ew (log2_fit _ _ Ew). cbn [bind].
    have [_ Hw] := type_to_fit_Ok _ _ Ew.
    rewrite -Hp bytes_to_intE ?nlen_le //. cbn [bind fst snd].
    rewrite le_val; [lia|]. rewrite Hi.
    have [cs [Ec Hc]] := cake_unmarshals_wire W rest _ (pre ++ le (N.to_nat w) i) _ _ HT HF.
    rewrite nlen_app nlen_le -app_assoc in Ec. rewrite Ec. cbn [bind]. by exists cs.
Qed.

Lemma pow_big W : word_size W -> 2 ^ 32 <= 256 ^ W.
Proof. by case=> ->. Qed.

Lemma request_lemma W ep types b ms i m ts vs buf buf' n a :
  word_size W -> nlen buf = 120 * W -> nlen a = 122 * W + 1 -> b < 256 ^ W ->
  serves types b ms -> nlen ms <= 2 ^ 64 -> nth_error ms (N.to_nat i) = Some m ->
  Forall2 typed (cm_in m) ts -> Forall2 (has_type W) ts vs ->
  marshal_inputs W (nlen ms) i (combine ts vs) buf = Ok (buf', n) ->
  exists a' args,
    cake_recv W ep b (ipc W buf' n) a = Ok (a', nlen (ipc W buf' n), b) /\ nlen a' = nlen a /\
    cake_request W types b a' = Ok (i, args) /\ Forall2 received vs args.
Proof.
  move=> HW Hbuf Ha Hb Hs Hn Hi HT HF.
  have Hsm : small (nlen buf) by rewrite /small Hbuf; case: HW => ->.
  rewrite marshal_inputs_put // => Hput.
  have [Hle [Eb En]] := put_Ok _ _ _ _ _ Hput. cbn [app] in Eb, En.
  have Hm : nlen buf mod W = 0.
  { rewrite Hbuf. apply N.mod_mul. by case: HW => ->. }
  have [rest [E1 [E2 E3]]] := ipc_wire W buf _ HW Hle Hm.
  rewrite Eb En E1.
  have [s [x [y [o [Ea [Hx [Hy Ho]]]]]]] := parts _ _ Ha.
  have Hbig := pow_big _ HW. rewrite /small in Hsm.
  change (2 ^ 32) with 4294967296 in Hbig. change (2 ^ 31) with 2147483648 in Hsm.
  rewrite Ea recv_parts //; [lia|lia|].
  set msg := (_ ++ _) ++ rest in E2 E3 *.
  have [cs [Ec Hc]] := request_decoded W types b ms i m ts vs
    ([0] ++ le (N.to_nat W) (nlen msg) ++ le (N.to_nat W) b)
    (rest ++ skipn (N.to_nat (nlen msg)) o) Hs Hn Hi HT HF
    ltac:(rewrite !nlen_app !nlen_le nlen1 /reserved; lia).
  eexists _, cs. split; [reflexivity|]. split.
  { move: E3. clear - Hx Hy Ho Hbuf. clearbody msg. move=> E3. rewrite !nlen_app !nlen_le nlen_skipn !nlen1. lia. }
  split=> //. rewrite -Ec. f_equal. by rewrite /msg -!app_assoc.
Qed.

(** The reply. *)
Lemma reply_parts W ep len s (x y m ib : list N) :
  word_size W -> nlen x = W -> nlen y = W -> len <= nlen m -> len <= nlen ib -> len < 256 ^ W ->
  exists a', cake_reply W ep len ([s] ++ x ++ y ++ m) ib
  = Ok (ipc W (firstn (N.to_nat len) m ++ skipn (N.to_nat len) ib) len, a').
Proof.
  move=> HW Hx Hy Hm Hi Hl. rewrite /cake_reply.
  change 1 with (nlen [s]) at 1.
  rewrite (mwrite_mid [s] x) ?nlen_itb //. cbn [bind].
  have E1 : 1 + W = nlen ([s] ++ int_to_bytes ep W) by rewrite nlen_app nlen_itb.
  rewrite E1 app_assoc (mwrite_mid _ y) ?nlen_itb //. cbn [bind].
  set lb := int_to_bytes (Z.of_N len) W.
  have El : nlen lb = W by rewrite /lb nlen_itb.
  have := mread_app ([s] ++ int_to_bytes ep W) lb m. rewrite {1}El => ->. cbn [bind].
  have -> : unle lb = len.
  { rewrite /lb /int_to_bytes itb_le // N2Nat.id //. }
  have E2 : 1 + 2 * W = nlen (([s] ++ int_to_bytes ep W) ++ lb)
    by rewrite !nlen_app El nlen_itb nlen1; lia.
  rewrite E2 app_assoc.
  have [u [v [Em Hu]]] := split_at m len Hm.
  have := mread_app (([s] ++ int_to_bytes ep W) ++ lb) u v. rewrite -Em Hu => ->. cbn [bind].
  have := mwrite_app [] ib u. cbn [app]. change (nlen (@nil N)) with 0. move=> ->; [lia|].
  cbn [bind]. rewrite Hu Em.
  eexists. do 3 f_equal. rewrite -Hu. by rewrite firstn_nlen_app.
Qed.

Lemma respond_lemma W ep rt ts ps vs n a ib :
  word_size W -> nlen a = 122 * W + 1 -> nlen ib = 120 * W -> n <= 120 * W ->
  Forall2 typed ps (match rt with Some t => t :: ts | None => ts end) ->
  results (match rt with Some t => t :: ts | None => ts end) vs n ->
  exists msg a' rs,
    cake_respond W ep (combine ps vs) a ib = Ok (msg, a') /\
    unmarshal_outputs W always false rt ts msg = Ok rs /\ Forall2 returned vs rs.
Proof.
  move=> HW Ha Hib Hn HT HR.
  have [s [x [y [m [Ea [Hx [Hy Hm]]]]]]] := parts _ _ Ha.
  have Hres : nlen ([s] ++ x ++ y) = reserved W by rewrite !nlen_app nlen1 /reserved; lia.
  rewrite /cake_respond Ea.
  have -> : [s] ++ x ++ y ++ m = ([s] ++ x ++ y) ++ m by rewrite -!app_assoc.
  rewrite -Hres.
  have [ws [-> [El [Hw Hd]]]] := cake_marshals_wire W _ ([s] ++ x ++ y) m _ _ _ HT HR ltac:(lia).
  cbn [bind fst snd].
  have -> : nlen (([s] ++ x ++ y) ++ wires W ws) - nlen ([s] ++ x ++ y) = n
    by rewrite nlen_app El; lia.
  have Hbig := pow_big _ HW. change (2 ^ 32) with 4294967296 in Hbig.
  have Hw8 : W <= 8 by case: HW => ->.
  rewrite -!app_assoc.
  have [a' Er] := reply_parts W ep n s x y (wires W ws ++ skipn (N.to_nat n) m) ib HW Hx Hy
    ltac:(rewrite nlen_app El; lia) ltac:(lia) ltac:(lia).
  have Ef : firstn (N.to_nat n) (wires W ws ++ skipn (N.to_nat n) m) = wires W ws.
  { rewrite -{1}El. by rewrite firstn_nlen_app. }
  rewrite Ef in Er.
  have Hmod : nlen ib mod W = 0.
  { rewrite Hib. apply N.mod_mul. by case: HW => ->. }
  have [rest [E1 [E2 E3]]] := ipc_wire W ib (wires W ws) HW ltac:(lia) Hmod.
  rewrite El in E1. rewrite E1 in Er.
  have [rs [Eu Hrs]] := unmarshal_params_wire W _ ws HW Hw [] rest
    (nlen (wires W ws ++ rest)) ltac:(rewrite /small; change (2 ^ 31) with 2147483648; lia) eq_refl.
  cbn [app] in Eu. change (nlen (@nil N)) with 0 in Eu.
  exists (wires W ws ++ rest), a', rs. split; [exact: Er|]. split; [|by apply: Hd].
  rewrite /unmarshal_outputs.
  rewrite Eu. cbn [bind]. rewrite /finish. cbn [fst snd].
  by rewrite E2 N.eqb_refl andb_false_r.
Qed.

Lemma call_lemma W ep types b ms i m ts vs buf buf' n a ib impl rt os size :
  word_size W -> nlen buf = 120 * W -> nlen a = 122 * W + 1 -> nlen ib = 120 * W -> b < 256 ^ W ->
  serves types b ms -> nlen ms <= 2 ^ 64 -> nth_error ms (N.to_nat i) = Some m ->
  Forall2 typed (cm_in m) ts -> Forall2 (has_type W) ts vs ->
  Forall2 typed (cm_out m) (match rt with Some t => t :: os | None => os end) ->
  (forall args, Forall2 received vs args ->
     results (match rt with Some t => t :: os | None => os end) (impl i args) size) ->
  size <= 120 * W ->
  marshal_inputs W (nlen ms) i (combine ts vs) buf = Ok (buf', n) ->
  exists msg a' args rs,
    cake_turn W ep types impl b (ipc W buf' n) a ib = Ok (msg, a') /\
    Forall2 received vs args /\
    unmarshal_outputs W always false rt os msg = Ok rs /\
    Forall2 returned (impl i args) rs.
Proof.
  move=> HW Hbuf Ha Hib Hb Hs Hn Hi HT HF HO HR Hsz Hmi.
  have [a' [args [E1 [E2 [E3 E4]]]]] :=
    request_lemma W ep _ _ _ _ _ _ _ _ _ _ _ HW Hbuf Ha Hb Hs Hn Hi HT HF Hmi.
  have [msg [a2 [rs [F1 [F2 F3]]]]] := respond_lemma W ep rt os (cm_out m) (impl i args) size a' ib
    HW ltac:(lia) Hib Hsz HO (HR _ E4).
  exists msg, a2, args, rs. split=> //.
  rewrite /cake_turn E1. cbn [bind]. rewrite E3. cbn [bind fst snd].
  by rewrite (type_of_badge_serves _ _ _ Hs) Hi.
Qed.
