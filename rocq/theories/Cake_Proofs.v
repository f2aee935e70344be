(** Proofs about the RPC server in CakeML. *)
From Coq Require Import List NArith ZArith Bool String Lia ssreflect ssrbool.
From Verif Require Import Prelude Marshal_Model Marshal_Spec Marshal_Proofs Cake_Model Cake_Spec.
Import ListNotations.
Open Scope string_scope.
Open Scope N_scope.
Open Scope list_scope.

(** ** Arrays *)
Lemma mwrite_mid (pre old rest bs : list N) :
  nlen bs = nlen old -> mwrite (pre ++ old ++ rest) (nlen pre) bs = Ok (pre ++ bs ++ rest).
Proof.
  move=> H. rewrite mwrite_app; [rewrite nlen_app; lia|].
  by rewrite H skipn_nlen_app.
Qed.

Lemma sub_app (pre rest : list N) b : sub (pre ++ b :: rest) (nlen pre) = Ok b.
Proof.
  rewrite /sub nlen_nat nth_error_app2; [lia|]. by rewrite Nat.sub_diag.
Qed.

Lemma unle_value bs : unle bs = le_value bs.
Proof. by []. Qed.

Lemma unle_snoc bs b : unle (bs ++ [b]) = unle bs + 256 ^ nlen bs * b.
Proof.
  elim: bs => [|x bs IH]; cbn [app unle].
  - change (nlen (@nil N)) with 0. rewrite N.pow_0_r. lia.
  - rewrite IH nlen_cons N.pow_add_r N.pow_1_r. lia.
Qed.

Lemma bytes_loop pre : forall bs rest acc,
  bytes_to_int_loop (pre ++ bs ++ rest) (nlen pre) (List.length bs) acc
  = Ok (acc * 256 ^ nlen bs + unle bs).
Proof.
  induction bs as [|b bs IH] using rev_ind.
  - move=> rest acc. cbn. f_equal. lia.
  - move=> rest acc. rewrite app_length Nat.add_1_r. cbn [bytes_to_int_loop].
    have -> : nlen pre + N.of_nat (List.length bs) = nlen (pre ++ bs) by rewrite nlen_app.
    rewrite -!app_assoc. cbn [app].
    rewrite {1}app_assoc sub_app. cbn [bind].
    rewrite IH unle_snoc nlen_app nlen1 N.pow_add_r N.pow_1_r. f_equal. lia.
Qed.
Lemma bytes_to_intE (pre bs rest : list N) k :
  k = nlen bs -> bytes_to_int (pre ++ bs ++ rest) (nlen pre) k = Ok (le_value bs).
Proof.
  move=> ->. rewrite /bytes_to_int nlen_nat bytes_loop unle_value. by rewrite N.mul_0_l N.add_0_l.
Qed.

Lemma nul_idx len : forall s fuel pre rest,
  is_cstring s -> (List.length s <= fuel)%nat -> nlen pre + nlen s < len ->
  nul_byte_idx fuel (pre ++ s ++ 0 :: rest) len (nlen pre) = Ok (nlen pre + nlen s).
Proof.
  elim=> [|b s IH] fuel pre rest Hc Hf Hl.
  - rewrite nlen_nil N.add_0_r in Hl *. cbn [app].
    case: fuel Hf => [|f] _; cbn [nul_byte_idx];
      (have -> : (nlen pre =? len) = false by apply N.eqb_neq; lia);
      rewrite sub_app; cbn [bind]; by rewrite N.eqb_refl.
  - inversion Hc; subst. case: fuel Hf => [|f] Hf; [cbn in Hf; lia|].
    cbn [nul_byte_idx]. rewrite nlen_cons in Hl *.
    have -> : (nlen pre =? len) = false by apply N.eqb_neq; lia.
    cbn [app]. rewrite sub_app. cbn [bind].
    have -> : (b =? 0) = false by apply N.eqb_neq.
    have := IH f (pre ++ [b]) rest ltac:(done) ltac:(cbn in Hf; lia)
              ltac:(rewrite nlen_app nlen1; lia).
    rewrite nlen_app nlen1 -app_assoc. cbn [app] => ->. f_equal. lia.
Qed.

Lemma read_c_stringE (pre s rest : list N) :
  is_cstring s ->
  read_c_string (pre ++ s ++ 0 :: rest) (nlen pre) (nlen (pre ++ s ++ 0 :: rest)) = Ok (s, nlen s).
Proof.
  move=> Hc. rewrite /read_c_string nul_idx //.
  - rewrite !app_length. lia.
  - rewrite !nlen_app nlen_cons. lia.
  - cbn [bind]. have -> : nlen pre + nlen s - nlen pre = nlen s by lia.
    by rewrite mread_app.
Qed.

(** ** Integers *)
Lemma itb_length w n d : List.length (int_to_bytes_from w n d) = n.
Proof. elim: n d => [|n IH] d //=. by rewrite IH. Qed.
Lemma nlen_itb w k : nlen (int_to_bytes w k) = k.
Proof. rewrite /int_to_bytes /nlen itb_length. lia. Qed.
Lemma itb_bytes w n d : Forall (fun b => b < 256) (int_to_bytes_from w n d).
Proof.
  elim: n d => [|n IH] d; constructor; [|apply: IH].
  have := Z.mod_pos_bound (w / d) 256 ltac:(lia). lia.
Qed.
Lemma itb_value w n : forall d, (0 < d)%Z ->
  Z.of_N (le_value (int_to_bytes_from w n d)) = ((w / d) mod 256 ^ Z.of_nat n)%Z.
Proof.
  elim: n => [|n IH] d Hd.
  - cbn. by rewrite Z.mod_1_r.
  - cbn [int_to_bytes_from le_value fold_right].
    rewrite N2Z.inj_add N2Z.inj_mul -/(le_value _) IH; [lia|].
    have Hb := Z.mod_pos_bound (w / d) 256 ltac:(lia).
    rewrite Z2N.id; [lia|].
    rewrite Nat2Z.inj_succ Z.pow_succ_r; [lia|].
    rewrite Z.rem_mul_r; [lia|apply Z.pow_pos_nonneg; lia|].
    rewrite Z.div_div; lia.
Qed.
Lemma itb_le w n : w < 256 ^ N.of_nat n -> unle (int_to_bytes_from (Z.of_N w) n 1) = w.
Proof.
  move=> H. rewrite unle_value. apply N2Z.inj. rewrite itb_value; [lia|].
  rewrite Z.div_1_r Z.mod_small //. split; [lia|].
  have -> : (256 ^ Z.of_nat n = Z.of_N (256 ^ N.of_nat n))%Z by rewrite N2Z.inj_pow nat_N_Z.
  lia.
Qed.

(** ** Arguments *)
Lemma typed_array p t : typed p t -> cp_array p = false.
Proof. by case. Qed.

Lemma cake_unmarshal_wire W (pre rest : list N) p t v :
  typed p t -> has_type W t v ->
  exists c, cake_unmarshal (pre ++ wire W v ++ rest) (nlen pre) p = Ok (c, nlen (pre ++ wire W v)) /\
    received v c.
Proof.
  move=> Ht Hv.
  have I : forall k bs, nlen bs = k ->
    exists c, (n <- bytes_to_int (pre ++ bs ++ rest) (nlen pre) k ;; Ok (CvInt (Z.of_N n), nlen pre + k))
      = Ok (c, nlen (pre ++ bs)) /\ received (VScalar bs) c.
  { move=> k bs <-. rewrite bytes_to_intE //. cbn [bind].
    eexists. split; [by rewrite nlen_app|constructor]. }
  case: Ht Hv => Hv; inversion Hv; subst; cbn [wire]; try by apply: I.
  exists (CvStr s). split; [|constructor].
  rewrite wire_strE -app_assoc. cbn [app].
  rewrite /cake_unmarshal. cbn [cp_array cp_type int_type String.eqb Ascii.eqb Bool.eqb].
  rewrite read_c_stringE //. cbn [bind fst snd].
  do 2 f_equal. rewrite !nlen_app nlen1. lia.
Qed.

Lemma wires_cons W v vs : wires W (v :: vs) = wire W v ++ wires W vs.
Proof. by []. Qed.

Lemma cake_unmarshals_wire W (rest : list N) ps : forall pre ts vs,
  Forall2 typed ps ts -> Forall2 (has_type W) ts vs ->
  exists cs, cake_unmarshals (pre ++ wires W vs ++ rest) (nlen pre) ps = Ok cs /\
    Forall2 received vs cs.
Proof.
  elim: ps => [|p ps IH] pre ts vs HT HF; inversion HT; subst; inversion HF; subst.
  - exists []. by split.
  - rewrite wires_cons. cbn [cake_unmarshals]. rewrite -!app_assoc.
    have [c [-> Hc]] := cake_unmarshal_wire W pre (wires W l'0 ++ rest) _ _ _ H1 H2.
    cbn [bind fst snd].
    have [cs [Ecs Hcs]] := IH (pre ++ wire W y0) _ _ H3 H5.
    rewrite -app_assoc in Ecs. rewrite Ecs. cbn [bind].
    exists (c :: cs). split=> //. by constructor.
Qed.

(** ** Results *)
Definition back (k : N) (v : cval) : pval :=
  match v with CvInt z => VScalar (int_to_bytes z k) | CvStr s => VString s end.
Definition back_of (t : ptype) (v : cval) : pval :=
  back (match t with PScalar k => k | _ => 0 end) v.

Lemma back_has_type W t v n : result t v n -> has_type W t (back_of t v).
Proof. case=> [k z|s Hs]; constructor=> //. by rewrite nlen_itb. Qed.
Lemma back_size W t v n : result t v n -> nlen (wire W (back_of t v)) = n.
Proof. case=> [k z|s Hs] /=; [by rewrite nlen_itb|by rewrite nlen_wire_str]. Qed.

Lemma back_returned t v n r : result t v n -> delivered (back_of t v) r -> returned v r.
Proof.
  case=> [k z|s Hs] /= D; inversion D; subst; constructor.
  - apply: itb_bytes.
  - rewrite /int_to_bytes itb_value // Z.div_1_r. do 2 f_equal.
    rewrite /nlen itb_length. lia.
Qed.

Lemma cake_marshal_wire W (pre rest : list N) p t v n :
  typed p t -> result t v n -> n <= nlen rest ->
  cake_marshal (pre ++ rest) (nlen pre) p v
  = Ok (pre ++ wire W (back_of t v) ++ skipn (N.to_nat n) rest, nlen (pre ++ wire W (back_of t v))).
Proof.
  move=> Ht Hr Hn.
  have I : forall k z, k <= nlen rest ->
    (b <- mwrite (pre ++ rest) (nlen pre) (int_to_bytes z k) ;; Ok (b, nlen pre + k))
    = Ok (pre ++ int_to_bytes z k ++ skipn (N.to_nat k) rest, nlen (pre ++ int_to_bytes z k)).
  { move=> k z Hk. rewrite mwrite_app ?nlen_itb //. cbn [bind]. by rewrite nlen_app nlen_itb. }
  case: Ht Hr Hn => Hr Hn; inversion Hr; subst; cbn [back_of back wire]; try by apply: I.
  rewrite /cake_marshal. cbn [cp_array cp_type int_type String.eqb Ascii.eqb Bool.eqb].
  rewrite nlen_app.
  have -> : (nlen pre + nlen rest <? nlen pre + 1) = false by apply N.ltb_ge; lia.
  have -> : (nlen s <=? nlen pre + nlen rest - nlen pre - 1) = true by apply N.leb_le; lia.
  rewrite nlen_nat firstn_all mwrite_app; [lia|]. cbn [bind].
  rewrite app_assoc -nlen_app mwrite_app; [rewrite nlen_skipn nlen1; lia|]. cbn [bind].
  rewrite wire_strE !nlen_app nlen1 skipn_plus -!app_assoc.
  by rewrite -N2Nat.inj_add N.add_assoc.
Qed.

Lemma cake_marshals_wire W ps : forall pre rest ts vs n,
  Forall2 typed ps ts -> results ts vs n -> n <= nlen rest ->
  exists ws,
    cake_marshals (pre ++ rest) (nlen pre) (combine ps vs)
    = Ok (pre ++ wires W ws ++ skipn (N.to_nat n) rest, nlen (pre ++ wires W ws)) /\
    nlen (wires W ws) = n /\ Forall2 (has_type W) ts ws /\
    forall rs, Forall2 delivered ws rs -> Forall2 returned vs rs.
Proof.
  elim: ps => [|p ps IH] pre rest ts vs n HT HR Hn; inversion HT; subst; inversion HR; subst.
  - exists []. rewrite /wires /= app_nil_r. split=> //. split=> //. split=> // rs H. by inversion H.
  - cbn [combine cake_marshals].
    match goal with [ A : typed p ?t, B : result ?t ?v ?k, C : results _ ?l ?m |- _ ] =>
      rename A into At, B into Bt, C into Cs;
      rewrite (cake_marshal_wire W pre rest p t v k At Bt); [lia|]
    end.
    cbn [bind fst snd].
    have Es := back_size W _ _ _ Bt. have Hh := back_has_type W _ _ _ Bt.
    match goal with [ A : Forall2 typed ps _ |- _ ] => rename A into As end.
    rewrite app_assoc.
    match type of Hh with has_type _ _ ?b =>
      match type of Cs with results _ _ ?m =>
      match type of Es with _ = ?k =>
      have [ws [Ew [El [Hw Hd]]]] := IH (pre ++ wire W b) (skipn (N.to_nat k) rest) _ _ _ As Cs
        ltac:(rewrite nlen_skipn; lia);
      exists (b :: ws) end end end.
    rewrite Ew wires_cons. split; [|split; [|split]].
    + by rewrite skipn_plus -!app_assoc -N2Nat.inj_add.
    + rewrite nlen_app Es. by rewrite El.
    + by constructor.
    + move=> rs H. inversion H; subst. constructor; [|by apply: Hd].
      by apply: back_returned Bt _.
Qed.
