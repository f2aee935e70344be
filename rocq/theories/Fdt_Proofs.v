(** Proofs about device-tree cells and translation. *)
From Coq Require Import ssreflect ssrbool.
From Coq Require Import List Bool String Arith NArith Lia.
From Verif Require Import Prelude Fdt_Model Fdt_Spec.
Import ListNotations.
Open Scope list_scope.

(** ** Cells *)
Lemma base_pow n : (base ^ N.of_nat n = 2 ^ (32 * N.of_nat n))%N.
Proof. rewrite N.pow_mul_r. by []. Qed.
Lemma base_succ n : (base ^ N.of_nat (S n) = base * base ^ N.of_nat n)%N.
Proof. by rewrite Nnat.Nat2N.inj_succ N.pow_succ_r'. Qed.
Lemma base_pos n : (0 < base ^ N.of_nat n)%N.
Proof. have := N.pow_nonzero base (N.of_nat n) ltac:(done). lia. Qed.

Lemma join_acc l a :
  fold_left (fun a b => N.shiftl a 32 + b)%N l a =
  (a * base ^ N.of_nat (List.length l) + number l)%N.
Proof.
  elim: l a => [|w l IH] a.
  - cbn [fold_left number List.length]. change (N.of_nat 0) with 0%N.
    rewrite N.pow_0_r. lia.
  - cbn [fold_left number List.length]. rewrite IH N.shiftl_mul_pow2 base_succ.
    change (2 ^ 32)%N with base. lia.
Qed.
Lemma join_number l : join l = number l.
Proof. rewrite /join join_acc. lia. Qed.

Lemma number_bound ws : cells ws -> (number ws < base ^ N.of_nat (List.length ws))%N.
Proof.
  elim: ws => [|w ws IH] H; first by [].
  inversion H as [|? ? Hw Hws]; subst. cbn [number List.length].
  rewrite base_succ. have := IH Hws. have := base_pos (List.length ws). nia.
Qed.
Lemma number_snoc ws w : number (ws ++ [w]) = (number ws * base + w)%N.
Proof.
  elim: ws => [|v ws IH].
  - cbn [number app List.length]. change (N.of_nat 0) with 0%N.
    rewrite N.pow_0_r. lia.
  - cbn [number app]. rewrite IH app_length /= Nat.add_1_r base_succ. lia.
Qed.

Lemma low_word x : N.land x (N.shiftl 1 32 - 1)%N = (x mod base)%N.
Proof.
  change (N.shiftl 1 32 - 1)%N with (N.ones 32).
  by rewrite N.land_ones.
Qed.
Lemma high_words x : N.shiftr x 32 = (x / base)%N.
Proof. by rewrite N.shiftr_div_pow2. Qed.

Lemma pack_written x n ws : pack x n = Ok ws <-> written x n ws.
Proof.
  rewrite /written. elim: n x ws => [|n IH] x ws.
  - cbn [pack]. case: N.eqb_spec => [->|Hx]; split => //.
    + move=> [<-]. split=> //. by split; [constructor|].
    + move=> [Hl _]. by case: ws Hl.
    + move=> [Hl [_ Hn]]. case: ws Hl Hn => //= _ Hn. by subst x.
  - cbn [pack]. rewrite low_word high_words. split.
    + case E: (pack _ n) => [r|] // [<-].
      apply IH in E. case: E => [Hl [Hc Hn]].
      split; first by rewrite app_length Hl Nat.add_1_r.
      split.
      * apply/Forall_app. split=> //. constructor=> //. by apply: N.mod_lt.
      * rewrite number_snoc Hn. have := N.div_mod' x base. lia.
    + move=> [Hl [Hc Hn]].
      have [r [w Hr]] : exists r w, ws = r ++ [w].
      { have Hne : ws <> [] by move=> E; rewrite E in Hl.
        have [r [w ->]] := exists_last Hne. by exists r, w. }
      subst ws. rewrite number_snoc in Hn. apply Forall_app in Hc.
      case: Hc => [Hc Hw]. inversion Hw as [|? ? Hwb _]; subst.
      have -> : ((number r * base + w) / base = number r)%N.
      { rewrite N.div_add_l // N.div_small //. lia. }
      have -> : ((number r * base + w) mod base = w)%N.
      { rewrite N.add_comm N.mod_add // N.mod_small //. }
      have -> : pack (number r) n = Ok r; last done.
      apply IH. split=> //. move: Hl. rewrite app_length /=. lia.
Qed.

Lemma pack_fits x n : (x < base ^ N.of_nat n)%N -> exists ws, pack x n = Ok ws.
Proof.
  elim: n x => [|n IH] x H.
  - cbn in H. have -> : x = 0%N by lia. by exists [].
  - cbn [pack]. rewrite high_words base_succ in H *.
    have Hd : (x / base < base ^ N.of_nat n)%N.
    { apply: N.div_lt_upper_bound => //. }
    have [ws ->] := IH _ Hd. by eexists.
Qed.
Lemma pack_overflow x n : (base ^ N.of_nat n <= x)%N ->
  pack x n = Err OtherException.
Proof.
  elim: n x => [|n IH] x H.
  - cbn in H. cbn [pack]. case: N.eqb_spec => // ?. lia.
  - cbn [pack]. rewrite high_words. rewrite base_succ in H.
    rewrite IH //. apply: N.div_le_lower_bound => //.
Qed.

(** ** Tuples *)
Lemma firstn_len {A} (a b : list A) n : List.length a = n ->
  firstn n (a ++ b) = a /\ skipn n (a ++ b) = b.
Proof.
  move=> <-. rewrite firstn_app skipn_app Nat.sub_diag firstn_all skipn_all.
  by rewrite app_nil_r.
Qed.
Lemma unpack_tuple sizes xs ws rest : tuple sizes xs ws ->
  unpack (ws ++ rest) sizes = (xs, rest).
Proof.
  elim=> [|n x v sizes' xs' r [Hl [Hc Hn]] _ IH] //=.
  rewrite -app_assoc. have [-> ->] := firstn_len v (r ++ rest) n Hl.
  by rewrite IH join_number Hn.
Qed.
Lemma tuple_length sizes xs ws : tuple sizes xs ws ->
  List.length ws = list_sum sizes.
Proof.
  elim=> [|n x v s xs' r [Hl _] _ IH] //=. by rewrite app_length Hl IH.
Qed.

Section Unpacker.
Context {A : Type} (each : list N -> res A).

Lemma unpacker_table sizes t ws rs fuel : table sizes t ws ->
  0 < list_sum sizes \/ t = [] -> List.length ws <= fuel ->
  Forall2 (fun xs r => each xs = Ok r) t rs ->
  unpacker each fuel ws sizes = Ok rs.
Proof.
  move=> Ht. elim: Ht rs fuel => [|xs v t' rest Hx _ IH] rs fuel Hs Hf HF.
  - inversion HF; subst. by case: fuel {Hf}.
  - case: Hs => // Hs. inversion HF as [|? r ? rs' Hr HF']; subst.
    have Hl := tuple_length _ _ _ Hx. rewrite app_length in Hf.
    case E: (v ++ rest) => [|w v']; first by case: v E Hl {Hx Hf} => //= _ Hl; lia.
    have Hfuel : exists f, fuel = S f by exists (fuel - 1); lia.
    case: Hfuel => [f Ef]. subst fuel. cbn [unpacker].
    rewrite -E (unpack_tuple _ _ _ rest Hx) Hr /=.
    rewrite (IH rs') //; [by left|lia].
Qed.
Lemma unpacker_fails sizes t ws fuel e : table sizes t ws ->
  0 < list_sum sizes -> List.length ws <= fuel ->
  (exists before xs after rs, t = before ++ xs :: after /\
     Forall2 (fun xs r => each xs = Ok r) before rs /\ each xs = Err e) ->
  unpacker each fuel ws sizes = Err e.
Proof.
  move=> Ht Hs. elim: Ht fuel => [|xs v t' rest Hx _ IH] fuel Hf.
  - move=> [b [x [a [rs [E _]]]]]. by case: b E.
  - move=> [b [x [a [rs [E [HF He]]]]]].
    have Hl := tuple_length _ _ _ Hx. rewrite app_length in Hf.
    case Ev: (v ++ rest) => [|w v']; first by case: v Ev Hl {Hx Hf} => //= _ Hl; lia.
    have Hfuel : exists f, fuel = S f by exists (fuel - 1); lia.
    case: Hfuel => [f Ef]. subst fuel. cbn [unpacker].
    rewrite -Ev (unpack_tuple _ _ _ rest Hx).
    case: b E HF => [|y b] E HF.
    + move: E => [? ?]; subst. by rewrite He.
    + move: E => [? ?]; subst. inversion HF as [|? r ? rs' Hr HF']; subst.
      rewrite Hr /=. rewrite IH //; first by lia.
      by exists b, x, a, rs'.
Qed.
End Unpacker.

Lemma unpacker_forever fuel ws : ws <> [] ->
  unpacker (fun r => Ok r) fuel ws [0; 0] = Err OutOfFuel.
Proof. by elim: fuel ws => [|f IH] [|w ws] //= _; rewrite IH. Qed.

Lemma unpacker_total {A} (each : list N -> res A) sizes ws fuel :
  (forall r, each r <> Err OutOfFuel) ->
  0 < list_sum sizes -> List.length ws <= fuel ->
  unpacker each fuel ws sizes <> Err OutOfFuel.
Proof.
  move=> He Hs. have Hun : forall sizes ws, snd (unpack ws sizes) = skipn (list_sum sizes) ws.
  { elim=> [|n s IH] v //=. move: (IH (skipn n v)).
    case: (unpack _ s) => [r d] /= ->.
    elim: n v => [|n IHn] v //=. case: v => //=. by rewrite skipn_nil. }
  elim: fuel ws => [|f IH] [|w ws] //= Hf; first by lia.
  have := Hun sizes (w :: ws). case: (unpack _ sizes) => [r d] /= ->.
  case E: (each r) => [x|e] /=; last by move=> [H]; apply: (He r); rewrite E H.
  have Hl : List.length (skipn (list_sum sizes) (w :: ws)) <= f.
  { rewrite skipn_length. cbn [List.length]. lia. }
  have := IH _ Hl. by case: unpacker.
Qed.

(** ** Translation *)
Lemma holds_dec r a : holds r a \/ ~ holds r a.
Proof. rewrite /holds. lia. Qed.
Lemma xlat_bus_spec rs a s :
  (exists b, xlat_bus a s rs = Ok b /\ crosses rs a s b) \/
  (xlat_bus a s rs = Err OtherException /\ overruns rs a s).
Proof.
  elim: rs => [|r rs IH].
  - left. exists a. split=> //. by apply: cross_pass.
  - cbn [xlat_bus]. case: (holds_dec r a) => Hh.
    + have -> : ((a <? from_start r) || (from_start r + r_size r <? a + 1))%N = false.
      { rewrite /holds in Hh. apply/orb_false_iff.
        split; apply/N.ltb_ge; lia. }
      have Hsel : selects (r :: rs) a r by exists [], rs; split.
      case: N.ltb_spec => Hs.
      * right. split=> //. by exists r.
      * left. eexists. split; first done. by apply: cross_range.
    + have -> : ((a <? from_start r) || (from_start r + r_size r <? a + 1))%N = true.
      { rewrite /holds in Hh. apply/orb_true_iff.
        case: (N.ltb_spec a (from_start r)) => H; [by left|right].
        apply/N.ltb_lt. lia. }
      have Hsel : forall q, selects rs a q -> selects (r :: rs) a q.
      { move=> q [b [c [-> [Hq Hb]]]]. exists (r :: b), c.
        split=> //. split=> //. by constructor. }
      case: IH => [[b [Hb Hc]]|[Hb [q [Hq Hs]]]].
      * left. exists b. split=> //. case: Hc => [q Hq Hs|Hall].
        -- apply: cross_range => //. by apply: Hsel.
        -- apply: cross_pass. by constructor.
      * right. split=> //. exists q. split=> //. by apply: Hsel.
Qed.
Lemma selects_unique rs a r q : selects rs a r -> selects rs a q -> r = q.
Proof.
  move=> [b [c [-> [Hr Hb]]]] [b' [c' [E [Hq Hb']]]].
  elim: b b' E Hb Hb' => [|x b IH] [|y b'] /= E Hb Hb'.
  - by case: E.
  - case: E => ? _; subst. by inversion Hb'.
  - case: E => ? _; subst. by inversion Hb.
  - case: E => _ E. inversion Hb; inversion Hb'; subst. by apply: IH E _ _.
Qed.
Lemma selects_not_none rs a r : selects rs a r -> ~ Forall (fun r => ~ holds r a) rs.
Proof.
  move=> [b [c [-> [Hr _]]]] /Forall_app [_ H]. by inversion H.
Qed.
Lemma crosses_unique rs a s b c : crosses rs a s b -> crosses rs a s c -> b = c.
Proof.
  move=> [r Hr _|Hn] [q Hq _|Hm] //.
  - by rewrite (selects_unique _ _ _ _ Hr Hq).
  - by case: (selects_not_none _ _ _ Hr).
  - by case: (selects_not_none _ _ _ Hq).
Qed.
Lemma crosses_not_overruns rs a s b : crosses rs a s b -> ~ overruns rs a s.
Proof.
  move=> [r Hr Hs|Hn] [q [Hq Ho]].
  - rewrite (selects_unique _ _ _ _ Hr Hq) in Hs. lia.
  - by case: (selects_not_none _ _ _ Hq).
Qed.
Lemma xlat_bus_iff rs a s b : xlat_bus a s rs = Ok b <-> crosses rs a s b.
Proof.
  case: (xlat_bus_spec rs a s) => [[c [-> Hc]]|[-> Ho]]; split => //.
  - by move=> [<-].
  - move=> H. by rewrite (crosses_unique _ _ _ _ _ Hc H).
  - move=> H. by case: (crosses_not_overruns _ _ _ _ H).
Qed.

Lemma xlat_reg_iff buses a s b :
  xlat_reg a s buses = Ok b <-> reaches s (tables buses) a b.
Proof.
  elim: buses a => [|u buses IH] a /=.
  - split; first by move=> [<-]; constructor. move=> H. by inversion H.
  - case Et: (b_trans u) => [ts|].
    + split.
      * case E: (xlat_bus a s ts) => [c|] // H. apply xlat_bus_iff in E.
        apply: (reach_bus s ts _ a c) => //. by apply IH.
      * move=> H. inversion H as [|? ? ? c ? Hc Hr]; subst.
        apply xlat_bus_iff in Hc. rewrite Hc /=. by apply IH.
    + rewrite IH. split.
      * move=> H. apply: (reach_bus s [] _ a a) => //. by apply: cross_pass.
      * move=> H. inversion H as [|? ? ? c ? Hc Hr]; subst.
        by inversion Hc as [r [x [y [E _]]]|]; subst; [case: x E|].
Qed.
Lemma xlat_reg_err buses a s e : xlat_reg a s buses = Err e ->
  e = OtherException /\ forall b, ~ reaches s (tables buses) a b.
Proof.
  move=> H. split; last by move=> b /xlat_reg_iff; rewrite H.
  elim: buses a H => [|u buses IH] a //=.
  case: (b_trans u) => [ts|]; last by apply: IH.
  case: (xlat_bus_spec ts a s) => [[c [-> _]]|[-> _]] /=; first by apply: IH.
  by move=> [<-].
Qed.

(** Every byte of a region goes where the region goes. *)
Lemma crosses_byte rs a s b d : disjoint rs -> aligned rs a s ->
  crosses rs a s b -> (d < s)%N -> crosses rs (a + d) 1 (b + d)%N.
Proof.
  move=> Hdis Hal Hc Hd. case: Hc => [r Hsel Hs|Hn].
  - have Hh : holds r (a + d)%N.
    { case: Hsel => [x [y [_ [Hr _]]]]. rewrite /holds in Hr *. lia. }
    have Hsel' : selects rs (a + d)%N r.
    { move: Hsel => [x [y [E [Hr Hx]]]]. exists x, y. split=> //. split=> //.
      apply/Forall_forall => q Hq Hqh.
      have [i Hi] := In_nth_error _ _ Hq.
      have Hi' : nth_error rs i = Some q.
      { rewrite E nth_error_app1 //. apply/nth_error_Some. by rewrite Hi. }
      have Hj : nth_error rs (List.length x) = Some r.
      { by rewrite E nth_error_app2 // Nat.sub_diag. }
      have Hij := Hdis _ _ _ _ _ Hi' Hj Hqh Hh.
      have : i < List.length x by apply/nth_error_Some; rewrite Hi.
      lia. }
    have -> : (to_start r + (a - from_start r) + d =
               to_start r + (a + d - from_start r))%N.
    { case: Hsel => [x [y [_ [Hr _]]]]. rewrite /holds in Hr. lia. }
    apply: cross_range => //. rewrite /holds in Hh. lia.
  - apply: cross_pass. by apply: Hal.
Qed.
Lemma reaches_byte s rss a b d : well_placed s rss a -> reaches s rss a b ->
  (d < s)%N -> reaches 1 rss (a + d) (b + d)%N.
Proof.
  move=> Hw. elim: Hw b => [a0|rs up a0 c Hdis Hal Hc _ IH] b Hr Hd.
  - inversion Hr; subst. by constructor.
  - inversion Hr as [|? ? ? c' ? Hc' Hr']; subst.
    rewrite -(crosses_unique _ _ _ _ _ Hc Hc') in Hr'.
    apply: (reach_bus 1 rs up _ (c + d)%N).
    + exact: (crosses_byte rs a0 s).
    + exact: IH.
Qed.

(** ** A whole node *)
Lemma triple_range rs : Forall2 (fun xs r => make_range xs = Ok r) (map triple rs) rs.
Proof. elim: rs => [|[f t s] rs IH]; by constructor. Qed.

Lemma chain_translations buses rss fuel : chain buses rss ->
  Forall (fun b => cells_of b <= fuel) buses ->
  exists bs, resolve_translations fuel buses = Ok bs /\
    tables bs = rss /\ map b_addr bs = map b_addr buses /\
    map b_size bs = map b_size buses.
Proof.
  elim=> [b Hb Ht|b p up rs rss' Ht Hm _ IH] HF.
  - exists [b]. cbn [resolve_translations]. rewrite Hb /=.
    split=> //. by rewrite /tables /= Ht.
  - inversion HF as [|? ? Hl HF']; subst.
    have [bs [H1 [H2 [H3 H4]]]] := IH HF'.
    remember (p :: up) as pu eqn:Epu. cbn [resolve_translations].
    rewrite H1. move: Hm. rewrite /cells_of in Hl.
    case Er: (b_ranges b) Hl => [ws|] Hl Hm.
    + case: Hm => [Htab Hpos]. subst pu.
      rewrite (unpacker_table make_range _ _ _ rs fuel Htab) //=.
      * case: rs Hpos {Htab} => [|r rs] Hpos; [by right|left].
        have := Hpos ltac:(done). lia.
      * exact: triple_range.
      * eexists. split; first done. rewrite /tables in H2 *. cbn [map b_trans b_addr b_size].
        by rewrite H2 H3 H4.
    + subst rs. exists (b :: bs). split=> //. rewrite /tables in H2 *. cbn [map].
      by rewrite H2 H3 H4 Ht.
Qed.

Lemma tuple_pair ac sc a s ws ws' : written a ac ws -> written s sc ws' ->
  tuple [ac; sc] [a; s] (ws ++ ws').
Proof.
  move=> Ha Hs. apply: tuple_cons => //.
  rewrite -(app_nil_r ws'). apply: tuple_cons => //. constructor.
Qed.

Lemma table_fits ac sc regs ws : table [ac; sc] (map pair regs) ws ->
  Forall (fun r => snd r < base ^ N.of_nat sc)%N regs.
Proof.
  elim: regs ws => [|[a s] regs IH] ws H; first by constructor.
  inversion H as [|? ? ? rest Hx Hr]; subst. constructor; last by apply: IH Hr.
  inversion Hx as [|? ? ? ? ? ? _ Hy]; subst.
  inversion Hy as [|? ? v ? ? ? Hw _]; subst.
  case: Hw => [<- [Hc <-]]. exact: number_bound.
Qed.

Lemma regs_translated b bs rss regs regs' ws fuel :
  tables (b :: bs) = rss ->
  table [b_addr b; b_size b] (map pair regs) ws ->
  0 < b_addr b + b_size b -> List.length ws <= fuel ->
  Forall2 (fun r r' => reaches (snd r) rss (fst r) (fst r') /\
             snd r' = snd r /\ (fst r' < base ^ N.of_nat (b_addr b))%N)
    regs regs' ->
  exists ws', xlat_regs fuel ws (b :: bs) = Ok ws' /\
    table [b_addr b; b_size b] (map pair regs') ws'.
Proof.
  move=> Hrss Htab Hpos Hf HF. have Hfit := table_fits _ _ _ _ Htab.
  have [out [H1 H2]] : exists out,
    Forall2 (fun xs r => xlat_one (b_addr b) (b_size b) (b :: bs) xs = Ok r)
      (map pair regs) out /\
    table [b_addr b; b_size b] (map pair regs') (List.concat out).
  { elim: HF Hfit {Htab Hf} => [|[a s] [a' s'] rg rg' [Hr [Hs Ha]] _ IH] Hfit.
    - exists []. split; constructor.
    - inversion Hfit as [|? ? Hsz Hfit']; subst. cbn [fst snd] in *. subst s'.
      have [out [H1 H2]] := IH Hfit'.
      have [p Hp] := pack_fits _ _ Ha. have [q Hq] := pack_fits _ _ Hsz.
      exists ((p ++ q) :: out). split.
      + constructor=> //. cbn [pair fst snd xlat_one].
        apply xlat_reg_iff in Hr. by rewrite Hr /= Hp /= Hq.
      + cbn [List.concat map]. apply: table_cons => //.
        apply pack_written in Hp. apply pack_written in Hq. exact: tuple_pair. }
  exists (List.concat out). split=> //. rewrite /xlat_regs.
  rewrite (unpacker_table _ _ _ _ out fuel Htab) //.
  left. cbn [list_sum fold_right]. lia.
Qed.

Lemma cell_count_counts p key d n : cell_count p key d = Ok n <-> counts p key d n.
Proof.
  rewrite /cell_count /counts. case: (dget p key) => [[|w r]|].
  - split=> // [[w [r [E _]]]] //.
  - split; first by move=> [<-]; exists w, r.
    by move=> [w' [r' [[<- _] ->]]].
  - split; [by move=> [<-]|by move=> ->].
Qed.
Lemma make_bus_describes p b : make_bus p = Ok b <-> describes p b.
Proof.
  rewrite /make_bus /describes. split.
  - case E1: cell_count => [a|] //=. case E2: cell_count => [s|] //= [<-].
    apply cell_count_counts in E1. by apply cell_count_counts in E2.
  - case: b => [a s r t] /= [/cell_count_counts -> [/cell_count_counts -> /=]].
    by move=> [-> ->].
Qed.
Lemma resolve_buses_spec ps bs : ps <> [] ->
  resolve_buses ps = Ok bs <-> Forall2 describes ps bs.
Proof.
  move=> Hne. have -> : resolve_buses ps = mapM make_bus ps by case: ps Hne.
  elim: ps bs {Hne} => [|p ps IH] bs /=.
  - split; first by move=> [<-]. by move=> H; inversion H.
  - split.
    + case E: (make_bus p) => [b|] //=. case Em: (mapM _ ps) => [bs'|] //= [<-].
      constructor; first by apply make_bus_describes. by apply IH.
    + move=> H. inversion H as [|? b ? bs' Hb Hbs]; subst.
      apply make_bus_describes in Hb. apply IH in Hbs. by rewrite Hb /= Hbs.
Qed.

Lemma sapp_nil (x : string) : (x ++ "" = x)%string.
Proof. elim: x => [|c x IH] //=. by rewrite IH. Qed.
Lemma sapp_assoc (x y z : string) : ((x ++ y) ++ z = x ++ (y ++ z))%string.
Proof. elim: x => [|c x IH] //=. by rewrite IH. Qed.
Lemma slashed_snoc l x : slashed (l ++ [x]) = (slashed l ++ "/" ++ x)%string.
Proof.
  elim: l => [|y l IH] /=; first by rewrite sapp_nil.
  by rewrite IH !sapp_assoc.
Qed.
Lemma node_path_acc names acc : Forall (fun n => n <> ""%string) names ->
  acc <> ""%string ->
  node_path names acc = (slashed (rev names) ++ "/" ++ acc)%string.
Proof.
  elim: names acc => [|n names IH] acc HF Ha //=.
  inversion HF as [|? ? Hn HF']; subst.
  have -> : String.eqb acc "" = false by apply/String.eqb_neq.
  rewrite IH //; first by case: (n) Hn.
  by rewrite slashed_snoc !sapp_assoc.
Qed.
Lemma node_path_slashed names : names <> [] ->
  Forall (fun n => n <> ""%string) names ->
  node_path names "" = slashed (rev names).
Proof.
  case: names => // n names _ HF. inversion HF as [|? ? Hn HF']; subst.
  cbn [node_path String.eqb rev]. by rewrite node_path_acc // slashed_snoc.
Qed.

Lemma dget_dset3 (d : props) k v j : j <> k -> dget (dset d k v) j = dget d j.
Proof. move=> H. by rewrite dget_dset_ne. Qed.

Lemma node_resolved node ancestors names fuel b bs rss regs regs' ws :
  resolve_buses ancestors = Ok (b :: bs) ->
  chain (b :: bs) rss ->
  dget node "reg" = Some ws ->
  table [b_addr b; b_size b] (map pair regs) ws ->
  0 < b_addr b + b_size b ->
  List.length ws <= fuel -> Forall (fun b => cells_of b <= fuel) (b :: bs) ->
  Forall2 (fun r r' => reaches (snd r) rss (fst r) (fst r') /\
             snd r' = snd r /\ (fst r' < base ^ N.of_nat (b_addr b))%N)
    regs regs' ->
  exists r ws', resolve_fdt_node fuel node ancestors names = Ok r /\
    dget (r_props r) "reg" = Some ws' /\
    table [b_addr b; b_size b] (map pair regs') ws' /\
    forall k, k <> "reg"%string -> k <> "this-address-cells"%string ->
      k <> "this-size-cells"%string -> dget (r_props r) k = dget node k.
Proof.
  move=> Hb Hc Hr Ht Hp Hl Hf HF. rewrite /resolve_fdt_node Hb /=.
  rewrite !dget_dset3 // Hr.
  have [bs' [H1 [H2 [H3 H4]]]] := chain_translations _ _ _ Hc Hf.
  cbn [resolve_translations] in H1. rewrite H1 /=.
  case: bs' H1 H2 H3 H4 => [|b' bs'] H1 H2 // [Ha _] [Hs _].
  rewrite -Ha -Hs in Ht Hp HF *.
  have [ws' [H5 H6]] := regs_translated _ _ _ _ _ _ _ H2 Ht Hp Hl HF.
  rewrite H5 /=. do 2 eexists. split; first done. split.
  - cbn [r_props]. by rewrite dget_dset_eq.
  - split=> // k K1 K2 K3. cbn [r_props]. by rewrite !dget_dset3.
Qed.

(** ** Counterexamples *)
Lemma short_table : exists b ws ws',
  xlat_regs 9 ws [b] = Ok ws' /\ List.length ws = 3 /\ List.length ws' = 4.
Proof. by exists (Bus 1 1 None None), [1; 2; 3]%N, [1; 2; 3; 0]%N. Qed.

Lemma reaching_into : exists rs a s b d,
  xlat_reg a s [Bus 1 1 None (Some rs)] = Ok b /\ (d < s)%N /\
  disjoint rs /\
  exists c, xlat_reg (a + d) 1 [Bus 1 1 None (Some rs)] = Ok c /\
    c <> (b + d)%N.
Proof.
  exists [Range 16 256 16], 8%N, 16%N, 8%N, 8%N.
  split=> //. split=> //. split; last by exists 256%N.
  move=> [|i] [|j] r q a //=; first by destruct j. by destruct i.
  by destruct i.
Qed.
