(** Proofs: nodes whose registers cannot be translated, and the fields added
    to a node. *)
From Coq Require Import ssreflect ssrbool.
From Coq Require Import List Bool String NArith Lia.
From Verif Require Import Prelude Fdt_Model Fdt_Spec Fdt_Proofs.
Import ListNotations.
Open Scope list_scope.

Lemma xlat_one_split ac sc buses (regs : list (N * N)) :
  (exists rs, Forall2 (fun xs r => xlat_one ac sc buses xs = Ok r)
     (map pair regs) rs) \/
  (exists before r after rs, regs = before ++ r :: after /\
     Forall2 (fun xs r => xlat_one ac sc buses xs = Ok r)
       (map pair before) rs /\
     exists e, xlat_one ac sc buses (pair r) = Err e).
Proof.
  elim: regs => [|r regs IH]; first by left; exists []; constructor.
  case E: (xlat_one ac sc buses (pair r)) => [w|e].
  - case: IH => [[rs H]|[b [x [a [rs [-> [H He]]]]]]].
    + left. exists (w :: rs). by constructor.
    + right. exists (r :: b), x, a, (w :: rs). split=> //. split=> //.
      by constructor.
  - right. exists [], r, regs, []. split=> //. split; first by constructor.
    by exists e.
Qed.

Lemma xlat_one_error ac sc buses r e :
  xlat_one ac sc buses (pair r) = Err e -> e = OtherException.
Proof.
  case: r => [a s]. cbn [pair fst snd xlat_one].
  case E: (xlat_reg a s buses) => [b|e0]; cbn [bind].
  - have H : forall x n e1, pack x n = Err e1 -> e1 = OtherException.
    { move=> x n. elim: n x => [|n IH] x e1; cbn [pack].
      - case: N.eqb => //. by move=> [<-].
      - case Ep: (pack _ n) => [w|e2] //. move=> [<-]. exact: IH Ep. }
    case E1: (pack b ac) => [w|e1]; cbn [bind].
    + case E2: (pack s sc) => [w'|e1] //. move=> [<-]. exact: H E2.
    + move=> [<-]. exact: H E1.
  - move=> [<-]. by apply xlat_reg_err in E as [-> _].
Qed.

Lemma node_rejected node ancestors names fuel b bs rss regs ws r :
  resolve_buses ancestors = Ok (b :: bs) ->
  chain (b :: bs) rss ->
  dget node "reg"%string = Some ws ->
  table [b_addr b; b_size b] (map pair regs) ws ->
  0 < b_addr b + b_size b ->
  List.length ws <= fuel -> Forall (fun b => cells_of b <= fuel) (b :: bs) ->
  In r regs ->
  (forall a, reaches (snd r) rss (fst r) a ->
     (base ^ N.of_nat (b_addr b) <= a)%N) ->
  resolve_fdt_node fuel node ancestors names = Err OtherException.
Proof.
  move=> Hb Hc Hr Ht Hp Hl Hf Hin Hbad. rewrite /resolve_fdt_node Hb /=.
  rewrite !dget_dset3 // Hr.
  have [bs' [H1 [H2 [H3 H4]]]] := chain_translations _ _ _ Hc Hf.
  cbn [resolve_translations] in H1. rewrite H1 /=.
  case: bs' H1 H2 H3 H4 => [|b' bs'] H1 H2 // [Ha _] [Hs _].
  rewrite -Ha -Hs in Ht Hp Hbad *. rewrite /xlat_regs.
  have Hne : forall w, xlat_one (b_addr b') (b_size b') (b' :: bs') (pair r)
      <> Ok w.
  { move=> w. case: r Hin Hbad => [a s] _ Hbad. cbn [pair fst snd xlat_one] in *.
    case E: (xlat_reg a s (b' :: bs')) => [c|e] //. cbn [bind].
    apply xlat_reg_iff in E. rewrite H2 in E.
    by rewrite (pack_overflow _ _ (Hbad _ E)). }
  case: (xlat_one_split (b_addr b') (b_size b') (b' :: bs') regs)
    => [[rs HF]|[bf [x [af [rs [E [HF [e He]]]]]]]].
  - exfalso. elim: regs rs Hin HF {Ht} => [|y regs IH] rs //= [?|Hin] HF;
      inversion HF as [|? w ? rs' Hw HF']; subst.
    + exact: (Hne _ Hw).
    + exact: (IH _ Hin HF').
  - rewrite (unpacker_fails _ _ _ _ _ e Ht) //.
    + cbn [list_sum fold_right]. lia.
    + exists (map pair bf), (pair x), (map pair af), rs. split=> //.
      by rewrite E map_app.
    + cbn [bind]. by rewrite (xlat_one_error _ _ _ _ _ He).
Qed.

Lemma node_fields node ancestors names fuel r :
  resolve_fdt_node fuel node ancestors names = Ok r ->
  exists b bs, resolve_buses ancestors = Ok (b :: bs) /\
    dget (r_props r) "this-address-cells"%string
      = Some [N.of_nat (b_addr b)] /\
    dget (r_props r) "this-size-cells"%string = Some [N.of_nat (b_size b)] /\
    r_path r = node_path names "" /\
    (dget node "reg"%string = None ->
     dget (r_props r) "reg"%string = None).
Proof.
  rewrite /resolve_fdt_node. case E: (resolve_buses _) => [[|b bs]|e] //.
  cbn [bind]. rewrite !dget_dset3 //. move=> H. exists b, bs. split=> //. move: H.
  case Er: (dget node "reg"%string) => [reg|]; cbn [bind].
  - case: (resolve_translations _ _) => [bs'|e] //. cbn [bind].
    case: (xlat_regs _ _ _) => [w|e] // [<-]. cbn [r_props r_path].
    split; [by rewrite dget_dset3 // dget_dset3 // dget_dset_eq|].
    split; [by rewrite dget_dset3 // dget_dset_eq|]. by split.
  - move=> [<-]. cbn [r_props r_path].
    split; [by rewrite dget_dset3 // dget_dset_eq|].
    split; [by rewrite dget_dset_eq|]. split=> // _.
    by rewrite !dget_dset3.
Qed.
Lemma node_no_reg node ancestors names fuel b bs :
  resolve_buses ancestors = Ok (b :: bs) -> dget node "reg"%string = None ->
  exists r, resolve_fdt_node fuel node ancestors names = Ok r /\
    forall k, k <> "this-address-cells"%string ->
      k <> "this-size-cells"%string -> dget (r_props r) k = dget node k.
Proof.
  rewrite /resolve_fdt_node => -> H /=. rewrite !dget_dset3 // H /=.
  eexists. split; first done. move=> k K1 K2. cbn [r_props].
  by rewrite !dget_dset3.
Qed.

Lemma resolve_buses_all ps bs :
  resolve_buses ps = Ok bs <-> Forall2 describes (match ps with [] => [[]] | _ => ps end) bs.
Proof.
  case: ps => [|p ps]; last exact: resolve_buses_spec.
  have -> : resolve_buses [] = resolve_buses [[]] by []. exact: resolve_buses_spec.
Qed.
