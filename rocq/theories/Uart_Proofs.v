(** Proofs about the serial line. *)
From Coq Require Import List Arith NArith Bool Lia ssreflect ssrbool.
From Verif Require Import Prelude Uart_Model Uart_Spec.
Import ListNotations.
Open Scope N_scope.
Open Scope list_scope.

(** ** Initialisation *)
Section Init.
Variable speed : nat -> nat.
Lemma out8_idle off v lcr ier dll dlm fcr mcr wire lost hf al t :
  out8 speed off v (mk_uart lcr ier dll dlm fcr mcr [] wire lost hf al t)
  = port_out off v (mk_uart lcr ier dll dlm fcr mcr [] wire lost hf al (S t)).
Proof. rewrite /out8 /transmit /=. by rewrite skipn_nil firstn_nil app_nil_r. Qed.
Lemma in8_idle off lcr ier dll dlm fcr mcr wire lost hf al t :
  in8 speed off (mk_uart lcr ier dll dlm fcr mcr [] wire lost hf al t)
  = (port_in off (mk_uart lcr ier dll dlm fcr mcr [] wire lost hf al (S t)),
     mk_uart lcr ier dll dlm fcr mcr [] wire lost hf al (S t)).
Proof. rewrite /in8 /transmit /=. by rewrite skipn_nil firstn_nil app_nil_r. Qed.

Section Registers.
Variables (lcr ier dll dlm fcr mcr : N) (wire : list N) (hf al : bool) (t : nat).
Local Notation dev l i dl dm f m t := (mk_uart l i dl dm f m [] wire [] hf al t).
Lemma w_lcr v : out8 speed 3 v (dev lcr ier dll dlm fcr mcr t) = dev v ier dll dlm fcr mcr (S t).
Proof. by rewrite out8_idle. Qed.
Lemma w_mcr v : out8 speed 4 v (dev lcr ier dll dlm fcr mcr t) = dev lcr ier dll dlm fcr v (S t).
Proof. by rewrite out8_idle. Qed.
Lemma w_fcr v : out8 speed 2 v (dev lcr ier dll dlm fcr mcr t) = dev lcr ier dll dlm v mcr (S t).
Proof. rewrite out8_idle /port_out /=. by case: Bool.eqb. Qed.
Lemma w_ier v : N.testbit lcr 7 = false ->
  out8 speed 1 v (dev lcr ier dll dlm fcr mcr t) = dev lcr v dll dlm fcr mcr (S t).
Proof. move=> H. by rewrite out8_idle /port_out /dlab /= H. Qed.
Lemma w_dlm v : N.testbit lcr 7 = true ->
  out8 speed 1 v (dev lcr ier dll dlm fcr mcr t) = dev lcr ier dll v fcr mcr (S t).
Proof. move=> H. by rewrite out8_idle /port_out /dlab /= H. Qed.
Lemma w_dll v : N.testbit lcr 7 = true ->
  out8 speed 0 v (dev lcr ier dll dlm fcr mcr t) = dev lcr ier v dlm fcr mcr (S t).
Proof. move=> H. by rewrite out8_idle /port_out /dlab /= H. Qed.
Lemma r_lcr : in8 speed 3 (dev lcr ier dll dlm fcr mcr t) = (lcr, dev lcr ier dll dlm fcr mcr (S t)).
Proof. by rewrite in8_idle. Qed.
Lemma r_iir : in8 speed 2 (dev lcr ier dll dlm fcr mcr t)
  = ((if (hf && N.testbit fcr 0) || (hf && al) then 192 else 0) + 1, dev lcr ier dll dlm fcr mcr (S t)).
Proof. by rewrite in8_idle. Qed.
End Registers.

Lemma init_lemma s u : idle u ->
  let f := u_has_fifo u && u_always u in
  exists t, serial_init speed s u
  = (mk_drv (if f then 16 else 1)%nat 0,
     mk_uart 3 1 1 0 (if f then 1 else 0) 15 [] (u_wire u) [] (u_has_fifo u) (u_always u) t).
Proof.
  case: u => lcr ier dll dlm fcr mcr tx wire lost hf al t [/= -> ->].
  rewrite /serial_init /set_dlab /read_lcr r_lcr /write_lcr w_lcr.
  have Hd : N.testbit (N.ldiff lcr 128) 7 = false by rewrite N.ldiff_spec andb_false_r.
  move: (N.ldiff lcr 128) Hd => l Hd.
  rewrite /disable_interrupt /write_ier w_ier //.
  rewrite /disable_fifo /write_fcr !w_fcr /reset_lcr /write_lcr w_lcr /reset_mcr /write_mcr w_mcr.
  rewrite /read_iir r_iir.
  rewrite /set_baud_rate /write_latch /set_dlab /read_lcr r_lcr /write_lcr w_lcr.
  rewrite /write_latch_high w_dlm // /write_latch_low w_dll // r_lcr w_lcr.
  rewrite /enable_fifo /read_iir r_iir.
  have -> : hf && N.testbit 0 0 = false by rewrite andb_false_r.
  cbn [orb]. case: (hf && al).
  - change (N.land (192 + 1) 192 =? 192) with true. cbv iota.
    rewrite /write_fcr w_fcr /enable_interrupt /write_ier w_ier // r_iir. by eexists.
  - change (N.land (0 + 1) 192 =? 192) with false. cbv iota.
    rewrite /enable_interrupt /write_ier w_ier // r_iir. by eexists.
Qed.
End Init.

(** ** Output *)
Definition inv (s : drv) (u : uart) : Prop :=
  u_lost u = [] /\ dlab u = false /\ fifo_depth s = capacity u /\
  (List.length (u_tx u) <= fifo_used s <= fifo_depth s)%nat.

Section Output.
Variable speed : nat -> nat.

Lemma transmit_sent k u : sent (transmit k u) = sent u.
Proof. by rewrite /sent /transmit /= -app_assoc firstn_skipn. Qed.
Lemma transmit_inv k s u : inv s u -> inv s (transmit k u).
Proof.
  move=> [H1 [H2 [H3 H4]]]. split=> //. split=> //. split=> //=.
  rewrite skipn_length. lia.
Qed.

Lemma wait_inv fuel : forall s u s' u', inv s u -> wait_for_fifo speed fuel s u = Some (s', u') ->
  inv s' u' /\ sent u' = sent u /\ fifo_used s' = 0%nat /\ fifo_depth s' = fifo_depth s.
Proof.
  elim: fuel => [|fuel IH] s u s' u' Hi //=.
  have Ht := transmit_inv (speed (u_time u)) s u Hi.
  have Es := transmit_sent (speed (u_time u)) u.
  move: (transmit _ u) Ht Es => v Ht Es.
  rewrite /port_in /=. case E: (u_tx v) => [|c l] /=.
  - move=> [<- <-]. cbn [fifo_used fifo_depth]. rewrite Es. split=> //.
    case: Ht => H1 [H2 [H3 H4]]. split=> //. split=> //. split=> //=. rewrite E /=. lia.
  - move=> H. have [A [B C]] := IH _ _ _ _ Ht H. by rewrite B Es.
Qed.

Lemma thr_inv c s u : inv s u -> (fifo_used s < fifo_depth s)%nat ->
  inv (mk_drv (fifo_depth s) (S (fifo_used s))) (write_thr speed c u) /\
  sent (write_thr speed c u) = sent u ++ [c].
Proof.
  move=> Hi Hlt. rewrite /write_thr /out8.
  have Ht := transmit_inv (speed (u_time u)) s u Hi.
  have Es := transmit_sent (speed (u_time u)) u.
  move: (transmit _ u) Ht Es => v Ht Es.
  case: v Ht Es => lcr ier dll dlm fcr mcr tx wire lost hf al t [H1 [H2 [H3 H4]]] Es.
  rewrite /port_out H2. cbn [u_lost u_tx] in H1, H4. subst lost.
  change (0 =? 0) with true. cbv iota.
  have -> : Nat.ltb (List.length tx) (capacity (mk_uart lcr ier dll dlm fcr mcr tx wire [] hf al t)) = true
    by apply Nat.ltb_lt; rewrite -H3; lia.
  split.
  - split=> //. split=> //. split=> //=. rewrite app_length /=. lia.
  - rewrite -Es /sent /=. by rewrite app_assoc.
Qed.

Lemma out_inv fuel c s u s' u' : inv s u -> (0 < fifo_depth s)%nat ->
  serial_output_via_fifo speed fuel c s u = Some (s', u') ->
  inv s' u' /\ sent u' = sent u ++ [c] /\ fifo_depth s' = fifo_depth s.
Proof.
  move=> Hi Hp. rewrite /serial_output_via_fifo.
  case: (Nat.eqb_spec (fifo_used s) (fifo_depth s)) => E.
  - case Ew: wait_for_fifo => [[s1 u1]|] // [<- <-].
    have [A [B [C D]]] := wait_inv _ _ _ _ _ Hi Ew.
    have [F G] := thr_inv c _ _ A ltac:(lia). by rewrite G B.
  - move=> [<- <-]. have Hl : (fifo_used s < fifo_depth s)%nat by case: Hi => _ [_ [_ H]]; lia.
    have [F G] := thr_inv c _ _ Hi Hl. by rewrite G.
Qed.

Lemma text_inv fuel text : forall s u s' u', inv s u -> (0 < fifo_depth s)%nat ->
  put_text speed fuel text s u = Some (s', u') ->
  inv s' u' /\ exists w, lines text w /\ sent u' = sent u ++ w.
Proof.
  elim: text => [|c text IH] s u s' u' Hi Hp /=.
  - move=> [<- <-]. split=> //. exists []. rewrite app_nil_r. split=> //. constructor.
  - rewrite /serial_putchar. case: (N.eqb_spec c 10) => [->|Hc].
    + case E1: serial_output_via_fifo => [[s1 u1]|] //.
      have [A1 [B1 C1]] := out_inv _ _ _ _ _ _ Hi Hp E1. rewrite -C1 in Hp.
      case E2: serial_output_via_fifo => [[s2 u2]|] // H.
      have [A2 [B2 C2]] := out_inv _ _ _ _ _ _ A1 Hp E2. rewrite -C2 in Hp.
      have [D [w [F G]]] := IH _ _ _ _ A2 Hp H. split=> //.
      exists (13 :: 10 :: w). split; [by constructor|]. by rewrite G B2 B1 -!app_assoc.
    + case E2: serial_output_via_fifo => [[s2 u2]|] // H.
      have [A2 [B2 C2]] := out_inv _ _ _ _ _ _ Hi Hp E2. rewrite -C2 in Hp.
      have [D [w [F G]]] := IH _ _ _ _ A2 Hp H. split=> //.
      exists (c :: w). split; [by constructor|]. by rewrite G B2 -!app_assoc.
Qed.

(** ** Termination *)
Lemma wait_mono fuel : forall k s u r, wait_for_fifo speed fuel s u = Some r ->
  wait_for_fifo speed (fuel + k) s u = Some r.
Proof.
  elim: fuel => [|fuel IH] k s u r //=. case: (_ =? 0) => // H. by apply: IH.
Qed.
Lemma out_mono fuel k c s u r : serial_output_via_fifo speed fuel c s u = Some r ->
  serial_output_via_fifo speed (fuel + k) c s u = Some r.
Proof.
  rewrite /serial_output_via_fifo. case: Nat.eqb => //.
  case E: wait_for_fifo => [q|] //. by rewrite (wait_mono _ _ _ _ _ E).
Qed.
Lemma put_mono fuel k c s u r : serial_putchar speed fuel c s u = Some r ->
  serial_putchar speed (fuel + k) c s u = Some r.
Proof.
  rewrite /serial_putchar. case: (c =? 10).
  - case E: serial_output_via_fifo => [[s1 u1]|] //. rewrite (out_mono _ _ _ _ _ _ E).
    by apply: out_mono.
  - by apply: out_mono.
Qed.
Lemma text_mono fuel k text : forall s u r, put_text speed fuel text s u = Some r ->
  put_text speed (fuel + k) text s u = Some r.
Proof.
  elim: text => [|c text IH] s u r //=.
  case E: serial_putchar => [[s1 u1]|] //. rewrite (put_mono _ _ _ _ _ _ E). by apply: IH.
Qed.

Lemma wait_ends : live speed -> forall n s u, (List.length (u_tx u) <= n)%nat ->
  exists fuel r, wait_for_fifo speed fuel s u = Some r.
Proof.
  move=> L. elim=> [|n IH] s u Hn.
  - exists 1%nat. cbn [wait_for_fifo]. rewrite /read_lsr /in8 /port_in /=.
    case: (u_tx u) Hn => [|? ?] /= Hn; [|lia]. rewrite skipn_nil /=. by eexists.
  - have [m [Hm Hs]] := L (u_time u).
    have [d Ed] : exists d, m = (u_time u + d)%nat by exists (m - u_time u)%nat; lia.
    elim: d u Hn Hm Ed => [|d IHd] u Hn Hm Ed.
    + have Hlen : (List.length (u_tx (transmit (speed (u_time u)) u)) <= n)%nat.
      { rewrite /= skipn_length. rewrite Ed Nat.add_0_r in Hs. lia. }
      have [f [r E]] := IH s _ Hlen.
      exists (S f). cbn [wait_for_fifo]. rewrite /read_lsr /in8.
      case: (_ =? 0); eexists; [exact: E|reflexivity].
    + have [f [r E]] := IHd (transmit (speed (u_time u)) u)
        ltac:(rewrite /= skipn_length; lia) ltac:(cbn; lia) ltac:(cbn; lia).
      exists (S f). cbn [wait_for_fifo]. rewrite /read_lsr /in8.
      case: (_ =? 0); eexists; [exact: E|reflexivity].
Qed.
Lemma out_ends c s u : live speed -> exists fuel r, serial_output_via_fifo speed fuel c s u = Some r.
Proof.
  move=> L. rewrite /serial_output_via_fifo. case: Nat.eqb.
  - have [f [[s' u'] E]] := wait_ends L _ s u (le_n _). exists f. rewrite E. by eexists.
  - exists 0%nat. by eexists.
Qed.
Lemma put_ends c s u : live speed -> exists fuel r, serial_putchar speed fuel c s u = Some r.
Proof.
  move=> L. rewrite /serial_putchar. case: (c =? 10).
  - have [f1 [[s1 u1] E1]] := out_ends 13 s u L.
    have [f2 [r E2]] := out_ends c s1 u1 L.
    exists (f1 + f2)%nat, r. rewrite (out_mono _ _ _ _ _ _ E1) Nat.add_comm. by apply: out_mono.
  - exact: out_ends.
Qed.
Lemma text_ends text : live speed -> forall s u, exists fuel r, put_text speed fuel text s u = Some r.
Proof.
  move=> L. elim: text => [|c text IH] s u.
  - exists 0%nat. by eexists.
  - have [f1 [[s1 u1] E1]] := put_ends c s u L.
    have [f2 [r E2]] := IH s1 u1.
    exists (f1 + f2)%nat, r. cbn [put_text]. rewrite (put_mono _ _ _ _ _ _ E1) Nat.add_comm.
    by apply: text_mono.
Qed.

(** ** The claims *)
Lemma output_lemma s u s1 u1 fuel text s2 u2 :
  idle u -> serial_init speed s u = (s1, u1) -> put_text speed fuel text s1 u1 = Some (s2, u2) ->
  u_lost u2 = [] /\ exists w, lines text w /\ u_wire u2 ++ u_tx u2 = u_wire u ++ w.
Proof.
  move=> Hi. have [t ->] := init_lemma speed s u Hi. move=> [<- <-] H.
  have I : inv (mk_drv (if u_has_fifo u && u_always u then 16 else 1)%nat 0)
    (mk_uart 3 1 1 0 (if u_has_fifo u && u_always u then 1 else 0) 15 [] (u_wire u) []
       (u_has_fifo u) (u_always u) t).
  { split=> //. split=> //. split; [|by cbn; case: (_ && _); lia].
    rewrite /capacity /fifo_on. cbn [fifo_depth u_has_fifo u_fcr].
    by case: (u_has_fifo u); case: (u_always u). }
  have [|[H1 _] [w [Hw E]]] := text_inv fuel text _ _ _ _ I _ H; [by cbn; case: (_ && _); lia|].
  split=> //. exists w. split=> //. rewrite -/(sent u2) E /sent /=. by rewrite app_nil_r.
Qed.
End Output.

Lemma registers_lemma speed s u s' u' : idle u -> serial_init speed s u = (s', u') ->
  u_lcr u' = 3 /\ u_dlm u' * 256 + u_dll u' = 1 /\ u_ier u' = 1 /\ u_mcr u' = 15 /\
  fifo_used s' = 0%nat /\ fifo_depth s' = capacity u' /\ idle u' /\ u_wire u' = u_wire u.
Proof.
  move=> Hi. have [t ->] := init_lemma speed s u Hi. move=> [<- <-].
  do 5 split=> //. split; [|by []].
  rewrite /capacity /fifo_on. cbn [fifo_depth u_has_fifo u_fcr].
  by case: (u_has_fifo u); case: (u_always u).
Qed.
Lemma fifo_lemma speed s u s' u' : idle u -> u_always u = false -> serial_init speed s u = (s', u') ->
  fifo_depth s' = 1%nat /\ fifo_on u' = false.
Proof.
  move=> Hi Ha. have [t ->] := init_lemma speed s u Hi. rewrite Ha andb_false_r.
  move=> [<- <-]. split=> //. by rewrite /fifo_on andb_false_r.
Qed.
Lemma fifo_used_lemma speed s u s' u' : idle u -> u_always u = true -> u_has_fifo u = true ->
  serial_init speed s u = (s', u') -> fifo_depth s' = 16%nat /\ fifo_on u' = true.
Proof.
  move=> Hi Ha Hf. have [t ->] := init_lemma speed s u Hi. rewrite Ha Hf.
  move=> [<- <-]. by split.
Qed.
