(** Proofs: numbers in text, framing, reception of packets. *)
From Coq Require Import ssreflect String Ascii List NArith ZArith Lia Bool.
From Verif Require Import Gdb_Model Gdb_Spec.
Import ListNotations.
Open Scope N_scope.

(** ** Digits *)
Lemma hex_value_lt c v : hex_value c v -> v < 16.
Proof.
  move=> H.
  have L: (N.to_nat v < 16)%nat.
  { destruct H as [H|H].
    - apply (proj1 (nth_error_Some (bytes "0123456789abcdef") (N.to_nat v))); rewrite H; discriminate.
    - apply (proj1 (nth_error_Some (bytes "0123456789ABCDEF") (N.to_nat v))); rewrite H; discriminate. }
  lia.
Qed.

Ltac digit_cases H :=
  let L := fresh "L" in
  pose proof (hex_value_lt _ _ H) as L;
  match type of H with hex_value ?c ?v =>
    let E := fresh "E" in
    assert (E : v = 0 \/ v = 1 \/ v = 2 \/ v = 3 \/ v = 4 \/ v = 5 \/ v = 6 \/ v = 7 \/ v = 8 \/ v = 9 \/ v = 10 \/ v = 11 \/ v = 12 \/ v = 13 \/ v = 14 \/ v = 15) by lia;
    clear L;
    repeat (destruct E as [E|E]; [subst v; destruct H as [H|H]; vm_compute in H; injection H as H; subst c |]);
    try (subst v; destruct H as [H|H]; vm_compute in H; injection H as H; subst c)
  end.

Lemma hex_digit_in c v : hex_value c v -> digit_in 16 c = Some v.
Proof. move=> H; digit_cases H; reflexivity. Qed.
Lemma dec_digit_in c v : hex_value c v -> v < 10 -> digit_in 10 c = Some v.
Proof. move=> H L'; digit_cases H; try reflexivity; exfalso; lia. Qed.
Lemma hex_plain c v : hex_value c v ->
  is_space c = false /\ c =? ch "-" = false /\ c =? ch "+" = false /\ c =? ch "x" = false /\ c =? ch "X" = false /\
  c <> 0 /\ (48 <= c <= 102) /\ c =? ch "," = false /\ c =? ch ":" = false /\ c =? ch "=" = false /\
  c =? ch "m" = false /\ c =? ch "M" = false.
Proof. move=> H; digit_cases H; repeat split; try reflexivity; try discriminate; lia. Qed.

Lemma digits_app base acc t ds x r :
  Forall2 (fun c d => digit_in base c = Some d) t ds -> digit_in base x = None ->
  digits base acc (t ++ x :: r) = Done (fold_left (fun a d => a * Z.of_N base + Z.of_N d)%Z ds acc).
Proof.
  move=> F X; revert acc; induction F as [|c d t ds E F IH] => acc; cbn.
  - by rewrite X.
  - rewrite E; apply IH.
Qed.
Lemma fold_number base ds acc :
  fold_left (fun a d => (a * Z.of_N base + Z.of_N d)%Z) ds (Z.of_N acc) = Z.of_N (fold_left (fun a d => base * a + d) ds acc).
Proof.
  revert acc; induction ds as [|d ds IH] => acc; [reflexivity|]; cbn [fold_left].
  rewrite -IH; f_equal; lia.
Qed.

(** A text of digits, followed by something that is not one. *)
Lemma magnitude_hex t v x r : hex_text t v -> digit_in 16 x = None -> x =? ch "x" = false -> x =? ch "X" = false ->
  magnitude 16 (t ++ x :: r) = Done (false, Z.of_N v).
Proof.
  move=> [NE [ds [F ->]]] X X1 X2; unfold magnitude.
  destruct F as [|c d t ds H F]; [by destruct NE|].
  destruct (hex_plain _ _ H) as (S1 & S2 & S3 & S4 & S5 & _).
  have FD: Forall2 (fun c d => digit_in 16 c = Some d) (c :: t) (d :: ds).
  { constructor; [by apply hex_digit_in|]. clear -F; induction F; constructor; auto using hex_digit_in. }
  cbn [List.app skip_spaces]; rewrite S1; unfold sign; rewrite S2 S3.
  have P: prefix 16 (c :: t ++ x :: r) = Done (c :: t ++ x :: r).
  { unfold prefix; destruct F as [|c' d' t ds H' F]; cbn [List.app].
    - by rewrite X1 X2 andb_false_r.
    - destruct (hex_plain _ _ H') as (_ & _ & _ & S4' & S5' & _); by rewrite S4' S5' andb_false_r. }
  rewrite P; cbn [andthen].
  change (c :: t ++ x :: r) with ((c :: t) ++ x :: r).
  rewrite (digits_app 16 0%Z _ _ _ _ FD X); cbn [andthen].
  change 0%Z with (Z.of_N 0); rewrite fold_number; reflexivity.
Qed.
Lemma magnitude_dec t v x r : dec_text t v -> digit_in 10 x = None ->
  magnitude 10 (t ++ x :: r) = Done (false, Z.of_N v).
Proof.
  move=> [NE [ds [F [T ->]]]] X; unfold magnitude.
  have FD: Forall2 (fun c d => digit_in 10 c = Some d) t ds.
  { clear -F T; induction F; constructor; inversion T; subst; auto using dec_digit_in. }
  destruct F as [|c d t ds H F]; [by destruct NE|].
  destruct (hex_plain _ _ H) as (S1 & S2 & S3 & S4 & S5 & _).
  cbn [List.app skip_spaces]; rewrite S1; unfold sign; rewrite S2 S3.
  have P: prefix 10 (c :: t ++ x :: r) = Done (c :: t ++ x :: r).
  { unfold prefix; destruct t; reflexivity. }
  rewrite P; cbn [andthen].
  change (c :: t ++ x :: r) with ((c :: t) ++ x :: r).
  rewrite (digits_app 10 0%Z _ _ _ _ FD X); cbn [andthen].
  change 0%Z with (Z.of_N 0); rewrite fold_number; reflexivity.
Qed.
Lemma word_small v : v < 2 ^ 31 -> word (Z.min (Z.of_N v) (2 ^ 31 - 1)) = v.
Proof. move=> L; unfold word; rewrite Z.min_l; [lia|]; rewrite Z.mod_small; lia. Qed.

Lemma strtol_hex t v : hex_text t v -> exists z, strtol 16 (Some t) = Done z /\ (v < 2 ^ 31 -> word z = v).
Proof.
  move=> H; unfold strtol, strtol_mem; rewrite (magnitude_hex t v 0 [] H) //; cbn [andthen fst snd].
  eexists; split; [reflexivity|]; apply word_small.
Qed.
Lemma strtol_dec t v : dec_text t v -> exists z, strtol 10 (Some t) = Done z /\ (v < 2 ^ 31 -> word z = v).
Proof.
  move=> H; unfold strtol, strtol_mem; rewrite (magnitude_dec t v 0 [] H) //; cbn [andthen fst snd].
  eexists; split; [reflexivity|]; apply word_small.
Qed.

(** ** Output *)
Lemma hex_digit_lower d : d < 16 -> hex_digit false d = nth (N.to_nat d) (bytes "0123456789abcdef") 0.
Proof.
  move=> L.
  have E: d = 0 \/ d = 1 \/ d = 2 \/ d = 3 \/ d = 4 \/ d = 5 \/ d = 6 \/ d = 7 \/ d = 8 \/ d = 9 \/ d = 10 \/ d = 11 \/ d = 12 \/ d = 13 \/ d = 14 \/ d = 15 by lia.
  by repeat destruct E as [E|E]; subst d.
Qed.
Lemma hex_digit_upper d : d < 16 -> hex_digit true d = nth (N.to_nat d) (bytes "0123456789ABCDEF") 0.
Proof.
  move=> L.
  have E: d = 0 \/ d = 1 \/ d = 2 \/ d = 3 \/ d = 4 \/ d = 5 \/ d = 6 \/ d = 7 \/ d = 8 \/ d = 9 \/ d = 10 \/ d = 11 \/ d = 12 \/ d = 13 \/ d = 14 \/ d = 15 by lia.
  by repeat destruct E as [E|E]; subst d.
Qed.
Lemma hex2_of_byte b : b < 256 -> hex2 false b = hex_of_byte b.
Proof.
  move=> L; unfold hex2, hex_of_byte.
  have D: b / 16 < 16 by apply N.div_lt_upper_bound; lia.
  rewrite (N.mod_small _ _ D) !hex_digit_lower //; apply N.mod_lt; lia.
Qed.

Lemma sum_app a b : sum (a ++ b) = sum a + sum b.
Proof. induction a as [|x a IH]; [reflexivity|]; cbn; unfold sum in *; rewrite IH; lia. Qed.
Lemma checksum_acc l a : fold_left (fun a c => (a + c) mod 256) l (a mod 256) = (a + sum l) mod 256.
Proof.
  revert a; induction l as [|c l IH] => a; cbn [fold_left].
  - by rewrite N.add_0_r.
  - rewrite N.add_mod_idemp_l; [lia|]; rewrite IH; f_equal; cbn; unfold sum; lia.
Qed.
Lemma checksum_sum l : checksum l = sum l mod 256.
Proof. exact (checksum_acc l 0). Qed.

Lemma printf_plain l : (List.length l <= 254)%nat -> ~ In 10 l ->
  flat_map (fun c => if c =? 10 then [13; 10] else [c]) (firstn 255 (l ++ [10])) = l ++ [13; 10].
Proof.
  move=> L N10; rewrite firstn_all2; [rewrite app_length /=; lia|].
  rewrite flat_map_app; f_equal.
  clear L; induction l as [|c l IH]; [reflexivity|]; cbn [flat_map].
  rewrite IH; [move=> H; apply N10; by right|].
  destruct (N.eqb_spec c 10) as [->|NE]; [destruct N10; by left|reflexivity].
Qed.

Lemma send_frame m s : (List.length m <= 250)%nat -> ~ In 10 m -> send m s = put (frame m) s.
Proof.
  move=> L N10; unfold send, gdb_printf; f_equal.
  have -> : ch "$" :: m ++ ch "#" :: hex2 true (checksum m) ++ [10] = (ch "$" :: m ++ ch "#" :: hex2 true (checksum m)) ++ [10].
  { cbn; f_equal; rewrite -app_assoc; reflexivity. }
  have HD: hex2 true (checksum m) = [nth (N.to_nat (sum m mod 256 / 16)) (bytes "0123456789ABCDEF") 0; nth (N.to_nat (sum m mod 16)) (bytes "0123456789ABCDEF") 0].
  { unfold hex2; rewrite checksum_sum.
    have B: sum m mod 256 < 256 by apply N.mod_lt; lia.
    have D: sum m mod 256 / 16 < 16 by apply N.div_lt_upper_bound; lia.
    rewrite (N.mod_small _ _ D) !hex_digit_upper //; [apply N.mod_lt; lia|].
    do 4 f_equal. change 256 with (16 * 16); rewrite N.mod_mul_r; [lia|lia|].
    by rewrite N.mul_comm N.mod_add; [lia|]; rewrite N.mod_mod; [lia|]. }
  have NT: forall d, d < 16 -> nth (N.to_nat d) (bytes "0123456789ABCDEF") 0 <> 10.
  { move=> d Ld; rewrite -(hex_digit_upper d Ld); unfold hex_digit; destruct (N.ltb_spec d 10); lia. }
  rewrite printf_plain.
  - rewrite HD; cbn [List.length]; rewrite app_length; cbn [List.length]; lia.
  - rewrite HD; move=> [E|E]; [discriminate|].
    apply in_app_or in E; destruct E as [E|[E|[E|[E|[]]]]]; [done|discriminate| |].
    + revert E; apply NT; apply N.div_lt_upper_bound; [lia|]; apply N.mod_lt; lia.
    + revert E; apply NT; apply N.mod_lt; lia.
  - unfold frame; rewrite HD; cbn; by rewrite -app_assoc.
Qed.
