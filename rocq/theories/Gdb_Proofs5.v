(** Proofs: registers and breakpoints. *)
From Coq Require Import ssreflect String Ascii List NArith ZArith Lia Bool.
From Coq Require Import ZifyN.
From Verif Require Import Gdb_Model Gdb_Spec Gdb_Proofs Gdb_Proofs3 Gdb_Proofs4.
Import ListNotations.
Open Scope N_scope.
Ltac Zify.zify_post_hook ::= Z.to_euclidean_division_equations.

(** ** Words and bytes *)
Lemma byte_lt w k : byte_of w k < 256.
Proof. unfold byte_of; apply N.mod_lt; lia. Qed.
Lemma bytes_of_four b3 b2 b1 b0 : b0 < 256 -> b1 < 256 -> b2 < 256 -> b3 < 256 ->
  hex8 (b3 * 256 ^ 3 + b2 * 256 ^ 2 + b1 * 256 + b0) = flat_map hex_of_byte [b3; b2; b1; b0].
Proof.
  move=> L0 L1 L2 L3; cbn [flat_map List.app hex_of_byte].
  rewrite -!hex_digit_lower; try (apply N.mod_lt; lia); try (apply N.div_lt_upper_bound; lia).
  unfold hex8; cbn [map].
  change (16 ^ 7) with 268435456; change (16 ^ 6) with 16777216; change (16 ^ 5) with 1048576; change (16 ^ 4) with 65536;
  change (16 ^ 3) with 4096; change (16 ^ 2) with 256; change (16 ^ 1) with 16; change (16 ^ 0) with 1;
  change (256 ^ 3) with 16777216; change (256 ^ 2) with 65536.
  repeat (f_equal; [f_equal; lia|]); f_equal; f_equal; lia.
Qed.
Lemma hex_word_swap w : hex8 (bswap w) = hex_word w.
Proof.
  unfold bswap; rewrite bytes_of_four; try apply byte_lt.
  unfold hex_word, little_endian, byte_of.
  change (256 ^ 0) with 1; change (256 ^ 1) with 256; change (256 ^ 2) with 65536; change (256 ^ 3) with 16777216.
  by rewrite N.div_1_r.
Qed.
Lemma swap_number v : v < 2 ^ 32 -> bswap (number 16 (flat_map (fun b => [b / 16; b mod 16]) (little_endian v))) = v.
Proof.
  move=> L.
  set b0 := v mod 256; set b1 := v / 256 mod 256; set b2 := v / 65536 mod 256; set b3 := v / 16777216 mod 256.
  have E: number 16 (flat_map (fun b => [b / 16; b mod 16]) (little_endian v)) = b0 * 16777216 + b1 * 65536 + b2 * 256 + b3.
  { unfold number, little_endian; fold b0 b1 b2 b3; cbn [flat_map List.app fold_left].
    have D0 := N.div_mod b0 16; have D1 := N.div_mod b1 16; have D2 := N.div_mod b2 16; have D3 := N.div_mod b3 16. lia. }
  rewrite E; unfold bswap, byte_of.
  change (256 ^ 0) with 1; change (256 ^ 1) with 256; change (256 ^ 2) with 65536; change (256 ^ 3) with 16777216.
  have L0: b0 < 256 by apply N.mod_lt; lia.
  have L1: b1 < 256 by apply N.mod_lt; lia.
  have L2: b2 < 256 by apply N.mod_lt; lia.
  have L3: b3 < 256 by apply N.mod_lt; lia.
  have E3: (b0 * 16777216 + b1 * 65536 + b2 * 256 + b3) / 1 mod 256 = b3 by clearbody b0 b1 b2 b3; clear E L; lia.
  have E2: (b0 * 16777216 + b1 * 65536 + b2 * 256 + b3) / 256 mod 256 = b2 by clearbody b0 b1 b2 b3; clear E L; lia.
  have E1: (b0 * 16777216 + b1 * 65536 + b2 * 256 + b3) / 65536 mod 256 = b1 by clearbody b0 b1 b2 b3; clear E L; lia.
  have E0: (b0 * 16777216 + b1 * 65536 + b2 * 256 + b3) / 16777216 mod 256 = b0 by clearbody b0 b1 b2 b3; clear E L; lia.
  rewrite E0 E1 E2 E3; unfold b0, b1, b2, b3; clear -L; lia.
Qed.
