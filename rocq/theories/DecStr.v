(** Decimal printing of numbers ([str(n)], [%d], [%04d], [{i:0{w}}]). *)
From Coq Require Import ssreflect ssrbool List String Ascii Bool Arith NArith Lia.
From Coq Require Import Decimal DecimalString DecimalN DecimalFacts.
From Verif Require Import Prelude.
Import ListNotations.
Open Scope string_scope.

(** [str(n)] for a non-negative integer. *)
Definition dec (n : N) : string := NilEmpty.string_of_uint (N.to_uint n).

Fixpoint zeros (k : nat) (s : string) : string :=
  match k with O => s | S k => String "0"%char (zeros k s) end.
(** ['%0wd' % n] *)
Definition decpad (w : nat) (n : N) : string := zeros (w - String.length (dec n)) (dec n).

Fixpoint all_chars (f : ascii -> bool) (s : string) : bool :=
  match s with EmptyString => true | String c s => f c && all_chars f s end.
Definition is_digit (c : ascii) : bool :=
  let n := N_of_ascii c in (48 <=? n)%N && (n <=? 57)%N.

Lemma string_of_uint_digits d : all_chars is_digit (NilEmpty.string_of_uint d) = true.
Proof. by elim: d. Qed.
Lemma dec_digits n : all_chars is_digit (dec n) = true.
Proof. exact: string_of_uint_digits. Qed.
Lemma zeros_digits k s : all_chars is_digit s = true -> all_chars is_digit (zeros k s) = true.
Proof. by elim: k. Qed.
Lemma decpad_digits w n : all_chars is_digit (decpad w n) = true.
Proof. apply: zeros_digits. exact: dec_digits. Qed.

(** Reading back. *)
Definition undec (s : string) : option N :=
  option_map N.of_uint (NilEmpty.uint_of_string s).
Lemma undec_dec n : undec (dec n) = Some n.
Proof. by rewrite /undec /dec NilEmpty.usu /= DecimalN.Unsigned.of_to. Qed.
Lemma undec_zeros k s n : undec s = Some n -> undec (zeros k s) = Some n.
Proof.
  elim: k => [|k IH] //= H. move: (IH H). rewrite /undec /=.
  case: NilEmpty.uint_of_string => //=.
Qed.
Lemma undec_decpad w n : undec (decpad w n) = Some n.
Proof. apply: undec_zeros. exact: undec_dec. Qed.
Lemma dec_inj m n : dec m = dec n -> m = n.
Proof. move=> E. have := undec_dec m. rewrite E undec_dec. by case. Qed.
Lemma decpad_inj w w' m n : decpad w m = decpad w' n -> m = n.
Proof. move=> E. have := undec_decpad w m. rewrite E undec_decpad. by case. Qed.

(** Splitting at the last occurrence of a separator that the tails lack. *)
Lemma all_chars_app f a b : all_chars f (a ++ b) = all_chars f a && all_chars f b.
Proof. elim: a => [|c a IH] //=. by rewrite IH andb_assoc. Qed.
Lemma sep_inj (c : ascii) (f : ascii -> bool) a b a' b' :
  f c = false -> all_chars f b = true -> all_chars f b' = true ->
  (a ++ String c b = a' ++ String c b')%string -> a = a' /\ b = b'.
Proof.
  move=> F B B'. elim: a a' => [|x a IH] [|x' a'] /=.
  - by case.
  - case=> _ E. exfalso. rewrite E all_chars_app /= F andb_false_r in B. by [].
  - case=> _ E. exfalso. rewrite -E all_chars_app /= F andb_false_r in B'. by [].
  - case=> -> /IH [-> ->]. by [].
Qed.
Lemma string_app_inj_l (a b c : string) : (a ++ b = a ++ c)%string -> b = c.
Proof. elim: a => [|x a IH] //= []. exact: IH. Qed.
Lemma string_length_app a b : String.length (a ++ b)%string = String.length a + String.length b.
Proof. by elim: a => [|x a IH] //=; rewrite IH. Qed.
Lemma string_app_inj_r (a b c : string) : (b ++ a = c ++ a)%string -> b = c.
Proof.
  elim: b c => [|x b IH] [|y c] //= E.
  - exfalso. have := f_equal String.length E. rewrite /= string_length_app. lia.
  - exfalso. have := f_equal String.length E. rewrite /= string_length_app. lia.
  - case: E => -> /IH ->. by [].
Qed.
Lemma string_app_assoc (a b c : string) : ((a ++ b) ++ c = a ++ (b ++ c))%string.
Proof. elim: a => [|x a IH] //=. by rewrite IH. Qed.
