(** Letters and digits, and names in which every other character became an underscore. *)
From Coq Require Import List String Ascii Bool.
Import ListNotations.
Open Scope string_scope. Open Scope list_scope.

Definition letters_digits : list ascii :=
  list_ascii_of_string "ABCDEFGHIJKLMNOPQRSTUVWXYZabcdefghijklmnopqrstuvwxyz0123456789".

Inductive mangled : string -> string -> Prop :=
  | mangled_nil : mangled "" ""
  | mangled_keep c s t : In c letters_digits -> mangled s t -> mangled (String c s) (String c t)
  | mangled_other c s t : ~ In c letters_digits -> mangled s t -> mangled (String c s) (String "_" t).

Lemma mangled_fun s t u : mangled s t -> mangled s u -> t = u.
Proof.
  intros A. revert u. induction A as [|c s t I A IH|c s t I A IH]; intros u B; inversion B; subst; auto;
    try contradiction; f_equal; auto.
Qed.
Lemma mangled_app a b s t : mangled a s -> mangled b t -> mangled (a ++ b)%string (s ++ t)%string.
Proof. intros A B. induction A; simpl; [exact B|constructor; auto|constructor; auto]. Qed.

Definition is_alnum (c : ascii) : bool := existsb (Ascii.eqb c) letters_digits.
Lemma is_alnum_In c : is_alnum c = true <-> In c letters_digits.
Proof.
  unfold is_alnum. rewrite existsb_exists. split.
  - intros (x & I & E). apply Ascii.eqb_eq in E. subst. exact I.
  - intros I. exists c. split; [exact I|apply Ascii.eqb_refl].
Qed.
