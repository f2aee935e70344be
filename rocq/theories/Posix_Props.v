(** Memory locking and select: the properties. *)
From Coq Require Import List Bool ZArith Lia.
From Verif Require Import Posix_Model Posix_Spec Posix_Proofs.
Import ListNotations.
Open Scope Z_scope.

(** ** C80: locking memory, and asking about it *)
(** Code, data, and a stack above a guard page. *)
Definition regions : list vma :=
  [ mk_vma 0x10000 0x12800 true false true; mk_vma 0x12800 0x15000 true true false;
    mk_vma 0x20000 0x21000 false false false; mk_vma 0x21000 0x25000 true true false ].

(** The calls succeed only when the whole range is mapped. *)
Theorem C80_mlock : forall w page vmas addr len, mlock w page vmas addr len = Zero ->
  addr mod page = 0 /\ whole vmas addr len.
Proof. exact mlock_sound. Qed.
Print Assumptions C80_mlock.
Theorem C80_madvise : forall w page vmas addr len a, madvise w page vmas addr len a = Zero ->
  addr mod page = 0 /\ len <> 0 /\ a <> OtherAdvice /\ whole vmas addr len.
Proof. exact madvise_sound. Qed.
Print Assumptions C80_madvise.
(** And mincore stores a one for every page that the range touches. *)
Theorem C80_mincore : forall w page vmas addr len vec bytes, 0 < page -> 0 <= len ->
  mincore w page vmas addr len vec = (Zero, bytes) ->
  addr mod page = 0 /\ whole vmas addr len /\
  exists n, bytes = repeat 1 n /\ Z.of_nat n * page - page < len <= Z.of_nat n * page.
Proof. exact mincore_sound. Qed.
Print Assumptions C80_mincore.
Example mincore_case : mincore 32 4096 regions 0x10000 0x4001 0x30000 = (Zero, [1; 1; 1; 1; 1]) /\
  mincore 32 4096 regions 0x20000 0x4001 0x30000 = (ENOMEM, []).
Proof. split; reflexivity. Qed.

(** They succeed when the range is mapped.  Partial: also one byte more must be mapped. *)
Theorem C80_mlock_partial : forall w page vmas addr len, 0 < page -> 0 <= addr -> 0 <= len -> addr + len < 2 ^ w ->
  addr mod page = 0 ->
  (forall x, addr <= x <= addr + len -> mapped vmas x /\ ~ unmapped vmas x) ->
  mlock w page vmas addr len = Zero.
Proof. exact mlock_complete. Qed.
Print Assumptions C80_mlock_partial.
Theorem C80_madvise_partial : forall w page vmas addr len a, 0 < page -> 0 < len -> addr + len < 2 ^ w ->
  addr mod page = 0 -> a <> OtherAdvice ->
  (forall x, addr <= x <= addr + len -> mapped vmas x /\ ~ unmapped vmas x) ->
  madvise w page vmas addr len a = Zero.
Proof. exact madvise_complete. Qed.
Print Assumptions C80_madvise_partial.
Theorem C80_mincore_partial : forall w page vmas addr len vec, 0 < page -> 0 <= len -> addr + len < 2 ^ w ->
  addr mod page = 0 -> 0 < vec -> vec + len < 2 ^ w ->
  (forall x, addr <= x <= addr + len -> mapped vmas x /\ ~ unmapped vmas x) ->
  fst (mincore w page vmas addr len vec) = Zero.
Proof. exact mincore_complete. Qed.
Print Assumptions C80_mincore_partial.
Example mapped_case : forall x, 0x10000 <= x <= 0x10000 + 0x4000 -> mapped regions x /\ ~ unmapped regions x.
Proof.
  intros x Hx. split.
  - destruct (Z.lt_ge_cases x 0x12800).
    + exists (mk_vma 0x10000 0x12800 true false true). split; [now left|]. unfold v_start, v_end. split; [lia|now left].
    + exists (mk_vma 0x12800 0x15000 true true false). split; [right; now left|]. unfold v_start, v_end. split; [lia|now left].
  - intros (v & V & R & N). cbn [regions In] in V. destruct V as [<-|[<-|[<-|[<-|[]]]]]; unfold v_start, v_end in R;
      try (apply N; left; reflexivity). lia.
Qed.
(** A range that ends where its region ends, with nothing mapped behind, is rejected. *)
Theorem C80_last_refuted : exists vmas addr len, addr mod 4096 = 0 /\ 0 < len /\
  whole vmas addr len /\ (forall x, ~ unmapped vmas x) /\
  mlock 32 4096 vmas addr len = ENOMEM /\ madvise 32 4096 vmas addr len Normal = ENOMEM /\
  fst (mincore 32 4096 vmas addr len 0x30000) = ENOMEM.
Proof.
  exists [mk_vma 0x10000 0x12000 true true false], 0x10000, 0x2000. repeat split.
  - intros x Hx. exists (mk_vma 0x10000 0x12000 true true false). split; [now left|]. unfold v_start, v_end. split; [lia|now left].
  - intros x (v & [<-|[]] & _ & N). apply N. now left.
Qed.
Print Assumptions C80_last_refuted.
(** Which arguments are invalid. *)
Theorem C80_invalid : forall w page vmas addr len, 0 < page -> 0 <= addr < 2 ^ w -> 0 <= len < 2 ^ w ->
  mlock w page vmas addr len = EINVAL <-> 2 ^ w <= addr + len \/ addr mod page <> 0.
Proof. exact mlock_einval. Qed.
Print Assumptions C80_invalid.
Example invalid_case : mlock 32 4096 regions 0xfffff000 0x1000 = EINVAL /\ mlock 32 4096 regions 0x10800 0x1000 = EINVAL.
Proof. split; reflexivity. Qed.

(** ** C81: select *)
Open Scope nat_scope.
Definition of_list (l : list nat) : fds := fun i => existsb (Nat.eqb i) l.
(** Descriptors 4, 5 and 7 are the sockets 2, 0 and 1. *)
Definition some_table : table := fun i => match i with 4 => Some 2 | 5 => Some 0 | 7 => Some 1 | _ => None end.
(** A server with data on sockets 0 and 1. *)
Definition some_server (n : nat) (b : shared) : Z * shared :=
  (0%Z, mk_shared (fun i => b_read b i && (i <? 2)) (b_write b) (fun _ => false)).

(** The server is asked about the sockets behind the descriptors, and the caller gets the answers
    for these descriptors.  Partial: the numbers of the sockets must be different and below those
    of descriptors. *)
Theorem C81_select_partial : forall first t server nfds r w e b, separate first nfds t -> modest server ->
  user_only first r -> user_only first w -> user_only first e ->
  forall ret r' w' e' b', newselect first t server nfds r w e b = (ret, (r', w', e'), b') ->
  exists n seen, server n seen = (ret, b') /\ (forall i k, socket first nfds t i k -> k < n) /\
    served first nfds t r r' (b_read seen) (b_read b') /\
    served first nfds t w w' (b_write seen) (b_write b') /\
    served first nfds t e e' (b_except seen) (b_except b').
Proof. exact select_spec. Qed.
Print Assumptions C81_select_partial.
Example select_case : separate 4 9 some_table /\ modest some_server /\ user_only 4 (Some (of_list [4; 5])) /\
  match newselect 4 some_table some_server 9 (Some (of_list [4; 5])) None None (mk_shared (of_list []) (of_list []) (of_list [])) with
  | (_, (Some r, None, None), _) => map r (seq 0 9) = [false; false; false; false; false; true; false; false; false]
  | _ => False
  end.
Proof.
  split; [|split; [|split; [|reflexivity]]].
  - assert (X : forall i k, socket 4 9 some_table i k -> (i = 4 /\ k = 2) \/ (i = 5 /\ k = 0) \/ (i = 7 /\ k = 1)).
    { intros i k (R & T). do 8 (destruct i as [|i]; [cbn in T; try discriminate; injection T as <-; lia|]). discriminate. }
    split; [intros i j k Hi Hj; apply X in Hi, Hj; lia|intros i k Hi; apply X in Hi; lia].
  - intros n b j _. cbn. repeat split; [|auto|discriminate]. intros H. now apply andb_prop in H as (H & _).
  - intros s k [= <-] Hk. do 4 (destruct k as [|k]; [reflexivity|]). lia.
Qed.

(** When the number of a socket is that of another descriptor, the server is asked about the wrong
    one: descriptor 4 is socket 5, and descriptor 5 is socket 6. *)
Theorem C81_overlap_refuted : exists t s,
  t 4 = Some 5 /\ t 5 = Some 6 /\ s 4 = true /\ (forall i, i <> 4 -> s i = false) /\
  fdset_to_sockset 4 t 6 s 5 = false /\ fdset_to_sockset 4 t 6 s 6 = true.
Proof.
  exists (fun i => match i with 4 => Some 5 | 5 => Some 6 | _ => None end), (of_list [4]).
  repeat split. intros i Hi. unfold of_list. cbn. destruct (Nat.eqb_spec i 4); [contradiction|reflexivity].
Qed.
Print Assumptions C81_overlap_refuted.
(** When a set is NULL the server is asked about what was asked before. *)
Theorem C81_null_refuted : exists server w,
  let '(_, _, b) := newselect 4 some_table server 9 None (Some w) None (mk_shared (of_list []) (of_list []) (of_list [])) in
  let '(ret, _, _) := newselect 4 some_table server 9 None None None b in
  ret = 1%Z /\ (forall n b, fst (server n b) = 1%Z <-> b_write b 2 = true).
Proof.
  exists (fun n b => (if b_write b 2 then 1%Z else 0%Z, b)), (of_list [4]). cbn. split; [reflexivity|].
  intros n b. destruct (b_write b 2); split; congruence.
Qed.
Print Assumptions C81_null_refuted.
