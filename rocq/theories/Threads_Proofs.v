From Coq Require Import List String Ascii Bool NArith Lia Arith FinFun.
From Coq Require Import ssreflect ssrbool.
From Verif Require Import Prelude DecStr Chars Threads_Model Threads_Spec Flatten_Proofs.
Import ListNotations.
Open Scope string_scope. Open Scope list_scope.

Definition nu (c : ascii) : bool := ~~ Ascii.eqb c "_"%char.
Lemma digit_nu s : all_chars is_digit s = true -> all_chars nu s = true.
Proof.
  elim: s => [|c s IH] //= /andP [D /IH ->]. rewrite andb_true_r /nu.
  case: Ascii.eqb_spec => // E. by subst.
Qed.
Lemma app_cons_assoc a b c : (a ++ "_" ++ b ++ "_" ++ c = (a ++ "_" ++ b) ++ String "_" c)%string.
Proof. by rewrite !string_app_assoc. Qed.

Lemma iface_name_inj inst i x j y : iface_thread_name inst i x = iface_thread_name inst j y -> i = j /\ x = y.
Proof.
  rewrite /iface_thread_name !app_cons_assoc => E.
  have [E1 E2] := sep_inj "_"%char nu _ _ _ _ eq_refl (digit_nu _ (decpad_digits 4 x)) (digit_nu _ (decpad_digits 4 y)) E.
  move: E1 => /string_app_inj_l /string_app_inj_l ->. split=> //. exact: decpad_inj E2.
Qed.
Lemma control_iface inst i x : control_name inst <> iface_thread_name inst i x.
Proof.
  rewrite /control_name /iface_thread_name app_cons_assoc.
  have -> : (sanitize inst ++ "_0_control" = (sanitize inst ++ "_0") ++ String "_" "control")%string
    by rewrite string_app_assoc.
  move=> E.
  have [_ E2] := sep_inj "_"%char nu _ _ _ _ eq_refl (eq_refl : all_chars nu "control" = true) (digit_nu _ (decpad_digits 4 x)) E.
  have := decpad_digits 4 x. by rewrite -E2.
Qed.
Lemma fault_iface inst i x : fault_name inst <> iface_thread_name inst i x.
Proof.
  rewrite /fault_name /iface_thread_name app_cons_assoc.
  have -> : (sanitize inst ++ "_0_fault_handler" = (sanitize inst ++ "_0_fault") ++ String "_" "handler")%string
    by rewrite string_app_assoc.
  move=> E.
  have [_ E2] := sep_inj "_"%char nu _ _ _ _ eq_refl (eq_refl : all_chars nu "handler" = true) (digit_nu _ (decpad_digits 4 x)) E.
  have := decpad_digits 4 x. by rewrite -E2.
Qed.
Lemma control_fault inst : control_name inst <> fault_name inst.
Proof. rewrite /control_name /fault_name => /string_app_inj_l. by []. Qed.

(** The middle of the list. *)
Definition block conf dflt inst (p : string * N) : list thread :=
  map (fun x => new_thread (iface_thread_name inst (fst p) x) (Some (fst p)) x
                  (stack_size conf dflt (fst p)))
      (map N.of_nat (seq 0 (N.to_nat (snd p)))).
Lemma side_blocks conf dflt inst n l :
  flat_map (end_threads conf dflt inst n) l =
  flat_map (block conf dflt inst) (map (fun e => (snd e, n)) (filter (fun e => String.eqb (fst e) inst) l)).
Proof.
  elim: l => [|e l IH] //=. rewrite IH /end_threads. by case: String.eqb.
Qed.
Lemma middle_blocks conf dflt inst cs :
  flat_map (conn_threads conf dflt inst) cs = flat_map (block conf dflt inst) (ifaces_of inst cs).
Proof.
  elim: cs => [|c cs IH] //=. by rewrite /ifaces_of /= -/(ifaces_of inst cs) !flat_map_app -IH /conn_threads !side_blocks.
Qed.

Definition iname inst (p : string * N) := iface_thread_name inst (fst p) (snd p).
Lemma block_names conf dflt inst p :
  map t_name (block conf dflt inst p) =
  map (iname inst) (map (fun x => (fst p, N.of_nat x)) (seq 0 (N.to_nat (snd p)))).
Proof. by rewrite /block !map_map. Qed.
Lemma middle_NoDup conf dflt inst l : NoDup (map fst l) ->
  NoDup (map t_name (flat_map (block conf dflt inst) l)).
Proof.
  elim: l => [|p l IH] /= N; first by constructor. inversion N as [|? ? N1 N2]; subst.
  rewrite map_app. apply: NoDup_app_intro.
  - rewrite block_names map_map. apply: Injective_map_NoDup; last exact: seq_NoDup.
    move=> x y; rewrite /iname => /iface_name_inj [_] /=. lia.
  - exact: IH.
  - move=> nm. rewrite block_names map_map => /in_map_iff [x [<- _]] /in_map_iff [t [E]].
    move=> /in_flat_map [q [Iq]]. rewrite /block map_map => /in_map_iff [y [Et _]]. subst t.
    move: E => /iface_name_inj [E _]. cbn in E. apply: N1. rewrite -E. exact: in_map.
Qed.

Lemma threads_names cs inst conf dflt d : connected_once inst cs ->
  NoDup (map t_name (threads cs inst conf dflt d)).
Proof.
  move=> ONCE. rewrite /threads middle_blocks /=.
  have MID : forall nm, In nm (map t_name (flat_map (block conf dflt inst) (ifaces_of inst cs))) ->
     exists i x, nm = iface_thread_name inst i x.
  { move=> nm /in_map_iff [t [<- /in_flat_map [p [_]]]]. rewrite /block map_map => /in_map_iff [x [<- _]].
    by exists (fst p), (N.of_nat x). }
  constructor.
  - rewrite map_app in_app_iff => -[/MID [i [x E]]|]; first exact: control_iface E.
    case: d => //= -[E|//]. exact: (control_fault _ (eq_sym E)).
  - rewrite map_app. apply: NoDup_app_intro; first exact: middle_NoDup.
    + case: d; cbn; repeat constructor; by case.
    + move=> nm /MID [i [x ->]]. case: d => //= -[E|//]. exact: fault_iface E.
Qed.
Lemma app_pre_NoDup (f : thread -> string) pre ts : (forall t, In t ts -> f t = (pre ++ t_name t)%string) ->
  NoDup (map t_name ts) -> NoDup (map f ts).
Proof.
  elim: ts => [|t ts IH] H /= N; first by constructor.
  inversion N as [|? ? N1 N2]; subst. constructor; last by apply: IH => // u I; apply: H; right.
  move=> /in_map_iff [u [E I]]. apply: N1.
  rewrite (H u (or_intror I)) (H t (or_introl eq_refl)) in E. move: E => /string_app_inj_l <-. exact: in_map.
Qed.
Lemma threads_symbols cs inst conf dflt d t : In t (threads cs inst conf dflt d) ->
  t_stack_symbol t = ("_camkes_stack_" ++ t_name t)%string /\
  t_ipc_symbol t = ("_camkes_ipc_buffer_" ++ t_name t)%string.
Proof.
  rewrite /threads middle_blocks => -[<- //|/in_app_iff [|]].
  - move=> /in_flat_map [p [_]]. by rewrite /block map_map => /in_map_iff [x [<- _]].
  - by case: d => //= -[<-|].
Qed.
Lemma threads_stack_ipc cs inst conf dflt d : connected_once inst cs ->
  NoDup (map t_stack_symbol (threads cs inst conf dflt d)) /\
  NoDup (map t_ipc_symbol (threads cs inst conf dflt d)) /\
  forall t u, In t (threads cs inst conf dflt d) -> In u (threads cs inst conf dflt d) ->
    t_stack_symbol t <> t_ipc_symbol u.
Proof.
  move=> O. have N := threads_names cs inst conf dflt d O. split; last split.
  - apply: (app_pre_NoDup _ "_camkes_stack_") N => t /threads_symbols [-> _]. by [].
  - apply: (app_pre_NoDup _ "_camkes_ipc_buffer_") N => t /threads_symbols [_ ->]. by [].
  - by move=> t u /threads_symbols [-> _] /threads_symbols [_ ->].
Qed.

(** Counting *)
Lemma serving_app a b i : serving (a ++ b) i = (serving a i + serving b i)%nat.
Proof. by rewrite /serving filter_app app_length. Qed.
Lemma serving_block conf dflt inst p i :
  serving (block conf dflt inst p) i = if String.eqb (fst p) i then N.to_nat (snd p) else O.
Proof.
  rewrite /serving /block. move: (map N.of_nat _) (map_length N.of_nat (seq 0 (N.to_nat (snd p)))) => l.
  rewrite seq_length => <-. elim: l => [|x l IH] /=; first by case: String.eqb.
  case E: (String.eqb (fst p) i) IH => /= -> //.
Qed.
Lemma serving_blocks conf dflt inst l i n : NoDup (map fst l) -> In (i, n) l ->
  serving (flat_map (block conf dflt inst) l) i = N.to_nat n.
Proof.
  elim: l => [|p l IH] //= N I. inversion N as [|? ? N1 N2]; subst.
  rewrite serving_app serving_block. case: I => [E|I].
  - subst p. cbn. rewrite String.eqb_refl.
    have -> : serving (flat_map (block conf dflt inst) l) i = O; last lia.
    elim: l {IH N N2} N1 => [|q l IH] //= N1. rewrite serving_app serving_block.
    case: String.eqb_spec => [E|_]; first by case: N1; left.
    rewrite IH //. move=> X. apply: N1. by right.
  - case: String.eqb_spec => [E|_]; last exact: IH.
    case: N1. rewrite E. exact: (in_map fst _ _ I).
Qed.
Lemma serving_none conf dflt inst l i : ~ In i (map fst l) ->
  serving (flat_map (block conf dflt inst) l) i = O.
Proof.
  elim: l => [|q l IH] //= N1. rewrite serving_app serving_block.
  case: String.eqb_spec => [E|_]; first by case: N1; left.
  rewrite IH //. move=> X. apply: N1. by right.
Qed.
Lemma threads_serving cs inst conf dflt d i : connected_once inst cs ->
  (forall n, In (i, n) (ifaces_of inst cs) -> serving (threads cs inst conf dflt d) i = N.to_nat n) /\
  (~ In i (map fst (ifaces_of inst cs)) -> serving (threads cs inst conf dflt d) i = O).
Proof.
  move=> O. rewrite /threads middle_blocks.
  have E : forall mid tl, (tl = [] \/ exists t, tl = [t] /\ t_iface t = None) ->
    serving (new_thread (control_name inst) None 0 (stack_size conf dflt "") :: mid ++ tl) i = serving mid i.
  { move=> mid tl H. rewrite {1}/serving /= -/(serving (mid ++ tl) i) serving_app.
    case: H => [->|[t [-> T]]]; rewrite /serving /= ?T /=; lia. }
  have T : forall (d : bool), (if d then [new_thread (fault_name inst) None 0 dflt] else []) = [] \/
    exists t, (if d then [new_thread (fault_name inst) None 0 dflt] else []) = [t] /\ t_iface t = None.
  { case; [right|by left]. by eexists. }
  split.
  - move=> n I. rewrite E //. exact: serving_blocks.
  - move=> N. rewrite E //. exact: serving_none.
Qed.
Lemma threads_control cs inst conf dflt d :
  exists rest, threads cs inst conf dflt d =
    new_thread (control_name inst) None 0 (stack_size conf dflt "") :: rest /\
  forall t, In t rest -> t_name t <> control_name inst.
Proof.
  eexists. split=> //. move=> t. rewrite middle_blocks in_app_iff => -[|].
  - move=> /in_flat_map [p [_]]. rewrite /block map_map => /in_map_iff [x [<- _]] /= E.
    exact: (control_iface _ _ _ (eq_sym E)).
  - case: d => //= -[<-|//] /= E. exact: (control_fault _ (eq_sym E)).
Qed.
Lemma threads_fault cs inst conf dflt d t : In t (threads cs inst conf dflt d) ->
  t_name t = fault_name inst <-> d = true /\ t = new_thread (fault_name inst) None 0 dflt.
Proof.
  rewrite /threads middle_blocks => -[<-|/in_app_iff [|]].
  - split; first by move=> /control_fault. by move=> [_ [/control_fault]].
  - move=> /in_flat_map [p [_]]. rewrite /block map_map => /in_map_iff [x [<- _]].
    split; first by move=> /= E; case: (fault_iface _ _ _ (eq_sym E)).
    by move=> [_ []].
  - by case: d => //= -[<-|].
Qed.
Lemma threads_fault_last cs inst conf dflt :
  exists front, threads cs inst conf dflt true = front ++ [new_thread (fault_name inst) None 0 dflt] /\
    threads cs inst conf dflt false = front.
Proof. rewrite /threads app_nil_r. eexists. split; last by reflexivity. by []. Qed.
Lemma threads_iface cs inst conf dflt d i : connected_once inst cs -> forall n, In (i, n) (ifaces_of inst cs) ->
  forall x, (x < n)%N -> exists t, In t (threads cs inst conf dflt d) /\ t_iface t = Some i /\ t_index t = x /\
    t_stack_size t = match dget conf (i ++ "_stack_size")%string with Some k => k | None => dflt end.
Proof.
  move=> _ n I x L. exists (new_thread (iface_thread_name inst i x) (Some i) x (stack_size conf dflt i)).
  split; last by []. rewrite /threads middle_blocks. right. apply/in_app_iff. left.
  apply/in_flat_map. exists (i, n). split=> //. rewrite /block. apply/in_map_iff. exists x. split=> //.
  apply/in_map_iff. exists (N.to_nat x). split; first lia. apply/in_seq. cbn. lia.
Qed.

(** Names *)
Lemma alnum_spec c : alnum c = true <-> In c letters_digits.
Proof. rewrite -is_alnum_In. by case: c => [[] [] [] [] [] [] [] []]. Qed.
Lemma sanitize_mangled s : mangled s (sanitize s).
Proof.
  elim: s => [|c s IH] /=; first by constructor.
  case E: (alnum c); constructor=> //; rewrite -alnum_spec E //.
Qed.
Lemma threads_named cs inst conf dflt d t m : In t (threads cs inst conf dflt d) -> mangled inst m ->
  (match t_iface t with
   | None => t_index t = 0%N /\ (t_name t = m ++ "_0_control" \/ t_name t = m ++ "_0_fault_handler")
   | Some i => exists digits, undec digits = Some (t_index t) /\ String.length digits = Nat.max 4 (String.length (dec (t_index t))) /\
       t_name t = m ++ "_" ++ i ++ "_" ++ digits
   end /\
   t_stack_symbol t = "_camkes_stack_" ++ t_name t /\ t_ipc_symbol t = "_camkes_ipc_buffer_" ++ t_name t)%string.
Proof.
  move=> I M. split; last exact: threads_symbols I.
  rewrite -(mangled_fun _ _ _ (sanitize_mangled inst) M). move: I.
  rewrite /threads middle_blocks => -[<- /=|/in_app_iff [|]].
  - split=> //. by left.
  - move=> /in_flat_map [p [_]]. rewrite /block map_map => /in_map_iff [x [<- _]] /=.
    exists (decpad 4 (N.of_nat x)). split; last split=> //.
    + exact: undec_decpad.
    + rewrite /decpad. have L : forall k s, String.length (zeros k s) = (k + String.length s)%nat
        by elim=> [|k IH] s //=; rewrite IH.
      rewrite L. move: (String.length (dec (N.of_nat x))) => n. do 4 (destruct n as [|n]; first reflexivity). reflexivity.
  - case: d => //= -[<-|//] /=. split=> //. by right.
Qed.
Lemma threads_control_first cs inst conf dflt d m : mangled inst m ->
  exists t rest, threads cs inst conf dflt d = t :: rest /\ t_name t = (m ++ "_0_control")%string /\
    t_iface t = None /\
    t_stack_size t = match dget conf "_stack_size" with Some k => k | None => dflt end /\
    forall u, In u rest -> t_name u <> t_name t.
Proof.
  move=> M. case: (threads_control cs inst conf dflt d) => rest [-> N]. do 2 eexists. split; first by [].
  rewrite /= -(mangled_fun _ _ _ (sanitize_mangled inst) M). by do 3 split=> //.
Qed.
Lemma threads_fault_handler cs inst conf dflt m : mangled inst m ->
  exists front t, threads cs inst conf dflt true = front ++ [t] /\ threads cs inst conf dflt false = front /\
    t_name t = (m ++ "_0_fault_handler")%string /\ t_iface t = None /\ t_stack_size t = dflt /\
    forall u, In u front -> t_name u <> t_name t.
Proof.
  move=> M. case: (threads_fault_last cs inst conf dflt) => front [E1 E2].
  exists front. eexists. split; first exact: E1. split; first by [].
  rewrite /= -(mangled_fun _ _ _ (sanitize_mangled inst) M). do 3 split=> //.
  move=> u I E. have I' : In u (threads cs inst conf dflt false) by rewrite E2.
  by move: (proj1 (threads_fault cs inst conf dflt false u I') E) => [].
Qed.
Lemma every_name inst : exists m, mangled inst m /\ forall m', mangled inst m' -> m' = m.
Proof.
  exists (sanitize inst). split; first exact: sanitize_mangled.
  move=> m' M. exact: mangled_fun M (sanitize_mangled inst).
Qed.
