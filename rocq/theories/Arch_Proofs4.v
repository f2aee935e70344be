From Coq Require Import List String Ascii Bool NArith Permutation ssreflect Lia.
From Verif Require Import Prelude DecStr Isabelle_Model Isabelle_Spec Isabelle_Proofs Refine_Model Refine_Proofs Arch_Model Arch_Spec Arch_Proofs Arch_Proofs2 Arch_Proofs3.
Import ListNotations.
Open Scope string_scope. Open Scope list_scope.

Lemma once_all a th : arch_theory a = Ok th -> named a -> own_names a -> NoDup (map fst th).
Proof. move=> /parts_of [p _] N O. exact: (once _ N _ p O). Qed.
Lemma default_names a : as_name a = None -> as_composition a = None -> as_configuration a = None -> own_names a.
Proof.
  move=> E1 E2 E3. rewrite /own_names /assembly_name /composition_name /configuration_name E1 E2 E3. split.
  - repeat (constructor; first by move=> /=; intuition discriminate). constructor.
  - move=> n k s In1 Ik. rewrite /named_kinds /= in Ik, In1.
    move: In1 => [<-|[<-|[<-|[]]]]; move: Ik => [<-|[<-|[<-|[<-|[<-|[<-|[<-|[]]]]]]]]; discriminate.
Qed.

Lemma F2_names {A B} (R : A -> B -> Prop) (f : A -> string) (g : B -> string) l l' : Forall2 R l l' -> (forall x y, R x y -> g y = f x) -> map g l' = map f l.
Proof. move=> F H. elim: F => [|x y m m' r F IH] //=. by rewrite (H _ _ r) IH. Qed.
Lemma listed_interfaces th es c d : describes_component th es c d -> listed d = interfaces c.
Proof.
  move=> [_ [_ [H1 [H2 [H3 [H4 [H5 _]]]]]]]. rewrite /listed /interfaces.
  rewrite (F2_names _ (fun x => fst (fst x)) fst _ _ H1); first by move=> [[i o] q] [j [b s]] [-> _].
  rewrite (F2_names _ fst fst _ _ H2); first by move=> [i q] [j s] [-> _].
  rewrite (F2_names _ fst fst _ _ H3); first by move=> [i q] [j s] [-> _].
  rewrite (F2_names _ fst fst _ _ H4); first by move=> [i q] [j s] [-> _].
  rewrite (F2_names _ (fun x => fst (fst x)) fst _ _ H5); first by move=> [[i o] q] [j [b s]] [-> _]. by [].
Qed.
Lemma ends_valid a th x k f t n i : arch_theory a = Ok th -> named a -> own_names a -> ends_exist a ->
  In (x, VConnection k f t) th -> In (n, i) (f ++ t) ->
  exists js cs gs r r' d, dget (th : dict string value) (composition_name a) = Some (VComposition js cs gs) /\
    In (n, r) js /\ (forall s, In (n, s) js -> s = r) /\ dget (th : dict string value) r = Some (VSame r') /\
    dget (th : dict string value) r' = Some (VComponent d) /\ In i (listed d).
Proof.
  move=> E N O X I J.
  have [_ [c [f2 [js [cs [gs [D1 [_ [D2 [_ [F1 F2]]]]]]]]]]] := described_all _ _ N O E.
  have [p _] := parts_of _ _ E.
  have Nd : NoDup (dkeys (th : dict string value)) := once _ N _ p O.
  have [u [Iu Eu]] : exists u, In u (as_connections a) /\ In (n, i) (cn_from u ++ cn_to u).
  { have Z : exists u, In u (as_connections a) /\ f = cn_from u /\ t = cn_to u; last by move: Z => [u [H1 [H2 H3]]]; subst; exists u.
    rewrite (pth _ _ p) !in_app_iff in I.
    have PC := pcomp _ _ p. case Ec: (t_comp _ _ p) PC I => [? ?] /composition_inv [? [? [? [-> _]]]].
    move=> [I'|[I'|[I'|[I'|[I'|[I'|[I'|I']]]]]]] //.
    - have [z [_ Ez]] := F2_in_r _ _ _ _ (pk _ _ p) I'. move: Ez. rewrite /connector_def.
      case: isabelle_adl_ident => [?|] //= H. injection H as _ H. by case: k_spec H.
    - have [z [_ Ez]] := F2_in_r _ _ _ _ (pp _ _ p) I'. move: Ez. rewrite /procedure_def.
      case: isabelle_adl_ident => [?|] //=. by case: mapM.
    - have [z [_ Ez]] := F2_in_r _ _ _ _ (pe _ _ p) I'. move: Ez. rewrite /event_def. by case: isabelle_adl_ident.
    - have [z [_ Ez]] := F2_in_r _ _ _ _ (pd _ _ p) I'. move: Ez. rewrite /dataport_def. by case: isabelle_dataport.
    - have [z [_ Ez]] := F2_in_r _ _ _ _ (pc _ _ p) I'. have [_ [d [? _]]] := component_inv _ _ _ Ez. by [].
    - have [z [_ Ez]] := F2_in_r _ _ _ _ (pi _ _ p) I'. have [_ [r [_ H]]] := def_i _ _ Ez. by [].
    - have [z [Iz Ez]] := F2_in_r _ _ _ _ (pn _ _ p) I'. have [_ [r [_ H]]] := def_n _ _ Ez. cbn [snd] in H.
      injection H as _ -> ->. by exists z.
    - move: I' => /= [H|[H|[H|]]] //. }
  have Ie : In (n, i) (ends a) by apply/in_flat_map; exists u.
  have [t2 [It Ii]] := X _ _ Ie.
  have [[m r] [Ijs [Em [r' [d [G1 [G2 G3]]]]]]] := F2_in_l _ _ _ _ F1 It. subst m.
  have Ec : c = composition_name a.
  { have G : In (assembly_name a, VAssembly (composition_name a) (configuration_name a) (as_extra a)) th.
    { rewrite (pth _ _ p) !in_app_iff /=. tauto. }
    have G' := In_dget _ _ _ _ Nd G. rewrite G' in D1. by injection D1. }
  subst c. exists js, cs, gs, r, r', d. do 2 (split=> //). split.
  - move=> s Is.
    have Nj : NoDup (map fst js).
    { have -> : map fst js = map fst (as_instances a).
      { apply: F2_names F1 _ => [[u1 u2] [v1 v2]] [-> _]. by []. }
      exact: (nm_instances _ N). }
    have H := nodup_map_inj fst _ _ _ Nj Is Ijs eq_refl. by injection H.
  - do 2 (split=> //). by rewrite (listed_interfaces _ _ _ _ G3).
Qed.
Lemma last_ok a th : arch_theory a = Ok th -> as_name a = None -> incl (last_lemma a) (map fst th).
Proof.
  move=> /parts_of [p _] E. rewrite (pth _ _ p) /last_lemma /assembly_name E. move=> x I.
  have -> : x = "assembly'" by move: I => /= [<-|[<-|[]]].
  rewrite !map_app !in_app_iff /=. tauto.
Qed.
Lemma hier_check s : identifier s = true -> hierarchical s.
Proof. exact: identifier_hierarchical. Qed.
Lemma hier_dot s t : identifier s = true -> identifier t = true -> hierarchical (s ++ "." ++ t).
Proof. move=> Hs Ht. exists s, [t]. split=> //. split=> //. by constructor. Qed.
Lemma buf_type n : dataport_type (sized_buffer n).
Proof. right. by exists n. Qed.

Lemma small_named n c : named (small n c).
Proof.
  have B : forall s, ("Buf_" ++ s)%string <> "Buf(4096)" /\ ("Buf_" ++ s)%string <> "Ring" by [].
  constructor.
  - cbn. repeat (constructor; first by (by apply: hier_check) || (by apply: (hier_dot "s")) ). constructor.
  - cbn. constructor; first exact: (buf_type 4096). constructor; first exact: (buf_type 4096). constructor; first by left. constructor.
  - cbn. repeat (constructor; first by move=> /=; intuition discriminate). constructor.
  - cbn. repeat (constructor; first by move=> /=; intuition discriminate). constructor.
  - move=> x y /= [<-|[<-|[]]] [<-|[<-|[]]] //=.
  - move=> x y /= [<-|[<-|[]]] [<-|[<-|[]]] //=.
  - move=> x y. cbn. intuition congruence.
  - move=> m _. cbn -[append]. have [B1 B2] := B (dec m). intuition congruence.
Qed.
Lemma small_connected n c : connected (small n c).
Proof.
  split.
  - cbn. repeat (constructor; first by move=> /=; intuition discriminate). constructor.
  - move=> m d i q. cbn. move=> [H|[H|[]]]; injection H as <- <-; cbn; last by [].
    move=> [H|[H|[]]]; injection H => *; subst => //. by left.
Qed.
Lemma small_ends n c : ends_exist (small n c).
Proof.
  move=> m i. cbn. move=> [H|[H|[H|[H|[]]]]]; injection H as <- <-.
  - exists client. cbn. tauto.
  - exists server. cbn. tauto.
  - exists client. cbn. tauto.
  - exists server. cbn. tauto.
Qed.
Lemma small_printable n c : printable (small n c).
Proof.
  move=> q m x Iq Im Ix.
  have Eq : q = greet by move: Iq; cbn; intuition congruence.
  subst q. move: Im => /= [Em|[]]. subst m. move: Ix => /= [<-|[<-|[<-|[]]]] /=; intuition congruence.
Qed.
Lemma idle_named : named idle.
Proof.
  have B : forall s, ("Buf_" ++ s)%string <> "Buf(4096)" /\ ("Buf_" ++ s)%string <> "Ring" by [].
  constructor.
  - cbn. repeat (constructor; first by (by apply: hier_check)). constructor.
  - cbn. constructor; first exact: (buf_type 4096). constructor; first by left. constructor.
  - cbn. repeat (constructor; first by move=> /=; intuition discriminate). constructor.
  - cbn. constructor.
  - move=> x y /= [].
  - move=> x y /= [<-|[]] [<-|[]] //=.
  - move=> x y. cbn. intuition congruence.
  - move=> m _. cbn -[append]. have [B1 B2] := B (dec m). intuition congruence.
Qed.

Lemma own_small n : In n ["Sys"; "system"] -> own_names (small (Some n) None).
Proof.
  move=> In1. rewrite /own_names /assembly_name /composition_name /configuration_name /=. split.
  - move: In1 => /= [<-|[<-|[]]]; repeat (constructor; first by move=> /=; intuition discriminate); constructor.
  - move=> m k s Im Ik. rewrite /named_kinds /= in Ik, Im.
    move: In1 => /= [E|[E|[]]]; subst n; move: Im => [<-|[<-|[<-|[]]]]; move: Ik => [<-|[<-|[<-|[<-|[<-|[<-|[<-|[]]]]]]]]; discriminate.
Qed.
Lemma last_broken : exists a th x, named a /\ own_names a /\ printable a /\ connected a /\ ends_exist a /\
  arch_theory a = Ok th /\ In x (last_lemma a) /\ ~ In x (map fst th).
Proof.
  have N := small_named (Some "Sys") None.
  have O : own_names (small (Some "Sys") None) by apply: own_small; left.
  have P := small_printable (Some "Sys") None.
  have [th E] := accepted_all _ N P.
  exists (small (Some "Sys") None), th, "assembly'". do 2 (split=> //). split; first exact: P.
  split; first exact: small_connected. split; first exact: small_ends. split=> //. split; first by left.
  vm_compute in E. injection E as <-. cbn. intuition discriminate.
Qed.
Lemma names_clash : exists a th, named a /\ printable a /\ connected a /\ ends_exist a /\
  arch_theory a = Ok th /\ ~ NoDup (map fst th).
Proof.
  have N := small_named None (Some "component__c1"). have P := small_printable None (Some "component__c1").
  have [th E] := accepted_all _ N P.
  exists (small None (Some "component__c1")), th. split=> //. split; first exact: P.
  split; first exact: small_connected. split; first exact: small_ends. split=> //.
  vm_compute in E. injection E as <-. cbn. move=> Nd.
  repeat (match goal with H : NoDup (_ :: _) |- _ => inversion H as [|? ? ?Na ?Nb]; subst; clear H end).
  repeat match goal with H : ~ In "component__c1" _ |- _ => apply: H; cbn; tauto end.
Qed.
Lemma exported_kept : exists a th n c i r d, named a /\ own_names a /\ printable a /\ connected a /\ ends_exist a /\
  arch_theory a = Ok th /\ In (n, c) (as_instances a) /\ In i (co_exports c) /\
  isabelle_adl_ident "instance" (co_name c) = Ok r /\ In (r, VComponent d) th /\ In i (listed d).
Proof.
  have N := small_named None None. have P := small_printable None None.
  have [th E] := accepted_all _ N P.
  have O : own_names (small None None) by apply: default_names.
  have [p _] := parts_of _ _ E.
  have I : In ("s.one", server) (as_instances (small None None)) by right; left.
  have [v [Iv Dv]] := component_name _ _ p ("s.one", server) "instance__Server" I eq_refl.
  have [_ [d [Ed [_ [_ [_ [_ [H3 _]]]]]]]] := component_inv _ _ _ Dv. subst v.
  exists (small None None), th, "s.one", server, "x", "instance__Server", d.
  split=> //. split=> //. split; first exact: P. split; first exact: small_connected. split; first exact: small_ends.
  split=> //. split=> //. split; first by left. split=> //. split; first by rewrite (pth _ _ p) !in_app_iff; tauto.
  rewrite /listed !in_app_iff. right. right. left.
  have [[y s] [Iy [_ Ey]]] := F2_in_l _ _ _ ("x", "Ring") H3 ltac:(by right; left).
  cbn in Ey. subst y. by apply: (in_map fst _ ("x", s)).
Qed.
Lemma no_control : exists a th, named a /\ own_names a /\ printable a /\ ends_exist a /\ as_instances a <> [] /\
  arch_theory a = Ok th /\ forall n d, In (n, VComponent d) th -> c_control d = false.
Proof.
  have P : printable idle.
  { move=> q m x Iq Im Ix. have Eq : q = greet by move: Iq; cbn; intuition congruence.
    subst q. move: Im => /= [Em|[]]. subst m. move: Ix => /= [<-|[<-|[<-|[]]]] /=; intuition congruence. }
  have [th E] := accepted_all _ idle_named P.
  exists idle, th. split; first exact: idle_named. split; first by apply: default_names. split; first exact: P.
  split; first by move=> n i []. split=> //. split=> //.
  have [p _] := parts_of _ _ E. move=> n d.
  vm_compute in E. injection E as <-. cbn. move=> I. repeat (destruct I as [I|I]; [first [discriminate I|injection I as _ <-; reflexivity]|]). by [].
Qed.
Lemma described_some a th : named a -> own_names a -> arch_theory a = Ok th ->
  exists es, NoDup es /\ describes_assembly th es a (assembly_name a).
Proof. move=> N O E. exists (events a). exact: described_all. Qed.
