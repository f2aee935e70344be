(** C02-C05: flattening a component hierarchy (camkes/parser/stage7.py). *)
From Coq Require Import List String.
From Verif Require Import Prelude Flatten_Model Flatten_Spec Flatten_Proofs Flatten_Proofs2.
Import ListNotations.
Open Scope string_scope.
Open Scope list_scope.

(** A hierarchy used as non-trivial case: type [leaf] has no insides, [mid] has
    two leaves sharing an address space and exports leaf [l]'s interface as
    [svc], [top] wraps [mid] and exports again; the assembly instantiates [top]
    twice and connects the two chains. *)
Definition num (s : string) := Conc (AttrRef_Model.Atom s).
Definition leaf := Comp [] [] [] [] [].
Definition mid := Comp [Inst "l" "s" leaf; Inst "m" "s" leaf]
  [mk_conn "c" "seL4RPC" [mk_cend (Some "l") "a"] [mk_cend (Some "m") "b"]]
  [mk_export "l" "svc" "svc"] [mk_setting "l" "x" (num "3")] [].
Definition top := Comp [Inst "w" "w" mid]
  [] [mk_export "w" "svc" "out"] [mk_setting "w" "y" (Ref "w.z" None)] [].
Definition system := Comp [Inst "p" "p" top; Inst "q" "p" top]
  [mk_conn "k" "seL4RPC" [mk_cend (Some "p") "out"] [mk_cend (Some "q") "out"]] []
  [mk_setting "p" "z" (num "1")] [].

(** Flattening always succeeds on a resolved, well-scoped hierarchy (in
    particular the alias-chasing loop ends). *)
Theorem C05_flatten_total : forall root,
  wf root -> refs_ok root -> exists fl, transform root = Ok fl.
Proof. exact transform_total. Qed.
Print Assumptions C05_flatten_total.

(** C02: no two flattened instances share a name. *)
Theorem C02_unique_names : forall root fl,
  wf root -> transform root = Ok fl -> NoDup (map iname (f_insts fl)).
Proof. exact flat_names_NoDup. Qed.
Print Assumptions C02_unique_names.

(** C03: the flattened instances coming from (p,i) and (q,j) share an address
    space exactly when p and q are the same composition and the two were given
    the same address space there. *)
Theorem C03_address_spaces : forall root fl m n a b p i q j,
  wf root -> as_ids root -> transform root = Ok fl ->
  nth_error (all_insts root) m = Some (p, i) -> nth_error (f_insts fl) m = Some a ->
  nth_error (all_insts root) n = Some (q, j) -> nth_error (f_insts fl) n = Some b ->
  (ias a = ias b <-> p = q /\ ias i = ias j).
Proof. exact flat_as. Qed.
Print Assumptions C03_address_spaces.

(** C04: exactly the declared instances, settings and connections, one per path. *)
Theorem C04_instances : forall root fl, transform root = Ok fl ->
  f_insts fl = map (fun pi => inst_at (fst pi) (snd pi)) (all_insts root).
Proof. exact transform_insts. Qed.
Print Assumptions C04_instances.

Theorem C04_settings : forall root fl, transform root = Ok fl ->
  f_settings fl = map (fun ps => setting_at (fst ps) (snd ps)) (all_settings root).
Proof. exact transform_settings. Qed.
Print Assumptions C04_settings.

(** The enumeration used above visits exactly the reachable compositions, and no
    instance path twice. *)
Theorem C04_walk_complete : forall root p c, In (p, c) (walk root) <-> at_path root p c.
Proof. exact walk_at. Qed.
Print Assumptions C04_walk_complete.
Theorem C04_paths_once : forall root,
  wf root -> NoDup (map (fun pi => fst pi ++ [iname (snd pi)]) (all_insts root)).
Proof. exact paths_NoDup. Qed.
Print Assumptions C04_paths_once.

(** C04/C05: one flat connection per declared connection and composition
    instance, with its name and type, each end designating what the declared
    end stands for through the chain of exports. *)
Theorem C05_connections : forall root fl,
  wf root -> refs_ok root -> transform root = Ok fl ->
  Forall2 (fun pc c' => conn_ok root (fst pc) (snd pc) c') (all_conns root) (f_conns fl).
Proof. exact transform_conns. Qed.
Print Assumptions C05_connections.

(** What an end stands for is unique and is itself not exported. *)
Theorem C05_chain_end_real : forall root p i q j,
  stands_for root (p, i) (q, j) ->
  exists c, at_path root q c /\ last_export (exports_of c) j = None.
Proof. exact stands_for_real. Qed.
Print Assumptions C05_chain_end_real.
Theorem C05_chain_end_unique : forall root s t t',
  wf root -> stands_for root s t -> stands_for root s t' -> t = t'.
Proof. exact stands_for_det. Qed.
Print Assumptions C05_chain_end_unique.

(** An end without instance in the outermost assembly is always rejected. *)
Theorem C05_toplevel_end_rejected : forall root k e,
  In k (conns_of root) -> In e (c_from k) \/ In e (c_to k) ->
  e_inst e = None -> forall fl, transform root <> Ok fl.
Proof. exact toplevel_end. Qed.
Print Assumptions C05_toplevel_end_rejected.

(** The hypotheses hold of [system], and the result is what one expects. *)
Lemma system_paths p c : at_path system p c -> In (p, c) (walk system).
Proof. apply walk_at. Qed.
Ltac sys_cases H :=
  apply system_paths in H; cbn in H;
  repeat destruct H as [H | H]; try contradiction;
  injection H as <- <-; cbn.
Example system_wf : wf system.
Proof.
  intros p c H. sys_cases H;
    (split; [repeat constructor; cbn; intuition discriminate | repeat constructor]).
Qed.
Example system_as_ids : as_ids system.
Proof. intros p c i H. sys_cases H; intros I; repeat destruct I as [<-|I]; try contradiction; reflexivity. Qed.
Example system_refs : refs_ok system.
Proof.
  split.
  - intros p c x H. sys_cases H; intros I; repeat destruct I as [<-|I]; try contradiction;
      (split; [discriminate | cbn; tauto]).
  - intros p c k e H. sys_cases H; intros I; repeat destruct I as [<-|I]; try contradiction;
      cbn; intros [E|E]; repeat destruct E as [<-|E]; try contradiction; cbn; tauto.
Qed.
Example system_flat : exists fl, transform system = Ok fl /\
  map iname (f_insts fl) =
    ["p"; "q"; "p.w"; "p.w.l"; "p.w.m"; "q.w"; "q.w.l"; "q.w.m"] /\
  map ias (f_insts fl) =
    ["p"; "p"; "p.w"; "p.w.s"; "p.w.s"; "q.w"; "q.w.s"; "q.w.s"] /\
  f_conns fl =
    [mk_conn "k" "seL4RPC" [mk_cend (Some "p.w.l") "svc"] [mk_cend (Some "q.w.l") "svc"];
     mk_conn "p.w.c" "seL4RPC" [mk_cend (Some "p.w.l") "a"] [mk_cend (Some "p.w.m") "b"];
     mk_conn "q.w.c" "seL4RPC" [mk_cend (Some "q.w.l") "a"] [mk_cend (Some "q.w.m") "b"]] /\
  f_settings fl =
    [mk_setting "p" "z" (num "1"); mk_setting "p.w" "y" (Ref "p.w.z" None);
     mk_setting "p.w.l" "x" (num "3"); mk_setting "q.w" "y" (Ref "q.w.z" None);
     mk_setting "q.w.l" "x" (num "3")].
Proof. eexists. vm_compute. repeat split. Qed.
