(** Proofs about the table of the memory of a component. *)
From Coq Require Import List String Bool NArith ZArith Lia Permutation Sorted.
From Verif Require Import Prelude Threads_Model Layout_Model Layout_Spec Layout_Proofs FaultMap_Model FaultMap_Spec
  FaultMap_Proofs Posix_Model Posix_Spec Posix_Proofs Ident_Model Ident_Spec.
Import ListNotations.
Open Scope Z_scope.

(** ** The table as entries for the variables *)
Definition guarded (e : extent) : list vma :=
  [ mk_vma (fst e) (fst e + P) false false false; mk_vma (fst e + P) (snd e - P) true true false;
    mk_vma (snd e - P) (snd e) false false false ].
Definition fixed (L : layout) (pool : Z) : list vma :=
  [ mk_vma (l_start L) (l_etext L) true false true; mk_vma (l_etext L) (l_preinit L) true false false;
    mk_vma (l_preinit L) (l_edata L) true true false; mk_vma (l_bss L) (l_end L) true true false;
    mk_vma (l_dma L) (l_dma L + pool) true true false ].

Lemma table_eq L pool ts : map e_vma (camkes_vmas L pool ts) = fixed L pool ++ flat_map guarded (variables L ts).
Proof.
  unfold camkes_vmas. rewrite map_app. f_equal. unfold variables.
  induction ts as [|t ts IH]; [reflexivity|]. cbn [flat_map]. rewrite map_app, IH, flat_map_app. f_equal.
  unfold thread_vmas, guarded, ipc_bytes, P. change (Z.of_N ipc_buffer) with 12288. cbn [map e_vma flat_map app fst snd].
  repeat (f_equal; try lia).
Qed.

Lemma guarded_rights e v a : In v (guarded e) -> v_start v <= a < v_end v ->
  (v_read v, v_write v, v_execute v) =
    (if (fst e + P <=? a) && (a <? snd e - P) then read_and_write else no_access) \/ snd e - fst e < 2 * P.
Proof.
  unfold guarded, P. intros I W. destruct (Z.lt_ge_cases (snd e - fst e) 8192) as [|G]; [now right|left].
  destruct I as [<-|[<-|[<-|[]]]]; cbn [v_start v_end v_read v_write v_execute] in *;
    destruct (Z.leb_spec (fst e + 4096) a); destruct (Z.ltb_spec a (snd e - 4096)); try lia; reflexivity.
Qed.
Lemma guarded_within e v a : 2 * P <= snd e - fst e -> In v (guarded e) -> v_start v <= a < v_end v ->
  fst e <= a < snd e.
Proof.
  unfold guarded, P. intros G [<-|[<-|[<-|[]]]]; cbn [v_start v_end]; lia.
Qed.
Lemma guarded_some e a : 2 * P <= snd e - fst e -> fst e <= a < snd e -> exists v, In v (guarded e) /\ v_start v <= a < v_end v.
Proof.
  unfold guarded, P. intros G W. destruct (Z.lt_ge_cases a (fst e + 4096)).
  - eexists. split; [left; reflexivity|]. cbn. lia.
  - destruct (Z.lt_ge_cases a (snd e - 4096)).
    + eexists. split; [right; left; reflexivity|]. cbn. lia.
    + eexists. split; [right; right; left; reflexivity|]. cbn. lia.
Qed.

Lemma stack_bytes_ge t : 2 * P <= stack_bytes t.
Proof. unfold stack_bytes, thread_stack, P, page. lia. Qed.
Lemma variables_big L ts e : In e (variables L ts) -> 2 * P <= snd e - fst e.
Proof.
  unfold variables. intros I. apply in_flat_map in I as (t & _ & [<-|[<-|[]]]); cbn [fst snd].
  - pose proof (stack_bytes_ge t). lia.
  - unfold ipc_bytes, P. change (Z.of_N ipc_buffer) with 12288. lia.
Qed.

(** What the table says about a variable. *)
Lemma table_says L pool ts e a : placed L pool ts -> In e (variables L ts) -> fst e <= a < snd e ->
  says (map e_vma (camkes_vmas L pool ts)) a
       (if (fst e + P <=? a) && (a <? snd e - P) then read_and_write else no_access).
Proof.
  intros (O1 & O2 & O3 & A) I W. rewrite table_eq. pose proof (variables_big _ _ _ I) as G. split.
  - destruct (guarded_some e a G W) as (v & V & B). exists v. split; [|exact B]. apply in_or_app. right.
    apply in_flat_map. eauto.
  - intros v V B. apply in_app_or in V as [V|V].
    + exfalso. inversion_clear A as [|? ? A1 A']. inversion_clear A' as [|? ? A2 A''].
      assert (R1 : apart (l_start L, l_end L) e) by (rewrite Forall_forall in A1; apply A1; now right).
      assert (R2 : apart (l_dma L, l_dma L + pool) e) by (rewrite Forall_forall in A2; now apply A2).
      unfold apart in *. cbn [fst snd] in *.
      destruct V as [<-|[<-|[<-|[<-|[<-|[]]]]]]; cbn [v_start v_end] in B; lia.
    + apply in_flat_map in V as (f & F & V). pose proof (variables_big _ _ _ F) as G'.
      inversion_clear A as [|? ? _ A']. inversion_clear A' as [|? ? _ A].
      destruct (ForallOrdPairs_In A e f I F) as [<-|[R|R]].
      * destruct (guarded_rights e v a V B) as [Q|Q]; [exact Q|lia].
      * pose proof (guarded_within f v a G' V B). unfold apart in R. lia.
      * pose proof (guarded_within f v a G' V B). unfold apart in R. lia.
Qed.

(** ** Mappings *)
Lemma whole_stack t : whole_pages t -> stack_bytes t = Z.of_N (t_stack_size t) + 2 * P.
Proof.
  unfold whole_pages, stack_bytes, thread_stack, round_up, page, P. intros H.
  apply N.mod_divide in H; [|discriminate]. destruct H as [n ->].
  replace (n * 4096 + 4096 - 1)%N with (4095 + n * 4096)%N by lia. rewrite N.div_add by discriminate.
  change (4095 / 4096)%N with 0%N. lia.
Qed.
Lemma whole_cases label t x : whole_pages t -> 0 <= Z.of_N x < stack_bytes t ->
  (faults (stack_mapping label t) x /\ (Z.of_N x < P \/ stack_bytes t - P <= Z.of_N x)) \/
  (read_write (stack_mapping label t) x /\ P <= Z.of_N x < stack_bytes t - P).
Proof.
  intros H B. pose proof (whole_stack t H) as E. unfold whole_pages in H. apply N.mod_divide in H; [|discriminate].
  destruct H as [n Hn]. destruct (stack_usable (t_stack_symbol t) label n) as (U & F & _).
  assert (Hs : t_stack_size t = (4096 * n)%N) by lia. unfold stack_mapping. rewrite Hs in *.
  unfold thread_sp, page, P in *.
  destruct (Z.lt_ge_cases (Z.of_N x) 4096); [|destruct (Z.lt_ge_cases (Z.of_N x) (stack_bytes t - 4096))].
  - left. split; [|lia]. apply guard_below. unfold thread_sp, page. lia.
  - right. split; [|lia]. apply U. lia.
  - left. split; [|lia]. apply F. lia.
Qed.
Lemma ipc_cases f x : 0 <= Z.of_N x < ipc_bytes ->
  (faults (register_ipc_symbol f) x /\ (Z.of_N x < P \/ ipc_bytes - P <= Z.of_N x)) \/
  (read_write (register_ipc_symbol f) x /\ P <= Z.of_N x < ipc_bytes - P).
Proof.
  intros B. destruct (ipc_usable f) as (U & F & F' & _). unfold ipc_bytes, thread_addr, page, P in *.
  change (Z.of_N ipc_buffer) with 12288 in *. change ipc_buffer with 12288%N in *.
  destruct (Z.lt_ge_cases (Z.of_N x) 4096); [|destruct (Z.lt_ge_cases (Z.of_N x) (12288 - 4096))].
  - left. split; [|lia]. apply F. lia.
  - right. split; [|lia]. specialize (U (x - 4096)%N ltac:(lia)). replace (4096 + (x - 4096))%N with x in U by lia.
    eexists _, _. split; [exact U|]. now split.
  - left. split; [|lia]. apply F'. lia.
Qed.

Lemma var_in L ts t : In t ts ->
  In (l_var L (t_stack_symbol t), l_var L (t_stack_symbol t) + stack_bytes t) (variables L ts) /\
  In (l_var L (t_ipc_symbol t), l_var L (t_ipc_symbol t) + ipc_bytes) (variables L ts).
Proof.
  intros I. unfold variables. split; apply in_flat_map; exists t; (split; [exact I|]); [now left|right; now left].
Qed.

Lemma true_of_var L pool ts e m : placed L pool ts -> In e (variables L ts) ->
  (forall x, 0 <= Z.of_N x < snd e - fst e ->
    (faults m x /\ (Z.of_N x < P \/ snd e - fst e - P <= Z.of_N x)) \/
    (read_write m x /\ P <= Z.of_N x < snd e - fst e - P)) ->
  true_of (map e_vma (camkes_vmas L pool ts)) (fst e) (snd e - fst e) m.
Proof.
  intros Pl I C x B. pose proof (table_says L pool ts e (fst e + Z.of_N x) Pl I ltac:(lia)) as S.
  pose proof (variables_big _ _ _ I).
  destruct (C x B) as [(F & Q)|(F & Q)]; [left|right]; (split; [exact F|]);
    destruct (Z.leb_spec (fst e + P) (fst e + Z.of_N x)); destruct (Z.ltb_spec (fst e + Z.of_N x) (snd e - P));
    try lia; exact S.
Qed.

Lemma stack_true L pool ts label t : placed L pool ts -> In t ts -> whole_pages t ->
  true_of (map e_vma (camkes_vmas L pool ts)) (l_var L (t_stack_symbol t)) (stack_bytes t) (stack_mapping label t).
Proof.
  intros Pl I H. destruct (var_in L ts t I) as (V & _).
  pose proof (true_of_var L pool ts _ (stack_mapping label t) Pl V) as T. cbn [fst snd] in T.
  replace (l_var L (t_stack_symbol t) + stack_bytes t - l_var L (t_stack_symbol t)) with (stack_bytes t) in T by lia.
  apply T. intros x B. now apply whole_cases.
Qed.
Lemma ipc_true L pool ts t f : placed L pool ts -> In t ts ->
  true_of (map e_vma (camkes_vmas L pool ts)) (l_var L (t_ipc_symbol t)) ipc_bytes (register_ipc_symbol f).
Proof.
  intros Pl I. destruct (var_in L ts t I) as (_ & V).
  pose proof (true_of_var L pool ts _ (register_ipc_symbol f) Pl V) as T. cbn [fst snd] in T.
  replace (l_var L (t_ipc_symbol t) + ipc_bytes - l_var L (t_ipc_symbol t)) with ipc_bytes in T by lia.
  apply T. intros x B. now apply ipc_cases.
Qed.

(** ** Questions about memory *)
Lemma rw_no m x : read_write m x -> ~ faults m x.
Proof. intros (c & k & E & _) F. unfold faults in F. congruence. Qed.

Lemma mapped_rw table base bytes m x : true_of table base bytes m -> 0 <= Z.of_N x < bytes ->
  mapped table (base + Z.of_N x) -> read_write m x.
Proof.
  intros T B (v & I & W & A). destruct (T x B) as [(_ & _ & S)|(R & _)]; [|exact R].
  specialize (S v I W). unfold no_access in S. injection S as S1 S2 S3.
  destruct A as [A|[A|A]]; congruence.
Qed.
Lemma lock_true table base bytes m w page addr len x : true_of table base bytes m -> 0 <= Z.of_N x < bytes ->
  mlock w page table addr len = Zero -> addr <= base + Z.of_N x < addr + len -> read_write m x.
Proof.
  intros T B E R. apply mlock_sound in E as (_ & E). apply (mapped_rw _ _ _ _ _ T B). now apply E.
Qed.
Lemma mincore_true table base bytes m w page addr len vec stored x : true_of table base bytes m -> 0 <= Z.of_N x < bytes ->
  0 < page -> 0 <= len ->
  mincore w page table addr len vec = (Zero, stored) -> addr <= base + Z.of_N x < addr + len -> read_write m x.
Proof.
  intros T B Hp Hl E R. apply mincore_sound in E as (_ & E & _); [|assumption..].
  apply (mapped_rw _ _ _ _ _ T B). now apply E.
Qed.

Lemma stack_locks L pool ts t w addr len : placed L pool ts -> In t ts -> whole_pages t -> 
  let s := l_var L (t_stack_symbol t) in
  0 <= s -> s + stack_bytes t <= 2 ^ w -> addr mod 4096 = 0 -> 0 <= len ->
  s + 4096 <= addr -> addr + len < s + 4096 + Z.of_N (t_stack_size t) ->
  mlock w 4096 (map e_vma (camkes_vmas L pool ts)) addr len = Zero.
Proof.
  intros Pl I H s S0 S1 A Hl B C. pose proof (whole_stack t H) as E. unfold P in E.
  apply mlock_complete; try lia. intros a R. destruct (var_in L ts t I) as (V & _).
  destruct (table_says L pool ts _ a Pl V) as ((v & V1 & V2) & V3). { cbn [fst snd]. fold s. lia. }
  cbn [fst snd] in V3. fold s in V3. unfold P in V3.
  destruct (Z.leb_spec (s + 4096) a); [|lia]. destruct (Z.ltb_spec a (s + stack_bytes t - 4096)); [|lia].
  cbn [andb] in V3. split.
  - exists v. split; [exact V1|]. split; [exact V2|]. specialize (V3 v V1 V2). unfold read_and_write in V3.
    left. congruence.
  - intros (u & U1 & U2 & U3). specialize (V3 u U1 U2). unfold read_and_write in V3. apply U3. left. congruence.
Qed.

(** ** Where the table is wrong *)
Lemma unaligned_wrong L pool ts label t x : placed L pool ts -> In t ts -> ~ whole_pages t ->
  (thread_sp (t_stack_size t) - t_stack_size t mod 4096 <= x < thread_sp (t_stack_size t))%N ->
  faults (stack_mapping label t) x /\
  says (map e_vma (camkes_vmas L pool ts)) (l_var L (t_stack_symbol t) + Z.of_N x) read_and_write.
Proof.
  intros Pl I H B. split; [now apply stack_unaligned|]. destruct (var_in L ts t I) as (V & _).
  unfold thread_sp, page in B. set (z := t_stack_size t) in *.
  assert (E : (Z.of_N z + 2 * P <= stack_bytes t)).
  { unfold stack_bytes, thread_stack, round_up, page, P. fold z. pose proof (N.div_mod (z + 4096 - 1) 4096 ltac:(discriminate)).
    pose proof (N.mod_lt (z + 4096 - 1) 4096 ltac:(discriminate)). lia. }
  assert (M : (t_stack_size t mod 4096 <= z)%N) by (apply N.mod_le; discriminate). fold z in M.
  unfold P in *.
  pose proof (table_says L pool ts _ (l_var L (t_stack_symbol t) + Z.of_N x) Pl V) as S. cbn [fst snd] in S.
  specialize (S ltac:(lia)). unfold P in S.
  destruct (Z.leb_spec (l_var L (t_stack_symbol t) + 4096) (l_var L (t_stack_symbol t) + Z.of_N x)); [|lia].
  destruct (Z.ltb_spec (l_var L (t_stack_symbol t) + Z.of_N x) (l_var L (t_stack_symbol t) + stack_bytes t - 4096)); [|lia].
  exact S.
Qed.

Lemma end_wrong w L pool ts label t : 
  l_start L <= l_etext L <= l_preinit L -> l_preinit L <= l_edata L <= l_bss L ->
  let s := l_var L (t_stack_symbol t) in
  0 <= s -> s + 4096 < 2 ^ w -> s mod 4096 = 0 -> l_bss L <= s -> s + 4096 < l_end L -> In t ts ->
  (forall x, (x < 4096)%N -> faults (stack_mapping label t) x) /\
  mlock w 4096 (map e_vma (camkes_vmas L pool ts)) s 4096 = Zero.
Proof.
  intros O1 O2 s S0 S1 A B C I. split.
  { intros x X. apply guard_below. unfold thread_sp, page. lia. }
  unfold mlock. rewrite Z.mod_small by lia. destruct (Z.ltb_spec (s + 4096) s); [lia|].
  change (4096 =? 0) with false. rewrite A. cbn [negb Z.eqb].
  unfold covered. destruct (Z.ltb_spec (2 ^ w - 1 - 4096) s); [lia|]. rewrite table_eq.
  cbn [covered_loop List.length]. unfold fixed, app, find, inside at 1. cbn [v_start v_end].
  destruct (Z.ltb_spec s (l_etext L)); [lia|]. rewrite andb_false_r.
  unfold inside at 1. cbn [v_start v_end]. destruct (Z.ltb_spec s (l_preinit L)); [lia|]. rewrite andb_false_r.
  unfold inside at 1. cbn [v_start v_end]. destruct (Z.ltb_spec s (l_edata L)); [lia|]. rewrite andb_false_r.
  unfold inside at 1. cbn [v_start v_end]. destruct (Z.leb_spec (l_bss L) s); [|lia].
  destruct (Z.ltb_spec s (l_end L)); [|lia]. cbn [andb v_read v_write v_execute v_end negb].
  destruct (Z.ltb_spec 4096 (l_end L - s)); [reflexivity|lia].
Qed.

Lemma dma_uncached L pool ts e a : placed L pool ts -> In e (camkes_vmas L pool ts) ->
  l_dma L <= a < l_dma L + pool -> v_start (e_vma e) <= a < v_end (e_vma e) ->
  e_cached e = false /\ v_read (e_vma e) = true /\ v_write (e_vma e) = true /\ v_execute (e_vma e) = false.
Proof.
  intros (O1 & O2 & O3 & A) I D B. unfold camkes_vmas in I. apply in_app_or in I as [I|I].
  - inversion_clear A as [|? ? A1 _]. inversion_clear A1 as [|? ? R _]. unfold apart in R. cbn [fst snd] in R.
    destruct I as [<-|[<-|[<-|[<-|[<-|[]]]]]]; cbn [e_vma e_cached v_start v_end v_read v_write v_execute] in *; try lia; repeat split.
  - exfalso. assert (J : In (e_vma e) (flat_map guarded (variables L ts))).
    { assert (K : In (e_vma e) (map e_vma (flat_map (thread_vmas L) ts))) by now apply in_map.
      pose proof (table_eq L pool ts) as T. unfold camkes_vmas in T. rewrite map_app in T.
      apply app_inv_head in T. now rewrite T in K. }
    apply in_flat_map in J as (f & F & J). pose proof (variables_big _ _ _ F) as G.
    pose proof (guarded_within f _ a G J B).
    inversion_clear A as [|? ? _ A']. inversion_clear A' as [|? ? A2 _]. rewrite Forall_forall in A2.
    specialize (A2 f F). unfold apart in A2. cbn [fst snd] in A2. lia.
Qed.

(** ** The image and everything else *)
Lemma image_says L pool ts a : placed L pool ts ->
  let table := map e_vma (camkes_vmas L pool ts) in
  (l_start L <= a < l_etext L -> says table a (true, false, true)) /\
  (l_etext L <= a < l_preinit L -> says table a (true, false, false)) /\
  (l_preinit L <= a < l_edata L \/ l_bss L <= a < l_end L -> says table a read_and_write) /\
  (l_dma L <= a < l_dma L + pool -> says table a read_and_write).
Proof.
  intros (O1 & O2 & O3 & A). cbn zeta. rewrite table_eq.
  inversion_clear A as [|? ? A1 A']. inversion_clear A' as [|? ? A2 _].
  assert (D : apart (l_start L, l_end L) (l_dma L, l_dma L + pool)) by (rewrite Forall_forall in A1; apply A1; now left).
  assert (G : forall v, In v (flat_map guarded (variables L ts)) -> v_start v <= a < v_end v ->
    ~ (l_start L <= a < l_end L) /\ ~ (l_dma L <= a < l_dma L + pool)).
  { intros v V B. apply in_flat_map in V as (f & F & V). pose proof (guarded_within f v a (variables_big _ _ _ F) V B).
    assert (R1 : apart (l_start L, l_end L) f) by (rewrite Forall_forall in A1; apply A1; now right).
    assert (R2 : apart (l_dma L, l_dma L + pool) f) by (rewrite Forall_forall in A2; now apply A2).
    unfold apart in *. cbn [fst snd] in *. lia. }
  unfold apart in D. cbn [fst snd] in D.
  assert (S : forall r v, In v (fixed L pool) -> v_start v <= a < v_end v ->
    (forall u, In u (fixed L pool) -> v_start u <= a < v_end u -> (v_read u, v_write u, v_execute u) = r) ->
    (l_start L <= a < l_end L) \/ (l_dma L <= a < l_dma L + pool) ->
    says (fixed L pool ++ flat_map guarded (variables L ts)) a r).
  { intros r v V B U W. split; [exists v; split; [apply in_or_app; now left|exact B]|].
    intros u Iu Bu. apply in_app_or in Iu as [Iu|Iu]; [now apply U|]. destruct (G u Iu Bu). tauto. }
  refine (conj _ (conj _ (conj _ _))); intros; repeat match goal with H : _ \/ _ |- says _ _ _ => destruct H end;
  match goal with
  | H : l_start L <= a < l_etext L |- _ => eapply S; [left; reflexivity|cbn; lia| |lia]
  | H : l_etext L <= a < _ |- _ => eapply S; [right; left; reflexivity|cbn; lia| |lia]
  | H : l_preinit L <= a < _ |- _ => eapply S; [do 2 right; left; reflexivity|cbn; lia| |lia]
  | H : l_bss L <= a < _ |- _ => eapply S; [do 3 right; left; reflexivity|cbn; lia| |lia]
  | H : l_dma L <= a < _ |- _ => eapply S; [do 4 right; left; reflexivity|cbn; lia| |lia]
  end;
  intros u [<-|[<-|[<-|[<-|[<-|[]]]]]]; cbn; intros; try reflexivity; exfalso; lia.
Qed.
Lemma elsewhere L pool ts a : l_start L <= l_etext L <= l_preinit L -> l_preinit L <= l_edata L <= l_bss L -> l_bss L <= l_end L ->
  Forall (fun e : extent => ~ (fst e <= a < snd e)) ((l_start L, l_end L) :: (l_dma L, l_dma L + pool) :: variables L ts) ->
  forall v, In v (map e_vma (camkes_vmas L pool ts)) -> ~ (v_start v <= a < v_end v).
Proof.
  intros O1 O2 O3 A v V B. rewrite table_eq in V. inversion_clear A as [|? ? A1 A']. inversion_clear A' as [|? ? A2 A3].
  cbn [fst snd] in *. apply in_app_or in V as [V|V].
  - destruct V as [<-|[<-|[<-|[<-|[<-|[]]]]]]; cbn [v_start v_end] in B; lia.
  - apply in_flat_map in V as (f & F & V). rewrite Forall_forall in A3. apply (A3 f F).
    exact (guarded_within f v a (variables_big _ _ _ F) V B).
Qed.

Lemma cached_unless_pool L pool ts e : In e (camkes_vmas L pool ts) ->
  e_cached e = true \/ v_start (e_vma e) = l_dma L /\ v_end (e_vma e) = l_dma L + pool /\ e_name e = "DMA pool"%string.
Proof.
  intros I. apply in_app_or in I as [[<-|[<-|[<-|[<-|[<-|[]]]]]]|I]; try (left; reflexivity); [right; repeat split|].
  apply in_flat_map in I as (t & _ & I). left. destruct I as [<-|[<-|[<-|[<-|[<-|[<-|[]]]]]]]; reflexivity.
Qed.
