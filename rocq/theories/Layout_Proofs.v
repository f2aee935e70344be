(** Proofs about the placement of stacks, IPC buffers and filled frames (C85) and
    about access rights (C86). *)
From Coq Require Import List String Ascii Bool NArith ZArith Lia ZifyN.
From Verif Require Import Prelude DecStr Layout_Model Layout_Spec.
Import ListNotations.
Open Scope string_scope.
Open Scope list_scope.
Open Scope N_scope.
Ltac Zify.zify_post_hook ::= Z.div_mod_to_equations.

Lemma look_pages caps : forall x,
  look (repeat page (List.length caps)) caps x =
  match nth_error caps (N.to_nat (x / page)) with
  | Some None => Nothing
  | Some (Some c) => ByteOf c (x mod page)
  | None => Image
  end.
Proof.
  induction caps as [|c caps IH]; intros x; cbn [repeat List.length look].
  - destruct (N.to_nat (x / page)); reflexivity.
  - destruct (N.ltb_spec x page) as [H|H].
    + rewrite N.div_small, N.mod_small by assumption. reflexivity.
    + rewrite IH. unfold page in *.
      replace (N.to_nat (x / 4096)) with (S (N.to_nat ((x - 4096) / 4096))) by lia.
      replace ((x - 4096) mod 4096) with (x mod 4096) by lia.
      reflexivity.
Qed.

Lemma nth_range n i : (i < n) -> nth_error (range n) (N.to_nat i) = Some i.
Proof.
  intros H. unfold range. rewrite nth_error_map.
  rewrite (nth_error_nth' _ 0%nat) by (rewrite seq_length; lia).
  rewrite seq_nth by lia. cbn. f_equal. lia.
Qed.
Lemma range_length n : List.length (range n) = N.to_nat n.
Proof. unfold range. rewrite map_length, seq_length. reflexivity. Qed.

Lemma stack_at symbol size label x :
  at_offset (register_stack_symbol symbol size label) x =
  if x / page =? 0 then Nothing
  else if x / page <=? size / page
  then ByteOf (mk_cap (stack_frame symbol label (size / page) (x / page - 1)) true true false)
              (x mod page)
  else if x / page =? size / page + 1 then Nothing else Image.
Proof.
  unfold at_offset, register_stack_symbol. cbn [fst snd].
  set (n := size / page). set (caps := [None] ++ _ ++ [None]).
  assert (L : List.length caps = N.to_nat (n + 2)).
  { unfold caps. rewrite !app_length, !map_length, range_length. cbn [List.length]. lia. }
  rewrite <- L, look_pages. unfold caps. set (q := x / page). clearbody q. clear caps L.
  cbn [app]. destruct (N.eqb_spec q 0) as [->|H0]; [reflexivity|].
  replace (N.to_nat q) with (S (N.to_nat (q - 1))) by lia. cbn [nth_error].
  destruct (N.leb_spec q n) as [H1|H1].
  - rewrite nth_error_app1 by (rewrite !map_length, range_length; lia).
    rewrite !nth_error_map, nth_range by lia. reflexivity.
  - rewrite nth_error_app2 by (rewrite !map_length, range_length; lia).
    rewrite !map_length, range_length.
    destruct (N.eqb_spec q (n + 1)) as [H2|H2].
    + replace (N.to_nat (q - 1) - N.to_nat n)%nat with 0%nat by lia. reflexivity.
    + replace (N.to_nat (q - 1) - N.to_nat n)%nat with (S (N.to_nat (q - n - 2))) by lia.
      cbn. destruct (N.to_nat (q - n - 2)); reflexivity.
Qed.

Ltac cases :=
  repeat match goal with
  | |- context [N.eqb ?a ?b] => destruct (N.eqb_spec a b)
  | |- context [N.leb ?a ?b] => destruct (N.leb_spec a b)
  | |- context [N.ltb ?a ?b] => destruct (N.ltb_spec a b)
  end; try (unfold page in *; lia); try reflexivity.

(** Size a multiple of the page size. *)
Lemma stack_usable symbol label n :
  let m := register_stack_symbol symbol (page * n) label in
  let sp := thread_sp (page * n) in
  (forall x, sp - page * n <= x < sp -> read_write m x) /\
  (forall x, sp <= x < sp + page -> faults m x) /\
  thread_stack (page * n) = sp + page.
Proof.
  cbn zeta. unfold read_write, faults. repeat split.
  - intros x H. rewrite stack_at. unfold thread_sp in H.
    assert (E : (page * n) / page = n) by (unfold page; lia). rewrite E.
    destruct (N.eqb_spec (x / page) 0); [unfold page in *; lia|].
    destruct (N.leb_spec (x / page) n); [|unfold page in *; lia].
    eexists _, _. split; [reflexivity|]. split; reflexivity.
  - intros x H. rewrite stack_at. unfold thread_sp in H.
    assert (E : (page * n) / page = n) by (unfold page; lia). rewrite E. cases.
  - unfold thread_stack, thread_sp, round_up, page. lia.
Qed.

(** Whatever the size, the page below the stack is unmapped. *)
Lemma stack_below symbol label size x :
  x < page -> faults (register_stack_symbol symbol size label) x.
Proof. intros H. unfold faults. rewrite stack_at. rewrite N.div_small by assumption. reflexivity. Qed.

Lemma stack_start size : thread_sp size - size = page.
Proof. unfold thread_sp. lia. Qed.

Lemma stack_unaligned symbol label size :
  size mod page <> 0 ->
  forall x, thread_sp size - size mod page <= x < thread_sp size ->
  faults (register_stack_symbol symbol size label) x.
Proof.
  intros H x Hx. unfold faults, thread_sp in *. rewrite stack_at.
  assert (x / page = size / page + 1) as -> by (unfold page in *; lia). cases.
Qed.

Lemma stack_unaligned_above symbol label size :
  size mod page <> 0 ->
  let top := thread_stack size - page in
  thread_sp size < top + page /\
  forall x, top <= x < top + page ->
  at_offset (register_stack_symbol symbol size label) x = Image.
Proof.
  intros H. cbn zeta. unfold thread_stack, thread_sp, round_up. split; [unfold page in *; lia|].
  intros x Hx. rewrite stack_at.
  assert (x / page = size / page + 2) as -> by (unfold page in *; lia). cases.
Qed.

(** Frames of different pages and different stacks. *)
Lemma digits_no_underscore w i : all_chars (fun c => negb (Ascii.eqb c "_")) (decpad w i) = true.
Proof.
  generalize (decpad_digits w i). generalize (decpad w i) as s. induction s as [|c s IH]; [reflexivity|].
  cbn [all_chars]. rewrite !andb_true_iff. intros [H1 H2]. split; [|auto].
  unfold is_digit in H1. destruct (Ascii.eqb_spec c "_") as [->|]; [discriminate H1|reflexivity].
Qed.

(** The last underscore separates. *)
Lemma last_underscore a b i j w w' :
  (a ++ "_" ++ decpad w i = b ++ "_" ++ decpad w' j)%string -> a = b /\ i = j.
Proof.
  intros H. change (a ++ String "_" (decpad w i) = b ++ String "_" (decpad w' j))%string in H.
  apply (sep_inj "_" (fun c => negb (Ascii.eqb c "_"))) in H;
    [|reflexivity|apply digits_no_underscore|apply digits_no_underscore].
  destruct H as [H1 H2]. split; [exact H1|exact (decpad_inj _ _ _ _ H2)].
Qed.

Lemma stack_frame_inj s s' label n n' i j :
  f_name (stack_frame s label n i) = f_name (stack_frame s' label n' j) -> s = s' /\ i = j.
Proof.
  cbn [f_name stack_frame]. intros H. apply string_app_inj_l in H.
  rewrite <- !string_app_assoc in H. apply string_app_inj_r in H. apply string_app_inj_r in H.
  apply string_app_inj_r in H. rewrite !string_app_assoc in H.
  exact (last_underscore _ _ _ _ _ _ H).
Qed.

Lemma stack_memory s s' label size size' x y :
  same_memory (register_stack_symbol s size label) (register_stack_symbol s' size' label) x y ->
  s = s' /\ x = y.
Proof.
  intros (c & k & c' & k' & H & H' & E & Ek). rewrite stack_at in H, H'.
  destruct (N.eqb_spec (x / page) 0) as [?|Hx]; [discriminate|].
  destruct (N.eqb_spec (y / page) 0) as [?|Hy]; [discriminate|].
  destruct (x / page <=? size / page);
    [|destruct (x / page =? size / page + 1); discriminate].
  destruct (y / page <=? size' / page);
    [|destruct (y / page =? size' / page + 1); discriminate].
  injection H as <- <-. injection H' as <- <-. cbn [c_frame] in E.
  apply stack_frame_inj in E as [-> E]. split; [reflexivity|]. unfold page in *. lia.
Qed.

(** The IPC buffer. *)
Lemma ipc_at f x :
  at_offset (register_ipc_symbol f) x =
  if x / page =? 0 then Nothing
  else if x / page =? 1 then ByteOf (mk_cap f true true false) (x mod page)
  else if x / page =? 2 then Nothing else Image.
Proof.
  unfold at_offset, register_ipc_symbol. cbn [fst snd].
  rewrite (look_pages [None; Some (mk_cap f true true false); None]).
  set (q := x / page). clearbody q.
  destruct (N.eqb_spec q 0) as [->|]; [reflexivity|].
  destruct (N.eqb_spec q 1) as [->|]; [reflexivity|].
  destruct (N.eqb_spec q 2) as [->|]; [reflexivity|].
  replace (N.to_nat q) with (S (S (S (N.to_nat (q - 3))))) by lia. cbn.
  destruct (N.to_nat (q - 3)); reflexivity.
Qed.
Lemma ipc_usable f :
  let m := register_ipc_symbol f in
  (forall k, k < page -> at_offset m (thread_addr + k) = ByteOf (mk_cap f true true false) k) /\
  (forall x, x < thread_addr -> faults m x) /\
  (forall x, thread_addr + page <= x < ipc_buffer -> faults m x) /\
  ipc_buffer = thread_addr + page + page.
Proof.
  cbn zeta. unfold faults, thread_addr, ipc_buffer. repeat split.
  - intros k H. rewrite ipc_at.
    assert ((page + k) / page = 1) as -> by (unfold page in *; lia).
    assert ((page + k) mod page = k) as -> by (unfold page in *; lia). reflexivity.
  - intros x H. rewrite ipc_at, N.div_small by assumption. reflexivity.
  - intros x H. rewrite ipc_at.
    assert (x / page = 2) as -> by (unfold page in *; lia). reflexivity.
Qed.

(** Filled frames. *)
Lemma fill_at symbol source size label x :
  at_offset (register_fill_frame symbol source size label) x =
  if x / page <? size / page
  then ByteOf (mk_cap (fill_frame symbol source size label (size / page) (x / page)) true false false)
              (x mod page)
  else Image.
Proof.
  unfold at_offset, register_fill_frame. cbn [fst snd].
  set (n := size / page). set (caps := map _ (map _ (range n))).
  assert (L : List.length caps = N.to_nat n) by (unfold caps; rewrite !map_length; apply range_length).
  rewrite <- L, look_pages. unfold caps. set (q := x / page). clearbody q.
  destruct (N.ltb_spec q n) as [H|H].
  - rewrite !nth_error_map, nth_range by assumption. reflexivity.
  - rewrite (proj2 (nth_error_None _ _)) by (rewrite !map_length, range_length; lia). reflexivity.
Qed.

Lemma fill_contents symbol source label n memory x :
  x < page * n ->
  contents memory (register_fill_frame symbol source (page * n) label) x = Some (memory source x) /\
  read_only (register_fill_frame symbol source (page * n) label) x.
Proof.
  intros H. unfold contents, read_only. rewrite fill_at.
  assert (E : page * n / page = n) by (unfold page; lia). rewrite E.
  destruct (N.ltb_spec (x / page) n); [|unfold page in *; lia]. split.
  - unfold filled, fill_frame. cbn [c_frame f_fill fl_at fl_len fl_source fl_from].
    destruct (N.leb_spec page (page * n - x / page * page)); [|unfold page in *; lia].
    destruct (N.leb_spec 0 (x mod page)); [|lia].
    destruct (N.ltb_spec (x mod page) (0 + page)); [|unfold page in *; lia].
    cbn [andb]. do 2 f_equal. unfold page. lia.
  - eexists _, _. split; [reflexivity|]. split; reflexivity.
Qed.

Lemma fill_frame_inj s source size label n n' i j :
  f_name (fill_frame s source size label n i) = f_name (fill_frame s source size label n' j) -> i = j.
Proof.
  cbn [f_name fill_frame]. intros H.
  rewrite <- !string_app_assoc in H. apply string_app_inj_r in H.
  rewrite !string_app_assoc in H.
  apply string_app_inj_l in H. apply string_app_inj_l in H. apply string_app_inj_l in H.
  apply string_app_inj_l in H. exact (decpad_inj _ _ _ _ H).
Qed.
Lemma fill_memory symbol source size label x y :
  same_memory (register_fill_frame symbol source size label)
              (register_fill_frame symbol source size label) x y -> x = y.
Proof.
  intros (c & k & c' & k' & H & H' & E & Ek). rewrite fill_at in H, H'.
  destruct (x / page <? size / page); [|discriminate].
  destruct (y / page <? size / page); [|discriminate].
  injection H as <- <-. injection H' as <- <-. cbn [c_frame] in E.
  apply fill_frame_inj in E. unfold page in *. lia.
Qed.

Lemma fill_tail symbol source size label memory x :
  size / page * page <= x -> contents memory (register_fill_frame symbol source size label) x = None.
Proof.
  intros H. unfold contents. rewrite fill_at.
  destruct (N.ltb_spec (x / page) (size / page)); [unfold page in *; lia|reflexivity].
Qed.

Lemma dtb_pages d : exists n, dtb_bytes d = page * n /\ d + page <= dtb_bytes d < d + page + page.
Proof.
  exists ((d + 4096 - 1) / 4096 + 1). unfold dtb_bytes, round_up, page. split; lia.
Qed.
Lemma dtb_contents d label memory x :
  x < d + page ->
  contents memory (register_dtb d label) x =
    Some (memory "CDL_FrameFill_BootInfo CDL_FrameFill_BootInfo_FDT" x) /\
  read_only (register_dtb d label) x.
Proof.
  intros H. destruct (dtb_pages d) as (n & E & Hn). unfold register_dtb. rewrite E.
  apply fill_contents. lia.
Qed.

(** Rights. *)
Lemma has_char_occurs c s : has_char c s = true <-> occurs c s.
Proof.
  induction s as [|d s IH]; cbn [has_char].
  - split; [discriminate|]. intros H. inversion H.
  - rewrite orb_true_iff. split.
    + intros [H|H]; [apply Ascii.eqb_eq in H; subst d; constructor|constructor; apply IH; exact H].
    + intros H. inversion H; subst; [left; apply Ascii.eqb_refl|right; apply IH; assumption].
Qed.

Definition pick (b : bool) (c : ascii) (s : string) : string := if b then String c s else s.
Lemma opt_char_shape c s : exists b, s = pick b c (opt_char c s) /\
  (b = false -> opt_char c s = s).
Proof.
  destruct s as [|d s]; [exists false; split; reflexivity|]. cbn [opt_char].
  destruct (Ascii.eqb_spec c d) as [->|H].
  - exists true. split; [reflexivity|discriminate].
  - exists false. split; reflexivity.
Qed.
Lemma perm_match_shape s : perm_match s = true ->
  exists r w x p t, (t = "" \/ t = newline) /\
  s = pick r "R" (pick w "W" (pick x "X" (pick p "P" t))).
Proof.
  unfold perm_match. intros H.
  destruct (opt_char_shape "R" s) as (r & Er & _).
  destruct (opt_char_shape "W" (opt_char "R" s)) as (w & Ew & _).
  destruct (opt_char_shape "X" (opt_char "W" (opt_char "R" s))) as (x & Ex & _).
  destruct (opt_char_shape "P" (opt_char "X" (opt_char "W" (opt_char "R" s)))) as (p & Ep & _).
  set (t := opt_char "P" _) in *. exists r, w, x, p, t. split.
  - apply orb_true_iff in H as [H|H]; apply String.eqb_eq in H; [left|right]; exact H.
  - rewrite <- Ep, <- Ex, <- Ew. exact Er.
Qed.

Lemma perm_shape_match r w x p : perm_match (pick r "R" (pick w "W" (pick x "X" (pick p "P" "")))) = true.
Proof. destruct r, w, x, p; reflexivity. Qed.

Lemma rights_given r w x :
  r || w || x = true ->
  dataport_rights (Some (pick r "R" (pick w "W" (pick x "X" "")))) = Ok (r, w, x).
Proof. destruct r, w, x; intros H; try discriminate H; reflexivity. Qed.

Lemma rights_default : dataport_rights None = Ok (true, true, true).
Proof. reflexivity. Qed.

Lemma rights_only s r w x :
  s <> "" -> dataport_rights (Some s) = Ok (r, w, x) ->
  (r = true <-> occurs "R" s) /\ (w = true <-> occurs "W" s) /\ (x = true <-> occurs "X" s).
Proof.
  intros Hs H. destruct s as [|c s]; [contradiction|].
  unfold dataport_rights, get_perm in H. destruct (perm_match (String c s)); [|discriminate].
  cbn [bind] in H. unfold mapping_rights in H.
  assert (H' : has_char "R" (String c s) = r /\ has_char "W" (String c s) = w /\
               has_char "X" (String c s) = x) by (repeat split; congruence).
  destruct H' as (<- & <- & <-). split; [|split]; apply has_char_occurs.
Qed.

Lemma rights_refused s c :
  occurs c s -> c <> "R"%char -> c <> "W"%char -> c <> "X"%char -> c <> "P"%char ->
  c <> ascii_of_nat 10 ->
  dataport_rights (Some s) = Err TemplateError.
Proof.
  intros Ho H1 H2 H3 H4 H5. destruct s as [|d s]; [inversion Ho|].
  unfold dataport_rights, get_perm. destruct (perm_match (String d s)) eqn:E; [|reflexivity].
  exfalso. apply perm_match_shape in E as (r & w & x & p & t & Ht & Es). rewrite Es in Ho.
  assert (K : forall b e u, occurs c (pick b e u) -> c <> e -> occurs c u).
  { intros b e u Hu He. destruct b; [|exact Hu]. inversion Hu; subst; [contradiction|assumption]. }
  repeat (apply K in Ho; [|assumption]).
  destruct Ht as [->| ->]; inversion Ho; subst; [apply H5; reflexivity|].
  match goal with H : occurs _ "" |- _ => inversion H end.
Qed.

Lemma rights_repeated_aux s : documented s ->
  dataport_rights (Some s) = Err TemplateError \/ s = "" \/
  exists r w x, s = pick r "R" (pick w "W" (pick x "X" "")).
Proof.
  intros Hd. destruct s as [|d s]; [right; left; reflexivity|].
  unfold dataport_rights, get_perm. destruct (perm_match (String d s)) eqn:E; [|left; reflexivity].
  right. right. apply perm_match_shape in E as (r & w & x & p & t & Ht & Es).
  exists r, w, x. rewrite Es in *. clear Es.
  assert (K : forall b e u, documented (pick b e u) -> documented u).
  { intros b e u Hu. destruct b; [|exact Hu]. inversion Hu; assumption. }
  pose proof (K _ _ _ (K _ _ _ (K _ _ _ Hd))) as Hp.
  destruct p.
  - inversion Hp as [|? ? [F|[F|F]] _]; discriminate F.
  - cbn [pick] in *. destruct Ht as [->| ->]; [reflexivity|].
    inversion Hp as [|? ? [F|[F|F]] _]; discriminate F.
Qed.

Lemma rights_order :
  (exists s, documented s /\ dataport_rights (Some s) = Err TemplateError) /\
  (forall s, documented s ->
     dataport_rights (Some s) = Err TemplateError \/ s = "" \/
     exists r w x : bool, s = ((if r then "R" else "") ++ (if w then "W" else "") ++
                               (if x then "X" else ""))%string).
Proof.
  split.
  - exists "WR". split; [|reflexivity].
    apply a_letter; [auto|]. apply a_letter; [auto|]. apply no_letter.
  - intros s H. destruct (rights_repeated_aux s H) as [E|[E|(r & w & x & E)]]; [auto|auto|].
    right. right. exists r, w, x. rewrite E. destruct r, w, x; reflexivity.
Qed.

Lemma rights_letters (r w x : bool) :
  r || w || x = true ->
  dataport_rights (Some ((if r then "R" else "") ++ (if w then "W" else "") ++
                         (if x then "X" else ""))%string) = Ok (r, w, x).
Proof. destruct r, w, x; exact (rights_given _ _ _). Qed.

Lemma guard_below symbol label size x :
  thread_sp size - size - 4096 <= x < thread_sp size - size ->
  faults (register_stack_symbol symbol size label) x.
Proof. intros [_ H]. rewrite stack_start in H. exact (stack_below symbol label size x H). Qed.

Lemma dtb_all d label memory x :
  x < d + 4096 ->
  x < dtb_bytes d /\
  contents memory (register_dtb d label) x =
    Some (memory "CDL_FrameFill_BootInfo CDL_FrameFill_BootInfo_FDT" x) /\
  read_only (register_dtb d label) x.
Proof.
  intros H. split.
  - destruct (dtb_pages d) as (n & _ & [Hl _]). exact (N.lt_le_trans _ _ _ H Hl).
  - exact (dtb_contents d label memory x H).
Qed.
