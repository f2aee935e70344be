(** Properties C62 (dataport pointers), C63 (cache maintenance of dataports) and C64
    (physical addresses of hardware dataports). *)
From Coq Require Import List ZArith Bool Lia.
From Verif Require Import Prelude Dataport_Model Dataport_Spec Dataport_Proofs.
Import ListNotations.
Open Scope Z_scope.

(** ** C62 *)

(** A pointer into a dataport, wrapped by one component and unwrapped by the component at
    the other end of the connection, points to the same offset of that dataport there. *)
Theorem C62_round_trip_partial : forall w ds es ptr d e,
  word_size w -> layout w ds -> (forall d, connected ds d -> range_checked w d) ->
  connected ds d -> inside d ptr ->
  connected es e -> one_end es e -> placed w e -> d_id e = d_id d -> d_size d <= d_size e ->
  unwrap_ptr w es (wrap_ptr w ds ptr) = d_base e + (ptr - d_base d) /\
  inside e (d_base e + (ptr - d_base d)).
Proof. exact round_trip. Qed.
Print Assumptions C62_round_trip_partial.

Definition A1 : port := mk_port Shared 4096 4096 1 true.
Definition A2 : port := mk_port (Hardware false) 8192 100 2 true.
Definition A3 : port := mk_port Shared 20480 4096 7 false.
Definition B1 : port := mk_port Shared 65536 4096 1 true.
Definition B2 : port := mk_port (Hardware true) 77824 128 2 true.
Definition AS : list port := [A3; A1; A2].
Definition BS : list port := [B2; B1].
Lemma ex_layout w : word_size w -> layout w AS.
Proof.
  intros W. split.
  - intros d [[<-|[<-|[<-|[]]]] L]; try discriminate; destruct W as [-> | ->]; unfold placed; simpl; lia.
  - intros d e x [[<-|[<-|[<-|[]]]] L] [[<-|[<-|[<-|[]]]] L']; try discriminate; unfold inside; simpl; lia.
Qed.
Example C62_ex_round_trip : word_size 64 /\ layout 64 AS /\ (forall d, connected AS d -> range_checked 64 d) /\
  connected AS A2 /\ inside A2 8211 /\ connected BS B2 /\ one_end BS B2 /\ placed 64 B2 /\
  d_id B2 = d_id A2 /\ d_size A2 <= d_size B2 /\
  wrap_ptr 64 AS 8211 = mk_dptr 2 19 /\ unwrap_ptr 64 BS (mk_dptr 2 19) = 77843.
Proof.
  split; [right; reflexivity|]. split; [apply ex_layout; right; reflexivity|].
  split; [intros d [[<-|[<-|[<-|[]]]] L]; intros [_ K]; discriminate|].
  split; [split; [right; right; left; reflexivity|reflexivity]|].
  split; [unfold inside; simpl; lia|]. split; [split; [left; reflexivity|reflexivity]|].
  split; [intros e [[<-|[<-|[]]] L] E; [reflexivity|discriminate]|].
  split; [unfold placed; simpl; lia|]. split; [reflexivity|]. split; [simpl; lia|]. split; reflexivity.
Qed.

(** A pointer into no dataport is not wrapped: the identifier of the result is -1. *)
Theorem C62_foreign_partial : forall w ds ptr,
  word_size w -> layout w ds -> (forall d, connected ds d -> range_checked w d) ->
  0 <= ptr < 2 ^ w -> (forall d, connected ds d -> ~ inside d ptr) -> x_id (wrap_ptr w ds ptr) = -1.
Proof. exact wrap_outside. Qed.
Print Assumptions C62_foreign_partial.

Example C62_ex_foreign : layout 32 AS /\ (forall d, connected AS d -> ~ inside d 8292) /\
  wrap_ptr 32 AS 8292 = mk_dptr (-1) 0 /\ wrap_ptr 32 AS 8291 = mk_dptr 2 99.
Proof.
  split; [apply ex_layout; left; reflexivity|].
  split; [intros d [[<-|[<-|[<-|[]]]] L]; try discriminate; unfold inside; simpl; lia|]. split; reflexivity.
Qed.

(** Missing from the two above: on a 64-bit machine, a hardware dataport whose type is a plain
    buffer (its size is written as a number) takes every pointer below it for its own, so a
    pointer into no dataport is wrapped, and a pointer into another dataport is delivered as
    a pointer elsewhere. *)
Theorem C62_foreign_refuted : exists ds ptr, layout 64 ds /\ 0 <= ptr < 2 ^ 64 /\
  (forall d, connected ds d -> ~ inside d ptr) /\ x_id (wrap_ptr 64 ds ptr) <> -1.
Proof.
  exists [B2], 4096. split.
  - split.
    + intros d [[<-|[]] L]. unfold placed. simpl. lia.
    + intros d e x [[<-|[]] L] [[<-|[]] L']. simpl. auto.
  - split; [lia|]. split; [|vm_compute; discriminate]. intros d [[<-|[]] L]. unfold inside. simpl. lia.
Qed.
Print Assumptions C62_foreign_refuted.
Theorem C62_round_trip_refuted : exists ds d ptr, layout 64 ds /\ connected ds d /\ inside d ptr /\
  x_id (wrap_ptr 64 ds ptr) <> d_id d.
Proof.
  exists BS, B1, 65537. split.
  - split.
    + intros d [[<-|[<-|[]]] L]; unfold placed; simpl; lia.
    + intros d e x [[<-|[<-|[]]] L] [[<-|[<-|[]]] L']; unfold inside; simpl; lia.
  - split; [split; [right; left; reflexivity|reflexivity]|]. split; [unfold inside; simpl; lia|]. vm_compute. discriminate.
Qed.
Print Assumptions C62_round_trip_refuted.

(** A wrapped pointer with the identifier of no dataport of the component unwraps to NULL. *)
Theorem C62_unknown : forall w es p, (forall e, connected es e -> d_id e <> x_id p) -> unwrap_ptr w es p = 0.
Proof. exact unwrap_unknown. Qed.
Print Assumptions C62_unknown.

Example C62_ex_unknown : (forall e, connected AS e -> d_id e <> 7) /\ unwrap_ptr 64 AS (mk_dptr 7 4) = 0.
Proof. split; [|reflexivity]. intros e [[<-|[<-|[<-|[]]]] L]; simpl; (discriminate || lia). Qed.

(** But the offset is not checked: a wrapped pointer received from another component may
    unwrap to an address in no dataport. *)
Theorem C62_offset_refuted : exists es p, layout 64 es /\ unwrap_ptr 64 es p <> 0 /\
  forall e, connected es e -> ~ inside e (unwrap_ptr 64 es p).
Proof.
  exists AS, (mk_dptr 1 1000000). split; [apply ex_layout; right; reflexivity|].
  split; [vm_compute; discriminate|].
  change (unwrap_ptr 64 AS (mk_dptr 1 1000000)) with 1004096.
  intros e [[<-|[<-|[<-|[]]]] L]; unfold inside; simpl; lia.
Qed.
Print Assumptions C62_offset_refuted.

(** ** C63 *)

(** The system calls of a cache operation on a part of a dataport cover exactly the bytes of
    that part, each call on a frame of the dataport and within it; the end offset passed to
    the kernel is taken as that of the last byte. *)
Theorem C63_bytes_partial : forall pre fs post page start dsize off size,
  laid_out fs page start dsize -> NoDup (map f_cap fs) -> (forall f, In f pre -> f_vaddr f <> start) ->
  0 <= off -> 0 <= size -> off < dsize -> off + size <= dsize ->
  exists calls, flush_cache (pre ++ fs ++ post) off size start dsize = Done calls /\
    (forall c, In c calls -> (exists f, In f fs /\ c_cap c = f_cap f) /\ 0 <= c_start c <= c_end c /\ c_end c < page) /\
    forall b, (exists c f, In c calls /\ In f fs /\ c_cap c = f_cap f /\ covers_to f (c_start c) (c_end c) b)
      <-> start + off <= b < start + off + size.
Proof. exact flush_bytes. Qed.
Print Assumptions C63_bytes_partial.

Definition FS : list frame := [mk_frame 11 4096 65536; mk_frame 12 4096 69632; mk_frame 13 4096 73728].
Definition F0 : frame := mk_frame 9 4096 4096.
Lemma ex_laid_out : laid_out FS 4096 65536 12288.
Proof.
  split; [lia|]. split; [|simpl; lia]. intros n f H.
  destruct n as [|[|[|n]]]; simpl in H; try (injection H as <-; split; reflexivity). destruct n; discriminate.
Qed.
Example C63_ex_bytes : laid_out FS 4096 65536 12288 /\ NoDup (map f_cap FS) /\
  (forall f, In f [F0] -> f_vaddr f <> 65536) /\
  flush_cache (F0 :: FS ++ [F0]) 4000 5000 65536 12288 =
    Done [mk_cacheop 11 4000 4095; mk_cacheop 12 0 4095; mk_cacheop 13 0 807].
Proof.
  split; [exact ex_laid_out|]. split; [repeat constructor; simpl; intuition discriminate|].
  split; [intros f [<-|[]]; simpl; lia|]. reflexivity.
Qed.

(** Missing: the kernel takes the end offset as one past the last byte, and so the last byte
    of every piece is left out, and for a single byte the call names an empty range. *)
Theorem C63_bytes_refuted : exists fs page start dsize off size calls,
  laid_out fs page start dsize /\ 0 <= off /\ 0 < size /\ off + size <= dsize /\
  flush_cache fs off size start dsize = Done calls /\
  exists b, start + off <= b < start + off + size /\
    forall c f, In c calls -> In f fs -> ~ covers_before f (c_start c) (c_end c) b.
Proof.
  exists FS, 4096, 65536, 12288, 0, 4096, [mk_cacheop 11 0 4095].
  split; [exact ex_laid_out|]. do 3 (split; [lia|]). split; [reflexivity|].
  exists 69631. split; [lia|]. intros c f [<-|[]] [<-|[<-|[<-|[]]]]; unfold covers_before; simpl; lia.
Qed.
Print Assumptions C63_bytes_refuted.
Theorem C63_empty_refuted : exists fs page start dsize off size c,
  laid_out fs page start dsize /\ 0 <= off /\ 0 < size /\ off + size <= dsize /\
  flush_cache fs off size start dsize = Done [c] /\ c_end c <= c_start c.
Proof.
  exists FS, 4096, 65536, 12288, 8, 1, (mk_cacheop 11 8 8).
  split; [exact ex_laid_out|]. do 3 (split; [lia|]). split; [reflexivity|]. simpl. lia.
Qed.
Print Assumptions C63_empty_refuted.

(** A range that does not lie in the dataport is refused before any system call. *)
Theorem C63_refused : forall frames off size start dsize, 0 <= off -> 0 <= size -> 0 <= dsize ->
  off >= dsize \/ off + size > dsize -> flush_cache frames off size start dsize = Refused.
Proof. exact flush_refused. Qed.
Print Assumptions C63_refused.

Example C63_ex_refused : flush_cache FS 12000 289 65536 12288 = Refused /\
  (12000 >= 12288 \/ 12000 + 289 > 12288) /\ flush_cache FS 12000 288 65536 12288 <> Refused.
Proof. split; [reflexivity|]. split; [right; reflexivity|]. vm_compute. discriminate. Qed.

(** An address that is not the start of any dataport is not reported: nothing is done, with
    the answer for success. *)
Theorem C63_unknown : forall frames off size start dsize,
  (forall f, In f frames -> f_vaddr f <> start) ->
  0 <= off -> 0 <= size -> off < dsize -> off + size <= dsize ->
  flush_cache frames off size start dsize = Done [].
Proof. exact flush_unknown. Qed.
Print Assumptions C63_unknown.

Example C63_ex_unknown : (forall f, In f FS -> f_vaddr f <> 65540) /\ flush_cache FS 0 16 65540 12288 = Done [].
Proof. split; [|reflexivity]. intros f [<-|[<-|[<-|[]]]]; simpl; lia. Qed.

(** ** C64 *)

(** A physical region translates to an address of the dataport if and only if it lies in the
    device, and then to the same offset. *)
Theorem C64_translated_partial : forall w base lo hi paddr size,
  0 < base -> 0 <= lo -> 0 <= paddr -> 0 < size -> paddr + size < 2 ^ w -> base + (hi - lo) < 2 ^ w ->
  (lo <= paddr /\ paddr + size <= hi -> translate_paddr w base lo hi paddr size = base + (paddr - lo)) /\
  (~ (lo <= paddr /\ paddr + size <= hi) -> translate_paddr w base lo hi paddr size = 0).
Proof. exact translate_iff. Qed.
Print Assumptions C64_translated_partial.

Example C64_ex_translated : translate_paddr 32 65536 4096 8192 5000 3192 = 66440 /\
  translate_paddr 32 65536 4096 8192 5000 3193 = 0 /\ translate_paddr 32 65536 4096 8192 4095 2 = 0 /\
  5000 + 3192 < 2 ^ 32 /\ 65536 + (8192 - 4096) < 2 ^ 32.
Proof. repeat split; reflexivity. Qed.

(** Missing: a size so large that the end of the region wraps around is accepted. *)
Theorem C64_translated_refuted : exists base lo hi paddr size,
  0 <= paddr < 2 ^ 64 /\ 0 <= size < 2 ^ 64 /\ ~ (lo <= paddr /\ paddr + size <= hi) /\
  translate_paddr 64 base lo hi paddr size <> 0.
Proof.
  exists 65536, 4096, 8192, 5000, (2 ^ 64 - 100). split; [lia|]. split; [lia|]. split; [lia|]. vm_compute. discriminate.
Qed.
Print Assumptions C64_translated_refuted.
