(** Proofs about the functions for CakeML: files and messages. *)
From Coq Require Import ssreflect ssrbool List Bool Arith NArith ZArith Lia.
From Verif Require Import CakeFfi_Model CakeFfi_Spec.
From Verif Require Vq_Model.
Import ListNotations.

(** ** Numbers *)
Lemma big_length k x : length (big k x) = k.
Proof. by elim: k => [|k IH] //=; rewrite IH. Qed.
Lemma little_length k x : length (little k x) = k.
Proof. by rewrite /little rev_length big_length. Qed.
Lemma le_length k x : length (le k x) = k.
Proof. by elim: k x => [|k IH] x //=; rewrite IH. Qed.
Lemma le_snoc k x : le (S k) x = le k x ++ [((x / 256 ^ N.of_nat k) mod 256)%N].
Proof.
  elim: k x => [|k IH] x; first by rewrite /= N.div_1_r.
  rewrite -[le (S (S k)) x]/((x mod 256)%N :: le (S k) (x / 256)) IH. rewrite -[le (S k) x]/((x mod 256)%N :: le k (x / 256)).
  rewrite N.div_div; [lia|apply: N.pow_nonzero; lia|]. rewrite Nat2N.inj_succ N.pow_succ_r'. done.
Qed.
Lemma rev_le k x : rev (le k x) = big k x.
Proof. elim: k => [|k IH] //. by rewrite le_snoc rev_app_distr /= IH. Qed.
Lemma le_little k x : le k x = little k x.
Proof. by rewrite /little -rev_le rev_involutive. Qed.
Lemma of_le_le k x : of_le (le k x) = (x mod 256 ^ N.of_nat k)%N.
Proof.
  elim: k x => [|k IH] x; first by rewrite /= N.mod_1_r.
  rewrite -[le (S k) x]/((x mod 256)%N :: le k (x / 256)) -[of_le _]/(x mod 256 + 256 * of_le (le k (x / 256)))%N IH.
  rewrite Nat2N.inj_succ N.pow_succ_r'. rewrite N.mod_mul_r; [lia|apply: N.pow_nonzero; lia|]. lia.
Qed.
Lemma of_le_little k x : (x < 256 ^ N.of_nat k)%N -> of_le (little k x) = x.
Proof. move=> L. by rewrite -le_little of_le_le N.mod_small. Qed.
Lemma of_le_word x : word x -> of_le (little 8 x) = x.
Proof. move=> H. apply: of_le_little. exact: H. Qed.
Lemma of_le_big k x : (x < 256 ^ N.of_nat k)%N -> of_le (bswap (big k x)) = x.
Proof. exact: of_le_little. Qed.
Lemma bswap_le k x : bswap (le k x) = big k x.
Proof. exact: rev_le. Qed.
Lemma to_int_fd fd : descriptor fd -> to_int (of_le (bswap (big 8 (Z.to_N fd)))) = fd.
Proof.
  move=> [L U]. rewrite of_le_big; first by rewrite -[(256 ^ N.of_nat 8)%N]/(18446744073709551616)%N; lia.
  rewrite /to_int Z2N.id //. rewrite Z.mod_small; first lia. case: Z.ltb_spec => //. lia.
Qed.
Lemma to_u64_fd fd : descriptor fd -> to_u64 fd = Z.to_N fd.
Proof. move=> [L U]. by rewrite /to_u64 Z.mod_small //; lia. Qed.
Lemma to_u16_id r : (0 <= r < 65536)%Z -> to_u16 r = Z.to_N r.
Proof. move=> [L U]. by rewrite /to_u16 Z.mod_small. Qed.

(** ** Memory *)
Lemma load_app p d r n : n = length d -> forall off, off = length p -> load (p ++ d ++ r) off n = Some d.
Proof.
  move=> -> off ->. rewrite /load !app_length.
  have -> : (length p + length d <=? length p + (length d + length r)) = true by apply/Nat.leb_le; lia.
  by rewrite skipn_app skipn_all Nat.sub_diag /= firstn_app Nat.sub_diag firstn_all firstn_O app_nil_r.
Qed.
Lemma store_app p d d' r off : off = length p -> length d = length d' -> store (p ++ d' ++ r) off d = Some (p ++ d ++ r).
Proof.
  move=> -> E. rewrite /store !app_length.
  have -> : (length p + length d <=? length p + (length d' + length r)) = true by apply/Nat.leb_le; lia.
  rewrite firstn_app Nat.sub_diag firstn_all firstn_O app_nil_r. do 2 f_equal.
  rewrite app_assoc. have -> : length p + length d = length (p ++ d') by rewrite app_length E.
  by rewrite skipn_app skipn_all Nat.sub_diag.
Qed.
Lemma store_status x y r : store (x :: r) 0 [y] = Some (y :: r).
Proof. exact: (store_app [] [y] [x] r). Qed.
Lemma store_firstn x (d : bytes) r off : off = length x -> length d <= length r -> store (x ++ r) off d = Some (x ++ d ++ skipn (length d) r).
Proof.
  move=> -> L. rewrite -{1}(firstn_skipn (length d) r). apply: store_app => //. rewrite firstn_length. lia.
Qed.
Lemma load_firstn x r n off : off = length x -> n <= length r -> load (x ++ r) off n = Some (firstn n r).
Proof.
  move=> -> L. rewrite -{1}(firstn_skipn n r). apply: load_app => //. rewrite firstn_length. lia.
Qed.

Lemma load_length p off n d : load p off n = Some d -> length d = n /\ off + n <= length p.
Proof. rewrite /load. case: Nat.leb_spec => // L H. injection H as <-. split=> //. rewrite firstn_length skipn_length. lia. Qed.

(** ** Files *)
Section Files.
Context {W : Type} (F : files W).
Lemma c_string_ok path r : ~ In 0%N path -> c_string (path ++ 0%N :: r) = Some path.
Proof.
  elim: path => [|x p IH] H //=. case: N.eqb_spec => [E|_]; first by case: H; left.
  rewrite IH //. move=> I. apply: H. by right.
Qed.
Lemma open_out_ok path junk x a fd w w' : ~ In 0%N path -> 8 <= length a -> f_open F path true w = (fd, w') ->
  (descriptor fd -> ffiopen_out F (path ++ 0%N :: junk) (x :: a) w = Some (0%N :: big 8 (Z.to_N fd) ++ skipn 8 a, w')) /\
  ((fd < 0)%Z -> ffiopen_out F (path ++ 0%N :: junk) (x :: a) w = Some (1%N :: a, w')).
Proof.
  move=> P A O. rewrite /ffiopen_out c_string_ok //. cbn [obind]. rewrite O. split.
  - move=> [L U]. have -> : (0 <=? fd)%Z = true by apply/Z.leb_le. rewrite store_status. cbn [obind].
    rewrite -[_ :: a]/([IO_SUCCESS] ++ a) bswap_le store_firstn // ?big_length //= to_u64_fd //. 
  - move=> L. have -> : (0 <=? fd)%Z = false by apply/Z.leb_gt. by rewrite store_status.
Qed.
Lemma open_in_wrong path junk x a fd w w' : ~ In 0%N path -> 8 <= length a -> f_open F path false w = (fd, w') ->
  (descriptor fd -> ffiopen_in F (path ++ 0%N :: junk) (x :: a) w = Some (1%N :: a, w')) /\
  ((fd < 0)%Z -> exists b, ffiopen_in F (path ++ 0%N :: junk) (x :: a) w = Some (0%N :: b, w')).
Proof.
  move=> P A O. rewrite /ffiopen_in c_string_ok //. cbn [obind]. rewrite O. split.
  - move=> [L U]. have -> : (fd <? 0)%Z = false by apply/Z.ltb_ge. by rewrite store_status.
  - move=> L. have -> : (fd <? 0)%Z = true by apply/Z.ltb_lt. rewrite store_status. cbn [obind].
    rewrite -[_ :: a]/([IO_SUCCESS] ++ a) bswap_le store_firstn // ?big_length //=. by eexists.
Qed.
Lemma n16 n : (N.of_nat n < 65536)%N -> N.to_nat (of_le (bswap (big 2 (N.of_nat n)))) = n.
Proof. move=> L. rewrite of_le_big ?Nat2N.id //. Qed.
Lemma read_ok fd n x y rest w r data w' : descriptor fd -> (N.of_nat n < 65536)%N -> f_read F fd n w = (r, data, w') ->
  length data <= n -> n <= length rest ->
  (r = Z.of_nat (length data) -> ffiread F (big 8 (Z.to_N fd)) (big 2 (N.of_nat n) ++ x :: y :: rest) w =
     Some (0%N :: big 2 (N.of_nat (length data)) ++ y :: data ++ skipn (length data) rest, w')) /\
  ((r < 0)%Z -> data = [] -> exists z, ffiread F (big 8 (Z.to_N fd)) (big 2 (N.of_nat n) ++ x :: y :: rest) w = Some (1%N :: z :: x :: y :: rest, w')).
Proof.
  move=> D N16 R LD LR. rewrite /ffiread.
  rewrite -{1 2}(app_nil_r (big 8 _)) -[_ ++ []]app_nil_l. rewrite (load_app [] _ []) ?big_length //. cbn [obind].
  rewrite -[X in load X 0]app_nil_l. rewrite (load_app [] _ (x :: y :: rest)) ?big_length //. cbn [obind]. rewrite to_int_fd // n16 // R.
  have E : forall l, big 2 (N.of_nat n) ++ x :: y :: l = (big 2 (N.of_nat n) ++ [x; y]) ++ l by move=> l; rewrite -app_assoc.
  rewrite E store_firstn; first by rewrite app_length big_length. { lia. }
  case B: (big 2 (N.of_nat n)) => [|b0 [|b1 [|? ?]]]; try by move: (big_length 2 (N.of_nat n)); rewrite B. cbn [obind app].
  split.
  - move=> ER. have -> : (r <? 0)%Z = false by apply/Z.ltb_ge; lia. rewrite store_status. cbn [obind].
    rewrite bswap_le to_u16_id; first lia. rewrite -[_ :: b1 :: _]/([IO_SUCCESS] ++ [b1; x] ++ y :: data ++ skipn (length data) rest).
    rewrite store_app //. cbn [obind app]. have -> : Z.to_N r = N.of_nat (length data) by lia. done.
  - move=> L ->. have -> : (r <? 0)%Z = true by apply/Z.ltb_lt. rewrite store_status. by exists b1.
Qed.
Lemma write_ok fd n off rest w r w' : descriptor fd -> (N.of_nat n < 65536)%N -> (N.of_nat off < 65536)%N -> off + n <= length rest ->
  f_write F fd (firstn n (skipn off rest)) w = (r, w') ->
  ((0 <= r <= Z.of_nat n)%Z -> exists z, ffiwrite F (big 8 (Z.to_N fd)) (big 2 (N.of_nat n) ++ big 2 (N.of_nat off) ++ rest) w =
     Some (0%N :: big 2 (Z.to_N r) ++ z :: rest, w')) /\
  ((r < 0)%Z -> exists z, ffiwrite F (big 8 (Z.to_N fd)) (big 2 (N.of_nat n) ++ big 2 (N.of_nat off) ++ rest) w = Some (1%N :: z ++ rest, w') /\ length z = 3).
Proof.
  move=> D N16 O16 LR R. rewrite /ffiwrite.
  rewrite -{1 2}(app_nil_r (big 8 _)) -[_ ++ []]app_nil_l. rewrite (load_app [] _ []) ?big_length //. cbn [obind].
  rewrite -[X in load X 0](app_nil_l). rewrite (load_app [] _ _) ?big_length //. cbn [obind].
  rewrite (load_app _ _ _) ?big_length //. cbn [obind]. rewrite !to_int_fd // !n16 //.
  have -> : load (big 2 (N.of_nat n) ++ big 2 (N.of_nat off) ++ rest) (4 + off) n = Some (firstn n (skipn off rest)).
  { rewrite app_assoc -{1}(firstn_skipn off rest) app_assoc.
    apply: load_firstn; first by rewrite !app_length !big_length firstn_length; lia. rewrite skipn_length. lia. }
  cbn [obind]. rewrite R.
  case B: (big 2 (N.of_nat n)) => [|b0 [|b1 [|? ?]]]; try by move: (big_length 2 (N.of_nat n)); rewrite B.
  case C: (big 2 (N.of_nat off)) => [|c0 [|c1 [|? ?]]]; try by move: (big_length 2 (N.of_nat off)); rewrite C. cbn [app].
  split.
  - move=> [L U]. have -> : (r <? 0)%Z = false by apply/Z.ltb_ge; lia. rewrite store_status. cbn [obind].
    rewrite bswap_le to_u16_id; first lia. rewrite -[_ :: b1 :: _]/([IO_SUCCESS] ++ [b1; c0] ++ c1 :: rest).
    rewrite store_app //. by exists c1.
  - move=> L. have -> : (r <? 0)%Z = true by apply/Z.ltb_lt. rewrite store_status. by exists [b1; c0; c1].
Qed.
Lemma close_ok fd x a w r w' : descriptor fd -> f_close F fd w = (r, w') ->
  fficlose F (big 8 (Z.to_N fd)) (x :: a) w = Some ((if Z.eqb r 0 then 0%N else 1%N) :: a, w').
Proof.
  move=> D R. rewrite /fficlose. rewrite -{1}(app_nil_r (big 8 _)) -[_ ++ []]app_nil_l. rewrite (load_app [] _ []) ?big_length //. cbn [obind].
  by rewrite to_int_fd // R store_status.
Qed.
End Files.

(** ** Messages *)
Section Messages.
Context {W : Type} (K : kernel W).
Lemma words_pad len (msg : bytes) : len <= MSG_BYTES -> length msg = MSG_BYTES ->
  exists pad, completes len pad /\ pad = firstn (length pad) (skipn len msg) /\ forall data, length data = len ->
    load (data ++ skipn len msg) 0 (8 * words_of len) = Some (data ++ pad).
Proof.
  move=> L LM. rewrite /words_of. set k := (len + 7) / 8. have K8 := Nat.div_mod (len + 7) 8 ltac:(lia). rewrite -/k in K8.
  have R := Nat.mod_upper_bound (len + 7) 8 ltac:(lia). move: K8 R. move: ((len + 7) mod 8) => r K8 R.
  have KU : 8 * k <= 960 by rewrite /MSG_BYTES in L; lia.
  have LS : length (firstn (8 * k - len) (skipn len msg)) = 8 * k - len.
  { rewrite firstn_length skipn_length LM /MSG_BYTES. lia. }
  exists (firstn (8 * k - len) (skipn len msg)). split; last split.
  - split; first by rewrite LS; lia. exists k. rewrite LS. lia.
  - by rewrite LS.
  - move=> data LD. rewrite -[data ++ _]app_nil_l load_firstn //.
    + rewrite app_length skipn_length LM LD /MSG_BYTES. lia.
    + rewrite firstn_app LD. rewrite (firstn_all2 data); [lia|done].
Qed.
Lemma head_load x (p l d : bytes) rest : length p = 8 -> length l = 8 ->
  load (x :: p ++ l ++ d ++ rest) 1 8 = Some p /\ load (x :: p ++ l ++ d ++ rest) 9 8 = Some l /\
  load (x :: p ++ l ++ d ++ rest) 17 (length d) = Some d.
Proof.
  move=> LP LL. split; [|split].
  - by apply: (load_app [x] p).
  - rewrite -[x :: _]/((x :: p) ++ l ++ d ++ rest). apply: load_app => //=. by rewrite LP.
  - have -> : x :: p ++ l ++ d ++ rest = (x :: p ++ l) ++ d ++ rest by rewrite /= -app_assoc. apply: load_app => //=. by rewrite app_length LP LL.
Qed.
Lemma len_of len : (N.of_nat len < 2 ^ 64)%N -> N.to_nat (of_le (little 8 (N.of_nat len))) = len.
Proof. move=> H. by rewrite of_le_word // Nat2N.id. Qed.
Lemma small_word n : n <= 960 -> (N.of_nat n < 2 ^ 64)%N.
Proof. move=> L. apply: (N.lt_trans _ 1000); first lia. done. Qed.
Lemma send_ok x ep data rest t : word ep -> length data <= MSG_BYTES -> length (t_msg t) = MSG_BYTES ->
  exists pad, completes (length data) pad /\ pad = firstn (length pad) (skipn (length data) (t_msg t)) /\
    ffiseL4_Send K (x :: little 8 ep ++ little 8 (N.of_nat (length data)) ++ data ++ rest) t =
      Some (0%N :: little 8 ep ++ little 8 (N.of_nat (length data)) ++ data ++ rest,
            Thread (data ++ skipn (length data) (t_msg t)) (t_cnode t) (k_send K ep (data ++ pad) (t_world t))).
Proof.
  move=> E L LM. have [pad [C [P LO]]] := words_pad _ _ L LM. exists pad. split=> //. split=> //.
  have [H1 [H2 H3]] := head_load x (little 8 ep) (little 8 (N.of_nat (length data))) data rest (little_length _ _) (little_length _ _).
  rewrite /ffiseL4_Send H1. cbn [obind]. rewrite H2. cbn [obind]. rewrite len_of; first exact: small_word. rewrite H3. cbn [obind].
  rewrite -[X in store X 0 data]app_nil_l store_firstn //; first by rewrite LM. cbn [obind app].
  rewrite LO //. cbn [obind]. rewrite store_status. cbn [obind]. by rewrite of_le_word.
Qed.
Lemma fill x y z m a badge n : length y = 8 -> length z = 8 -> length m = 8 * n -> length m <= length a ->
  (do a0 <- store (x :: y ++ z ++ a) 1 (le 8 (N.of_nat (n * 8)));
   do a0 <- store a0 9 (le 8 badge);
   do a0 <- store a0 17 m;
   store a0 0 [FFI_SUCCESS]) = Some (0%N :: little 8 (N.of_nat (8 * n)) ++ little 8 badge ++ m ++ skipn (length m) a).
Proof.
  move=> LY LZ LM LA. rewrite !le_little Nat.mul_comm. rewrite -[x :: _]/([x] ++ y ++ z ++ a) (store_app [x]) //. cbn [obind].
  rewrite app_assoc. rewrite store_app //.
  cbn [obind]. rewrite app_assoc. by rewrite store_firstn.
Qed.
Lemma recv_ok x ep z a t badge n msg w : word ep -> length z = 8 -> k_recv K ep (t_msg t) (t_world t) = (badge, n, msg, w) ->
  8 * n <= length msg -> 8 * n <= length a ->
  ffiseL4_Recv K (x :: little 8 ep ++ z ++ a) t =
    Some (0%N :: little 8 (N.of_nat (8 * n)) ++ little 8 badge ++ firstn (8 * n) msg ++ skipn (8 * n) a, Thread msg (t_cnode t) w).
Proof.
  move=> E LZ R LM LA. rewrite /ffiseL4_Recv. rewrite -[x :: _]/([x] ++ little 8 ep ++ z ++ a) load_app ?little_length //. cbn [obind].
  rewrite of_le_word // R. have LF : length (firstn (8 * n) msg) = 8 * n by rewrite firstn_length; lia.
  have := fill x (little 8 ep) z (firstn (8 * n) msg) a badge n (little_length _ _) LZ LF. rewrite LF => /(_ LA).
  have LL : load msg 0 (n * 8) = Some (firstn (8 * n) msg).
  { rewrite Nat.mul_comm. exact: (load_firstn [] msg). }
  cbn [app]. case: (store _ 1 _) => [a1|] //. cbn [obind]. case: (store a1 9 _) => [a2|] //. cbn [obind]. rewrite LL. cbn [obind]. case: (store a2 17 _) => [a3|] //. cbn [obind]. by move=> ->.
Qed.
Lemma reply_recv_ok x ep data rest t badge n msg w : word ep -> length data <= MSG_BYTES -> length (t_msg t) = MSG_BYTES ->
  exists pad, completes (length data) pad /\ pad = firstn (length pad) (skipn (length data) (t_msg t)) /\
    (k_recv K ep (data ++ skipn (length data) (t_msg t)) (k_reply K (data ++ pad) (t_world t)) = (badge, n, msg, w) ->
     8 * n <= length msg -> 8 * n <= length data + length rest ->
     ffiseL4_ReplyRecv K (x :: little 8 ep ++ little 8 (N.of_nat (length data)) ++ data ++ rest) t =
       Some (0%N :: little 8 (N.of_nat (8 * n)) ++ little 8 badge ++ firstn (8 * n) msg ++ skipn (8 * n) (data ++ rest), Thread msg (t_cnode t) w)).
Proof.
  move=> E L LM. have [pad [C [P LO]]] := words_pad _ _ L LM. exists pad. split=> //. split=> // R LMS LA.
  have [H1 [H2 H3]] := head_load x (little 8 ep) (little 8 (N.of_nat (length data))) data rest (little_length _ _) (little_length _ _).
  rewrite /ffiseL4_ReplyRecv H1. cbn [obind]. rewrite H2. cbn [obind]. rewrite len_of; first exact: small_word. rewrite H3. cbn [obind].
  rewrite -[X in store X 0 data]app_nil_l store_firstn //; first by rewrite LM. cbn [obind app].
  rewrite LO //. cbn [obind]. rewrite of_le_word // R.
  have LF : length (firstn (8 * n) msg) = 8 * n by rewrite firstn_length; lia.
  have := fill x (little 8 ep) (little 8 (N.of_nat (length data))) (firstn (8 * n) msg) (data ++ rest) badge n (little_length _ _) (little_length _ _) LF.
  rewrite LF app_length => /(_ LA).
  have LL : load msg 0 (n * 8) = Some (firstn (8 * n) msg).
  { rewrite Nat.mul_comm. exact: (load_firstn [] msg). }
  case: (store _ 1 _) => [a1|] //. cbn [obind]. case: (store a1 9 _) => [a2|] //. cbn [obind]. rewrite LL. cbn [obind]. case: (store a2 17 _) => [a3|] //. cbn [obind]. by move=> ->.
Qed.
Lemma wait_ok x src a t badge w : word src -> k_wait K src (t_world t) = (badge, w) ->
  ffiseL4_Wait K (x :: little 8 src ++ a) t = Some (0%N :: little 8 badge ++ a, Thread (t_msg t) (t_cnode t) w).
Proof.
  move=> E R. rewrite /ffiseL4_Wait. rewrite -[x :: _]/([x] ++ little 8 src ++ a) load_app ?little_length //. cbn [obind].
  rewrite of_le_word // R le_little. by rewrite store_app.
Qed.
Lemma send_fault x ep len rest t : word len ->
  (MSG_BYTES < N.to_nat len \/ length rest < N.to_nat len) -> length (t_msg t) = MSG_BYTES ->
  ffiseL4_Send K (x :: little 8 ep ++ little 8 len ++ rest) t = None.
Proof.
  move=> WL H LM. rewrite /ffiseL4_Send.
  have [H1 [H2 _]] := head_load x (little 8 ep) (little 8 len) [] rest (little_length _ _) (little_length _ _).
  move: H1 H2. cbn [app]. move=> ->. cbn [obind]. move=> ->. cbn [obind]. rewrite of_le_word //.
  move: (N.to_nat len) H => n H. case LO: (load _ 17 _) => [data|] //. cbn [obind].
  have [LD LE] := load_length _ _ _ _ LO.
  case: H => H.
  - have -> : store (t_msg t) 0 data = None; last by []. rewrite /store LM LD. case: Nat.leb_spec => //. rewrite /MSG_BYTES in H *. lia.
  - exfalso. move: LE. rewrite -[x :: _]/([x] ++ little 8 ep ++ little 8 len ++ rest) !app_length. cbn [length]. lia.
Qed.
End Messages.
Lemma cnode_value W x cap rest (t : thread W) : (x < 256)%N -> word cap ->
  ffiset_tls_cnode_cap (x :: little 8 cap ++ rest) t =
    Some (0%N :: little 8 cap ++ rest, Thread (t_msg t) ((x + 256 * cap) mod 2 ^ 64)%N (t_world t)).
Proof.
  move=> X C. rewrite /ffiset_tls_cnode_cap.
  have -> : load (x :: little 8 cap ++ rest) 0 8 = Some (x :: le 7 cap).
  { rewrite -le_little le_snoc -app_assoc. rewrite -[x :: _]/([] ++ (x :: le 7 cap) ++ _). apply: load_app => //=. }
  cbn [obind]. rewrite store_status. cbn [obind]. do 3 f_equal. rewrite -[of_le _]/(x + 256 * of_le (le 7 cap))%N of_le_le.
  rewrite -[(256 ^ N.of_nat 7)%N]/(2 ^ 56)%N. rewrite -[(2 ^ 64)%N in RHS]/(256 * 2 ^ 56)%N.
  rewrite N.mod_mul_r //. have <- : x = ((x + 256 * cap) mod 256)%N by apply: (N.mod_unique _ _ cap) => //; lia.
  have <- : cap = ((x + 256 * cap) / 256)%N; last by []. apply: (N.div_unique _ _ _ x) => //. lia.
Qed.
Lemma cnode_here W cap rest (t : thread W) : word cap ->
  exists a, ffiset_tls_cnode_cap (little 8 cap ++ rest) t = Some (a, Thread (t_msg t) cap (t_world t)).
Proof.
  move=> C. rewrite /ffiset_tls_cnode_cap. rewrite -[little 8 cap ++ rest]app_nil_l load_app ?little_length //. cbn [obind app].
  case E: (little 8 cap) => [|b l]; first by move: (little_length 8 cap); rewrite E.
  cbn [app]. rewrite store_status. cbn [obind]. rewrite -E of_le_word //. by eexists.
Qed.
