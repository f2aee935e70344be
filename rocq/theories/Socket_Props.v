(** Theorems about sockets. *)
From Coq Require Import ZArith NArith List Bool Lia.
From Verif Require Import Prelude Socket_Model Socket_Spec Socket_Proofs.
Import ListNotations.
Open Scope Z_scope.

(** A server for the examples: it gives a new socket the number after the greatest, remembers what is written to each, at most
    three bytes per call, and gives out 9, 8, 7, .. byte by byte. *)
Record toy := Toy { t_open : list Z; t_in : list (Z * N); t_out : list N }.
Definition t_next (s : toy) : Z := 1 + fold_right Z.max 0 (t_open s).
Definition toy_serve (r : request) (p : list byte) (s : toy) : Z * list byte * toy :=
  match r with
  | RSocket _ _ _ | RAccept _ => (t_next s, p, Toy (t_next s :: t_open s) (t_in s) (t_out s))
  | RClose k => (0, p, Toy (filter (fun j => negb (j =? k)) (t_open s)) (t_in s) (t_out s))
  | RWrite k n => let m := Nat.min n 3 in
                  (Z.of_nat m, p, Toy (t_open s) (t_in s ++ map (fun b => (k, b)) (firstn m p)) (t_out s))
  | RRead k n => match t_out s, n with
                 | b :: l, S _ => (1, b :: skipn 1 p, Toy (t_open s) (t_in s) l)
                 | _, _ => (0, p, s)
                 end
  | _ => (0, p, s)
  end.
Definition toy_server := Server toy toy_serve.
Definition start : world toy_server :=
  @World toy_server (fun x => if x =? 3 then Some OtherFile else if x =? 4 then Some (Socket 7) else None) (repeat 0%N 4096)
    (Toy [7] [] [9%N; 8%N; 7%N]).
Definition pick5 (t : Z -> option file) : Z := match t 5 with None => 5 | Some _ => -12 end.
Example pick5_ok : allocator pick5.
Proof. intros t. unfold pick5. destruct (t 5) eqn:E; [lia|]. intros _. exact E. Qed.

(** ** C106: writing *)

(** A write to a socket hands the first bytes, at most a page, to the server; its answer is the result. *)
Theorem C106_write V fd buf w k : fds w fd = Some (Socket k) ->
  exists v w', sys_write V fd buf w = Ret v tt w' /\
  asked V w (RWrite k (Nat.min (List.length buf) 4096)) (firstn 4096 buf) v w'.
Proof. exact (write_ok V fd buf w k). Qed.
Print Assumptions C106_write.

(** A program that repeats writes until everything is written or something fails: what the server has taken
    are the bytes that the program thinks are written, in order, however it takes them. *)
Theorem C106_write_all V taken fuel fd data w k n w' : takes V taken -> fds w fd = Some (Socket k) ->
  write_all V fuel fd data w = Some (n, w') ->
  (n <= List.length data)%nat /\ taken (srv w') k = taken (srv w) k ++ firstn n data /\
  (forall j, j <> k -> taken (srv w') j = taken (srv w) j).
Proof.
  intros T F H. destruct (write_all_prefix V taken fuel fd data w k n w' T F H) as (A & B & C & _). auto.
Qed.
Print Assumptions C106_write_all.
(** If the server does not refuse, everything is written. *)
Theorem C106_write_whole V taken fuel fd data w k : takes V taken -> willing V -> fds w fd = Some (Socket k) ->
  (List.length data <= fuel)%nat -> exists w', write_all V fuel fd data w = Some (List.length data, w').
Proof. exact (write_all_whole V taken fuel fd data w k). Qed.
Print Assumptions C106_write_whole.

Definition toy_taken (s : toy) (k : Z) : list byte := map snd (filter (fun x => fst x =? k) (t_in s)).
Example toy_takes : takes toy_server toy_taken.
Proof.
  intros k n p s v p' s' H. injection H as <- <- <-. split; [lia|]. intros j. unfold toy_taken; cbn [t_in].
  rewrite filter_app, map_app.
  assert (F : forall l, map snd (filter (fun x => fst x =? j) (map (fun b : N => (k, b)) l)) = if j =? k then l else []).
  { induction l as [|b l IH]; [destruct (j =? k); reflexivity|]. cbn. rewrite Z.eqb_sym. destruct (j =? k); cbn; [f_equal|]; exact IH. }
  rewrite F. destruct (j =? k); cbn [andb]; [|apply app_nil_r].
  rewrite Nat2Z.id. destruct (Z.ltb_spec 0 (Z.of_nat (Nat.min n 3))); [reflexivity|].
  replace (Nat.min n 3) with 0%nat by lia. apply app_nil_r.
Qed.
Example toy_willing : willing toy_server.
Proof. intros k n p s v p' s' L H. injection H as <- <- <-. lia. Qed.
Example toy_written :
  option_map (fun x : nat * world toy_server => (fst x, toy_taken (srv (snd x)) 7)) (write_all toy_server 9 4 [1; 2; 3; 4; 5; 6; 7]%N start)
  = Some (7%nat, [1; 2; 3; 4; 5; 6; 7]%N).
Proof. vm_compute. reflexivity. Qed.

(** ** C106: reading *)

(** A read asks the server for at most a page.  If it answers with a length that was asked for, this many
    bytes of the buffer are those the server put into the page, and the rest of the buffer is as before.
    What is missing: failures of the server, see [C106_read_refuted]. *)
Theorem C106_read_partial V fd buf w k : fds w fd = Some (Socket k) ->
  exists v w', asked V w (RRead k (Nat.min (List.length buf) 4096)) [] v w' /\
  (0 <= v <= Z.of_nat (Nat.min (List.length buf) 4096) ->
    sys_read V fd buf w = Ret v (firstn (Z.to_nat v) (sock_data w') ++ skipn (Z.to_nat v) buf) w').
Proof.
  intros F. destruct (read_ok V fd buf w k F) as (v & w' & A & B & _). exists v, w'. auto.
Qed.
Print Assumptions C106_read_partial.
(** A program that reads again and again gets the bytes of the server in order; none is lost and no other
    socket is read. *)
Theorem C106_read_all V pending sizes fd w k : keeps_page V -> gives V pending -> paged V w -> fds w fd = Some (Socket k) ->
  exists d w', read_all V sizes fd w = Some (d, w') /\ pending (srv w) k = d ++ pending (srv w') k /\
  (forall j, j <> k -> pending (srv w') j = pending (srv w) j).
Proof. exact (read_all_ok V pending sizes fd w k). Qed.
Print Assumptions C106_read_all.
Definition one_socket := Server (list byte) (fun r p s =>
  match r with RRead 7 n => (Z.of_nat (Nat.min (Nat.min n 4096) (List.length s)), firstn (Nat.min n 4096) s ++ skipn (Nat.min (Nat.min n 4096) (List.length s)) p, skipn (Nat.min (Nat.min n 4096) (List.length s)) s) | _ => (0, p, s) end).
Definition one_pending (s : list byte) (k : Z) : list byte := if k =? 7 then s else [].
Example one_gives : gives one_socket one_pending /\ keeps_page one_socket.
Proof.
  assert (PG : forall n (s p : list byte), List.length p = 4096%nat -> List.length (firstn (Nat.min n 4096) s ++ skipn (Nat.min (Nat.min n 4096) (List.length s)) p) = 4096%nat).
  { intros n s p L. rewrite app_length, firstn_length, skipn_length. lia. }
  split.
  - intros k n p s v p' s' L H. cbn [serve one_socket] in H. destruct (Z.eq_dec k 7) as [->|NE].
    + injection H as <- <- <-. unfold one_pending. cbn [Z.eqb Pos.eqb]. rewrite !Nat2Z.id. split; [lia|]. split; [lia|]. split.
      * rewrite firstn_app, firstn_firstn, firstn_length. replace (Nat.min (Nat.min (Nat.min n 4096) (List.length s)) (Nat.min n 4096)) with (Nat.min (Nat.min n 4096) (List.length s)) by lia.
        rewrite Nat.sub_diag. cbn. apply app_nil_r.
      * intros j. destruct (j =? 7); reflexivity.
    + assert (E : (v, p', s') = (0, p, s)).
      { rewrite <- H. clear H. destruct k as [|[[[q|q|]|[q|q|]|]|[[q|q|]|[q|q|]|]|]|]; try reflexivity. lia. }
      injection E as -> -> ->. apply Z.eqb_neq in NE. unfold one_pending. rewrite NE. cbn. split; [lia|]. split; [lia|]. split; [reflexivity|].
      intros j. destruct (j =? k); destruct (j =? 7); reflexivity.
  - intros r p s v p' s' L H. cbn [serve one_socket] in H.
    destruct r; try (injection H as _ <- _; exact L).
    destruct k as [|[[[q|q|]|[q|q|]|]|[[q|q|]|[q|q|]|]|]|]; try (injection H as _ <- _; exact L).
    injection H as _ <- _. apply PG. exact L.
Qed.
(** If the server fails, the failure is taken for a length: memory behind the page is read and memory
    behind the buffer is overwritten. *)
Theorem C106_read_refuted V fd buf w k : fds w fd = Some (Socket k) ->
  (forall n p s, fst (fst (serve V (RRead k n) p s)) = -1) -> sys_read V fd buf w = Fault.
Proof.
  intros F H. destruct (read_ok V fd buf w k F) as (v & w' & (SV & _) & _ & B). apply B.
  specialize (H (Nat.min (List.length buf) 4096) ([] ++ skipn 0 (sock_data w)) (srv w)). cbn in SV, H. rewrite SV in H. cbn in H. lia.
Qed.
Print Assumptions C106_read_refuted.
Definition failing := Server unit (fun r p s => (-1, p, s)).
Example refuted_case : sys_read failing 4 [0%N] (@World failing (fun _ => Some (Socket 7)) [] tt) = Fault.
Proof. reflexivity. Qed.

(** ** C106: addresses and options *)

(** bind, connect and setsockopt hand over what they are given, up to a page of it. *)
Theorem C106_bind V fd data level optname w k : fds w fd = Some (Socket k) -> (List.length data <= 4096)%nat ->
  (exists v w', sys_bind V fd data w = Ret v tt w' /\ asked V w (RBind k (List.length data)) data v w') /\
  (exists v w', sys_connect V fd data w = Ret v tt w' /\ asked V w (RConnect k (List.length data)) data v w') /\
  (exists v w', sys_setsockopt V fd level optname data w = Ret v tt w' /\
     asked V w (RSetsockopt k level optname (List.length data)) data v w').
Proof.
  intros F L. unfold sys_bind, sys_connect, sys_setsockopt. rewrite (sockfd_socket _ _ _ _ F).
  repeat split; apply with_data_ok; exact L.
Qed.
Print Assumptions C106_bind.
(** More than a page overwrites what is behind it, and descriptors that are not sockets are not refused:
    what is no socket number is taken for one. *)
Theorem C106_bind_refuted V fd data level optname w :
  (4096 < List.length data)%nat \/ (forall k, fds w fd <> Some (Socket k)) ->
  sys_bind V fd data w = Fault /\ sys_connect V fd data w = Fault /\ sys_setsockopt V fd level optname data w = Fault.
Proof.
  intros H. unfold sys_bind, sys_connect, sys_setsockopt, sockfd.
  destruct (fds w fd) as [[k|]|] eqn:F; try (repeat split; reflexivity).
  destruct H as [H|H]; [|destruct (H k eq_refl)]. repeat split; apply with_data_fault; exact H.
Qed.
Print Assumptions C106_bind_refuted.
Example bind_case : sys_bind toy_server 3 [1%N] start = Fault /\
  exists w, sys_bind toy_server 4 [1%N; 2%N] start = Ret 0 tt w /\ firstn 3 (sock_data w) = [1; 2; 0]%N.
Proof. split; [reflexivity|]. eexists. split; vm_compute; reflexivity. Qed.
(** listen and fcntl pass on their numbers. *)
Theorem C106_listen V fd a b w k : fds w fd = Some (Socket k) ->
  (exists v w', sys_listen V fd a w = Ret v tt w' /\ asked V w (RListen k a) [] v w') /\
  (exists v w', sys_fcntl V fd a b w = Ret v tt w' /\ asked V w (RFcntl k a b) [] v w').
Proof.
  intros F. unfold sys_listen, sys_fcntl. rewrite (sockfd_socket _ _ _ _ F), F. split.
  - destruct (call_asked' V (RListen k a) w) as (v & w' & C & A). rewrite C. eauto.
  - destruct (call_asked' V (RFcntl k a b) w) as (v & w' & C & A). rewrite C. eauto.
Qed.
Print Assumptions C106_listen.

(** ** C106: descriptors *)

(** A new socket gets a descriptor that was closed; all others stay.  What is missing: a server that
    fails, see [C106_socket_refuted]. *)
Theorem C106_socket_partial V pick d t p w : allocator pick -> 0 <= pick (fds w) ->
  exists k w1 fd w', asked V w (RSocket d t p) [] k w1 /\ opens V w1 fd k w' /\ sys_socket V pick d t p w = Ret fd tt w'.
Proof. exact (socket_ok V pick d t p w). Qed.
Print Assumptions C106_socket_partial.
(** A failure of the server is not reported: the program gets a descriptor for socket -1. *)
Theorem C106_socket_refuted : exists V pick w w' fd, allocator pick /\
  (forall r p s, fst (fst (serve V r p s)) = -1) /\
  sys_socket V pick 2 1 0 w = Ret fd tt w' /\ 0 <= fd /\ fds w' fd = Some (Socket (-1)).
Proof.
  exists failing, pick5, (@World failing (fun _ => None) (repeat 0%N 4096) tt). eexists _, 5.
  split; [exact pick5_ok|]. split; [reflexivity|]. split; [reflexivity|]. split; [lia|reflexivity].
Qed.
Print Assumptions C106_socket_refuted.

(** accept: -1 from the server is the result, nothing is opened and errno is what the server left in the
    page; otherwise a descriptor that was closed becomes the new socket, and the address and its length
    are what the server left in the page, if the program asked for them. *)
Theorem C106_accept V pick fd addr w k : fds w fd = Some (Socket k) -> allocator pick -> 0 <= pick (fds w) ->
  (forall a l, addr = Some (a, l) -> List.length a = 16%nat /\ List.length l = 4%nat) ->
  exists v w1, asked V w (RAccept k) (match addr with Some (a, l) => a ++ l | None => [] end) v w1 /\
  if v =? -1 then sys_accept V pick fd addr w = Ret (-1) (Some (firstn 4 (sock_data w1)), addr) w1
  else exists fd' w', opens V w1 fd' v w' /\
    sys_accept V pick fd addr w = Ret fd' (None, match addr with
      | Some _ => Some (firstn 16 (sock_data w1), firstn 4 (skipn 16 (sock_data w1)))
      | None => None end) w'.
Proof. exact (accept_ok V pick fd addr w k). Qed.
Print Assumptions C106_accept.
Example accept_case : exists w, sys_accept toy_server pick5 4 None start = Ret 5 (None, None) w /\ fds w 5 = Some (Socket 8).
Proof. eexists. split; vm_compute; reflexivity. Qed.

(** close: the server is told once, and the descriptor is closed; all others stay. *)
Theorem C106_close V fd w k : fds w fd = Some (Socket k) ->
  exists v w1 w', asked V w (RClose k) [] v w1 /\ sys_close V fd w = Ret 0 tt w' /\
  fds w' fd = None /\ (forall x, x <> fd -> fds w' x = fds w x) /\ srv w' = srv w1.
Proof. exact (close_ok V fd w k). Qed.
Print Assumptions C106_close.

(** Other files never reach the server; fcntl stops at them. *)
Theorem C106_others V fd buf cmd val w : (forall k, fds w fd <> Some (Socket k)) ->
  sys_write V fd buf w = Passed /\ sys_read V fd buf w = Passed /\ sys_close V fd w = Passed /\ sys_fcntl V fd cmd val w = Stopped.
Proof.
  intros H. unfold sys_write, sys_read, sys_close, sys_fcntl. destruct (fds w fd) as [[k|]|]; auto. destruct (H k eq_refl).
Qed.
Print Assumptions C106_others.

(** Whatever a program does, every socket in use at the server is behind exactly one descriptor. *)
Theorem C106_descriptors V pick used l w w' : keeps_apart V used -> allocator pick -> one_to_one V used w ->
  performs V pick l w = Some w' -> one_to_one V used w'.
Proof. intros K A. exact (performs_ok V pick used K l w w' A). Qed.
Print Assumptions C106_descriptors.
Definition toy_used (s : toy) (k : Z) : Prop := In k (t_open s).
Example toy_apart : keeps_apart toy_server toy_used.
Proof.
  assert (M : forall l k, In k l -> k <= fold_right Z.max 0 l).
  { induction l as [|x l IH]; intros k; [intros []|]. cbn. intros [->|I]; [lia|]. specialize (IH _ I). lia. }
  assert (NW : forall s, ~ toy_used s (t_next s)).
  { intros s I. apply M in I. unfold t_next in I. lia. }
  intros r p s v p' s' H. cbn [serve toy_server] in H. destruct r; cbn [toy_serve] in H; try (injection H as <- <- <-; unfold toy_used; cbn; tauto).
  - injection H as <- <- <-. split; [apply NW|]. intros k. unfold toy_used; cbn. intuition.
  - assert (E : v =? -1 = false).
    { injection H as <- <- <-. apply Z.eqb_neq. unfold t_next. assert (0 <= fold_right Z.max 0 (t_open s)) by (induction (t_open s); cbn [fold_right]; lia). lia. }
    rewrite E. injection H as <- <- <-. split; [apply NW|]. intros j. unfold toy_used; cbn. intuition.
  - destruct (t_out s); [|destruct count]; injection H as <- <- <-; unfold toy_used; cbn; tauto.
  - injection H as <- <- <-. intros j. unfold toy_used; cbn. rewrite filter_In, negb_true_iff, Z.eqb_neq. tauto.
Qed.
Example start_one : one_to_one toy_server toy_used start.
Proof.
  split.
  - intros k. unfold toy_used, start; cbn. split.
    + intros [<-|[]]. exists 4. reflexivity.
    + intros (fd & F). destruct (fd =? 3); [discriminate|]. destruct (fd =? 4); [|discriminate]. injection F as <-. auto.
  - intros fd fd' k. unfold start; cbn. destruct (Z.eqb_spec fd 3); [discriminate|]. destruct (Z.eqb_spec fd 4); [|discriminate].
    destruct (Z.eqb_spec fd' 3); [discriminate|]. destruct (Z.eqb_spec fd' 4); [|discriminate]. congruence.
Qed.
Example descriptors_case :
  option_map (fun w : world toy_server => (fds w 4, fds w 5, t_open (srv w)))
    (performs toy_server pick5 [Socket_ 2 1 0; Write 5 [1%N]; Close 4; Read 5 [0%N]; Close 5; Socket_ 2 1 0] start)
  = Some (None, Some (Socket 1), [1]).
Proof. vm_compute. reflexivity. Qed.
