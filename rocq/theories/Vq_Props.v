(** Virtqueues and message queues: the properties. *)
From Coq Require Import List Bool Arith NArith Lia.
From Verif Require Import Vq_Model Vq_Spec Vq_Proofs2.
Import ListNotations.

(** ** C78: virtqueues *)
(** As long as there is room for what is sent, and something is sent, the two sides see two queues
    of byte strings, whatever they do and in whatever order. *)
Theorem C78_transfer_partial : forall B, 0 < B -> forall nblocks ndescs m os rs c,
  exchanges B nblocks ndescs (mk_channel [] []) os = Some (rs, c) ->
  fst (run B (fresh m nblocks ndescs) os) = rs.
Proof. exact run_fresh. Qed.
Print Assumptions C78_transfer_partial.
(** Blocks of four bytes: a message is scattered over three blocks, answered, collected; the blocks
    are used again. *)
Definition some_ops : list op :=
  [ Send [1; 2; 3; 4; 5; 6; 7; 8; 9]%N; Send [10; 11]%N; Read 6; Write [20; 21; 22]%N; Collect 100;
    Send [30; 31; 32; 33; 34; 35; 36; 37; 38]%N; Collect 100; Read 9 ].
Example transfer_case : exchanges 4 4 4 (mk_channel [] []) some_ops =
  Some ([ Sent true; Sent true; Got true [1; 2; 3; 4; 5; 6]%N; Wrote false; Collected 6 [1; 2; 3; 4; 5; 6; 7; 8; 9]%N;
          Sent true; Collected 2 [20; 21]%N; Got true [30; 31; 32; 33; 34; 35; 36; 37; 38]%N ],
        mk_channel [] [([30; 31; 32; 33; 34; 35; 36; 37; 38]%N, 9)]).
Proof. reflexivity. Qed.

(** What does not fit is refused. *)
Theorem C78_refused : forall B, 0 < B -> forall nblocks ndescs m os rs c data,
  exchanges B nblocks ndescs (mk_channel [] []) os = Some (rs, c) ->
  nblocks < in_flight B c + blocks B data \/ ndescs < in_flight B c + blocks B data ->
  fst (step B (snd (run B (fresh m nblocks ndescs) os)) (Send data)) = Sent false.
Proof. exact run_refuses. Qed.
Print Assumptions C78_refused.
Example refused_case : 4 < in_flight 4 (mk_channel [[1; 2; 3; 4; 5]%N; [6]%N] []) + blocks 4 [7; 8; 9; 10; 11]%N.
Proof. cbn. lia. Qed.

(** But a part of it is delivered nevertheless, and the blocks it takes are lost to the sender. *)
Theorem C78_refused_refuted : exists B nblocks ndescs m data part,
  fst (run B (fresh m nblocks ndescs) [Send data; Read 4]) = [Sent false; Got true part] /\
  part <> data /\ part = firstn 4 data.
Proof.
  exists 4, 1, 4, (fun _ => 0%N), [1; 2; 3; 4; 5]%N, [1; 2; 3; 4]%N. repeat split. discriminate.
Qed.
Print Assumptions C78_refused_refuted.
(** When descriptors run out, the block just allocated is never freed: one more is missing after
    every such attempt, although everything sent has come back. *)
Theorem C78_leak_refuted : exists B nblocks ndescs m,
  fst (run B (fresh m nblocks ndescs) [Send [1]%N; Send [2]%N; Read 1; Collect 1]) = [Sent true; Sent false; Got true [1]%N; Collected 1 [1]%N] /\
  length (q_free (snd (run B (fresh m nblocks ndescs) [Send [1]%N; Send [2]%N; Read 1; Collect 1]))) = nblocks - 1 /\ 0 < nblocks.
Proof.
  exists 4, 3, 1, (fun _ => 0%N). repeat split. lia.
Qed.
Print Assumptions C78_leak_refuted.

(** An empty message is accepted and never arrives. *)
Theorem C78_empty_refuted : exists B nblocks ndescs m,
  fst (run B (fresh m nblocks ndescs) [Send []; Read 0]) = [Sent true; Nothing].
Proof. exists 4, 4, 4, (fun _ => 0%N). reflexivity. Qed.
Print Assumptions C78_empty_refuted.

(** ** C79: message queues *)
(** The receiver gets every message that was accepted, once, unchanged and in order; a message is
    refused exactly when it is too long, or as many messages wait as there are blocks or
    descriptors; nothing else happens. *)
Theorem C79_messages : forall B, 0 < B -> forall nblocks ndescs limit, limit <= B -> forall m os,
  fst (mrun B limit (fresh m nblocks ndescs) os) = message_steps limit nblocks ndescs [] os.
Proof. exact mrun_fresh. Qed.
Print Assumptions C79_messages.
Example messages_case : message_steps 3 2 4 []
    [MSend [1; 2; 3]%N; MSend [1; 2; 3; 4]%N; MSend []; MSend [5]%N; MGet 2; MGet 3; MSend [6; 7]%N; MGet 4; MGet 4; MGet 4]
  = [Done; Error EMSGSIZE; Done; Error ENOMEM; Error EMSGSIZE; Message [1; 2; 3]%N; Done; Message []; Message [6; 7]%N; Error ENOMSG].
Proof. reflexivity. Qed.
