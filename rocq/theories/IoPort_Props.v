(** Theorems about access to IO ports. *)
From Coq Require Import NArith List Bool Lia.
From Verif Require Import Prelude IoPort_Model IoPort_Spec IoPort_Proofs.
Import ListNotations.
Open Scope N_scope.

(** A keyboard controller and a serial port; the device remembers the accesses and reads give the port. *)
Definition two : list (N * N) := [(96, 100); (1016, 1023)].
Definition recorder : device := Device (list (N * N)) (fun p z d => (p mod 256, (p, 0) :: d)) (fun p z v d => (p, v) :: d).
Example two_sensible : sensible two /\ disjoint two.
Proof.
  split; [repeat constructor; lia|].
  intros [|[|[|i]]] [|[|[|j]]] s e s' e' A B NE; cbn in A, B; try discriminate; try congruence;
    injection A as <- <-; injection B as <- <-; lia.
Qed.

(** ** C105: reading at an offset within the ports of an interface reads the port at this offset. *)
Theorem C105_in V attrs handler junk i s e z off d v d' :
  sensible attrs -> disjoint attrs -> nth_error attrs i = Some (s, e) ->
  s + off + width z <= e + 1 -> dev_in V (s + off) z d = (v, d') -> v < limit z ->
  in_offset V attrs handler junk i z off d = Returned v d' [].
Proof. intros S D A. exact (in_inside V attrs handler junk S D i s e A z off d v d'). Qed.
Print Assumptions C105_in.
Example in_case : in_offset recorder two (fun _ => Abort) 0 1 IOSIZE_16 6 [] = Returned 254 [(1022, 0)] [].
Proof. vm_compute. reflexivity. Qed.

(** ** C105: and writing writes it, with the value given. *)
Theorem C105_out V attrs handler i s e z off v d :
  sensible attrs -> disjoint attrs -> nth_error attrs i = Some (s, e) ->
  s + off + width z <= e + 1 -> v < limit z ->
  out_offset V attrs handler i z off v d = Returned 0 (dev_out V (s + off) z v d) [].
Proof. intros S D A. exact (out_inside V attrs handler S D i s e A z off v d). Qed.
Print Assumptions C105_out.
Example out_case : out_offset recorder two (fun _ => Abort) 0 IOSIZE_8 4 254 [] = Returned 0 [(100, 254)] [].
Proof. vm_compute. reflexivity. Qed.

(** ** C105: offsets behind the last port stop the component before anything is done. *)
Theorem C105_outside V attrs handler junk i s e z off v d : nth_error attrs i = Some (s, e) -> e < s + off ->
  in_offset V attrs handler junk i z off d = Stopped d [] /\ out_offset V attrs handler i z off v d = Stopped d [].
Proof.
  intros A L. exact (conj (in_outside V attrs handler junk i s e A z off d L) (out_outside V attrs handler i s e A z off v d L)).
Qed.
Print Assumptions C105_outside.
Example outside_case : in_offset recorder two (fun _ => Ignore) 7 0 IOSIZE_8 5 [] = Stopped [] [].
Proof. vm_compute. reflexivity. Qed.

(** ** C105: an access that begins within the ports and ends behind them leaves the device alone; the error
    handler of this interface decides what is returned. *)
Theorem C105_over V attrs handler junk i s e z off v d :
  sensible attrs -> disjoint attrs -> nth_error attrs i = Some (s, e) ->
  s + off <= e -> e + 1 < s + off + width z ->
  (junk < limit z -> in_offset V attrs handler junk i z off d = refused handler i junk d) /\
  out_offset V attrs handler i z off v d = refused handler i 0 d.
Proof.
  intros S D A L1 L2. split.
  - exact (in_over V attrs handler junk S D i s e A z off d L1 L2).
  - exact (out_over V attrs handler S D i s e A z off v d L1 L2).
Qed.
Print Assumptions C105_over.
Example over_case : in_offset recorder two (fun i => match i with 0%nat => Discard | _ => Ignore end) 7 1 IOSIZE_32 5 [] = Returned 7 [] [1%nat].
Proof. vm_compute. reflexivity. Qed.

(** ** C105: whatever the settings, only ports of the component are ever touched. *)
Theorem C105_contained V attrs handler junk i z off v d :
  (after (in_offset V attrs handler junk i z off d) = d \/
   exists j s e port x, nth_error attrs j = Some (s, e) /\ s <= port /\ port + width z <= e + 1 /\
     dev_in V port z d = (x, after (in_offset V attrs handler junk i z off d))) /\
  (after (out_offset V attrs handler i z off v d) = d \/
   exists j s e port x, nth_error attrs j = Some (s, e) /\ s <= port /\ port + width z <= e + 1 /\ x < limit z /\
     after (out_offset V attrs handler i z off v d) = dev_out V port z x d).
Proof. exact (conj (in_contained V attrs handler junk i z off d) (out_contained V attrs handler i z off v d)). Qed.
Print Assumptions C105_contained.

(** ** C105: without the condition that no two interfaces share a port the claim fails.  Both interfaces
    have port 100 and the second has port 101 as well; a 16 bit read of the second at offset 0 is done with the
    capability of the first and fails, and the handler of the first is told. *)
Theorem C105_shared_refuted :
  exists attrs i s e z off d, sensible attrs /\ nth_error attrs i = Some (s, e) /\ s + off + width z <= e + 1 /\
  in_offset recorder attrs (fun _ => Discard) 0 i z off d = Returned 0 d [0%nat] /\ i = 1%nat.
Proof.
  exists [(96, 100); (100, 103)], 1%nat, 100, 103, IOSIZE_16, 0, [].
  split; [repeat constructor; lia|]. split; [reflexivity|]. split; [vm_compute; discriminate|].
  split; [vm_compute|]; reflexivity.
Qed.
Print Assumptions C105_shared_refuted.

(** ** C105: ports from 65536 on are not refused; an access to them touches the port of another interface. *)
Theorem C105_large_refuted :
  exists attrs i s e, nth_error attrs i = Some (s, e) /\ disjoint attrs /\
  out_offset recorder attrs (fun _ => Abort) i IOSIZE_8 0 1 [] = Returned 0 [(96, 1)] [] /\ s = 65632.
Proof.
  exists [(96, 100); (65632, 65640)], 1%nat, 65632, 65640. split; [reflexivity|]. split; [|split; [vm_compute|]; reflexivity].
  intros [|[|[|i]]] [|[|[|j]]] s e s' e' A B NE; cbn in A, B; try discriminate; try congruence;
    injection A as <- <-; injection B as <- <-; lia.
Qed.
Print Assumptions C105_large_refuted.
