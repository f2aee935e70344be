(** C11 and C45: scopes and reference resolution. *)
From Coq Require Import List String.
From Verif Require Import Prelude Scope_Model Scope_Spec Scope_Proofs Scope_Proofs2.
Import ListNotations.
Open Scope string_scope. Open Scope list_scope.

(** A history of open, close and register operations is accepted exactly when it never
    closes or registers outside any scope and never declares a slot twice in a scope. *)
Theorem C11_history os : (exists ss, foldM step os [] = Ok ss) <-> (exists d, spec_run [] os d).
Proof. exact (history_iff os). Qed.
Print Assumptions C11_history.

(** Lookup gives a declaration of the innermost scope that has a suitable one. *)
Theorem C11_innermost os ss d n t o : foldM step os [] = Ok ss -> spec_run [] os d ->
  gfirst (lookup [n] t ss) = Ok (Some o) ->
  exists inner l outer, d = inner ++ l :: outer /\ In o l /\ name_of o = Some n /\ fits (cls_of o) t = true /\
    forall s x, In s inner -> In x s -> name_of x = Some n -> fits (cls_of x) t = false.
Proof. exact (innermost os ss d n t o). Qed.
Print Assumptions C11_innermost.

(** It finds nothing exactly when no open scope has a suitable declaration. *)
Theorem C11_not_found os ss d n t : foldM step os [] = Ok ss -> spec_run [] os d ->
  (gfirst (lookup [n] t ss) = Ok None <->
   forall l x, In l d -> In x l -> name_of x = Some n -> fits (cls_of x) t = false).
Proof. exact (not_found os ss d n t). Qed.
Print Assumptions C11_not_found.

(** Qualified names: the first of all meanings, nearest first. *)
Theorem C11_qualified os ss d r t o : foldM step os [] = Ok ss -> spec_run [] os d -> r <> [] ->
  gfirst (lookup r t ss) = Ok o -> o = hd_error (meanings r t d).
Proof. exact (qualified os ss d r t o). Qed.
Print Assumptions C11_qualified.

(** A second declaration of a slot in one scope is rejected. *)
Theorem C11_duplicate_rejected os ss l d o x : foldM step os [] = Ok ss -> spec_run [] os (l :: d) ->
  is_ref o = false -> In x l -> same_slot x o = true -> register ss o = Err ParseError.
Proof. exact (duplicate_rejected os ss l d o x). Qed.
Print Assumptions C11_duplicate_rejected.

(** Opening a scope, doing anything balanced in it and closing it changes nothing. *)
Theorem C11_close_restores os ss r : balanced os -> foldM step (Open :: os ++ [Close]) ss = Ok r -> r = ss.
Proof. exact (close_restores os ss r). Qed.
Print Assumptions C11_close_restores.

Definition ka := Node 1 "Component" (Some "a") [].
Definition ka' := Node 2 "Component" (Some "a") [].
Definition pa := Node 3 "Procedure" (Some "a") [].
Definition hist := [Open; Register ka; Register pa; Open; Register ka'].
Example hist_lookup : exists ss, foldM step hist [] = Ok ss /\
  gfirst (lookup ["a"] (TClass "Component") ss) = Ok (Some ka') /\
  gfirst (lookup ["a"] (TClass "Procedure") ss) = Ok (Some pa) /\
  gfirst (lookup ["b"] TAny ss) = Ok None /\ register ss ka = Err ParseError.
Proof. eexists. repeat split. Qed.
Example hist_spec : spec_run [] hist [[ka']; [ka; pa]].
Proof.
  repeat (econstructor; [constructor; simpl; try reflexivity; intuition (subst; reflexivity)|]).
  constructor.
Qed.
Example hist_balanced : balanced [Register ka; Open; Register pa; Close].
Proof. constructor. apply (b_nest [Register pa] []); repeat constructor. Qed.

(** When resolution succeeds, every reference has become the nearest declaration
    visible where it stands: [ResL] (see the specification). *)
Theorem C45_resolves items out : resolve items = Ok out ->
  exists asm, ResL [] [] [] "LiftedAST" "" items out asm.
Proof. exact (resolve_sound items out). Qed.
Print Assumptions C45_resolves.

(** No reference is left, and each was replaced by a declaration of the wanted class
    and name. *)
Theorem C45_no_reference_left items out : resolve items = Ok out ->
  Forall ref_free out /\ Forall2 replaced items out.
Proof. exact (resolve_props items out). Qed.
Print Assumptions C45_no_reference_left.

(** Conversely a specification that can be resolved is accepted. *)
Theorem C45_accepts items out asm : ResL [] [] [] "LiftedAST" "" items out asm -> Forall tidy out ->
  resolve items = Ok out.
Proof. exact (resolve_complete items out asm). Qed.
Print Assumptions C45_accepts.

(** Non-vacuity: two components, an assembly with two instances and a connection
    whose ends are qualified references. *)
Definition prov := Node 10 "Provides" (Some "x") [].
Definition usesx := Node 11 "Uses" (Some "y") [].
Definition srv := Node 12 "Component" (Some "Srv") [prov].
Definition cli := Node 13 "Component" (Some "Cli") [usesx].
Definition cn := Node 14 "Connector" (Some "RPC") [].
Definition spec_in : list node :=
  [cn; srv; cli;
   Node 20 "Assembly" None [Node 21 "Composition" None
     [Node 22 "Instance" (Some "s") [Ref ["Srv"] (TClass "Component")];
      Node 23 "Instance" (Some "c") [Ref ["Cli"] (TClass "Component")];
      Node 24 "Connection" (Some "conn")
        [Node 25 "ConnectionEnd" None [Ref ["c"] (TClass "Instance"); Ref ["c"; "y"] TInterface];
         Node 26 "ConnectionEnd" None [Ref ["s"] (TClass "Instance"); Ref ["s"; "x"] TInterface];
         Ref ["RPC"] (TClass "Connector")]]]].
Definition inst_s := Node 22 "Instance" (Some "s") [srv].
Definition inst_c := Node 23 "Instance" (Some "c") [cli].
Definition spec_out : list node :=
  [cn; srv; cli;
   Node 20 "Assembly" None [Node 21 "Composition" None
     [inst_s; inst_c;
      Node 24 "Connection" (Some "conn")
        [Node 25 "ConnectionEnd" None [inst_c; usesx];
         Node 26 "ConnectionEnd" None [inst_s; prov]; cn]]]].
Example spec_resolved : resolve spec_in = Ok spec_out.
Proof. reflexivity. Qed.
Example spec_tidy : Forall tidy spec_out.
Proof. repeat constructor; intros; try discriminate; repeat constructor; simpl; tauto. Qed.
Example spec_missing : resolve [Node 1 "Instance" (Some "i") [Ref ["K"] (TClass "Component")]] = Err ParseError.
Proof. reflexivity. Qed.
