From Coq Require Import String Ascii List Bool NArith ZArith.
From Verif Require Import Prelude DecStr Numeric_Model Lift_Model Lift_Spec Lift_Proofs Lift_Proofs4 Lift_Proofs5.
Import ListNotations.
Open Scope string_scope.
Open Scope list_scope.

(** * C65: each declaration becomes the object that its author means

    For the declarations in which compositions and configurations are given in place; those
    given by name are dropped (below). *)
Theorem C65_object_partial d : in_place d -> agrees (lift_raw (tree_of d)) (object_of d).
Proof. exact (lifted d). Qed.
Print Assumptions C65_object_partial.

(** A file: its declarations in order, or an error if any of them has no meaning. *)
Theorem C65_file_partial ds : (forall d, In d ds -> in_place d) ->
  agrees (lift_all (map tree_of ds)) (all (map object_of ds)).
Proof. exact (file_lifted ds). Qed.
Print Assumptions C65_file_partial.

(** component Foo { control; uses a.P p; maybe dataport Buf d; dataport Buf(2 + 2) e; attribute int x[] = [1];
      composition { export c.p -> p; component { hardware; } inner; } configuration { i.x <- "a" "b"; } } *)
Example foo : decl :=
  DComponent (Some "Foo")
    (Body [CControl; CUses false ("a", ["P"]) "p"; CDataport true (DName "Buf") "d"; CDataport false (DBuf (NNum "4096")) "e";
           CField (Field (TSigned ["int"]) "x" true (Some (IList [INum (NNum "1")])))]
       (Some (XDef None [SExport ("c", ["p"]) ("p", []); SInstance (Inst (YBody (Body [CHardware] None None false)) "inner")]))
       (Some (FDef None [Set_ "i" "x" (RItem (IText ("a", ["b"])))])) true).
Example foo_in_place : in_place foo.
Proof. cbn. tauto. Qed.
Example foo_object : object_of foo = Some
  (VComponent (Some "Foo") [] true false [] [VUses (VRef ["a"; "P"] (Some CProcedure)) "p" false] [] []
     [VDataport "Buf" "d" true; VDataport "Buf(4096)" "e" false] [VAttr (VStr "int") "x" true (Some (VList [VNum 1]))] [] [] []
     (Some (VComposition None [VInstance (VComponent None [] false true [] [] [] [] [] [] [] [] [] None None) "inner"] [] []
              [VExport (VRef ["c"] (Some CInstance)) (VRef ["c"; "p"] (Some CInterface)) (VRef ["p"] (Some CInterface))]))
     (Some (VConfiguration None [VSetting "i" "x" (VStr "ab")]))).
Proof. vm_compute. reflexivity. Qed.
Example foo_lifted : lift_raw (tree_of foo) = match object_of foo with Some v => Ok v | None => Err OtherException end.
Proof. vm_compute. reflexivity. Qed.
(** connector C { from Events 2 threads; to hardware Procedure; } and procedure, struct, assembly *)
Example others : list decl :=
  [DConnector (Some "C") (Connector (mk_cend false KEvent true (Some (NNum "2"))) (mk_cend true KProcedure false None) []);
   DProcedure (Some "P") [PInclude (IncAngle "x.h"); PMethod (Meth (Some (TName "integer")) "f" [Param (Some DRefin) TString "s" false; Param None (TPath ("T", [])) "t" true])];
   DStruct "S" [Field (TAnon [Field TChar "c" false None]) "in" false None];
   DAssembly None [AConf (FDef None []); ACompos (XDef (Some "c") [SConnection (ZRef ("C", [])) "k" [End_ true ("a", ["x"]); End_ false ("b", ["y"]); End_ true ("z", [])]])]].
Example others_in_place : forall d, In d others -> in_place d.
Proof. intros d [<-|[<-|[<-|[<-|[]]]]]; cbn; auto. intros p [<-|[<-|[]]]; cbn; auto. Qed.
Example others_objects : all (map object_of others) = Some
  [VConnector (Some "C") "Event" "Procedure" true false 2 1 false true [];
   VProcedure (Some "P") [VInclude "x.h" false] [VMethod "f" (Some "int") [VParam "s" "refin" "string" false; VParam "t" "in" "T" true]] [];
   VStruct (Some "S") [VAttr (VStruct None [VAttr (VStr "char") "c" false None]) "in" false None];
   VAssembly None (VComposition (Some "c") [] [VConnection (VRef ["C"] (Some CConnector)) "k"
      [VEnd "from" (Some (VRef ["a"] (Some CInstance))) (VRef ["a"; "x"] (Some CInterface)); VEnd "from" None (VRef ["z"] (Some CInterface))]
      [VEnd "to" (Some (VRef ["b"] (Some CInstance))) (VRef ["b"; "y"] (Some CInterface))]] [] [])
      (VConfiguration None []) (VSchedule [])].
Proof. vm_compute. reflexivity. Qed.

(** A configuration or a composition given by name is silently ignored: the object exists, but
    without it. *)
Theorem C65_configuration_by_name_refuted : exists d v w,
  object_of d = Some v /\ lift_raw (tree_of d) = Ok w /\
  v = VAssembly None (VComposition None [] [] [] []) (VRef ["settings"] (Some CConfiguration)) (VSchedule []) /\
  w = VAssembly None (VComposition None [] [] [] []) (VConfiguration None []) (VSchedule []).
Proof.
  exists (DAssembly None [ACompos (XDef None []); AConf (FRef ("settings", []))]). do 2 eexists.
  repeat split; vm_compute; reflexivity.
Qed.
Print Assumptions C65_configuration_by_name_refuted.
Theorem C65_composition_by_name_refuted : exists d v w,
  object_of d = Some v /\ lift_raw (tree_of d) = Ok w /\
  v = VComponent (Some "Foo") [] false false [] [] [] [] [] [] [] [] [] (Some (VRef ["parts"] (Some CComposition))) None /\
  w = VComponent (Some "Foo") [] false false [] [] [] [] [] [] [] [] [] None None.
Proof.
  exists (DComponent (Some "Foo") (Body [] (Some (XRef ("parts", []))) None false)). do 2 eexists.
  repeat split; vm_compute; reflexivity.
Qed.
Print Assumptions C65_composition_by_name_refuted.

(** A dictionary has each key once, with the value that the source gives last. *)
Theorem C65_dictionary l kvs :
  all (map (fun p => k <~ m_key (fst p) ;; v <~ m_item (snd p) ;; Some (k, v)) l) = Some kvs ->
  exists d, lift_raw (t_item (IDict l)) = Ok (VDict d) /\ NoDup (map fst d) /\
  forall k v, In (k, v) d <-> exists l1 l2, kvs = l1 ++ (k, v) :: l2 /\ ~ In k (map fst l2).
Proof. exact (dictionary l kvs). Qed.
Print Assumptions C65_dictionary.
Example C65_dictionary_ex : lift_raw (t_item (IDict [(KText ("a", []), INum (NNum "1")); (KNum (NNum "7"), IList []); (KText ("a", []), INum (NNum "2"))])) =
  Ok (VDict [(VStr "a", VNum 2); (VNum 7, VList [])]).
Proof. vm_compute. reflexivity. Qed.

(** * C66: a declaration is accepted exactly when all of it means something

    [ok_decl]: numbers have values, dataports positive sizes, connector ends no negative number
    of threads; exports name an interface of an instance; structs are not empty; parameters have
    named types; an assembly has one composition and at most one configuration and schedule. *)
Theorem C66_accepted_partial d : in_place d -> ((exists v, lift_raw (tree_of d) = Ok v) <-> ok_decl d).
Proof. exact (accepted_iff d). Qed.
Print Assumptions C66_accepted_partial.
Example foo_ok : ok_decl foo.
Proof. apply C66_accepted_partial; [exact foo_in_place|]. rewrite foo_lifted, foo_object. eexists. reflexivity. Qed.
Example C66_bad_export : ~ ok_decl (DComposition None [SExport ("p", []) ("q", [])]).
Proof. cbn. intros [H _]. apply H. reflexivity. Qed.
Example C66_bad_size : ~ ok_decl (DComponent None (Body [CDataport false (DBuf (NNum "0")) "d"] None None false)).
Proof. cbn. intros [[(z & E & H) _] _]. vm_compute in E. injection E as <-. discriminate H. Qed.

(** An assembly that names its composition is refused although it means something. *)
Theorem C66_named_composition_refuted : exists d, ok_decl d /\ lift_raw (tree_of d) = Err AssertionError.
Proof.
  exists (DAssembly None [ACompos (XRef ("parts", []))]). split; [|vm_compute; reflexivity].
  cbn. repeat split; auto.
Qed.
Print Assumptions C66_named_composition_refuted.
