From Coq Require Import String Ascii List Bool NArith ZArith.
From Verif Require Import Prelude Numeric_Model Lift_Model Lift_Spec Syntax_Model Syntax_Spec Syntax_Proofs2 Syntax_Proofs3 Syntax_Proofs4.
Import ListNotations.
Open Scope string_scope.
Open Scope list_scope.

(** * C109: a specification has one reading *)

(** A parser that always takes a type of one identifier for the same thing, either the name of
    a type or a reference to a struct, has at most one reading of a text.  Missing: the grammar
    itself does not say for which (below). *)
Theorem C109_one_reading_partial k l l' w : k <> Both -> g_start k l w -> g_start k l' w -> l = l'.
Proof. exact (fun Hk => one_reading k Hk l l' w). Qed.
Print Assumptions C109_one_reading_partial.

(** One declaration is recognised without regard to what follows it. *)
Theorem C109_declaration_partial k d d' w r r' : k <> Both ->
  g_decl k d w r -> g_decl k d' w r' -> d = d' /\ r = r'.
Proof. exact (fun Hk H1 H2 => decl_det k Hk d d' w r r' H1 H2 eq_refl eq_refl). Qed.
Print Assumptions C109_declaration_partial.

(** component A { control; maybe uses x.P p; dataport Buf(4096) d; attribute T t[] = [1, "a" "b",];
      composition { component { hardware; } c; connection K k(from c.i, to p); export c.p -> p; }
      configuration { c.x = { "k" : -1 }; c.y <- z.w["k"][2]; } };
    import <std.camkes>;
    procedure P { include "a.h"; U u = 3 void f(in T t, out int i[]); unsigned int g(void); }
    assembly { composition all; schedule { [(0, 1 us), (1, 2),] } } *)
Definition some_text : text_ :=
  [Word "component"; Name "A"; Sym "{"; Word "control"; Sym ";";
   Word "maybe"; Word "uses"; Name "x"; Sym "."; Name "P"; Name "p"; Sym ";";
   Word "dataport"; Name "Buf"; Expr TLpar; Expr (TNum "4096"); Expr TRpar; Name "d"; Sym ";";
   Word "attribute"; Name "T"; Name "t"; Sym "["; Sym "]"; Sym "="; Sym "["; Expr (TNum "1"); Sym ",";
     Quoted "a"; Quoted "b"; Sym ","; Sym "]"; Sym ";";
   Word "composition"; Sym "{"; Word "component"; Sym "{"; Word "hardware"; Sym ";"; Sym "}"; Name "c"; Sym ";";
     Word "connection"; Name "K"; Name "k"; Expr TLpar; Word "from"; Name "c"; Sym "."; Name "i"; Sym ",";
       Word "to"; Name "p"; Expr TRpar; Sym ";";
     Word "export"; Name "c"; Sym "."; Name "p"; Sym "->"; Name "p"; Sym ";"; Sym "}";
   Word "configuration"; Sym "{"; Name "c"; Sym "."; Name "x"; Sym "="; Sym "{"; Quoted "k"; Expr TColon;
       Expr (TOp OSub); Expr (TNum "1"); Sym "}"; Sym ";";
     Name "c"; Sym "."; Name "y"; Sym "<-"; Name "z"; Sym "."; Name "w"; Sym "["; Quoted "k"; Sym "]";
       Sym "["; Expr (TNum "2"); Sym "]"; Sym ";"; Sym "}"; Sym "}"; Sym ";";
   Word "import"; Angled "std.camkes"; Sym ";";
   Word "procedure"; Name "P"; Sym "{"; Word "include"; Quoted "a.h"; Sym ";";
     Name "U"; Name "u"; Sym "="; Expr (TNum "3");
     Word "void"; Name "f"; Expr TLpar; Word "in"; Name "T"; Name "t"; Sym ","; Word "out"; Word "int"; Name "i";
       Sym "["; Sym "]"; Expr TRpar; Sym ";";
     Word "unsigned"; Word "int"; Name "g"; Expr TLpar; Word "void"; Expr TRpar; Sym ";"; Sym "}";
   Word "assembly"; Sym "{"; Word "composition"; Name "all"; Sym ";";
     Word "schedule"; Sym "{"; Sym "["; Expr TLpar; Expr (TNum "0"); Sym ","; Expr (TNum "1"); Word "us"; Expr TRpar; Sym ",";
       Expr TLpar; Expr (TNum "1"); Sym ","; Expr (TNum "2"); Expr TRpar; Sym ","; Sym "]"; Sym "}"; Sym "}"].
Fixpoint up (n : nat) (e : node) : node := match n with 0 => e | S m => NRule n (up m e) TNil end.
Definition plain (e : node) : node := NOne (up 10 e).
Definition some_file : list top :=
  [Decl (DComponent (Some "A")
     (Body [CControl; CUses true ("x", ["P"]) "p"; CDataport false (DBuf (plain (NNum "4096"))) "d";
            CField (Field (TPath ("T", [])) "t" true (Some (IList [INum (plain (NNum "1")); IText ("a", ["b"])])))]
        (Some (XDef None
           [SInstance (Inst (YBody (Body [CHardware] None None false)) "c");
            SConnection (ZRef ("K", [])) "k" [End_ true ("c", ["i"]); End_ false ("p", [])];
            SExport ("c", ["p"]) ("p", [])]))
        (Some (FDef None
           [Set_ "c" "x" (RItem (IDict [(KText ("k", []), INum (plain (NMinus (NNum "1"))))]));
            Set_ "c" "y" (RRef ("z", ["w"]) (Some (KText ("k", []), [KNum (plain (NNum "2"))])))])) false));
   Empty;
   Import (IncAngle "std.camkes");
   Decl (DProcedure (Some "P")
     [PInclude (IncText ("a.h", [])); PField (Field (TPath ("U", [])) "u" false (Some (INum (plain (NNum "3")))));
      PMethod (Meth None "f" [Param (Some DIn) (TPath ("T", [])) "t" false; Param (Some DOut) (TSigned ["int"]) "i" true]);
      PMethod (Meth (Some (TUnsigned ["unsigned"; "int"])) "g" [])]);
   Decl (DAssembly None [ACompos (XRef ("all", [])); ASchedule [Slot "0" "1" (Some true); Slot "1" "2" None]])].
Ltac reads := repeat (cbn; match goal with
  | |- exists _, _ => eexists
  | |- _ /\ _ => split
  | |- g_start _ _ _ => unfold g_start
  | |- g_include _ _ _ => unfold g_include
  | |- g_reference _ _ _ => unfold g_reference, g_id, g_dots
  | |- g_numeric _ _ _ => unfold g_numeric
  | |- g_string _ _ _ => unfold g_string
  | |- g_conf_sing _ _ _ => unfold g_conf_sing
  | |- g_configuration _ _ _ _ => unfold g_configuration
  | |- g_lookup _ _ _ => unfold g_lookup
  | |- g_attribute _ _ _ _ => unfold g_attribute
  | |- g_struct_defn _ _ _ _ => unfold g_struct_defn
  | |- g_schedule _ _ _ => unfold g_schedule
  | |- g_id _ _ _ => unfold g_id
  | |- g_direction _ _ _ => unfold g_direction
  | |- @eq (list string) _ _ \/ _ => first [left; reflexivity|right]
  | |- _ <> _ => discriminate
  | |- _ -> _ => discriminate
  | |- le _ _ => repeat constructor
  | |- _ = _ => reflexivity
  | |- _ = _ \/ _ = Sym "," :: _ => first [left; reflexivity|right; reflexivity]
  | |- _ \/ _ => first [right; split; [reflexivity|reflexivity]|left]
  end).
Example some_reading : g_start As_reference some_file some_text.
Proof. unfold some_file, some_text. reads. Qed.

(** Finding: a type of one identifier is the name of a type or a reference to a struct, and the
    two readings mean different things: struct S { T x; } *)
Theorem C109_one_reading_refuted : exists w d d' v v',
  g_start Both [Decl d] w /\ g_start Both [Decl d'] w /\ object_of d = Some v /\ object_of d' = Some v' /\
  v = VStruct (Some "S") [VAttr (VStr "T") "x" false None] /\
  v' = VStruct (Some "S") [VAttr (VRef ["T"] (Some CStruct)) "x" false None].
Proof.
  exists [Word "struct"; Name "S"; Sym "{"; Name "T"; Name "x"; Sym ";"; Sym "}"],
    (DStruct "S" [Field (TName "T") "x" false None]), (DStruct "S" [Field (TPath ("T", [])) "x" false None]).
  do 2 eexists. split; [unfold g_start; reads|]. split; [unfold g_start; reads|]. repeat split; reflexivity.
Qed.
Print Assumptions C109_one_reading_refuted.

(** There is no other choice: two readings of a text differ in nothing else. *)
Theorem C109_readings k l l' w : k <> Both -> g_start Both l w -> g_start Both l' w ->
  map (choose_top k) l = map (choose_top k) l'.
Proof. exact (readings l l' k w). Qed.
Print Assumptions C109_readings.
(** Whichever way a parser takes it, it accepts the same texts, with the same reading but for
    that. *)
Theorem C109_either_way k k' l w : g_start k l w -> g_start k' (map (choose_top k') l) w.
Proof. exact (chosen k k' l w). Qed.
Print Assumptions C109_either_way.
Example C109_either_way_ex : g_start As_name (map (choose_top As_name) some_file) some_text /\
  decls (map (choose_top As_name) [Decl (DStruct "S" [Field (TPath ("T", [])) "x" false None; Field (TPath ("Buf", [])) "y" false None])]) =
  [DStruct "S" [Field (TName "T") "x" false None; Field (TPath ("Buf", [])) "y" false None]].
Proof. split; [exact (C109_either_way _ As_name _ _ some_reading)|reflexivity]. Qed.

(** The text of a file put between the texts of others, as the preprocessor does for an
    inclusion, is read as the declarations of all of them in their order, and as nothing else. *)
Theorem C109_inclusion_partial k before l after u w v : k <> Both ->
  g_start k before u -> g_start k l w -> g_start k after v ->
  forall f, g_start k f (u ++ w ++ v) <-> f = before ++ l ++ after.
Proof. exact (inclusion k before l after u w v). Qed.
Print Assumptions C109_inclusion_partial.
Example C109_inclusion_ex f : g_start As_reference f ([Sym ";"] ++ some_text ++ some_text) <-> f = [Empty] ++ some_file ++ some_file.
Proof. apply C109_inclusion_partial; try exact some_reading; [discriminate|unfold g_start; reads]. Qed.

(** Finding: a component may have a composition and a configuration, but not a configuration
    alone. *)
Theorem C109_configuration_alone k l f m m' r : k <> Both ->
  many (g_citem k) l m m' -> g_conf_sing f m' (Sym "}" :: r) -> forall b r', ~ g_body k b (Sym "{" :: m) r'.
Proof. exact (fun Hk => configuration_alone k Hk l f m m' r). Qed.
Print Assumptions C109_configuration_alone.
Example C109_configuration_alone_ex :
  many (g_citem As_name) [CControl] [Word "control"; Sym ";"; Word "configuration"; Sym "{"; Sym "}"; Sym "}"]
    [Word "configuration"; Sym "{"; Sym "}"; Sym "}"] /\
  g_conf_sing (FDef None []) [Word "configuration"; Sym "{"; Sym "}"; Sym "}"] [Sym "}"].
Proof. split; reads. Qed.
(** Finding: a schedule of one slot is not accepted. *)
Theorem C109_one_slot k s m r : g_slot s m (Sym "]" :: r) ->
  forall p r', ~ g_part k p (Word "schedule" :: Sym "{" :: Sym "[" :: m) r'.
Proof. exact (one_slot k s m r). Qed.
Print Assumptions C109_one_slot.
Example C109_one_slot_ex : g_slot (Slot "0" "5" None)
  [Expr TLpar; Expr (TNum "0"); Sym ","; Expr (TNum "5"); Expr TRpar; Sym "]"] [Sym "]"].
Proof. reads. Qed.
(** Finding: an attribute of a procedure must not have a semicolon. *)
Theorem C109_procedure_semicolon k l f m m' r : k <> Both ->
  many (g_pitem k) l m m' -> g_attribute_decl k f m' (Sym ";" :: r) -> forall l' r', ~ many (g_pitem k) l' m (Sym "}" :: r').
Proof. exact (fun Hk => procedure_semicolon k Hk l f m m' r). Qed.
Print Assumptions C109_procedure_semicolon.
Example C109_procedure_semicolon_ex :
  let rest := [Word "char"; Name "c"; Sym ";"; Sym "}"] in
  many (g_pitem As_name) [PField (Field (TSigned ["int"]) "i" true None)] ([Word "int"; Name "i"; Sym "["; Sym "]"] ++ rest) rest /\
  g_attribute_decl As_name (Field TChar "c" false None) rest [Sym ";"; Sym "}"].
Proof. split; reads. Qed.
