(** Model of the settings of a hardware interrupt, the part of
    camkes/templates/seL4HardwareInterrupt.template.c that runs when the system is
    generated (:17-180): which interrupt object is created and which record describes it
    to drivers (the records are used by libsel4camkes/src/irq.c, see Irq_Model.v).

    Simplifications.
    - The value of a setting is an integer, a string or something else (None, which the
      template takes for a missing setting, is no value).  Python counts True and False as
      integers; they are not distinguished from 1 and 0 here.
    - The record of type arm has the tag PS_TRIGGER but fills the member for interrupts per
      CPU; in platsupport, which is not in /repo, both begin with number and trigger, and
      under the tag PS_TRIGGER only these two can be read. *)
From Coq Require Import ZArith String List Bool.
From Verif Require Import Prelude.
Import ListNotations.
Open Scope string_scope.
Open Scope list_scope.

Inductive val := VInt (z : Z) | VStr (s : string) | VOther.

(** configuration[me.parent.from_instance.name] *)
Definition settings := dict string val.
(** The kernel object: the parameters of alloc at :37, :63, :113, :155 *)
Inductive object :=
| ONumber (number : Z)
| OArm (number trigger target : Z)
| OIoapic (vector ioapic ioapic_pin level polarity : Z)
| OMsi (vector handle pci_bus pci_dev pci_fun : Z).

(** The record: .irq at :164-176 *)
Inductive record :=
| PS_INTERRUPT (number : Z)
| PS_TRIGGER (number trigger : Z)
| PS_IOAPIC (ioapic pin level polarity vector : Z)
| PS_MSI (pci_bus pci_dev pci_func handle vector : Z).

(** The template is expanded, or TemplateError with a message. *)
Inductive outcome A := Done (a : A) | Failure (message : string).
Arguments Done {A} a.
Arguments Failure {A} message.
Definition obind {A B} (m : outcome A) (f : A -> outcome B) : outcome B :=
  match m with Done a => f a | Failure e => Failure e end.

Section Template.
Variables (instance interface : string).    (* me.parent.from_instance.name, me.parent.from_interface.name *)
Variable c : settings.

(** The pattern of :24-31, :50-57, :72-79 and so on: a setting that has to be an integer *)
Definition integer_setting (suffix what : string) : outcome Z :=
  let attr := (interface ++ suffix)%string in
  match dget c attr with
  | None => Failure ("Setting " ++ instance ++ "." ++ attr ++ " that should specify " ++ what ++ " is not defined")%string
  | Some (VInt z) => Done z
  | Some _ => Failure ("Setting " ++ instance ++ "." ++ attr ++ " that should specify " ++ what ++ " is not an integer")%string
  end.

(** str() of a value in a message *)
Definition shown (v : val) : string := match v with VStr s => s | _ => "?" end.

(** capdl's ARMIRQMode *)
Definition seL4_ARM_IRQ_LEVEL : Z := 0.
Definition seL4_ARM_IRQ_EDGE : Z := 1.

(** :24-37, :165 *)
Definition simple : outcome (object * record) :=
  obind (integer_setting "_irq_number" "an IRQ number") (fun irq =>
  let irq := match dget c (interface ++ "_spi_number")%string with
             | Some (VInt z) => if (z =? 0)%Z then (irq + 32)%Z else irq
             | _ => irq
             end in
  Done (ONumber irq, PS_INTERRUPT irq)).

(** :39-49 *)
Definition trigger_setting : outcome Z :=
  let attr := (interface ++ "_irq_trigger")%string in
  let trigger := match dget c attr with Some v => v | None => VStr "level" end in
  let bad := Failure ("Setting " ++ instance ++ "." ++ attr ++ " that should specify an IRQ trigger mode can only be ""edge"" or ""level"" but is set to: " ++ shown trigger)%string in
  match trigger with
  | VStr s => if String.eqb s "level" then Done seL4_ARM_IRQ_LEVEL
              else if String.eqb s "edge" then Done seL4_ARM_IRQ_EDGE
              else bad
  | _ => bad
  end.

(** :58-62 *)
Definition target_setting : outcome Z :=
  let attr := (interface ++ "_irq_target")%string in
  match dget c attr with
  | None => Done 0%Z
  | Some (VInt z) => Done z
  | Some _ => Failure ("Setting " ++ instance ++ "." ++ attr ++ " that should specify a target core is not an integer")%string
  end.

(** :39-63, :175 *)
Definition arm : outcome (object * record) :=
  obind trigger_setting (fun trigger =>
  obind (integer_setting "_irq_number" "an IRQ number") (fun irq =>
  obind target_setting (fun target =>
  Done (OArm irq trigger target, PS_TRIGGER irq trigger)))).

(** :65-113, :167-169 *)
Definition ioapic (type : string) : outcome (object * record) :=
  obind (if String.eqb type "isa" then Done (0, 0)%Z
         else if String.eqb type "pci" then Done (1, 1)%Z
         else obind (integer_setting "_irq_level" "an IOAPIC interrupt level") (fun level =>
              obind (integer_setting "_irq_polarity" "an IOAPIC interrupt polarity") (fun polarity =>
              Done (level, polarity)))) (fun '(level, polarity) =>
  obind (integer_setting "_irq_ioapic" "an IOAPIC controller number") (fun ioapic =>
  obind (integer_setting "_irq_ioapic_pin" "an IOAPIC pin number") (fun ioapic_pin =>
  obind (integer_setting "_irq_vector" "an IRQ vector") (fun vector =>
  Done (OIoapic vector ioapic ioapic_pin level polarity, PS_IOAPIC ioapic ioapic_pin level polarity vector))))).

(** :115-155, :171-173 *)
Definition msi : outcome (object * record) :=
  obind (integer_setting "_irq_handle" "an MSI handle") (fun handle =>
  obind (integer_setting "_irq_pci_bus" "a PCI bus") (fun pci_bus =>
  obind (integer_setting "_irq_pci_dev" "a PCI device") (fun pci_dev =>
  obind (integer_setting "_irq_pci_fun" "a PCI function") (fun pci_fun =>
  obind (integer_setting "_irq_vector" "an IRQ vector") (fun vector =>
  Done (OMsi vector handle pci_bus pci_dev pci_fun, PS_MSI pci_bus pci_dev pci_fun handle vector)))))).

(** :20-23, :38, :64, :114, :156-158 *)
Definition template : outcome (object * record) :=
  let type_attr := (interface ++ "_irq_type")%string in
  let type := match dget c type_attr with Some v => v | None => VStr "simple" end in
  let unknown := Failure ("Unknown irq type specified by " ++ instance ++ "." ++ type_attr)%string in
  match type with
  | VStr t =>
      if String.eqb t "simple" then simple
      else if String.eqb t "arm" then arm
      else if existsb (String.eqb t) ["ioapic"; "isa"; "pci"] then ioapic t
      else if String.eqb t "msi" then msi
      else unknown
  | _ => unknown
  end.
End Template.
