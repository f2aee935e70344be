(** C100: settings of hardware interrupts. *)
From Coq Require Import ZArith NArith String List Bool.
From Verif Require Import Prelude IrqConf_Model IrqConf_Spec IrqConf_Proofs.
From Verif Require Irq_Model Irq_Spec.
Import ListNotations.
Open Scope string_scope.

(** The template creates an object and a record exactly if the settings describe an
    interrupt; then the object is that interrupt and the record says the same. *)
Theorem C100_described instance interface c o r :
  template instance interface c = Done (o, r) <-> describes interface c o /\ same o r.
Proof. exact (template_done instance interface c o r). Qed.
Print Assumptions C100_described.

(** If it stops with an error, the message names a setting that is wrong, in the way it
    is wrong; and it stops whenever something is wrong. *)
Theorem C100_message instance interface c m :
  template instance interface c = Failure m -> wrong instance interface c m.
Proof. exact (template_failure instance interface c m). Qed.
Print Assumptions C100_message.
Theorem C100_rejects instance interface c m :
  wrong instance interface c m -> exists m', template instance interface c = Failure m'.
Proof. exact (template_wrong instance interface c m). Qed.
Print Assumptions C100_rejects.

(** "A driver that asks for the interrupt as the settings describe it finds it" is false
    for an interrupt of type arm with another target core than 0: the record has no core. *)
Theorem C100_driver_refuted :
  exists o r q, template "dev" "i" core1 = Done (o, r) /\ asks o q /\ ~ Irq_Spec.fits (entry r) q /\
  forall h cb, Irq_Model.irq_register true q (Some cb) (Irq_Model.initial [(h, entry r)]) =
    (Irq_Model.initial [(h, entry r)], Irq_Model.ENOENT, []).
Proof. exact core_refuted. Qed.
Print Assumptions C100_driver_refuted.

(** It holds of all requests that do not name another core than 0 (C41 says that such a
    request is granted). *)
Theorem C100_driver_partial instance interface c o r q :
  template instance interface c = Done (o, r) -> asks o q ->
  (forall n t k, q = Irq_Model.PerCpu n t k -> k = 0%N) -> Irq_Spec.fits (entry r) q.
Proof. intros E. exact (found o r q (proj2 (proj1 (template_done _ _ _ _ _) E))). Qed.
Print Assumptions C100_driver_partial.

Example C100_simple : template "dev" "irq" [("irq_irq_number", VInt 27); ("irq_spi_number", VInt 0)] =
  Done (ONumber 59, PS_INTERRUPT 59).
Proof. reflexivity. Qed.
Example C100_isa : template "dev" "irq" [("irq_irq_type", VStr "isa"); ("irq_irq_ioapic", VInt 0);
    ("irq_irq_ioapic_pin", VInt 4); ("irq_irq_vector", VInt 7); ("irq_irq_level", VInt 1)] =
  Done (OIoapic 7 0 4 0 0, PS_IOAPIC 0 4 0 0 7).
Proof. reflexivity. Qed.
Example C100_edge : template "dev" "irq" [("irq_irq_type", VStr "arm"); ("irq_irq_trigger", VStr "edge");
    ("irq_irq_number", VInt 40)] = Done (OArm 40 1 0, PS_TRIGGER 40 1).
Proof. reflexivity. Qed.
Example C100_bad : template "dev" "irq" [("irq_irq_type", VStr "msi"); ("irq_irq_handle", VInt 1);
    ("irq_irq_pci_bus", VStr "0")] =
  Failure "Setting dev.irq_irq_pci_bus that should specify a PCI bus is not an integer".
Proof. reflexivity. Qed.
