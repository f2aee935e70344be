(** Which interrupt the settings of a hardware interface describe. *)
From Coq Require Import ZArith NArith String List Bool.
From Verif Require Import Prelude IrqConf_Model.
From Verif Require Irq_Model.
Import ListNotations.
Open Scope string_scope.
Open Scope list_scope.

Inductive kind := Simple | Arm | Ioapic | Isa | Pci | Msi.
Definition kind_name (k : kind) : string :=
  match k with Simple => "simple" | Arm => "arm" | Ioapic => "ioapic" | Isa => "isa" | Pci => "pci" | Msi => "msi" end.

Section Spec.
Variables (instance interface : string) (c : settings).

(** The setting <interface><suffix> of the instance. *)
Definition setting (suffix : string) : option val := dget c (interface ++ suffix)%string.
Definition integer (suffix : string) (z : Z) : Prop := setting suffix = Some (VInt z).

(** The type of the interrupt; simple unless set. *)
Definition is_kind (k : kind) : Prop :=
  setting "_irq_type" = Some (VStr (kind_name k)) \/ (setting "_irq_type" = None /\ k = Simple).

(** Settings that have to be integers, and what they are. *)
Definition needed (k : kind) : list (string * string) :=
  match k with
  | Simple | Arm => [("_irq_number", "an IRQ number")]
  | Ioapic => [("_irq_level", "an IOAPIC interrupt level"); ("_irq_polarity", "an IOAPIC interrupt polarity");
               ("_irq_ioapic", "an IOAPIC controller number"); ("_irq_ioapic_pin", "an IOAPIC pin number");
               ("_irq_vector", "an IRQ vector")]
  | Isa | Pci => [("_irq_ioapic", "an IOAPIC controller number"); ("_irq_ioapic_pin", "an IOAPIC pin number");
                  ("_irq_vector", "an IRQ vector")]
  | Msi => [("_irq_handle", "an MSI handle"); ("_irq_pci_bus", "a PCI bus"); ("_irq_pci_dev", "a PCI device");
            ("_irq_pci_fun", "a PCI function"); ("_irq_vector", "an IRQ vector")]
  end.

(** Trigger mode: level (0) unless set to edge (1). *)
Inductive trigger : Z -> Prop :=
| trigger_default : setting "_irq_trigger" = None -> trigger 0
| trigger_level : setting "_irq_trigger" = Some (VStr "level") -> trigger 0
| trigger_edge : setting "_irq_trigger" = Some (VStr "edge") -> trigger 1.
(** Core: 0 unless set. *)
Inductive target : Z -> Prop :=
| target_default : setting "_irq_target" = None -> target 0
| target_set z : integer "_irq_target" z -> target z.

(** The interrupt that the settings describe. *)
Inductive describes : object -> Prop :=
| d_simple n : is_kind Simple -> integer "_irq_number" n -> ~ integer "_spi_number" 0 -> describes (ONumber n)
| d_spi n : is_kind Simple -> integer "_irq_number" n -> integer "_spi_number" 0 -> describes (ONumber (n + 32))
| d_arm n t core : is_kind Arm -> integer "_irq_number" n -> trigger t -> target core -> describes (OArm n t core)
| d_ioapic v i p l q : is_kind Ioapic -> integer "_irq_vector" v -> integer "_irq_ioapic" i -> integer "_irq_ioapic_pin" p ->
    integer "_irq_level" l -> integer "_irq_polarity" q -> describes (OIoapic v i p l q)
| d_isa v i p : is_kind Isa -> integer "_irq_vector" v -> integer "_irq_ioapic" i -> integer "_irq_ioapic_pin" p ->
    describes (OIoapic v i p 0 0)
| d_pci v i p : is_kind Pci -> integer "_irq_vector" v -> integer "_irq_ioapic" i -> integer "_irq_ioapic_pin" p ->
    describes (OIoapic v i p 1 1)
| d_msi v h b d f : is_kind Msi -> integer "_irq_vector" v -> integer "_irq_handle" h -> integer "_irq_pci_bus" b ->
    integer "_irq_pci_dev" d -> integer "_irq_pci_fun" f -> describes (OMsi v h b d f).

(** What is wrong with the settings, and how it is reported. *)
Definition complaint (suffix rest : string) : string :=
  ("Setting " ++ instance ++ "." ++ interface ++ suffix ++ " that should specify " ++ rest)%string.
Inductive wrong : string -> Prop :=
| w_missing k suffix what : is_kind k -> In (suffix, what) (needed k) -> setting suffix = None ->
    wrong (complaint suffix (what ++ " is not defined")%string)
| w_integer k suffix what v : is_kind k -> In (suffix, what) (needed k) -> setting suffix = Some v ->
    (forall z, v <> VInt z) -> wrong (complaint suffix (what ++ " is not an integer")%string)
| w_target v : is_kind Arm -> setting "_irq_target" = Some v -> (forall z, v <> VInt z) ->
    wrong (complaint "_irq_target" "a target core is not an integer")
| w_trigger v : is_kind Arm -> setting "_irq_trigger" = Some v -> v <> VStr "level" -> v <> VStr "edge" ->
    wrong (complaint "_irq_trigger" ("an IRQ trigger mode can only be ""edge"" or ""level"" but is set to: " ++ shown v)%string)
| w_kind : (forall k, ~ is_kind k) -> wrong ("Unknown irq type specified by " ++ instance ++ "." ++ interface ++ "_irq_type")%string.
End Spec.

(** The same interrupt. *)
Inductive same : object -> record -> Prop :=
| s_number n : same (ONumber n) (PS_INTERRUPT n)
| s_arm n t core : same (OArm n t core) (PS_TRIGGER n t)
| s_ioapic v i p l q : same (OIoapic v i p l q) (PS_IOAPIC i p l q v)
| s_msi v h b d f : same (OMsi v h b d f) (PS_MSI b d f h v).

(** The record as a driver's request is compared with it (Irq_Model.v). *)
Definition entry (r : record) : Irq_Model.irq :=
  match r with
  | PS_INTERRUPT n => Irq_Model.Interrupt (Z.to_N n)
  | PS_TRIGGER n t => Irq_Model.Trigger (Z.to_N n) (Z.to_N t)
  | PS_IOAPIC i p l q v => Irq_Model.Ioapic (Z.to_N i) (Z.to_N p) (Z.to_N l) (Z.to_N q) (Z.to_N v)
  | PS_MSI b d f h v => Irq_Model.Msi (Z.to_N b) (Z.to_N d) (Z.to_N f) (Z.to_N h) (Z.to_N v)
  end.
(** The requests of a driver for an interrupt object. *)
Inductive asks : object -> Irq_Model.irq -> Prop :=
| a_number n : asks (ONumber (Z.of_N n)) (Irq_Model.Interrupt n)
| a_arm_number n t k : asks (OArm (Z.of_N n) (Z.of_N t) (Z.of_N k)) (Irq_Model.Interrupt n)
| a_arm_trigger n t k : asks (OArm (Z.of_N n) (Z.of_N t) (Z.of_N k)) (Irq_Model.Trigger n t)
| a_arm_cpu n t k : asks (OArm (Z.of_N n) (Z.of_N t) (Z.of_N k)) (Irq_Model.PerCpu n t k)
| a_ioapic v i p l q : asks (OIoapic (Z.of_N v) (Z.of_N i) (Z.of_N p) (Z.of_N l) (Z.of_N q)) (Irq_Model.Ioapic i p l q v)
| a_msi v h b d f : asks (OMsi (Z.of_N v) (Z.of_N h) (Z.of_N b) (Z.of_N d) (Z.of_N f)) (Irq_Model.Msi b d f h v).
