(** Specification for GPIO queries and the files of queries. *)
From Coq Require Import List String.
From Verif Require Import Prelude DtQuery_Model Gpio_Model.
Import ListNotations.
Open Scope string_scope.
Open Scope list_scope.

(** [f] is the last value given for the option on the command line. *)
Definition last_given (name : string) (argv : list arg) (f : string) : Prop :=
  exists before after, argv = before ++ Opt name f :: after /\
    forall x, ~ In (Opt name x) after.
Definition not_given (name : string) (argv : list arg) : Prop :=
  forall x, ~ In (Opt name x) argv.

(** The option of each kind of query. *)
Inductive kind_option : string -> string -> Prop :=
| dtb_option : kind_option "dtb" "dtb"
| gpio_option : kind_option "gpio" "gpio-list".

(** What remains of the command line. *)
Inductive unrecognised : list arg -> list arg -> Prop :=
| no_args : unrecognised [] []
| skip_dtb : forall x a r, unrecognised a r -> unrecognised (Opt "dtb" x :: a) r
| skip_gpio : forall x a r, unrecognised a r -> unrecognised (Opt "gpio-list" x :: a) r
| keep_option : forall n x a r, n <> "dtb" -> n <> "gpio-list" -> unrecognised a r ->
    unrecognised (Opt n x :: a) (Opt n x :: r)
| keep_other : forall s a r, unrecognised a r -> unrecognised (Other s :: a) (Other s :: r).

(** Following keys from a value. *)
Inductive follow : dval -> list string -> dval -> Prop :=
| follow_end : forall v, follow v [] v
| follow_key : forall d k ks v w, dget d k = Some v -> follow v ks w ->
    follow (DDict d) (k :: ks) w.

(** The value of a gpio query for pins [pins], all pins of the platform being [all]. *)
Inductive gpio_value (pins all : dval) : list string -> dval -> Prop :=
| gpio_struct : gpio_value pins all []
    (DDict [("query", DList [DDict [("desired_pins", pins)]]); ("all_pins", all)])
| gpio_lookup : forall ks v, follow pins ks v ->
    gpio_value pins all ("desired-pins" :: ks) (DList [v]).

(** Some setting is a query of this kind. *)
Definition asks (ss : list gsetting) (kind : string) : Prop :=
  exists s args lookup, In s ss /\ g_value s = inr (kind, (args, lookup)).
