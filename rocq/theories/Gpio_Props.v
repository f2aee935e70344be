(** Properties of GPIO queries and of the files of queries (C128). *)
From Coq Require Import List String ZArith.
From Verif Require Import Prelude DtQuery_Model Gpio_Model Gpio_Spec Gpio_Proofs.
Import ListNotations.
Open Scope string_scope.
Open Scope list_scope.

(** C128: the options of queries are taken from the command line, everything else is left in
    its order, to be reported. *)
Theorem C128_command_line : forall ld ly argv qs rest,
  parse_query_parser_args ld ly argv = Ok (qs, rest) -> unrecognised argv rest.
Proof. exact command_line_lemma. Qed.
Print Assumptions C128_command_line.

(** C128: after a successful run settings are in their order, and those without a query are as
    they were.  A gpio query has become what it stands for: the pins asked for and the list of
    pins in the file given last.  A dtb query has been put to the device tree given last, and a
    lookup followed in each of its results (structs are in area DtQuery). *)
Theorem C128_values : forall ld ly argv ss read ss' d, run ld ly argv ss read = Ok (ss', d) ->
  Forall2 (fun s s' => g_instance s' = g_instance s /\ g_attribute s' = g_attribute s /\
    match g_value s with
    | inl v => g_value s' = inl v
    | inr (kind, (args, lookup)) => exists v, g_value s' = inl v /\
        (kind = "dtb" /\
         (exists f e r items, last_given "dtb" argv f /\ f <> "" /\ ld f = Some e /\
            e args = Ok r /\ (lookup <> [] -> dget r "query" = Some (DList items) /\
              exists l, v = DList l /\ Forall2 (fun x y => follow x lookup y) items l)) \/
         kind = "gpio" /\
         exists f y all a pins, last_given "gpio-list" argv f /\ f <> "" /\
           ly f = Some (Some (DDict y)) /\ dget y "gpio_list" = Some all /\
           args = [a] /\ dget a "pins" = Some pins /\ gpio_value pins all lookup v)
    end) ss ss'.
Proof. exact values_lemma. Qed.
Print Assumptions C128_values.

(** C128: a run whose gpio queries all stand for something succeeds. *)
Theorem C128_succeeds : forall ld ly argv ss read,
  (forall f, last_given "dtb" argv f -> ld f <> None) ->
  (forall f, last_given "gpio-list" argv f -> ly f <> None) ->
  Forall (fun s => match g_value s with
    | inl _ => True
    | inr (kind, (args, lookup)) => kind = "gpio" /\
        exists v f y all a pins, last_given "gpio-list" argv f /\ f <> "" /\
           ly f = Some (Some (DDict y)) /\ dget y "gpio_list" = Some all /\
           args = [a] /\ dget a "pins" = Some pins /\ gpio_value pins all lookup v
    end) ss ->
  exists r, run ld ly argv ss (map Some read) = Ok r.
Proof. exact complete_lemma. Qed.
Print Assumptions C128_succeeds.

(** C128: the files reported for the build are those read before and those given for the kinds
    of queries the specification uses, no others. *)
Theorem C128_dependencies : forall ld ly argv ss read ss' d,
  run ld ly argv ss read = Ok (ss', d) ->
  forall f, In f d <-> In (Some f) read \/
    exists kind opt, kind_option kind opt /\ asks ss kind /\ last_given opt argv f.
Proof. exact reads_lemma. Qed.
Print Assumptions C128_dependencies.

(** C128, refuted: problems with files of queries are reported as such.  A file that cannot be
    read or parsed ends the parser with an AttributeError from the handler of the error, even if
    there is no query... *)
Theorem C128_bad_file_refuted : forall ld ly argv ss read f, f <> "" ->
  last_given "dtb" argv f /\ ld f = None \/ last_given "gpio-list" argv f /\ ly f = None ->
  run ld ly argv ss read = Err OtherException.
Proof. exact bad_file_lemma. Qed.
Print Assumptions C128_bad_file_refuted.
(** ... and so does a query if no file was given. *)
Theorem C128_missing_refuted : forall ld ly argv s args a pins read,
  not_given "dtb" argv -> not_given "gpio-list" argv ->
  g_value s = inr ("gpio", (args, [])) -> args = [a] -> dget a "pins" = Some pins ->
  run ld ly argv [s] read = Err OtherException.
Proof. exact missing_lemma. Qed.
Print Assumptions C128_missing_refuted.

(** A command line with two lists of pins, and three settings. *)
Definition case_yaml (f : string) : option (option dval) :=
  if String.eqb f "old.yaml" then Some None
  else if String.eqb f "pins.yaml"
  then Some (Some (DDict [("gpio_list", DList [DStr "PA0"; DStr "PA1"])]))
  else None.
Definition case_argv :=
  [Opt "gpio-list" "old.yaml"; Opt "cpp" "yes"; Opt "gpio-list" "pins.yaml"; Other "-v"].
Definition case_pins := DDict [("led", DStr "PA1")].
Definition case_settings :=
  [GSetting "server" "pins" (inr ("gpio", ([[("pins", case_pins)]], [])));
   GSetting "server" "priority" (inl (DInt 100));
   GSetting "client" "led" (inr ("gpio", ([[("pins", case_pins)]], ["desired-pins"; "led"])))].
Example C128_case :
  run (fun _ => None) case_yaml case_argv case_settings [Some "app.camkes"] =
  Ok ([GSetting "server" "pins" (inl (DDict
         [("query", DList [DDict [("desired_pins", case_pins)]]);
          ("all_pins", DList [DStr "PA0"; DStr "PA1"])]));
       GSetting "server" "priority" (inl (DInt 100));
       GSetting "client" "led" (inl (DList [DStr "PA1"]))],
      ["pins.yaml"; "pins.yaml"; "app.camkes"]).
Proof. reflexivity. Qed.
Example C128_case_rest : exists qs,
  parse_query_parser_args (fun _ => None) case_yaml case_argv
  = Ok (qs, [Opt "cpp" "yes"; Other "-v"]).
Proof. eexists. reflexivity. Qed.
Example C128_case_given : last_given "gpio-list" case_argv "pins.yaml".
Proof.
exists [Opt "gpio-list" "old.yaml"; Opt "cpp" "yes"], [Other "-v"]. split; auto.
intros x [H|[]]. discriminate.
Qed.
Example C128_case_bad : last_given "gpio-list" [Opt "gpio-list" "no.yaml"] "no.yaml" /\
  case_yaml "no.yaml" = None.
Proof. split; auto. exists [], []. split; auto. Qed.
Example C128_case_missing : not_given "dtb" [Other "-v"] /\ not_given "gpio-list" [Other "-v"].
Proof. split; intros x [H|[]]; discriminate. Qed.
(** A dtb query with a lookup. *)
Example C128_case_dtb :
  run (fun _ => Some (fun _ => Ok [("query", DList [DDict [("reg", DInt 5)]; DDict [("reg", DInt 7)]])]))
    case_yaml [Opt "dtb" "board.dtb"]
    [GSetting "driver" "regs" (inr ("dtb", ([[("path", DStr "/uart")]], ["reg"])))] [] =
  Ok ([GSetting "driver" "regs" (inl (DList [DInt 5; DInt 7]))], ["board.dtb"]).
Proof. reflexivity. Qed.
