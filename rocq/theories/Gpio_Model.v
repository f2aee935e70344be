(** Model of the query of GPIO pins (camkes/parser/gpioQueryEngine.py), of the options of
    queries on the command line and of the files the query stage reports as read
    (camkes/parser/query.py).

    The query of a device tree is in area DtQuery: here it is any function of its arguments
    given by the file of --dtb.  Not modelled: abbreviated options, options without value and
    --help, which argparse handles. *)
From Coq Require Import List Bool String Ascii ZArith.
From Verif Require Import Prelude DtQuery_Model.
Import ListNotations.
Open Scope string_scope.
Open Scope list_scope.

(** An argument of the parser: [--name=value], or anything else. *)
Inductive arg := Opt (name value : string) | Other (s : string).

(** The arguments of a query in a specification are dicts. *)
Definition qargs := list (dict string dval).

(** A dtb query with its [engine], or a gpio query with its [pin_list]; the attribute is absent
    until check_options sets it.  [Some None]: the file is an empty YAML document. *)
Inductive state :=
| SDtb (engine : option (qargs -> res (dict string dval)))
| SGpio (pin_list : option (option dval)).
Record qobj := QObj { q_file : option string; q_state : state }.

Section Queries.
(** The contents of files as pyfdt and yaml.safe_load see them; [None]: they raise. *)
Variable load_dtb : string -> option (qargs -> res (dict string dval)).
Variable load_yaml : string -> option (option dval).

(** [parse_known_args] of a parser with the one option [name], query.py:58: the last value
    given, and the arguments not recognised. *)
Fixpoint parse_known_args (name : string) (argv : list arg) : option string * list arg :=
  match argv with
  | [] => (None, [])
  | a :: argv =>
      let (v, rest) := parse_known_args name argv in
      match a with
      | Opt n x => if String.eqb n name
                   then (match v with Some _ => v | None => Some x end, rest)
                   else (v, a :: rest)
      | Other _ => (v, a :: rest)
      end
  end.

(** [if self.options.x:], the empty string being false. *)
Definition given (o : option string) : option string :=
  match o with
  | Some f => if String.eqb f "" then None else Some f
  | None => None
  end.

(** check_options, fdtQueryEngine.py:628-635.  In the handler [.name] of a str is an
    AttributeError. *)
Definition check_dtb (o : option string) : res qobj :=
  match given o with
  | None => Ok (QObj o (SDtb None))
  | Some f => match load_dtb f with
              | Some e => Ok (QObj o (SDtb (Some e)))
              | None => Err OtherException
              end
  end.
(** check_options, gpioQueryEngine.py:45-52. *)
Definition check_gpio (o : option string) : res qobj :=
  match given o with
  | None => Ok (QObj o (SGpio None))
  | Some f => match load_yaml f with
              | Some v => Ok (QObj o (SGpio (Some v)))
              | None => Err OtherException
              end
  end.

(** parse_query_parser_args, query.py:74-83, with parse_args, 56-60, for the subclasses in the
    order of their import (parser/__init__.py:14-15); the names are fdtQueryEngine.py:637-639,
    620-626 and gpioQueryEngine.py:37-43, 54-56. *)
Definition parse_query_parser_args (argv : list arg)
  : res (dict string qobj * list arg) :=
  let (o, argv) := parse_known_args "dtb" argv in
  d <- check_dtb o ;;
  let (o, argv) := parse_known_args "gpio-list" argv in
  g <- check_gpio o ;;
  Ok ([("dtb", d); ("gpio", g)], argv).

(** get_deps, fdtQueryEngine.py:641-642 and gpioQueryEngine.py:58-59: a list with None if the
    option was not given. *)
Definition get_deps (q : qobj) : list (option string) := [q_file q].

(** GPIOMatchQuery.resolve, gpioQueryEngine.py:26-35; a missing [pin_list] is an
    AttributeError. *)
Definition gpio_resolve (pin_list : option (option dval)) (args : qargs)
  : res (dict string dval) :=
  match args with
  | [a] =>
      match dget a "pins" with
      | None => Err ParseError
      | Some pins =>
          match pin_list with
          | None => Err OtherException
          | Some None => Err TypeError
          | Some (Some v) =>
              l <- index v "gpio_list" ;;
              Ok [("query", DList [DDict [("desired-pins", pins)]]); ("all-pins", l)]
          end
      end
  | _ => Err AssertionError
  end.

(** [query.resolve(query_obj.args)], query.py:118; a dtb query without engine is an
    AttributeError (fdtQueryEngine.py:600). *)
Definition q_resolve (q : qobj) (args : qargs) : res (dict string dval) :=
  match q_state q with
  | SGpio p => gpio_resolve p args
  | SDtb None => Err OtherException
  | SDtb (Some e) => e args
  end.

(** A setting: its value, or a query with kind, arguments and lookup. *)
Record gsetting := GSetting {
  g_instance : string;
  g_attribute : string;
  g_value : dval + (string * (qargs * list string))
}.

(** The value of a query, query.py:118-135. *)
Definition query_value (q : qobj) (args : qargs) (lookup : list string) : res dval :=
  r <- q_resolve q args ;;
  match lookup with
  | [] =>
      let r := update_dict_keys r in
      match dget r "query" with
      | None => Err KeyError
      | Some (DList items) =>
          items <- mapM rename_item items ;;
          Ok (DDict (dset r "query" (DList items)))
      | Some _ => Err TypeError
      end
  | _ =>
      match dget r "query" with
      | None => Err KeyError
      | Some (DList items) =>
          items <- mapM (fun v => foldM index lookup v) items ;; Ok (DList items)
      | Some _ => Err TypeError
      end
  end.

(** The loop of resolve, query.py:113-139: new settings, and the queries used. *)
Fixpoint resolve_settings (queries : dict string qobj) (ss : list gsetting) (used : list qobj)
  : res (list gsetting * list qobj) :=
  match ss with
  | [] => Ok ([], used)
  | s :: ss =>
      match g_value s with
      | inl _ =>
          '(ss', used) <- resolve_settings queries ss used ;; Ok (s :: ss', used)
      | inr (kind, (args, lookup)) =>
          match dget queries kind with
          | None => Err ParseError
          | Some q =>
              v <- query_value q args lookup ;;
              '(ss', used) <- resolve_settings queries ss (q :: used) ;;
              Ok (GSetting (g_instance s) (g_attribute s) (inl v) :: ss', used)
          end
      end
  end.

(** resolve, query.py:103-145; [read] is the set of files read. *)
Definition resolve_all (queries : dict string qobj) (ss : list gsetting)
  (read : list (option string)) : res (list gsetting * list (option string)) :=
  '(ss', used) <- resolve_settings queries ss [] ;;
  Ok (ss', fold_left (fun read q => get_deps q ++ read) used read).

(** The line of dependencies, parser/__main__.py:100-102: joining fails for None. *)
Definition dependencies (read : list (option string)) : res (list string) :=
  mapM (fun o => match o with Some f => Ok f | None => Err TypeError end) read.

(** The command line, the query stage and the line of dependencies in a row. *)
Definition run (argv : list arg) (ss : list gsetting) (read : list (option string))
  : res (list gsetting * list string) :=
  '(queries, _) <- parse_query_parser_args argv ;;
  '(ss', read') <- resolve_all queries ss read ;;
  d <- dependencies read' ;;
  Ok (ss', d).
End Queries.
