(** Model of the device-tree part of camkes/parser/fdtQueryEngine.py:
    cells, register translation (DtbMatchQuery).

    A property is a list of 32-bit words.  Not modelled: string and byte
    properties (pyfdt decides by the content), nested nodes in the result. *)
From Coq Require Import List Bool String NArith.
From Verif Require Import Prelude.
Import ListNotations.
Open Scope string_scope.
Open Scope list_scope.

Notation word := N (only parsing).

(** [functools.reduce(lambda a, b: (a << 32) + b, [0] + l)],
    fdtQueryEngine.py:428. *)
Definition join (l : list word) : N :=
  fold_left (fun a b => N.shiftl a 32 + b)%N l 0%N.

(** DtbMatchQuery.unpack, 423-430. *)
Fixpoint unpack (data : list word) (sizes : list nat) : list N * list word :=
  match sizes with
  | [] => ([], data)
  | sz :: sizes =>
      let '(r, d) := unpack (skipn sz data) sizes in
      (join (firstn sz data) :: r, d)
  end.

(** DtbMatchQuery.unpacker, 432-436: the values it yields, consumed until
    the end or an error.  [each] is what the consumer does with one value. *)
Fixpoint unpacker {A} (each : list N -> res A) (fuel : nat)
  (data : list word) (sizes : list nat) : res (list A) :=
  match data with
  | [] => Ok []
  | _ :: _ =>
      match fuel with
      | O => Err OutOfFuel
      | S fuel =>
          let '(r, rest) := unpack data sizes in
          x <- each r ;;
          xs <- unpacker each fuel rest sizes ;;
          Ok (x :: xs)
      end
  end.

(** DtbMatchQuery.pack, 438-448. *)
Fixpoint pack (x : N) (size : nat) : res (list word) :=
  match size with
  | S size =>
      r <- pack (N.shiftr x 32) size ;;
      Ok (r ++ [N.land x (N.shiftl 1 32 - 1)%N])
  | O => if N.eqb x 0 then Ok [] else Err OtherException
  end.

(** An entry of [bus['translations']], 498-505. *)
Record range := Range { from_start : N; to_start : N; r_size : N }.

(** The inner loop of DtbMatchQuery.xlat_reg, 455-462. *)
Fixpoint xlat_bus (addr size : N) (ranges : list range) : res N :=
  match ranges with
  | [] => Ok addr
  | x :: rest =>
      if ((addr <? from_start x)
          || (from_start x + r_size x <? addr + 1))%N
      then xlat_bus addr size rest
      else if (from_start x + r_size x <? addr + size)%N
           then Err OtherException
           else Ok (to_start x + (addr - from_start x))%N
  end.

(** A bus, 511-546; [b_trans] is [bus.get('translations')]. *)
Record bus := Bus {
  b_addr : nat;
  b_size : nat;
  b_ranges : option (list word);
  b_trans : option (list range)
}.

(** DtbMatchQuery.xlat_reg, 450-463. *)
Fixpoint xlat_reg (addr size : N) (buses : list bus) : res N :=
  match buses with
  | [] => Ok addr
  | b :: rest =>
      match b_trans b with
      | None => xlat_reg addr size rest
      | Some ts => a <- xlat_bus addr size ts ;; xlat_reg a size rest
      end
  end.

(** One turn of the loop of DtbMatchQuery.xlat_regs, 476-484. *)
Definition xlat_one (ac sc : nat) (buses : list bus) (t : list N)
  : res (list word) :=
  match t with
  | [addr; size] =>
      a <- xlat_reg addr size buses ;;
      p <- pack a ac ;;
      q <- pack size sc ;;
      Ok (p ++ q)
  | _ => Err ValueError
  end.
(** DtbMatchQuery.xlat_regs, 465-484. *)
Definition xlat_regs (fuel : nat) (reg : list word) (buses : list bus)
  : res (list word) :=
  match buses with
  | [] => Err IndexError
  | b :: _ =>
      r <- unpacker (xlat_one (b_addr b) (b_size b) buses) fuel reg
             [b_addr b; b_size b] ;;
      Ok (List.concat r)
  end.

(** 497-505. *)
Definition make_range (t : list N) : res range :=
  match t with
  | [f; p; s] => Ok (Range f p s)
  | _ => Err ValueError
  end.
(** DtbMatchQuery.resolve_translations, 486-509. *)
Fixpoint resolve_translations (fuel : nat) (buses : list bus)
  : res (list bus) :=
  match buses with
  | [] => Ok []
  | b :: rest =>
      b' <- match b_ranges b with
            | None => Ok b
            | Some ws =>
                match rest with
                | [] => Err OtherException
                | p :: _ =>
                    ts <- unpacker make_range fuel ws
                            [b_addr b; b_addr p; b_size b] ;;
                    Ok (Bus (b_addr b) (b_size b) (b_ranges b) (Some ts))
                end
            end ;;
      rest' <- resolve_translations fuel rest ;;
      Ok (b' :: rest')
  end.

(** Properties of a node: name and words. *)
Definition props := dict string (list word).

(** [bus[...] = values[0]] with its default, 526-541. *)
Definition cell_count (p : props) (key : string) (default : nat) : res nat :=
  match dget p key with
  | None => Ok default
  | Some [] => Err IndexError
  | Some (w :: _) => Ok (N.to_nat w)
  end.
Definition make_bus (p : props) : res bus :=
  a <- cell_count p "#address-cells" 2 ;;
  s <- cell_count p "#size-cells" 1 ;;
  Ok (Bus a s (dget p "ranges") None).
(** DtbMatchQuery.resolve_buses, 511-548: [ancestors] are the properties of
    the nodes above, the parent first and the root last. *)
Definition resolve_buses (ancestors : list props) : res (list bus) :=
  match ancestors with
  | [] => Ok [Bus 2 1 None None]
  | _ => mapM make_bus ancestors
  end.

(** The names of a node and of those above it, without the root's; 578-588. *)
Fixpoint node_path (names : list string) (acc : string) : string :=
  match names with
  | [] => ("/" ++ acc)%string
  | n :: up =>
      node_path up
        (if String.eqb acc "" then n else (n ++ "/" ++ acc)%string)
  end.

(** DtbMatchQuery.resolve_fdt_node, 550-590. *)
Record resolved := Resolved {
  r_props : props;
  r_path : string
}.
Definition resolve_fdt_node (fuel : nat) (node : props)
  (ancestors : list props) (names : list string) : res resolved :=
  buses <- resolve_buses ancestors ;;
  match buses with
  | [] => Err IndexError
  | b :: _ =>
      let r := dset (dset node "this-address-cells" [N.of_nat (b_addr b)])
                 "this-size-cells" [N.of_nat (b_size b)] in
      r <- match dget r "reg" with
           | None => Ok r
           | Some reg =>
               bs <- resolve_translations fuel buses ;;
               w <- xlat_regs fuel reg bs ;;
               Ok (dset r "reg" w)
           end ;;
      Ok (Resolved r (node_path names ""))
  end.
