(** Model of src/pymanopt/tools/printer.py, and of the tables the optimizers print with it.

    A Python string is the list of its characters; a printed line does not include the line break.  [print] appends lines
    to the output, so a method that prints is modelled by the list of lines it prints. *)
From Coq Require Import ZArith List Bool Ascii String.
From Verif Require Import Num_Model.
Import ListNotations.
Local Open Scope Z_scope.

Definition pystr := list ascii.
Definition str (s : string) : pystr := list_ascii_of_string s.

(** Python's [len] *)
Definition py_len (s : pystr) : Z := Z.of_nat (List.length s).
(** Python's [c * n] for a string of one character: empty if [n] is not positive *)
Definition py_times (c : ascii) (n : Z) : pystr := repeat c (Z.to_nat n).
Definition space : ascii := " "%char.
Definition dash : ascii := "-"%char.

(** Python's [zip] of two and of three sequences stops with the shortest one. *)
Fixpoint zip3 {A B C} (a : list A) (b : list B) (c : list C) : list (A * B * C) :=
  match a, b, c with
  | x :: a, y :: b, z :: c => (x, y, z) :: zip3 a b c
  | _, _, _ => []
  end.

Section Printer.
(** [format s v] is [f"{{value:{s}}}".format(value=v)]; [zero] is the value 0.
    Simplification: formatting does not raise. *)
Variables (V : Type) (format : pystr -> V -> pystr) (zero : V).

(** the attributes of a [ColumnPrinter], lines 45-48 *)
Record column_printer := mkPrinter {
  column_names : list pystr; column_formatters : list pystr; column_padding : Z; column_widths : list Z }.

(** lines 50-80.  [map(tuple, zip( *columns))] yields nothing for an empty list of columns, and the assignment to
    two names raises ValueError. *)
Definition new_printer (columns : list (pystr * pystr)) (placeholder_values : option (list V)) (padding : Z)
    : res column_printer :=
  match columns with
  | [] => Raise ValueError
  | _ =>
    let names := map fst columns in                                          (* 57 *)
    let formatters := map snd columns in                                     (* 57-60 *)
    let placeholder_values :=
      match placeholder_values with                                          (* 64-65 *)
      | None => repeat zero (List.length names)
      | Some v => v
      end in
    let widths := map (fun '(column, formatter, value) =>
                         Z.max (py_len column) (py_len (format formatter value)) + padding)
                      (zip3 names formatters placeholder_values) in          (* 66-80 *)
    Ok (mkPrinter names formatters padding widths)
  end.

(** lines 82-96, and [print_list], lines 18-26.  Without a segment the assignment of line 94 raises ValueError. *)
Definition print_header (p : column_printer) : res (list pystr) :=
  let segments := map (fun '(column, width) =>
                         (column ++ py_times space (width - py_len column),
                          py_times dash (width - column_padding p) ++ py_times space (column_padding p)))
                      (combine (column_names p) (column_widths p)) in
  match segments with
  | [] => Raise ValueError
  | _ => Ok [List.concat (map fst segments); List.concat (map snd segments)]
  end.

(** lines 98-110 *)
Definition print_row (p : column_printer) (values : list V) : list pystr :=
  let column_strings := map (fun '(formatter, width, value) =>
                               format formatter value
                               ++ py_times space (width - py_len (format formatter value)))
                            (zip3 (column_formatters p) (column_widths p) values) in
  [List.concat column_strings].
End Printer.

(** ** Formatting of numbers, as far as the optimizers need it *)

(** the decimal digits of a natural number, most significant first *)
Definition digit (d : nat) : ascii := ascii_of_nat (48 + d).
Fixpoint digits_fuel (fuel n : nat) : pystr :=
  match fuel with
  | O => []
  | S fuel => if (n <? 10)%nat then [digit n] else digits_fuel fuel (n / 10) ++ [digit (n mod 10)]
  end.
Definition digits (n : nat) : pystr := digits_fuel (S n) n.

(** [f"{z:{width}d}"]: right-aligned *)
Definition format_int (width : nat) (z : Z) : pystr :=
  let body := (if z <? 0 then ["-"%char] else []) ++ digits (Z.to_nat (Z.abs z)) in
  py_times space (Z.of_nat width - py_len body) ++ body.

(** A float as the format [.pe] sees it: NaN, infinite, or sign, [p + 1] significant digits and decimal exponent.
    [scientific] is the correctly rounded conversion. *)
Inductive decimal :=
| DNan
| DInf (negative : bool)
| DFinite (negative : bool) (first : nat) (fraction : list nat) (exponent : Z).

(** [f"{x:.{p}e}"] and, with [plus], [f"{x:+.{p}e}"]: a sign if negative or asked for, the first digit, the point, [p] digits,
    and the exponent with its sign and at least two digits *)
Definition format_sci (plus : bool) (x : decimal) : pystr :=
  let sign (negative : bool) := if negative then ["-"%char] else if plus then ["+"%char] else [] in
  match x with
  | DNan => sign false ++ str "nan"
  | DInf negative => sign negative ++ str "inf"
  | DFinite negative first fraction exponent =>
      let e := digits (Z.to_nat (Z.abs exponent)) in
      sign negative ++ [digit first] ++ ["."%char] ++ map digit fraction
        ++ ["e"%char] ++ [if exponent <? 0 then "-"%char else "+"%char]
        ++ (if (List.length e <? 2)%nat then "0"%char :: e else e)
  end.

(** A value in a table is an integer or a float.  The format strings in the optimizers: [kd] for integers, [+.16e],
    [+.8e] and [.8e] for floats.  An integer is formatted like the float of the same value by the latter
    (only the placeholder 0 is).  Other combinations do not occur and are mapped to the empty string. *)
Inductive cell (Float : Type) := CInt (z : Z) | CFloat (x : Float).
Arguments CInt {Float} _.
Arguments CFloat {Float} _.

Section Cells.
Variables (Float : Type) (scientific : nat -> Float -> decimal).

Definition format_cell (formatter : pystr) (v : cell Float) : pystr :=
  let float plus p :=
    match v with
    | CInt _ => format_sci plus (DFinite false 0 (repeat O p) 0)
    | CFloat x => format_sci plus (scientific p x)
    end in
  if list_eq_dec ascii_dec formatter (str "+.16e") then float true 16%nat
  else if list_eq_dec ascii_dec formatter (str "+.8e") then float true 8%nat
  else if list_eq_dec ascii_dec formatter (str ".8e") then float false 8%nat
  else match rev formatter, v with
       | "d"%char :: rest, CInt z =>
           format_int (fold_left (fun n c => 10 * n + (nat_of_ascii c - 48))%nat (rev rest) O) z
       | _, _ => []
       end.
End Cells.

(** [int(np.log10(m)) + 1] for [m >= 1]: the number of decimal digits of [m].  NumPy's logarithm is taken to be exact. *)
Definition iteration_format_length (m : nat) : nat := List.length (digits m).
(** The same expression for any integer: [np.log10] of 0 is minus infinity, which [int] refuses with OverflowError, and of a
    negative number NaN, which it refuses with ValueError.  steepest_descent.py line 69, conjugate_gradient.py line 222,
    particle_swarm.py line 107: with [verbosity >= 2] it is computed before the first iteration. *)
Definition iteration_format (max_iterations : Z) : res nat :=
  if max_iterations <? 0 then Raise ValueError
  else if max_iterations =? 0 then Raise OverflowError
  else Ok (iteration_format_length (Z.to_nat max_iterations)).
(** The table of an optimizer with the given columns, as far as it is created before the first iteration: lines 68-79, 221-232 and
    106-117 of the same files. *)
Definition optimizer_table (columns : nat -> list (pystr * pystr)) (verbosity max_iterations : Z) : res (option (list (pystr * pystr))) :=
  if 2 <=? verbosity then let* _ := iteration_format max_iterations in Ok (Some (columns (Z.to_nat max_iterations)))
  else Ok None.

(** steepest_descent.py lines 69-77 and conjugate_gradient.py lines 222-230 *)
Definition descent_columns (max_iterations : nat) : list (pystr * pystr) :=
  [(str "Iteration", digits (iteration_format_length max_iterations) ++ str "d");
   (str "Cost", str "+.16e");
   (str "Gradient norm", str ".8e")].
(** particle_swarm.py lines 107-115 *)
Definition swarm_columns (max_iterations : nat) : list (pystr * pystr) :=
  [(str "Iteration", digits (iteration_format_length max_iterations) ++ str "d");
   (str "Cost evaluations", str "7d");
   (str "Best cost", str "+.8e")].
(** printer.py line 55 *)
Definition default_padding : Z := 4.
