(** Model of src/pymanopt/tools/diagnostics.py with exact arithmetic.

    The functions that plot and print are modelled by the numbers they plot and print.  [np.polyfit] and the random draws are
    arguments; what [np.polyfit] promises is in [Diagnostics_Spec.v]. *)
From Coq Require Import Reals List Bool Arith.
From Verif Require Import Num_Model.
Import ListNotations.
Local Open Scope R_scope.

(** [x[segment]] for an array and a list of indices in range *)
Definition take (x : list R) (segment : list nat) : list R := map (fun i => nth i x 0) segment.

(** [np.argmin]: the first index of a minimal entry; ValueError for an empty array *)
Fixpoint argmin_from (best_index : nat) (best : R) (i : nat) (l : list R) : nat :=
  match l with
  | [] => best_index
  | r :: l => if Rlt_dec r best then argmin_from i r (S i) l else argmin_from best_index best (S i) l
  end.
Definition argmin (l : list R) : res nat :=
  match l with
  | [] => Raise ValueError
  | r :: l => Ok (argmin_from 0 r 1 l)
  end.

Fixpoint mapM {A B} (f : A -> res B) (l : list A) : res (list B) :=
  match l with
  | [] => Ok []
  | a :: l => let* b := f a in let* bs := mapM f l in Ok (b :: bs)
  end.

Section Polyfit.
(** [np.polyfit(x, y, deg=1, full=True)]: slope and intercept, and the array of residuals, which has one entry or none *)
Variable polyfit : list R -> list R -> (R * R) * list R.

(** [np.arange(k, k + window_length + 1)] *)
Definition window (k window_length : nat) : list nat := seq k (window_length + 1).

(** lines 10-33.  Line 21 raises ValueError if [window_length] exceeds the number of points, line 28 if the array of
    residuals is empty, line 30 if there is no window.  [x] and [y] have the same length. *)
Definition identify_linear_piece (x y : list R) (window_length : nat) : res (list nat * (R * R)) :=
  if (length x <? window_length)%nat then Raise ValueError                     (* 21 *)
  else
    let* fits := mapM (fun k =>
        let segment := window k window_length in                               (* 24 *)
        let '(poly, residuals) := polyfit (take x segment) (take y segment) in (* 25-27 *)
        match residuals with
        | [r] => Ok (sqrt r, poly)                                             (* 28-29 *)
        | _ => Raise ValueError
        end) (seq 0 (length x - window_length)) in                             (* 23 *)
    let* best := argmin (map fst fits) in                                      (* 30 *)
    Ok (window best window_length, snd (nth best fits (0, (0, 0)))).           (* 31-33 *)

(** ** The manifold and the problem as the checks see them *)
Variables (P T : Type).
Variables (scale : R -> T -> T) (add sub : T -> T -> T).
Variables (m_exp m_retraction : P -> T -> res P) (m_dist : P -> P -> res R) (m_to_tangent_space : P -> T -> res T).
Variables (inner : P -> T -> T -> R) (norm : P -> T -> R).
Variables (cost : P -> R) (gradient : P -> T) (hessian : P -> T -> T).

Definition log10 (x : R) : R := ln x / ln 10.
(** [np.logspace(a, b, n)] *)
Definition logspace (a b : R) (n : nat) : list R :=
  map (fun k => Rpower 10 (a + (b - a) * INR k / INR (n - 1))) (seq 0 n).

(** lines 63-66: the exponential map, or the retraction if there is none *)
Definition step (x : P) (d : T) (h : R) : res P :=
  match m_exp x (scale h d) with
  | Raise NotImplementedError => m_retraction x (scale h d)
  | r => r
  end.

(** lines 69-79: the linear or quadratic model of the cost, evaluated by [np.polyval] *)
Definition taylor (use_quadratic_model : bool) (x : P) (d : T) (h : R) : R :=
  let f0 := cost x in
  let df0 := inner x (gradient x) d in
  if use_quadratic_model then
    let d2f0 := inner x (hessian x d) d in
    (1 / 2 * d2f0 * h + df0) * h + f0
  else df0 * h + f0.

(** lines 60-82: the error for one step size *)
Definition approximation_error (use_quadratic_model : bool) (x : P) (d : T) (h : R) : res R :=
  let* y := step x d h in
  Ok (Rabs (taylor use_quadratic_model x d h - cost y)).

(** [np.finfo(error.dtype).eps] *)
Definition eps : R := / 2 ^ 52.

(** lines 37-126, [x] and [d] being given.  Simplification: [np.log10] of a number that is not positive
    (line 102) is not described; there the second coefficient is left out of the properties. *)
Definition check_directional_derivative (use_quadratic_model : bool) (x : P) (d : T)
    : res (list R * list R * list nat * (R * R)) :=
  let h := logspace (-8) 0 51 in                                                (* 60 *)
  let* error := mapM (approximation_error use_quadratic_model x d) h in         (* 61-82 *)
  if forallb (fun e => if Rlt_dec e (/ 10 ^ 12) then true else false) error then (* 83 *)
    let '(poly, _) := polyfit (map log10 h) error in                            (* 100 *)
    Ok (h, error, seq 0 (length h), (fst poly, log10 (snd poly)))               (* 99-102 *)
  else
    let* (segment, poly) := identify_linear_piece (map log10 h)
                              (map (fun e => log10 (e + eps)) error) 10 in      (* 118-125 *)
    Ok (h, error, segment, poly).

(** lines 37-56: missing arguments are drawn *)
Definition resolve_arguments (random_point : P) (random_tangent_vector : P -> T) (x : option P) (d : option T) : res (P * T) :=
  match x, d with
  | None, Some _ => Raise ValueError
  | None, None => Ok (random_point, random_tangent_vector random_point)
  | Some x, None => Ok (x, random_tangent_vector x)
  | Some x, Some d => Ok (x, d)
  end.

(** lines 169-186: the number printed at the end of [check_gradient], [None] if the manifold cannot provide it *)
Definition tangency_residual (x : P) (v : T) : res (option R) :=
  match m_to_tangent_space x v with
  | Ok projected => Ok (Some (norm x (sub v projected)))
  | Raise NotImplementedError => Ok None
  | Raise e => Raise e
  end.

(** lines 235-291: the numbers [check_hessian] prints for the direction [d], the drawn vectors [a], [b] and
    the drawn weights *)
Record hessian_report := mkReport { h_tangency : option R; h_linearity : R; h_symmetry : R }.
Definition check_hessian_report (x : P) (d a b : T) (weight_a weight_b : R) : res hessian_report :=
  let* tangency := tangency_residual x (hessian x d) in                                 (* 235-253 *)
  let hessian_a := hessian x a in                                                       (* 259 *)
  let hessian_b := hessian x b in                                                       (* 260 *)
  let hessian_of_linear_combination := hessian x (add (scale weight_a a) (scale weight_b b)) in (* 262-264 *)
  let linear_combination_of_hessians := add (scale weight_a hessian_a) (scale weight_b hessian_b) in (* 265-267 *)
  let error_norm := norm x (sub hessian_of_linear_combination linear_combination_of_hessians) in (* 268-270 *)
  let inner_product_a := inner x a hessian_b in                                         (* 279-281 *)
  let inner_product_b := inner x hessian_a b in                                         (* 282-284 *)
  Ok (mkReport tangency error_norm (inner_product_a - inner_product_b)).                (* 285 *)

(** lines 293-348: step sizes, errors and the fitted segment.  Line 320 calls [retraction] where the message
    speaks of the distance. *)
Definition check_retraction (x : P) (v : T) : res (list R * list R * list nat * (R * R)) :=
  let* _ := match m_exp x v with                                                        (* 306-312 *)
            | Raise NotImplementedError => Raise RuntimeError | r => r end in
  let* _ := match m_retraction x v with                                                 (* 313-318 *)
            | Raise NotImplementedError => Raise RuntimeError | r => r end in
  let* _ := match m_retraction x v with                                                 (* 319-325 *)
            | Raise NotImplementedError => Raise RuntimeError | r => r end in
  let step_sizes := logspace (-12) 0 251 in                                             (* 329 *)
  let* errors := mapM (fun t => let* a := m_exp x (scale t v) in
                                let* b := m_retraction x (scale t v) in
                                m_dist a b) step_sizes in                               (* 330-335 *)
  let* (segment, poly) := identify_linear_piece (map log10 step_sizes) (map log10 errors) 10 in (* 339-342 *)
  Ok (step_sizes, errors, segment, poly).
(** lines 299-303: a tangent vector given without a point is replaced by a random one *)
Definition retraction_arguments (random_point : P) (random_tangent_vector : P -> T) (x : option P) (d : option T) : P * T :=
  match x, d with
  | None, _ => (random_point, random_tangent_vector random_point)
  | Some x, None => (x, random_tangent_vector x)
  | Some x, Some d => (x, d)
  end.
End Polyfit.
