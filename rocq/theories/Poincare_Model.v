(** Model of src/pymanopt/manifolds/hyperbolic.py, with exact real arithmetic.

    A point of the product of [k] balls is a matrix [k] by [n] whose rows are the points of the balls (for [k = 1]
    also an array of shape [(n,)]: its single row).  [np.tanh], [np.arctanh] and [np.arccosh] are the real functions.
    The draws of [np.random] are arguments. *)
From Coq Require Import Reals.
From mathcomp Require Import all_ssreflect all_algebra.
From Verif Require Import Rstruct Mat_Base Sphere_Model.
Set Implicit Arguments.
Unset Strict Implicit.
Unset Printing Implicit Defensive.
Import GRing.Theory Num.Theory Order.TTheory.
Local Open Scope ring_scope.
Delimit Scope R_scope with Re.

(** [np.arctanh] on (-1, 1), [np.arccosh] on [1, oo) *)
Definition np_arctanh (y : R) : R := (ln ((1 + y) / (1 - y)) / 2)%Re.
Definition np_arccosh (y : R) : R := ln (y + sqrt (y * y - 1))%Re.
(** [u ** (1.0 / n)] for [u >= 0] *)
Definition np_root (n : nat) (u : RR) : RR := if u == 0 then 0 else Rpower u (/ INR n)%Re.

Section Poincare.
Variables (k n : nat).
Local Notation array := 'M[RF]_(k, n).
Implicit Types point vector tangent_vector : array.

(** [np.sum(a * b, axis=-1, keepdims=True)] and [np.linalg.norm(a, axis=-1)] *)
Definition row_dots (a b : array) (i : 'I_k) : RR := \sum_j (a i j * b i j).
Definition row_norms (a : array) (i : 'I_k) : RR := Num.sqrt (\sum_j (a i j ^+ 2)).
(** [a * r] with [r] of shape [(k, 1)] *)
Definition scale_rows (r : 'I_k -> RR) (a : array) : array := \matrix_(i, j) (a i j * r i).

(** lines 177-191 *)
Definition pb_conformal_factor point (i : 'I_k) : RR := 2%:R / (1 - row_dots point point i).
(** lines 59-65 *)
Definition pb_inner_product point (a b : array) : RR :=
  let factor := pb_conformal_factor point in \sum_i \sum_j (a i j * (b i j * factor i ^+ 2)).
(** lines 67-70 *)
Definition pb_projection point vector : array := vector.
Definition pb_to_tangent_space := pb_projection.
(** lines 72-75 *)
Definition pb_norm point tangent_vector : RR := Num.sqrt (pb_inner_product point tangent_vector tangent_vector).
(** lines 77-84: [draw] is the array of normal draws, [uniform i] the uniform draw for ball [i] *)
Definition pb_random_point (draw : array) (uniform : 'I_k -> RR) : array :=
  let norm := row_norms draw in
  let radius i := np_root n (uniform i) in
  \matrix_(i, j) (draw i j / norm i * radius i).
(** lines 86-88 *)
Definition pb_random_tangent_vector point (draw : array) : array := \matrix_(i, j) (draw i j / pb_norm point draw).
(** lines 90-91 *)
Definition pb_zero_vector point : array := 0.
(** lines 93-104 *)
Definition pb_dist (a b : array) : RR :=
  let norm_point_a i := row_norms a i ^+ 2 in
  let norm_point_b i := row_norms b i ^+ 2 in
  let norm_difference i := row_norms (a - b) i ^+ 2 in
  Num.sqrt (\sum_i (np_arccosh (1 + 2%:R * norm_difference i / ((1 - norm_point_a i) * (1 - norm_point_b i)))%R : RR) ^+ 2).
(** lines 106-110 *)
Definition pb_gradient point (egrad : array) : array :=
  scale_rows (fun i => 1 / pb_conformal_factor point i ^+ 2) egrad.
(** lines 112-128 *)
Definition pb_hessian point (egrad ehess tangent_vector : array) : array :=
  let factor := pb_conformal_factor point in
  \matrix_(i, j) ((row_dots egrad point i * tangent_vector i j
                   - row_dots point tangent_vector i * egrad i j
                   - row_dots egrad tangent_vector i * point i j
                   + ehess i j / factor i) / factor i).
(** lines 155-175 *)
Definition pb_mobius_addition (a b : array) : array :=
  let scalar_product := row_dots a b in
  let norm_a := row_dots a a in
  let norm_b := row_dots b b in
  \matrix_(i, j) ((a i j * (1 + 2%:R * scalar_product i + norm_b i) + b i j * (1 - norm_a i))
                  / (1 + 2%:R * scalar_product i + norm_a i * norm_b i)).
(** lines 130-140 *)
Definition pb_exp point tangent_vector : array :=
  let norm_point := row_norms tangent_vector in
  let factor := pb_conformal_factor point in
  pb_mobius_addition point
    (scale_rows (fun i => (tanh (norm_point i * factor i / 2%:R)%R : RR) / (norm_point i + (norm_point i == 0)%:R)) tangent_vector).
(** line 142 *)
Definition pb_retraction := pb_exp.
(** lines 144-148.  The division by [norm_w] makes a row of NaN where it is zero: [None]. *)
Definition pb_log (a b : array) (i : 'I_k) : option 'rV[RF]_n :=
  let w := pb_mobius_addition (- a) b in
  let norm_w := row_norms w in
  let factor := pb_conformal_factor a in
  if norm_w i == 0 then None
  else Some (\row_j ((np_arctanh (norm_w i) : RR) * w i j / norm_w i / (factor i / 2%:R))).
End Poincare.
(** lines 150-151.  Rows do not affect one another: row [i] of the result is what one gets from row [i] alone. *)
Definition pb_pair_mean k n (a b : 'M[RF]_(k, n)) (i : 'I_k) : option 'rV[RF]_n :=
  if pb_log a b i is Some v then Some (pb_exp (row i a) (\row_j (v 0 j / 2%:R))) else None.
