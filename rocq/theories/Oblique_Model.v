(** Model of src/pymanopt/manifolds/oblique.py, on real matrices with exact arithmetic. *)
From Coq Require Import Reals.
From mathcomp Require Import all_ssreflect all_algebra.
From Verif Require Import Rstruct Mat_Base Sphere_Model.
Set Implicit Arguments.
Unset Strict Implicit.
Unset Printing Implicit Defensive.
Import GRing.Theory Num.Theory Order.TTheory.
Local Open Scope ring_scope.

Section Oblique.
Variables (m n : nat).
Local Notation array := 'M[RF]_(m, n).
Implicit Types point vector : array.

(** [(a * b).sum(0)]: the inner products of the columns *)
Definition column_dots (a b : array) : 'rV[RF]_n := \row_j \sum_i (a i j * b i j).
(** [a * r[np.newaxis, :]]: scaling of every column *)
Definition scale_columns (a : array) (r : 'rV[RF]_n) : array := \matrix_(i, j) (a i j * r 0 j).
(** [np.linalg.norm(array, axis=0)] *)
Definition column_norms (a : array) : 'rV[RF]_n := \row_j Num.sqrt (\sum_i (a i j ^+ 2)).

(** lines 31-34 *)
Definition ob_inner_product point (a b : array) : RR := \sum_i \sum_j (a i j * b i j).
(** lines 36-37 *)
Definition ob_norm point vector : RR := np_fnorm vector.
(** lines 39-42 *)
Definition ob_dist (a b : array) : RR :=
  let XY := column_dots a b in
  let XY := \row_j (if 1 < XY 0 j then 1 else XY 0 j : RR) in
  np_fnorm (\row_j (acos (XY 0 j) : RF)).
(** lines 44-45, 47 *)
Definition ob_projection point vector : array := vector - scale_columns point (column_dots point vector).
Definition ob_to_tangent_space := ob_projection.
(** manifold.py lines 432-433 *)
Definition ob_gradient point (egrad : array) : array := ob_projection point egrad.
(** lines 49-55 *)
Definition ob_hessian point (egrad ehess tangent_vector : array) : array :=
  ob_projection point ehess - scale_columns tangent_vector (column_dots point egrad).
(** lines 57-62 *)
Definition ob_exp point vector : array :=
  let norm := \row_j Num.sqrt (\sum_i (vector i j ^+ 2)) : 'rV[RF]_n in
  scale_columns point (\row_j (cos (norm 0 j) : RF)) + scale_columns vector (\row_j np_sinc (norm 0 j / PI)).
(** lines 96-97 *)
Definition ob_normalize_columns (a : array) : array := \matrix_(i, j) (a i j / column_norms a 0 j).
(** lines 64-65 *)
Definition ob_retraction point vector : array := ob_normalize_columns (point + vector).
(** lines 67-75 *)
Definition ob_log (a b : array) : array :=
  let vector := ob_projection a (b - a) in
  let distances := \row_j (acos (column_dots a b 0 j) : RF) in
  let norms := \row_j Num.sqrt (\sum_i (vector i j ^+ 2)) : 'rV[RF]_n in
  let factors := \row_j ((distances 0 j + float_eps) / (norms 0 j + float_eps)) in
  scale_columns vector factors.
(** lines 77-80 *)
Definition ob_random_point (draw : array) : array := ob_normalize_columns draw.
(** lines 82-85 *)
Definition ob_random_tangent_vector point (draw : array) : array :=
  let tangent_vector := ob_projection point draw in
  \matrix_(i, j) (tangent_vector i j / ob_norm point tangent_vector).
(** lines 87-88 *)
Definition ob_transport (a b vector : array) : array := ob_projection b vector.
(** lines 90-91 *)
Definition ob_pair_mean (a b : array) : array := ob_normalize_columns (a + b).
(** lines 93-94 *)
Definition ob_zero_vector point : array := 0.
End Oblique.
