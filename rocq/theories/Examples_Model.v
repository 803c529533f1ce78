(** The programs in examples/: costs, the derivatives supplied with the NumPy backend, and the reference solutions they compare
    the results with.

    Exact arithmetic.  [R] is the field of real numbers (any real closed field), [real_star R] the same field as a field with a
    conjugation.  The sizes are arbitrary (the examples fix some).  [fnorm] is [np.linalg.norm]. *)
From mathcomp Require Import all_ssreflect all_algebra.
From Verif Require Import Mat_Base.
Set Implicit Arguments.
Unset Strict Implicit.
Unset Printing Implicit Defensive.
Import GRing.Theory Num.Theory.
Local Open Scope ring_scope.

Section Examples.
Variable R : rcfType.
Local Notation F := (real_star R).

(** NumPy: [np.tensordot(A, B, axes=2)] for matrices, [np.sum(A ** 2)], [np.diag] of a matrix and of a vector *)
Definition tensordot m n (A B : 'M[F]_(m, n)) : R := \sum_i \sum_j A i j * B i j.
Definition sum_squares m n (A : 'M[F]_(m, n)) : R := \sum_i \sum_j A i j ^+ 2.
Definition diagonal n (A : 'M[F]_n) : 'rV[F]_n := \row_i A i i.

(** dominant_invariant_subspace.py: lines 21-22, 27-28, 33-34 ([trace]), lines 48-49, 54-55 ([tensordot]), lines 37-38, 41-42.
    dominant_eigenvector.py (lines 20-21, 26-27, 32-33, 43-44, 49-50, 36-37), advanced/check_gradient.py and
    advanced/check_hessian.py (the same formulas) are the case of one column. *)
Section Subspace.
Variables (n p : nat) (matrix : 'M[F]_n).
Definition subspace_cost (X : 'M[F]_(n, p)) : R := - \tr (X^T *m matrix *m X).
Definition subspace_cost_tensordot (X : 'M[F]_(n, p)) : R := - tensordot X (matrix *m X).
Definition subspace_gradient (X : 'M[F]_(n, p)) : 'M[F]_(n, p) := (- 2%:R) *: matrix *m X.
Definition subspace_hessian (X H : 'M[F]_(n, p)) : 'M[F]_(n, p) := (- 2%:R) *: matrix *m H.
End Subspace.

(** dominant_invariant_complex_subspace.py: lines 21-22, 27-28, 33-34, lines 48-49, 54-57, lines 37-38, 41-42.  [np.conj(X.T)] is
    [X^H]. *)
Section Complex_subspace.
Variables (n p : nat) (matrix : 'M[complex_star R]_n).
Local Notation C := (complex_star R).
Definition complex_subspace_cost (X : 'M[C]_(n, p)) : R := - sf_re (\tr (X^H *m matrix *m X)).
Definition complex_subspace_cost_tensordot (X : 'M[C]_(n, p)) : R :=
  - sf_re (\sum_i \sum_j sf_conj (X i j) * (matrix *m X) i j).
Definition complex_subspace_gradient (X : 'M[C]_(n, p)) : 'M[C]_(n, p) := (- 2%:R) *: matrix *m X.
Definition complex_subspace_hessian (X H : 'M[C]_(n, p)) : 'M[C]_(n, p) := (- 2%:R) *: matrix *m H.
End Complex_subspace.

(** closest_unit_norm_column_approximation.py: lines 33-34, 37-38 and line 81 *)
Section Unit_columns.
Variables (m n : nat) (matrix : 'M[F]_(m, n)).
Definition closest_cost (X : 'M[F]_(m, n)) : R := 2%:R^-1 * sum_squares (X - matrix).
Definition closest_gradient (X : 'M[F]_(m, n)) : 'M[F]_(m, n) := X - matrix.
Definition closest_solution : 'M[F]_(m, n) := \matrix_(i, j) (matrix i j / Num.sqrt (\sum_k matrix k j ^+ 2)).
End Unit_columns.

(** multiple_linear_regression.py: lines 33-34, 37-38, 41-42 *)
Section Regression.
Variables (m n : nat) (samples : 'M[F]_(m, n)) (targets : 'cV[F]_m).
Definition regression_cost (weights : 'cV[F]_n) : R := fnorm (targets - samples *m weights) ^+ 2.
Definition regression_gradient (weights : 'cV[F]_n) : 'cV[F]_n := (- 2%:R) *: samples^T *m (targets - samples *m weights).
Definition regression_hessian (weights vector : 'cV[F]_n) : 'cV[F]_n := 2%:R *: samples^T *m samples *m vector.
(** line 101 (the closed form solution); [pinv] is the library's pseudo-inverse of [samples] *)
Definition regression_solution (pinv : 'M[F]_(n, m)) : 'cV[F]_n := pinv *m targets.
End Regression.

(** pca.py: lines 33-34, 36-45, 47-56 *)
Section PCA.
Variables (m n p : nat) (samples : 'M[F]_(m, n)).
Definition pca_cost (w : 'M[F]_(n, p)) : R := fnorm (samples - samples *m w *m w^T) ^+ 2.
Definition pca_gradient (w : 'M[F]_(n, p)) : 'M[F]_(n, p) :=
  (- 2%:R) *: (samples^T *m (samples - samples *m w *m w^T) + (samples - samples *m w *m w^T)^T *m samples) *m w.
Definition pca_hessian (w h : 'M[F]_(n, p)) : 'M[F]_(n, p) := (- 2%:R) *: (
    samples^T *m (samples - samples *m w *m h^T) *m w
  + samples^T *m (samples - samples *m h *m w^T) *m w
  + samples^T *m (samples - samples *m w *m w^T) *m h
  + (samples - samples *m w *m h^T)^T *m samples *m w
  + (samples - samples *m h *m w^T)^T *m samples *m w
  + (samples - samples *m w *m w^T)^T *m samples *m h).
End PCA.

(** optimal_rotations.py: lines 33-34 and 37-38.  The points are stacks of matrices. *)
Section Rotations.
Variables (k n : nat) (ABt : stack F k n n).
Definition rotations_cost (X : stack F k n n) : R := - \sum_i tensordot (X i) (ABt i).
Definition rotations_gradient (X : stack F k n n) : stack F k n n := - ABt.
End Rotations.
(** lines 59-67, for one matrix.  [U * J] multiplies column [j] of [U] by [J[j]]; the test of line 63 is for a number that is 1 or
    -1. *)
Definition optimal_solution n (svd : 'M[F]_n -> 'M[F]_n * 'rV[R]_n * 'M[F]_n) (ABt : 'M[F]_n) : 'M[F]_n :=
  let: (U, _, Vt) := svd ABt in
  let UVt := U *m Vt in
  if `|1 - (\det UVt : R)| < (10%:R ^+ 10)^-1 then UVt
  else (\matrix_(i, j) (U i j * if j.+1 == n then - 1 else 1)) *m Vt.

(** low_rank_matrix_approximation.py: lines 35-37 and 40-46 *)
Section Low_rank.
Variables (m n k : nat) (matrix : 'M[F]_(m, n)).
Definition lowrank_cost (u : 'M[F]_(m, k)) (s : 'rV[F]_k) (vt : 'M[F]_(k, n)) : R :=
  let X := u *m diag_mx s *m vt in fnorm (X - matrix) ^+ 2.
Definition lowrank_gradient (u : 'M[F]_(m, k)) (s : 'rV[F]_k) (vt : 'M[F]_(k, n)) : 'M[F]_(m, k) * 'rV[F]_k * 'M[F]_(k, n) :=
  let X := u *m diag_mx s *m vt in
  let S := diag_mx s in
  let gu := 2%:R *: (X - matrix) *m (S *m vt)^T in
  let gs := 2%:R *: diagonal (u^T *m (X - matrix) *m vt^T) in
  let gvt := 2%:R *: (u *m S)^T *m (X - matrix) in
  (gu, gs, gvt).
End Low_rank.

(** low_rank_psd_matrix_approximation.py: lines 33-34, 37-38, 41-42 *)
Section Low_rank_psd.
Variables (n k : nat) (matrix : 'M[F]_n).
Definition psdapprox_cost (Y : 'M[F]_(n, k)) : R := fnorm (Y *m Y^T - matrix) ^+ 2.
Definition psdapprox_gradient (Y : 'M[F]_(n, k)) : 'M[F]_(n, k) := 4%:R *: (Y *m Y^T - matrix) *m Y.
Definition psdapprox_hessian (Y U : 'M[F]_(n, k)) : 'M[F]_(n, k) :=
  4%:R *: ((Y *m U^T + U *m Y^T) *m Y + (Y *m Y^T - matrix) *m U).
End Low_rank_psd.

(** rank_k_correlation_matrix_approximation.py: lines 33-34, 37-38, 41-42 *)
Section Correlation.
Variables (k n : nat) (matrix : 'M[F]_n).
Definition correlation_cost (X : 'M[F]_(k, n)) : R := 4%:R^-1 * fnorm (X^T *m X - matrix) ^+ 2.
Definition correlation_gradient (X : 'M[F]_(k, n)) : 'M[F]_(k, n) := 2%:R^-1 *: X *m (X^T *m X - matrix).
Definition correlation_hessian (X H : 'M[F]_(k, n)) : 'M[F]_(k, n) :=
  X *m (H^T *m X + X^T *m H) + H *m (X^T *m X - matrix).
End Correlation.
End Examples.
