(** Model of src/pymanopt/manifolds/psd.py.

    [PSDFixedRank] and [PSDFixedRankComplex] share their code: they are the cases of real entries ([real_star], where
    conjugating does nothing) and complex entries ([complex_star]).  The arithmetic is exact.  NumPy's SVD, SciPy's
    solver for Lyapunov equations and the draws of [np.random] are arguments. *)
From mathcomp Require Import all_ssreflect all_algebra.
From Verif Require Import Mat_Base.
Set Implicit Arguments.
Unset Strict Implicit.
Unset Printing Implicit Defensive.
Import GRing.Theory Num.Theory Order.TTheory.
Local Open Scope ring_scope.

Section PSD.
Variables (R : rcfType) (F : starField R) (n k : nat).
Local Notation array := 'M[F]_(n, k).
Implicit Types point vector tangent_vector : array.
(** lines 17-22 *)
Definition psd_inner_product point (tangent_vector_a tangent_vector_b : array) : R :=
  sf_re (\sum_r \sum_c (sf_conj (tangent_vector_a r c) * tangent_vector_b r c)).
(** lines 27-28: [np.linalg.norm] *)
Definition psd_norm point tangent_vector : R := Num.sqrt (\sum_r \sum_c abs2 (tangent_vector r c)).
(** lines 30-34; [lyapunov a q] is SciPy's [solve_continuous_lyapunov(a, q)] *)
Definition psd_projection (lyapunov : 'M[F]_k -> 'M[F]_k -> 'M[F]_k) point vector : array :=
  let YtY := adjmx point *m point in
  let AS := adjmx point *m vector - adjmx vector *m point in
  let Omega := lyapunov YtY AS in
  vector - point *m Omega.
(** line 36 *)
Definition psd_to_tangent_space := psd_projection.
(** lines 38-39 *)
Definition psd_gradient point (euclidean_gradient : array) : array := euclidean_gradient.
(** lines 41-44 *)
Definition psd_hessian lyapunov point (euclidean_gradient euclidean_hessian tangent_vector : array) : array :=
  psd_projection lyapunov point euclidean_hessian.
(** lines 46-47 *)
Definition psd_exp point tangent_vector : array := point + tangent_vector.
(** line 49 *)
Definition psd_retraction := psd_exp.
(** lines 51-53 *)
Definition psd_log (svd : 'M[F]_k -> 'M[F]_k * 'rV[R]_k * 'M[F]_k) (point_a point_b : array) : array :=
  let u := (svd (adjmx point_b *m point_a)).1.1 in
  let vh := (svd (adjmx point_b *m point_a)).2 in
  point_b *m u *m vh - point_a.
(** lines 24-25 *)
Definition psd_dist svd (point_a point_b : array) : R := psd_norm point_a (psd_log svd point_a point_b).
(** lines 55-56, and lines 158-161: the draw is an argument *)
Definition psd_random_point (draw : array) : array := draw.
(** lines 58-61 *)
Definition psd_random_tangent_vector lyapunov point (draw : array) : array :=
  let random_vector := psd_random_point draw in
  let tangent_vector := psd_projection lyapunov point random_vector in
  sf_real (psd_norm point tangent_vector)^-1 *: tangent_vector.
(** lines 63-64 *)
Definition psd_transport lyapunov (point_a point_b tangent_vector_a : array) : array :=
  psd_projection lyapunov point_b tangent_vector_a.
(** lines 69-70 *)
Definition psd_zero_vector point : array := 0.
End PSD.

(** [Elliptope]: real matrices *)
Section Elliptope.
Variables (R : rcfType) (n k : nat).
Local Notation F := (real_star R).
Local Notation array := 'M[F]_(n, k).
Implicit Types point vector tangent_vector : array.
(** [(a * b).sum(axis=1)] *)
Definition row_dots (a b : array) : 'cV[F]_n := \col_i \sum_j (a i j * b i j).
(** [a * c[:, np.newaxis]] *)
Definition scale_rows (a : array) (c : 'cV[F]_n) : array := \matrix_(i, j) (a i j * c i ord0).
(** lines 222-225 *)
Definition el_inner_product point (tangent_vector_a tangent_vector_b : array) : R :=
  \sum_i \sum_j (tangent_vector_a i j * tangent_vector_b i j).
(** lines 227-230 *)
Definition el_norm point tangent_vector : R := Num.sqrt (el_inner_product point tangent_vector tangent_vector).
(** lines 271-273 *)
Definition el_project_rows point vector : array :=
  let inner_products := row_dots point vector in
  vector - scale_rows point inner_products.
(** lines 268-269 *)
Definition el_normalize_rows (a : array) : array := \matrix_(i, j) (a i j / Num.sqrt (\sum_l (a i l ^+ 2))).
(** lines 232-237 *)
Definition el_projection (lyapunov : 'M[F]_k -> 'M[F]_k -> 'M[F]_k) point vector : array :=
  let eta := el_project_rows point vector in
  let YtY := point^T *m point in
  let AS := point^T *m eta - vector^T *m point in
  let Omega := lyapunov YtY (- AS) in
  eta - (2%:R^-1 : F) *: (point *m (Omega - Omega^T)).
(** line 239 *)
Definition el_to_tangent_space := el_projection.
(** lines 241-242 *)
Definition el_retraction point tangent_vector : array := el_normalize_rows (point + tangent_vector).
(** lines 244-245 *)
Definition el_gradient point (euclidean_gradient : array) : array := el_project_rows point euclidean_gradient.
(** lines 247-256 *)
Definition el_hessian lyapunov point (euclidean_gradient euclidean_hessian tangent_vector : array) : array :=
  let scaling_grad := row_dots euclidean_gradient point in
  let hess := euclidean_hessian - scale_rows tangent_vector scaling_grad in
  let scaling_hess := row_dots tangent_vector euclidean_gradient + row_dots point euclidean_hessian in
  let hess := hess - scale_rows point scaling_hess in
  el_projection lyapunov point hess.
(** lines 258-259 *)
Definition el_random_point (draw : array) : array := el_normalize_rows draw.
(** lines 261-263 *)
Definition el_random_tangent_vector lyapunov point (draw : array) : array :=
  let tangent_vector := el_projection lyapunov point (el_random_point draw) in
  (el_norm point tangent_vector)^-1 *: tangent_vector.
(** lines 265-266 *)
Definition el_transport lyapunov (point_a point_b tangent_vector_a : array) : array :=
  el_projection lyapunov point_b tangent_vector_a.
(** lines 275-276 *)
Definition el_zero_vector point : array := 0.
End Elliptope.
