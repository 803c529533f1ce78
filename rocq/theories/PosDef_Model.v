(** Model of src/pymanopt/manifolds/positive_definite.py.

    Points are stacks of [k] matrices of shape [n x n] (for [k = 1] also one such matrix), in exact arithmetic.
    [SymmetricPositiveDefinite] is the case of real entries ([real_star]), [HermitianPositiveDefinite] and
    [SpecialHermitianPositiveDefinite] that of complex entries ([complex_star]); the code is the same.
    [np.linalg.solve] and [np.linalg.inv] are exact and only described for invertible matrices.  LAPACK's Cholesky,
    QR and eigendecompositions, SciPy's [expm] and the draws of [np.random] are arguments. *)
From Coq Require Import Reals.
From mathcomp Require Import all_ssreflect all_algebra.
From mathcomp.real_closed Require Import complex.
From Verif Require Import Rstruct Mat_Base Multi_Model Euclidean_Model Stiefel_Model Sphere_Model.
Set Implicit Arguments.
Unset Strict Implicit.
Unset Printing Implicit Defensive.
Import GRing.Theory Num.Theory Order.TTheory.
Local Open Scope ring_scope.
Delimit Scope R_scope with Re.

Section Base.
Variables (R : rcfType) (F : starField R) (k n : nat).
Local Notation array := (stack F k n n).
Implicit Types point vector tangent_vector : array.

(** [np.linalg.solve] and [np.linalg.inv] for each matrix *)
Definition np_solve (a b : array) : array := [ffun i => invmx (a i) *m b i].
Definition np_inv (a : array) : array := [ffun i => invmx (a i)].

(** lines 35-47; [np.tensordot] over all axes is the sum of the products of all entries *)
Definition pd_inner_product point (tangent_vector_a tangent_vector_b : array) : R :=
  let p_inv_tv_a := np_solve point tangent_vector_a in
  let p_inv_tv_b := np_solve point tangent_vector_b in
  sf_re (\sum_i \sum_r \sum_c (p_inv_tv_a i r c * multitransp p_inv_tv_b i r c)).
(** lines 49-50 *)
Definition pd_projection point vector : array := multiherm vector.
(** line 52: the name is bound to the function above in the class body, also for the subclasses *)
Definition pd_to_tangent_space := pd_projection.
(** lines 54-55 *)
Definition pd_gradient point (euclidean_gradient : array) : array :=
  pd_projection point (smul (smul point euclidean_gradient) point).
(** lines 57-62 *)
Definition pd_hessian point (euclidean_gradient euclidean_hessian tangent_vector : array) : array :=
  smul (smul point (multiherm euclidean_hessian)) point +
  multiherm (smul (smul tangent_vector (multiherm euclidean_gradient)) point).
(** lines 64-67 *)
Definition pd_norm point tangent_vector : R := Num.sqrt (pd_inner_product point tangent_vector tangent_vector).
(** lines 95-96 *)
Definition pd_transport (point_a point_b tangent_vector_a : array) : array := tangent_vector_a.
(** lines 98-100 and tools/multi.py lines 78-81 *)
Definition pd_exp (expm : 'M[F]_n -> 'M[F]_n) point tangent_vector : array :=
  let p_inv_tv := np_solve point tangent_vector in
  smul point [ffun i => expm (p_inv_tv i)].
(** lines 102-106 *)
Definition pd_retraction point tangent_vector : array :=
  let p_inv_tv := np_solve point tangent_vector in
  multiherm (point + tangent_vector + np_div (smul tangent_vector p_inv_tv) 2%:R).
(** lines 117-122 *)
Definition pd_zero_vector point : array := 0.
(** lines 81-93; [draw] is the array of line 85 or 89, for complex points with the one of line 87 or 91 added *)
Definition pd_random_tangent_vector point (draw : array) : array :=
  let tangent_vector := multiherm draw in
  np_div tangent_vector (pd_norm point tangent_vector).
End Base.

Section Log.
Variables (F : starField RR) (k n : nat).
Local Notation array := (stack F k n n).
Variables (cholesky : 'M[F]_n -> 'M[F]_n) (eigh : 'M[F]_n -> 'rV[RR]_n * 'M[F]_n).
(** lines 27-32 and 109-114 *)
Definition pd_logm (point_a point_b : array) : array :=
  let c : array := [ffun i => cholesky (point_a i)] in
  let c_inv := np_inv c in
  multilogm_pd eigh (smul (smul c_inv point_b) (multihconj c_inv)).
(** lines 26-33; taking the real part of a norm does nothing *)
Definition pd_dist (point_a point_b : array) : RR := np_norm (pd_logm point_a point_b).
(** lines 108-115 *)
Definition pd_log (point_a point_b : array) : array :=
  let c : array := [ffun i => cholesky (point_a i)] in
  smul (smul c (pd_logm point_a point_b)) (multihconj c).
End Log.

Section Random.
Variables (R : rcfType) (k n : nat).
Local Notation C := (complex_star R).
(** lines 69-79: [uniform i j] is the number drawn for row [j] of matrix [i]; [draw] is the complex matrix of lines
    75-76, the same for all [k] matrices *)
Definition pd_random_point (qr : 'M[C]_n -> 'M[C]_n * 'M[C]_n) (uniform : 'I_k -> 'I_n -> R) (draw : 'M[C]_n)
    : stack C k n n :=
  let q := (qr_normalise (leqnn n) (qr draw).1 (qr draw).2).1 in
  [ffun i => q *m \matrix_(r, c) (sf_real (1 + uniform i r) * (adjmx q) r c)].
(** lines 157-158 *)
Definition spd_random_point qr uniform draw : stack (real_star R) k n n :=
  [ffun i => \matrix_(r, c) complex.Re (pd_random_point qr uniform draw i r c)].
End Random.

(** [SpecialHermitianPositiveDefinite] *)
Section Special.
Variables (F : starField RR) (k n : nat).
Local Notation array := (stack F k n n).
Implicit Types point vector tangent_vector : array.
(** lines 221-224, 270-274, 283-286: division of each matrix by the [n]-th root of its determinant.  The
    determinants of the Hermitian positive definite matrices this is applied to are positive; for such a number
    the (complex) power of Python is the exponential of [1 / n] times the real logarithm.  Other
    determinants are not described. *)
Definition np_root_det (a : 'M[F]_n) : RR := exp (ln (sf_re (\det a)) / INR n)%Re.
Definition unit_determinant (a : array) : array := [ffun i => sf_real (np_root_det (a i))^-1 *: a i].
(** lines 235-247 *)
Definition shpd_projection point vector : array :=
  let vector := pd_projection point vector in
  [ffun i => vector i - sf_real (n%:R^-1 * sf_re (\tr (np_solve point vector i))) *: point i].
(** line 52 *)
Definition shpd_to_tangent_space := @pd_to_tangent_space RR F k n.
(** lines 249-255: the inherited method calls the projection of the subclass *)
Definition shpd_gradient point (euclidean_gradient : array) : array :=
  shpd_projection point (shpd_projection point (smul (smul point euclidean_gradient) point)).
(** lines 263-274 *)
Definition shpd_exp (expm : 'M[F]_n -> 'M[F]_n) point tangent_vector : array :=
  unit_determinant (pd_exp expm point tangent_vector).
(** lines 276-286 *)
Definition shpd_retraction point tangent_vector : array :=
  unit_determinant (pd_retraction point tangent_vector).
(** lines 288-291 *)
Definition shpd_transport (point_a point_b tangent_vector_a : array) : array :=
  shpd_projection point_b (pd_projection point_b tangent_vector_a).
(** lines 226-233 *)
Definition shpd_random_tangent_vector point (draw : array) : array :=
  let tangent_vector := pd_random_tangent_vector point draw in
  let tangent_vector := shpd_projection point tangent_vector in
  np_div tangent_vector (pd_norm point tangent_vector).
End Special.
(** lines 214-224 *)
Definition shpd_random_point k n qr uniform draw : stack (complex_star RR) k n n :=
  unit_determinant (pd_random_point qr uniform draw).
