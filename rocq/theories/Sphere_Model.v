(** Model of src/pymanopt/manifolds/sphere.py.

    Every operation is a sum over all entries or entrywise, so the shape plays no role: an array of any shape is
    a matrix [m] by [n] here (for example with one row).  The entries are the reals of Coq's standard library, the
    arithmetic is exact, and [np.cos], [np.sinc], [np.arccos] are the real functions.  What [np.random.normal]
    returns is an argument.  [self.projection] is an argument where a method calls it, since the subspace variants
    override it. *)
From Coq Require Import Reals.
From mathcomp Require Import all_ssreflect all_algebra.
From Verif Require Import Rstruct Mat_Base.
Set Implicit Arguments.
Unset Strict Implicit.
Unset Printing Implicit Defensive.
Import GRing.Theory Num.Theory Order.TTheory.
Local Open Scope ring_scope.

Notation RR := R_rcfType.
Notation RF := (real_star R_rcfType).

(** [np.sinc]: [sin (pi x) / (pi x)], and [1] at [0] *)
Definition np_sinc (x : RR) : RR := if x == 0 then 1 else sin (PI * x) / (PI * x).
(** Python's [max(min(x, 1), -1)] *)
Definition clamp1 (x : RR) : RR := Num.max (Num.min x 1) (-1).
(** [np.finfo(np.float64).eps] *)
Definition float_eps : RR := 2%:R ^- 52.

Section Sphere.
Variables (m n : nat).
Local Notation array := 'M[RF]_(m, n).
Implicit Types point vector : array.
Variable self_projection : array -> array -> array.

(** lines 20-23: [np.tensordot] over all axes *)
Definition sp_inner_product point (a b : array) : RR := \sum_i \sum_j (a i j * b i j).
(** [np.linalg.norm] of an array *)
Definition np_fnorm (a : array) : RR := Num.sqrt (\sum_i \sum_j (a i j ^+ 2)).
(** lines 25-26 *)
Definition sp_norm point vector : RR := np_fnorm vector.
(** lines 28-30 *)
Definition sp_dist (a b : array) : RR := acos (clamp1 (sp_inner_product a a b)).
(** lines 32-33 *)
Definition sp_projection point vector : array := vector - sp_inner_product point point vector *: point.
(** line 35: an alias made when the class body runs, so it is this projection in the subclasses too *)
Definition sp_to_tangent_space := sp_projection.
(** manifold.py lines 432-433 *)
Definition sp_gradient point (egrad : array) : array := self_projection point egrad.
(** lines 37-40 *)
Definition sp_weingarten point (tangent_vector normal_vector : array) : array :=
  - sp_inner_product point point normal_vector *: tangent_vector.
(** manifold.py lines 435-443 *)
Definition sp_hessian point (egrad ehess tangent_vector : array) : array :=
  let normal_gradient := egrad - self_projection point egrad in
  self_projection point ehess + sp_weingarten point tangent_vector normal_gradient.
(** lines 42-44 *)
Definition sp_exp point vector : array :=
  let norm := sp_norm point vector in
  (cos norm : RR) *: point + np_sinc (norm / PI) *: vector.
(** lines 73-74 *)
Definition sp_normalize (a : array) : array := (np_fnorm a)^-1 *: a.
(** lines 46-47 *)
Definition sp_retraction point vector : array := sp_normalize (point + vector).
(** lines 49-54 *)
Definition sp_log (a b : array) : array :=
  let vector := self_projection a (b - a) in
  let factor := (sp_dist a b + float_eps) / (sp_norm a vector + float_eps) in
  factor *: vector.
(** lines 56-58 *)
Definition sp_random_point (draw : array) : array := sp_normalize draw.
(** lines 60-62 *)
Definition sp_random_tangent_vector point (draw : array) : array := sp_normalize (self_projection point draw).
(** lines 64-65 *)
Definition sp_transport (a b vector : array) : array := self_projection b vector.
(** lines 67-68 *)
Definition sp_pair_mean (a b : array) : array := sp_normalize (a + b).
(** lines 70-71 *)
Definition sp_zero_vector point : array := 0.
End Sphere.

(** Lines 115-146: the sphere intersected with a subspace, given by the orthogonal projector onto it.  Here the
    points are vectors. *)
Section Subspace.
Variable (n : nat) (subspace_projector : 'M[RF]_n).
Local Notation vec := 'cV[RF]_n.
(** lines 129-131 *)
Definition ss_projection (point vector : vec) : vec := subspace_projector *m sp_projection point vector.
(** lines 133-136 *)
Definition ss_random_point (draw : vec) : vec := sp_normalize (subspace_projector *m sp_random_point draw).
(** lines 138-140; [super().random_tangent_vector] calls the projection of this class *)
Definition ss_random_tangent_vector (point : vec) (draw : vec) : vec :=
  sp_normalize (subspace_projector *m sp_random_tangent_vector ss_projection point draw).
End Subspace.
(** line 165 and line 194, where [q] is the first factor [np.linalg.qr] returns for the matrix given *)
Definition ss_projector n r (q : 'M[RF]_(n, r)) : 'M[RF]_n := q *m q^T.
Definition ss_complement_projector n r (q : 'M[RF]_(n, r)) : 'M[RF]_n := 1%:M - q *m q^T.
