(** Model of src/pymanopt/manifolds/grassmann.py.

    Points are stacks of [k] matrices of shape [n x p] (for [k = 1] also one such matrix), in exact arithmetic.
    One model serves both classes: [Grassmann] is the case of real entries ([real_star], where the conjugate
    transpose [multihconj] is the transpose and taking real parts does nothing), [ComplexGrassmann] that of complex
    entries ([complex_star]).  LAPACK's QR and SVD and the draws of [np.random] are arguments. *)
From Coq Require Import Reals.
From mathcomp Require Import all_ssreflect all_algebra.
From Verif Require Import Rstruct Mat_Base Multi_Model Euclidean_Model Sphere_Model Stiefel_Model.
Set Implicit Arguments.
Unset Strict Implicit.
Unset Printing Implicit Defensive.
Import GRing.Theory Order.TTheory.
Local Open Scope ring_scope.

Section Grassmann.
Variables (R : rcfType) (F : starField R) (k n p : nat).
Local Notation array := (stack F k n p).
Implicit Types point vector : array.

(** lines 79-82, 183-190 *)
Definition gr_inner_product point (a b : array) : R :=
  sf_re (\sum_i \sum_r \sum_c (sf_conj (a i r c) * b i r c)).
(** lines 12-13 *)
Definition gr_norm point vector : R := np_norm vector.
(** lines 84-85, 192-193 *)
Definition gr_projection point vector : array := vector - smul point (smul (multihconj point) vector).
(** lines 15-16 *)
Definition gr_transport (point_a point_b vector : array) : array := gr_projection point_b vector.
(** lines 18-22 *)
Definition gr_zero_vector point : array := 0.
(** lines 24-25 *)
Definition gr_gradient point (egrad : array) : array := gr_projection point egrad.
(** lines 27-28 *)
Definition gr_to_tangent_space point vector : array := gr_projection point vector.
(** lines 87-93, 195-201 *)
Definition gr_hessian point (egrad ehess vector : array) : array :=
  let PXehess := gr_projection point ehess in
  let XtG := smul (multihconj point) egrad in
  let HXtG := smul vector XtG in
  PXehess - HXtG.
(** lines 95-102, 203-210 *)
Definition gr_retraction (svd : 'M[F]_(n, p) -> 'M[F]_(n, p) * 'rV[R]_p * 'M[F]_p) point vector : array :=
  let Y := point + vector in
  let u : array := [ffun i => (svd (Y i)).1.1] in
  let vt : stack F k p p := [ffun i => (svd (Y i)).2] in
  smul u vt.
(** lines 104-108, 212-219 *)
Definition gr_random_point (qr : 'M[F]_(n, p) -> 'M[F]_(n, p) * 'M[F]_p) (draw : array) : array :=
  (multiqr_tall qr draw).1.
(** lines 110-113, 221-226 *)
Definition gr_random_tangent_vector point (draw : array) : array :=
  let vector := gr_projection point draw in
  np_div vector (np_norm vector).
End Grassmann.

Section Exp.
Variables (F : starField RR) (k n p : nat).
Local Notation array := (stack F k n p).
(** [A * np.expand_dims(f(s), -2)]: column [c] of matrix [i] times the number [f (s[i, c])] *)
Definition scale_columns m (f : RR -> RR) (A : stack F k m p) (s : 'I_k -> 'rV[RR]_p) : stack F k m p :=
  [ffun i => \matrix_(r, c) (A i r c * sf_real (f (s i ord0 c)))].
Variable svd : 'M[F]_(n, p) -> 'M[F]_(n, p) * 'rV[RR]_p * 'M[F]_p.
(** lines 115-125, 228-237 *)
Definition gr_exp (qr : 'M[F]_(n, p) -> 'M[F]_(n, p) * 'M[F]_p) (point tangent_vector : array) : array :=
  let u : array := [ffun i => (svd (tangent_vector i)).1.1] in
  let s := fun i => (svd (tangent_vector i)).1.2 in
  let vt : stack F k p p := [ffun i => (svd (tangent_vector i)).2] in
  let Y := smul (smul point (scale_columns cos (multihconj vt) s)) vt + smul (scale_columns sin u s) vt in
  (multiqr_tall qr Y).1.
(** lines 127-133, 239-245; [np.linalg.solve(A, B)] is [A^-1 B] for an invertible matrix [A] *)
Definition gr_log (point_a point_b : array) : array :=
  let ytx := smul (multihconj point_b) point_a in
  let At := multihconj point_b - smul ytx (multihconj point_a) in
  let Bt : stack F k p n := [ffun i => invmx (ytx i) *m At i] in
  let B := multihconj Bt in
  let u : array := [ffun i => (svd (B i)).1.1] in
  let s := fun i => (svd (B i)).1.2 in
  let vt : stack F k p p := [ffun i => (svd (B i)).2] in
  smul (scale_columns atan u s) vt.
(** lines 73-77, 177-181; here the singular values of a [p x p] matrix.  The assignment [s[s > 1] = 1], then
    [np.arccos] of all entries, then the norm of all of them. *)
Definition gr_dist (svd : 'M[F]_p -> 'M[F]_p * 'rV[RR]_p * 'M[F]_p) (point_a point_b : array) : RR :=
  let A := smul (multihconj point_a) point_b in
  let s := fun i c => (svd (A i)).1.2 ord0 c in
  let s := fun i c => if (1 < s i c)%R then 1 else s i c in
  Num.sqrt (\sum_i \sum_c (acos (s i c) : RR) ^+ 2).
End Exp.
