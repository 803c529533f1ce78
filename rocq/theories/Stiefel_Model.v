(** Model of src/pymanopt/manifolds/stiefel.py.

    Points are stacks of [k] real [n x p] matrices (for [k = 1] also one such matrix), in exact arithmetic.
    LAPACK's QR and SVD, the matrix exponential and the draws of [np.random] are arguments. *)
From mathcomp Require Import all_ssreflect all_algebra.
From Verif Require Import Mat_Base Multi_Model Euclidean_Model.
Set Implicit Arguments.
Unset Strict Implicit.
Unset Printing Implicit Defensive.
Import GRing.Theory.
Local Open Scope ring_scope.

(** tools/multi.py lines 91-106 for matrices with at least as many rows as columns (which the constructor of
    [Stiefel], lines 53-56, ensures): then the reduced QR has [min(n, p) = p] columns. *)
Definition multiqr_tall (R : rcfType) (F : starField R) n p (qr : 'M[F]_(n, p) -> 'M[F]_(n, p) * 'M[F]_p)
    k (A : stack F k n p) : stack F k n p * stack F k p p :=
  ([ffun i => (qr_normalise (leqnn p) (qr (A i)).1 (qr (A i)).2).1],
   [ffun i => (qr_normalise (leqnn p) (qr (A i)).1 (qr (A i)).2).2]).

Section Stiefel.
Variables (R : rcfType) (k n p : nat).
Local Notation F := (real_star R).
Local Notation array := (stack F k n p).
Implicit Types point vector : array.

(** lines 76-79 *)
Definition st_inner_product point (a b : array) : R := \sum_i \sum_r \sum_c (a i r c * b i r c).
(** lines 81-82, 84 *)
Definition st_projection point vector : array :=
  vector - smul point (multisym (smul (multitransp point) vector)).
Definition st_to_tangent_space := st_projection.
(** manifold.py lines 432-433 *)
Definition st_gradient point (egrad : array) : array := st_projection point egrad.
(** lines 86-91 *)
Definition st_weingarten point (tangent_vector normal_vector : array) : array :=
  smul (smul (- tangent_vector) (multitransp point)) normal_vector
  - smul point (multisym (smul (multitransp tangent_vector) normal_vector)).
(** manifold.py lines 435-443 *)
Definition st_hessian point (egrad ehess tangent_vector : array) : array :=
  let normal_gradient := egrad - st_projection point egrad in
  st_projection point ehess + st_weingarten point tangent_vector normal_gradient.
(** lines 96-99 *)
Definition st_retraction_qr (qr : 'M[F]_(n, p) -> 'M[F]_(n, p) * 'M[F]_p) point vector : array :=
  let a := point + vector in (multiqr_tall qr a).1.
(** lines 101-104; the library's reduced SVD is applied to each matrix *)
Definition st_retraction_polar (svd : 'M[F]_(n, p) -> 'M[F]_(n, p) * 'rV[R]_p * 'M[F]_p) point vector : array :=
  let Y := point + vector in
  let u : array := [ffun i => (svd (Y i)).1.1] in
  let vt : stack F k p p := [ffun i => (svd (Y i)).2] in
  smul u vt.
(** lines 106-107 *)
Definition st_norm point vector : R := np_norm vector.
(** lines 109-113 *)
Definition st_random_point (qr : 'M[F]_(n, p) -> 'M[F]_(n, p) * 'M[F]_p) (draw : array) : array :=
  (multiqr_tall qr draw).1.
(** lines 115-118 *)
Definition st_random_tangent_vector point (draw : array) : array :=
  let vector := st_projection point draw in
  np_div vector (np_norm vector).
(** lines 120-121 *)
Definition st_transport (point_a point_b vector : array) : array := st_projection point_b vector.
(** lines 123-143.  [np.block([point, tangent_vector])] joins the columns, the inner [np.block] is a matrix of
    four [p x p] blocks, and [[..., : p]] keeps the first [p] columns of its exponential. *)
Definition st_exp (expm : forall q, 'M[F]_q -> 'M[F]_q) point (tangent_vector : array) : array :=
  let pt_tv := smul (multitransp point) tangent_vector in
  let identity := multieye F k p in
  let a : stack F k n (p + p) := [ffun i => row_mx (point i) (tangent_vector i)] in
  let s := smul (- multitransp tangent_vector) tangent_vector in
  let b : stack F k (p + p) p :=
    [ffun i => lsubmx (expm (p + p)%N (block_mx (pt_tv i) (s i) (identity i) (pt_tv i)))] in
  let c : stack F k p p := [ffun i => expm p (- pt_tv i)] in
  smul a (smul b c).
(** lines 145-148 *)
Definition st_zero_vector point : array := 0.
End Stiefel.
