(** Model of src/pymanopt/manifolds/euclidean.py.

    All operations are entrywise or sums over all entries, so the shape of the array plays no role for
    [Euclidean] and [ComplexEuclidean]: an array of any shape is a [stack] (for example, of one matrix with one
    row).  [Symmetric] and [SkewSymmetric] are about real arrays of shape [(k, n, n)] or [(n, n)].  Arithmetic is
    exact.  What [np.random] returns is an argument. *)
From mathcomp Require Import all_ssreflect all_algebra.
From Verif Require Import Mat_Base Multi_Model.
Set Implicit Arguments.
Unset Strict Implicit.
Unset Printing Implicit Defensive.
Import GRing.Theory.
Local Open Scope ring_scope.

Section Euclidean.
Variables (R : rcfType) (F : starField R) (k m n : nat).
Local Notation array := (stack F k m n).
Implicit Types point vector : array.

(** lines 16-25 *)
Definition eu_inner_product point (a b : array) : R :=
  sf_re (\sum_i \sum_r \sum_c (sf_conj (a i r c) * b i r c)).
(** [np.linalg.norm]: square root of the sum of the squared moduli of all entries *)
Definition np_norm (a : array) : R := Num.sqrt (\sum_i \sum_r \sum_c abs2 (a i r c)).
(** lines 27-28 *)
Definition eu_norm point vector : R := np_norm vector.
(** lines 30-31 *)
Definition eu_dist (a b : array) : R := np_norm (a - b).
(** lines 33-34 *)
Definition eu_projection point vector : array := vector.
(** line 36 *)
Definition eu_to_tangent_space := eu_projection.
(** manifold.py lines 432-433 (RiemannianSubmanifold): the projection of the Euclidean gradient *)
Definition eu_gradient point (egrad : array) : array := eu_projection point egrad.
(** lines 38-41 *)
Definition eu_hessian point (egrad ehess vector : array) : array := ehess.
(** lines 43-46 *)
Definition eu_exp point vector : array := point + vector.
Definition eu_retraction := eu_exp.
(** lines 48-49 *)
Definition eu_log (a b : array) : array := b - a.
(** lines 51-52; [draw] is the array of normal variates *)
Definition eu_random_point (draw : array) : array := draw.
(** lines 54-56: division of every entry by a real number *)
Definition np_div (a : array) (c : R) : array := [ffun i => \matrix_(r, s) (a i r s / sf_real c)].
Definition eu_random_tangent_vector point (draw : array) : array :=
  let tangent_vector := eu_random_point draw in
  np_div tangent_vector (eu_norm point tangent_vector).
(** lines 58-59 *)
Definition eu_transport (a b vector : array) : array := vector.
(** lines 61-62 *)
Definition eu_pair_mean (a b : array) : array := np_div (a + b) 2%:R.
(** lines 64-65, 134-135 *)
Definition eu_zero_vector point : array := 0.
End Euclidean.

(** lines 129-132: the complex point of two real draws *)
Definition ceu_random_point (R : rcfType) k m n (x y : stack (real_star R) k m n) : stack (complex_star R) k m n :=
  [ffun i => \matrix_(r, c) (@complex.Complex R (x i r c) (y i r c))].

Section Symmetric.
Variables (R : rcfType) (k n : nat).
Local Notation array := (stack (real_star R) k n n).
Implicit Types point vector : array.

(** lines 164-165.  [to_tangent_space] (line 36) is bound to the projection of the parent class when that class is
    created, so it remains [eu_to_tangent_space]; the gradient conversion calls [self.projection]. *)
Definition sym_projection point vector : array := multisym vector.
Definition sym_gradient point (egrad : array) : array := sym_projection point egrad.
Definition sym_to_tangent_space point vector : array := eu_to_tangent_space point vector.
(** lines 167-170 *)
Definition sym_hessian point (egrad ehess vector : array) : array := multisym ehess.
(** lines 172-173 *)
Definition sym_random_point (draw : array) : array := multisym draw.
(** lines 175-177 *)
Definition sym_random_tangent_vector point (draw : array) : array :=
  let tangent_vector := sym_random_point draw in
  multisym (np_div tangent_vector (eu_norm point tangent_vector)).

(** lines 206-207 and 36 *)
Definition skew_projection point vector : array := multiskew vector.
Definition skew_gradient point (egrad : array) : array := skew_projection point egrad.
Definition skew_to_tangent_space point vector : array := eu_to_tangent_space point vector.
(** lines 209-212 *)
Definition skew_hessian point (egrad ehess vector : array) : array := multiskew ehess.
(** lines 214-215 *)
Definition skew_random_point (draw : array) : array := multiskew draw.
(** lines 217-219 *)
Definition skew_random_tangent_vector point (draw : array) : array :=
  let tangent_vector := skew_random_point draw in
  multiskew (np_div tangent_vector (eu_norm point tangent_vector)).
End Symmetric.
