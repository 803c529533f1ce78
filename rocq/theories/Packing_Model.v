(** Model of examples/packing_on_the_sphere.py: the costs written for the four backends and the figure printed at the end.

    Exact arithmetic over the reals of the standard library.  A point is a matrix whose rows are the points of the sphere; there
    is at least one, and they have any dimension (the example has 24 in dimension 3). *)
From Coq Require Import Reals.
From mathcomp Require Import all_ssreflect all_algebra.
From Verif Require Import Rstruct Mat_Base Sphere_Model.
Set Implicit Arguments.
Unset Strict Implicit.
Unset Printing Implicit Defensive.
Import GRing.Theory Num.Theory Order.TTheory.
Local Open Scope ring_scope.

Section Packing.
Variables (n d : nat).
Local Notation points := 'M[RF]_(n.+1, d).
Local Notation square := 'M[RF]_n.+1.

(** NumPy: [np.triu(Y, k)] (also [tf.linalg.band_part(Y, 0, -1)], with [k = 0]), [Y.max()], [Y.sum()], [np.diag(np.diag(Y))] *)
Definition triu (k : nat) (Y : square) : square := \matrix_(i, j) (if (i + k <= j)%N then Y i j else 0).
Definition entry_max (Y : square) : RR :=
  let ij := [arg max_(ij > (ord0, ord0)) (Y ij.1 ij.2 : RR)]%O in Y ij.1 ij.2.
Definition entry_sum (Y : square) : RR := \sum_i \sum_j Y i j.
Definition diag_part (Y : square) : square := diag_mx (\row_i Y i i).

(** lines 18-28 (autograd), 33-39 (jax), 44-50 (pytorch): the same operations in the three libraries *)
Definition cost (epsilon : RR) (X : points) : RR :=
  let Y := X *m X^T in
  let s := entry_max (triu 1 Y) in
  let expY : square := \matrix_(i, j) exp ((Y i j - s) / epsilon) in
  let expY := expY - diag_part expY in
  let u := entry_sum (triu 1 expY) in
  s + epsilon * ln u.
(** lines 55-61 (tensorflow): [u] is computed from [Y], and [band_part(Y, 0, -1)] keeps the diagonal *)
Definition cost_tensorflow (epsilon : RR) (X : points) : RR :=
  let Y := X *m X^T in
  let s := entry_max (triu 0 Y) in
  let expY : square := \matrix_(i, j) exp ((Y i j - s) / epsilon) in
  let expY := expY - diag_part expY in
  let u := entry_sum (triu 0 Y) in
  s + epsilon * ln u.
(** lines 97-99: the figure printed as the maximum angle *)
Definition maxdot (Y : points) : RR := entry_max (triu 1 (Y *m Y^T)).
End Packing.
