(** Model of src/pymanopt/manifolds/complex_circle.py, on vectors of complex numbers with exact arithmetic. *)
From Coq Require Import Reals.
From mathcomp Require Import all_ssreflect all_algebra.
From mathcomp.real_closed Require Import complex.
From Verif Require Import Rstruct Mat_Base Sphere_Model.
Set Implicit Arguments.
Unset Strict Implicit.
Unset Printing Implicit Defensive.
Import GRing.Theory Num.Theory Order.TTheory.
Local Open Scope ring_scope.

Notation CF := (complex_star R_rcfType).

Section ComplexCircle.
Variable n : nat.
Local Notation array := 'rV[CF]_n.
Implicit Types point vector : array.
Local Notation conj := (@sf_conj RR CF).
Local Notation re := (@sf_re RR CF).
Local Notation real := (@sf_real RR CF).
(** [np.abs] *)
Definition np_abs (z : CF) : RR := Num.sqrt (abs2 z).

(** lines 30-31 *)
Definition cc_inner_product point (a b : array) : RR := re (\sum_j (conj (a 0 j) * b 0 j)).
(** lines 33-34 *)
Definition cc_norm point vector : RR := Num.sqrt (\sum_j abs2 (vector 0 j)).
(** lines 36-37 *)
Definition cc_dist (a b : array) : RR := Num.sqrt (\sum_j (acos (re (conj (a 0 j) * b 0 j)) : RR) ^+ 2).
(** lines 43-44, 46 *)
Definition cc_projection point vector : array :=
  \row_j (vector 0 j - real (re (conj (vector 0 j) * point 0 j)) * point 0 j).
Definition cc_to_tangent_space := cc_projection.
(** manifold.py lines 432-433 *)
Definition cc_gradient point (egrad : array) : array := cc_projection point egrad.
(** lines 48-55 *)
Definition cc_hessian point (egrad ehess tangent_vector : array) : array :=
  cc_projection point (\row_j (ehess 0 j - real (re (point 0 j * conj (egrad 0 j))) * tangent_vector 0 j)).
(** lines 57-68: the result is written into an array of real numbers, which drops the imaginary parts *)
Definition cc_exp point vector : 'rV[RF]_n :=
  \row_j (if 0 < np_abs (vector 0 j)
          then re (point 0 j * real (cos (np_abs (vector 0 j)))
                   + vector 0 j * real ((sin (np_abs (vector 0 j)) : RR) / np_abs (vector 0 j)))
          else re (point 0 j)).
(** lines 101-103 *)
Definition cc_normalize (a : array) : array := \row_j (a 0 j / real (np_abs (a 0 j))).
(** lines 70-71 *)
Definition cc_retraction point vector : array := cc_normalize (point + vector).
(** lines 73-79; [1e-6] is [10 ^- 6] *)
Definition cc_log (a b : array) : array :=
  let v := cc_projection a (b - a) in
  \row_j (let di : RR := acos (re (conj (a 0 j) * b 0 j)) in
          let factor := if di <= 10%:R ^- 6 then 1 else di / np_abs (v 0 j) in
          v 0 j * real factor).
(** lines 81-86 *)
Definition cc_random_point (draw draw' : 'rV[RF]_n) : array :=
  cc_normalize (\row_j (real (draw 0 j) + 'i%C * real (draw' 0 j))).
(** lines 88-90 *)
Definition cc_random_tangent_vector point (draw : 'rV[RF]_n) : array :=
  let tangent_vector := \row_j (real (draw 0 j) * 'i%C * point 0 j) in
  \row_j (tangent_vector 0 j / real (cc_norm point tangent_vector)).
(** lines 92-93 *)
Definition cc_transport (a b vector : array) : array := cc_projection b vector.
(** lines 95-96 *)
Definition cc_pair_mean (a b : array) : array := cc_normalize (a + b).
(** lines 98-99 *)
Definition cc_zero_vector point : array := 0.
End ComplexCircle.
