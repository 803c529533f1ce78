(** Model of src/pymanopt/manifolds/positive.py with exact arithmetic.  Every operation works entry by entry or
    sums over all entries, so an array of shape [m x n] or [k x m x n] is modelled as the row of its entries. *)
From Coq Require Import Reals.
From mathcomp Require Import all_ssreflect all_algebra.
From Verif Require Import Rstruct Mat_Base Sphere_Model.
Set Implicit Arguments.
Unset Strict Implicit.
Unset Printing Implicit Defensive.
Import GRing.Theory Num.Theory Order.TTheory.
Local Open Scope ring_scope.

Section Positive.
Variable n : nat.
Local Notation array := 'rV[RF]_n.
Implicit Types point vector tangent_vector : array.

(** lines 65-70 *)
Definition po_inner_product point (a b : array) : RR := \sum_j (a 0 j / point 0 j) * (b 0 j / point 0 j).
(** lines 72-75 *)
Definition po_projection point vector : array := vector.
Definition po_to_tangent_space := po_projection.
(** lines 77-80 *)
Definition po_norm point vector : RR := Num.sqrt (po_inner_product point vector vector).
(** lines 82-86 *)
Definition po_random_point (draw : array) : array := \row_j exp (draw 0 j).
(** lines 88-90 *)
Definition po_random_tangent_vector point (draw : array) : array :=
  let vector : array := \row_j (draw 0 j * point 0 j) in \row_j (vector 0 j / po_norm point vector).
(** lines 92-93 *)
Definition po_zero_vector point : array := 0.
(** lines 95-97 *)
Definition po_dist (a b : array) : RR :=
  let log_ratio j : RR := (ln (a 0 j) : RR) - ln (b 0 j) in Num.sqrt (\sum_j log_ratio j * log_ratio j).
(** lines 99-100 *)
Definition po_gradient point (egrad : array) : array := \row_j (egrad 0 j * point 0 j ^+ 2).
(** lines 102-108 *)
Definition po_hessian point (egrad ehess tangent_vector : array) : array :=
  \row_j (ehess 0 j * point 0 j ^+ 2 + tangent_vector 0 j * egrad 0 j * point 0 j).
(** lines 110-111 *)
Definition po_exp point tangent_vector : array :=
  \row_j (point 0 j * exp (tangent_vector 0 j / point 0 j)%R).
(** lines 113-114 *)
Definition po_log (a b : array) : array := \row_j (a 0 j * ((ln (b 0 j) : RR) - ln (a 0 j))).
(** lines 116-117 *)
Definition po_retraction point tangent_vector : array :=
  \row_j (point 0 j + tangent_vector 0 j + tangent_vector 0 j ^+ 2 / point 0 j / 2%:R).
(** lines 119-126, and 49-52 for the choice *)
Definition po_transporter (a b vector : array) : array := vector.
Definition po_parallel_transport (a b vector : array) : array := \row_j (vector 0 j * b 0 j / a 0 j).
Definition po_transport (use_parallel_transport : bool) (a b vector : array) : array :=
  if use_parallel_transport then po_parallel_transport a b vector else po_transporter a b vector.
End Positive.
