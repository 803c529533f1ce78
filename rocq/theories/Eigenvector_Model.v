(** The example examples/dominant_eigenvector.py: the sphere of src/pymanopt/manifolds/sphere.py with the cost [- x^T A x],
    as a manifold and a problem for the optimizers, with exact real arithmetic. *)
From Coq Require Import Reals ZArith.
From mathcomp Require Import all_ssreflect all_algebra.
From Verif Require Import Rstruct Mat_Base Num_Model Num_Instances LineSearch_Model Sphere_Model.
Set Implicit Arguments.
Unset Strict Implicit.
Unset Printing Implicit Defensive.
Import GRing.Theory Num.Theory Order.TTheory.
Local Open Scope ring_scope.

Section Eigenvector.
Variable n : nat.
Local Notation vec := 'cV[RF]_n.

(** The points: vectors of length one. *)
Definition sphere_point := {x : vec | \sum_i \sum_j x i j ^+ 2 = 1}.
(** What an operation computes, as a point.  (Where the code divides zero by zero, which it does only for vectors that
    are not tangent, the old point stands for the result.) *)
Definition landed (y : vec) (x : sphere_point) : sphere_point :=
  match \sum_i \sum_j y i j ^+ 2 =P 1 with ReflectT h => exist _ y h | ReflectF _ => x end.

(** sphere.py lines 10-74; the dimension and the typical distance: lines 100-113 and 16-18 *)
Definition sphere_mfd : Mfd Rnum := @mkMfd Rnum sphere_point vec (Z.pred (Z.of_nat n)) (Ok (PI : Rnum))
  (fun x => sp_inner_product (sval x)) false (fun x => sp_norm (sval x))
  (fun x v => landed (sp_retraction (sval x) v) x) (fun x v => landed (sp_exp (sval x) v) x)
  (fun x y => sp_log (@sp_projection n 1) (sval x) (sval y)) (fun x y => sp_dist (sval x) (sval y))
  (fun x y => sp_transport (@sp_projection n 1) (sval x) (sval y)) (fun x => sp_to_tangent_space (sval x))
  (fun x => sp_zero_vector (sval x)) (fun x y => landed (sp_pair_mean (sval x) (sval y)) x)
  (fun v => - v) (fun u v => u + v) (fun u v => u - v) (fun (a : RR) v => a *: v).

Variable A : 'M[RF]_n.
(** examples/dominant_eigenvector.py lines 32-35: [-x.T @ matrix @ x] *)
Definition cost (x : vec) : RR := - (x^T *m A *m x) ord0 ord0.
(** lines 37-39: [-2 * matrix @ x] *)
Definition euclidean_gradient (x : vec) : vec := - (2%:R *: (A *m x)).
(** its derivative, which the trust-region optimizer needs in addition *)
Definition euclidean_hessian (x v : vec) : vec := - (2%:R *: (A *m v)).

(** core/problem.py lines 252-287 and 105-107: the Riemannian gradient and Hessian come from the manifold; no preconditioner
    (the identity) *)
Definition eigen_problem : OptProblem sphere_mfd := @mkOptProblem Rnum sphere_mfd
  (fun x => cost (sval x))
  (fun x => sp_gradient (@sp_projection n 1) (sval x) (euclidean_gradient (sval x)))
  (fun x v => sp_hessian (@sp_projection n 1) (sval x) (euclidean_gradient (sval x)) (euclidean_hessian (sval x) v) v)
  (fun x v => v).
End Eigenvector.
