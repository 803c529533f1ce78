(** The matrix manifolds as manifolds for the optimizers, with exact real arithmetic, and problems given by Euclidean derivatives.

    Points and tangent vectors are the arrays of the program.  [dimension] is the attribute of the object (see C49).
    [F] is the field of real or of complex numbers.  Operations that a class does not define are not modelled: their place is taken
    by a trivial function, and the optimizers that call them are not treated for that class. *)
From Coq Require Import Reals ZArith.
From mathcomp Require Import all_ssreflect all_algebra.
From Verif Require Import Rstruct Mat_Base Num_Model Num_Instances LineSearch_Model Multi_Model Euclidean_Model Sphere_Model Stiefel_Model
  Grassmann_Model Psd_Model Positive_Model PosDef_Model Group_Model.
Set Implicit Arguments.
Unset Strict Implicit.
Unset Printing Implicit Defensive.
Import GRing.Theory Num.Theory Order.TTheory.
Local Open Scope ring_scope.

(** Operations that are not there. *)
Section Missing.
Variable array : Type.
Definition no_array (x y : array) : array := x.
Definition no_dist (x y : array) : Rnum := 0%R.
End Missing.

Section Stacks.
Variables (F : starField RR) (k n p : nat) (dimension : Z).
Local Notation array := (stack F k n p).
(** The vector arithmetic of NumPy arrays. *)
Definition stack_mfd typical inner_product norm retraction exp log dist transport to_tangent_space zero_vector pair_mean : Mfd Rnum :=
  @mkMfd Rnum array array dimension typical inner_product false norm retraction exp log dist transport to_tangent_space zero_vector
    pair_mean (fun v => - v) (fun u v => u + v) (fun u v => u - v) (@sscale RR F k n p).

(** grassmann.py; lines 9-10: [typical_dist] *)
Definition grassmann_mfd (svd : 'M[F]_(n, p) -> 'M[F]_(n, p) * 'rV[RR]_p * 'M[F]_p) (svd_p : 'M[F]_p -> 'M[F]_p * 'rV[RR]_p * 'M[F]_p)
  (qr : 'M[F]_(n, p) -> 'M[F]_(n, p) * 'M[F]_p) : Mfd Rnum :=
  stack_mfd (Ok (sqrt (INR (p * k)) : Rnum)) (@gr_inner_product RR F k n p) (@gr_norm RR F k n p) (gr_retraction svd) (gr_exp svd qr)
    (gr_log svd) (gr_dist svd_p) (@gr_transport RR F k n p) (@gr_to_tangent_space RR F k n p) (@gr_zero_vector RR F k n p) (@no_array array).
(** core/problem.py lines 252-287 and 105-107: the Riemannian gradient and Hessian come from the conversions of the manifold;
    without a preconditioner (the identity).  Here and below. *)
Definition grassmann_problem svd svd_p qr (f : array -> RR) (egrad : array -> array) (ehess : array -> array -> array)
  : OptProblem (grassmann_mfd svd svd_p qr) := @mkOptProblem Rnum (grassmann_mfd svd svd_p qr) f
  (fun x => gr_gradient x (egrad x)) (fun x u => gr_hessian x (egrad x) (ehess x u) u) (fun x u => u).
End Stacks.

Section Matrices.
Variables (F : starField RR) (n k : nat) (dimension : Z).
Local Notation array := 'M[F]_(n, k).
Definition matrix_mfd typical inner_product norm retraction exp log dist transport to_tangent_space zero_vector pair_mean : Mfd Rnum :=
  @mkMfd Rnum array array dimension typical inner_product false norm retraction exp log dist transport to_tangent_space zero_vector
    pair_mean (fun v => - v) (fun u v => u + v) (fun u v => u - v) (fun a v => sf_real (a : RR) *: v).
(** psd.py lines 12-70: [PSDFixedRank] and [PSDFixedRankComplex]; lines 13-15: [typical_dist] *)
Definition psd_mfd (lyapunov : 'M[F]_k -> 'M[F]_k -> 'M[F]_k) (svd : 'M[F]_k -> 'M[F]_k * 'rV[RR]_k * 'M[F]_k) : Mfd Rnum :=
  matrix_mfd (Ok (INR (10 + k) : Rnum)) (@psd_inner_product RR F n k) (@psd_norm RR F n k) (@psd_retraction RR F n k) (@psd_exp RR F n k)
    (psd_log svd) (psd_dist svd) (psd_transport lyapunov) (psd_to_tangent_space lyapunov) (@psd_zero_vector RR F n k) (@no_array array).
Definition psd_problem lyapunov svd (f : array -> RR) (egrad : array -> array) (ehess : array -> array -> array)
  : OptProblem (psd_mfd lyapunov svd) := @mkOptProblem Rnum (psd_mfd lyapunov svd) f
  (fun x => psd_gradient x (egrad x)) (fun x u => psd_hessian lyapunov x (egrad x) (ehess x u) u) (fun x u => u).
End Matrices.

Section Elliptope.
Variables (n k : nat) (dimension : Z).
Local Notation RF := (real_star RR).
Local Notation array := 'M[RF]_(n, k).
(** psd.py lines 164-273; lines 218-220: [typical_dist] *)
Definition elliptope_mfd (lyapunov : 'M[RF]_k -> 'M[RF]_k -> 'M[RF]_k) : Mfd Rnum :=
  matrix_mfd dimension (Ok (INR (10 * k) : Rnum)) (@el_inner_product RR n k) (@el_norm RR n k) (@el_retraction RR n k) (@el_retraction RR n k)
    (@no_array array) (@no_dist array) (el_transport lyapunov) (el_to_tangent_space lyapunov) (@el_zero_vector RR n k) (@no_array array).
Definition elliptope_problem lyapunov (f : array -> RR) (egrad : array -> array) (ehess : array -> array -> array)
  : OptProblem (elliptope_mfd lyapunov) := @mkOptProblem Rnum (elliptope_mfd lyapunov) f
  (fun x => el_gradient x (egrad x)) (fun x u => el_hessian lyapunov x (egrad x) (ehess x u) u) (fun x u => u).
End Elliptope.
