(** More matrix manifolds as manifolds for the optimizers, with exact real arithmetic, and problems given by Euclidean derivatives.
    As in Symmetry_Model.v: points and tangent vectors are the arrays of the program, [dimension] is the attribute of the object,
    and operations that a class does not define are replaced by trivial functions. *)
From Coq Require Import Reals ZArith.
From mathcomp Require Import all_ssreflect all_algebra.
From Verif Require Import Rstruct Mat_Base Num_Model Num_Instances LineSearch_Model Multi_Model Euclidean_Model Sphere_Model Stiefel_Model
  Positive_Model PosDef_Model Group_Model Symmetry_Model.
Set Implicit Arguments.
Unset Strict Implicit.
Unset Printing Implicit Defensive.
Import GRing.Theory Num.Theory Order.TTheory.
Local Open Scope ring_scope.

(** euclidean.py lines 8-65: [Euclidean] and [ComplexEuclidean]; lines 12-14: [typical_dist] *)
Section Euclidean.
Variables (F : starField RR) (k m n : nat) (dimension : Z).
Local Notation array := (stack F k m n).
Definition euclidean_mfd : Mfd Rnum :=
  stack_mfd dimension (Ok (sqrt (IZR dimension) : Rnum)) (@eu_inner_product RR F k m n) (@eu_norm RR F k m n)
    (@eu_retraction RR F k m n) (@eu_exp RR F k m n) (@eu_log RR F k m n) (@eu_dist RR F k m n) (@eu_transport RR F k m n)
    (@eu_to_tangent_space RR F k m n) (@eu_zero_vector RR F k m n) (@eu_pair_mean RR F k m n).
(** core/problem.py lines 252-287 and 105-107, here and below *)
Definition euclidean_problem (f : array -> RR) (egrad : array -> array) (ehess : array -> array -> array) : OptProblem euclidean_mfd :=
  @mkOptProblem Rnum euclidean_mfd f (fun x => eu_gradient x (egrad x)) (fun x u => eu_hessian x (egrad x) (ehess x u) u) (fun x u => u).
End Euclidean.

(** sphere.py lines 10-74: [Sphere]; lines 16-18: [typical_dist] *)
Section Sphere.
Variables (m n : nat) (dimension : Z).
Local Notation array := 'M[RF]_(m, n).
Definition sphere_mfd : Mfd Rnum :=
  @matrix_mfd RF m n dimension (Ok (PI : Rnum)) (@sp_inner_product m n) (@sp_norm m n) (@sp_retraction m n) (@sp_exp m n)
    (sp_log (@sp_projection m n)) (@sp_dist m n) (sp_transport (@sp_projection m n)) (@sp_to_tangent_space m n) (@sp_zero_vector m n)
    (@sp_pair_mean m n).
Definition sphere_problem (f : array -> RR) (egrad : array -> array) (ehess : array -> array -> array) : OptProblem sphere_mfd :=
  @mkOptProblem Rnum sphere_mfd f (fun x => sp_gradient (@sp_projection m n) x (egrad x))
    (fun x u => sp_hessian (@sp_projection m n) x (egrad x) (ehess x u) u) (fun x u => u).
End Sphere.

(** positive.py; lines 61-63: [typical_dist].  An array of any shape is the row of its entries. *)
Section Positive.
Variables (n : nat) (dimension : Z) (use_parallel_transport : bool).
Local Notation array := 'rV[RF]_n.
Definition positive_mfd : Mfd Rnum :=
  @matrix_mfd RF 1 n dimension (Ok (sqrt (IZR dimension) : Rnum)) (@po_inner_product n) (@po_norm n) (@po_retraction n) (@po_exp n)
    (@po_log n) (@po_dist n) (@po_transport n use_parallel_transport) (@po_to_tangent_space n) (@po_zero_vector n) (@no_array array).
Definition positive_problem (f : array -> RR) (egrad : array -> array) (ehess : array -> array -> array) : OptProblem positive_mfd :=
  @mkOptProblem Rnum positive_mfd f (fun x => po_gradient x (egrad x)) (fun x u => po_hessian x (egrad x) (ehess x u) u) (fun x u => u).
End Positive.

(** positive_definite.py lines 14-122: [SymmetricPositiveDefinite] and [HermitianPositiveDefinite]; lines 22-24: [typical_dist] *)
Section PosDef.
Variables (F : starField RR) (k n : nat) (dimension : Z).
Local Notation array := (stack F k n n).
Variables (cholesky : 'M[F]_n -> 'M[F]_n) (eigh : 'M[F]_n -> 'rV[RR]_n * 'M[F]_n) (expm : 'M[F]_n -> 'M[F]_n).
Definition posdef_mfd : Mfd Rnum :=
  stack_mfd dimension (Ok (sqrt (IZR dimension) : Rnum)) (@pd_inner_product RR F k n) (@pd_norm RR F k n) (@pd_retraction RR F k n)
    (@pd_exp RR F k n expm) (@pd_log F k n cholesky eigh) (@pd_dist F k n cholesky eigh) (@pd_transport RR F k n)
    (@pd_to_tangent_space RR F k n) (@pd_zero_vector RR F k n) (@no_array array).
Definition posdef_problem (f : array -> RR) (egrad : array -> array) (ehess : array -> array -> array) : OptProblem posdef_mfd :=
  @mkOptProblem Rnum posdef_mfd f (fun x => pd_gradient x (egrad x)) (fun x u => pd_hessian x (egrad x) (ehess x u) u) (fun x u => u).
End PosDef.

(** stiefel.py; lines 46-71: the choice of the retraction; lines 72-74: [typical_dist].  The class has no [dist], [log] and
    [pair_mean]. *)
Section Stiefel.
Variables (k n p : nat) (dimension : Z) (polar : bool).
Local Notation array := (stack RF k n p).
Variables (qr : 'M[RF]_(n, p) -> 'M[RF]_(n, p) * 'M[RF]_p) (svd : 'M[RF]_(n, p) -> 'M[RF]_(n, p) * 'rV[RR]_p * 'M[RF]_p)
  (expm : forall q, 'M[RF]_q -> 'M[RF]_q).
Definition stiefel_mfd : Mfd Rnum :=
  stack_mfd dimension (Ok (sqrt (INR (p * k)) : Rnum)) (@st_inner_product RR k n p) (@st_norm RR k n p)
    (if polar then st_retraction_polar svd else st_retraction_qr qr) (st_exp expm) (@no_array array) (@no_dist array)
    (@st_transport RR k n p) (@st_to_tangent_space RR k n p) (@st_zero_vector RR k n p) (@no_array array).
Definition stiefel_problem (f : array -> RR) (egrad : array -> array) (ehess : array -> array -> array) : OptProblem stiefel_mfd :=
  @mkOptProblem Rnum stiefel_mfd f (fun x => st_gradient x (egrad x)) (fun x u => st_hessian x (egrad x) (ehess x u) u) (fun x u => u).
End Stiefel.

(** group.py lines 11-94 and 97-176: [SpecialOrthogonalGroup]; lines 17-28: the choice of the retraction; lines 40-42:
    [typical_dist] *)
Section Group.
Variables (k n : nat) (dimension : Z) (polar : bool).
Local Notation array := (stack RF k n n).
Variables (qr : 'M[RF]_n -> 'M[RF]_n * 'M[RF]_n) (svd : 'M[RF]_n -> 'M[RF]_n * 'rV[RR]_n * 'M[RF]_n) (expm logm : 'M[RF]_n -> 'M[RF]_n).
Definition so_mfd : Mfd Rnum :=
  stack_mfd dimension (Ok (PI * sqrt (INR (n * k)) : Rnum)%R) (@un_inner_product RR RF k n) (@un_norm RR RF k n)
    (if polar then un_retraction_polar svd else un_retraction_qr qr) (un_exp expm) (un_log logm) (un_dist logm)
    (@un_transport RR RF k n) (@un_to_tangent_space RR RF k n) (@un_zero_vector RR RF k n) (un_pair_mean expm logm).
Definition so_problem (f : array -> RR) (egrad : array -> array) (ehess : array -> array -> array) : OptProblem so_mfd :=
  @mkOptProblem Rnum so_mfd f (fun x => un_gradient x (egrad x)) (fun x u => un_hessian x (egrad x) (ehess x u) u) (fun x u => u).
End Group.
