(** Model of examples/notebooks/mixture_of_gaussians.py: the cost of the mixture of Gaussians and the parameters read from the result.

    Exact arithmetic over the reals of the standard library.  The notebook has [N] samples of dimension [D] and [K + 1] components
    (1000, 2 and 3 there); the weights are given by [K] numbers.  [np.linalg.solve(S, y)] is the inverse times [y]; it is only called
    with invertible matrices, the points of the manifold being positive definite. *)
From Coq Require Import Reals.
From mathcomp Require Import all_ssreflect all_algebra.
From Verif Require Import Rstruct Mat_Base Sphere_Model.
Set Implicit Arguments.
Unset Strict Implicit.
Unset Printing Implicit Defensive.
Import GRing.Theory Num.Theory Order.TTheory.
Local Open Scope ring_scope.

Section Mixture.
Variables (N D K : nat).
Variable samples : 'M[RF]_(N, D).
Local Notation matrices := ('I_(K + 1) -> 'M[RF]_(D + 1)).

(** SciPy: [logsumexp(a)], which subtracts the largest entry *)
Definition logsumexp (a : 'I_(K + 1) -> RR) : RR :=
  let a_max := a [arg max_(k > rshift K ord0) a k]%O in ln (\sum_k (exp (a k - a_max) : RR)) + a_max.

(** line 138 [y = np.concatenate([samples.T, np.ones((1, N))], axis=0)] *)
Definition augmented : 'M[RF]_(D + 1, N) := col_mx samples^T (const_mx 1).
(** lines 135, 146-147: the logarithms of the weights, [nu = np.append(v, 0)], and the weights *)
Definition nu (v : 'rV[RF]_K) : 'rV[RF]_(K + 1) := row_mx v 0.
Definition alpha (v : 'rV[RF]_K) (k : 'I_(K + 1)) : RR := (exp (nu v 0 k) : RR) / \sum_l (exp (nu v 0 l) : RR).
(** lines 137 and 144: [logdetS = np.linalg.slogdet(S)[1]] and [log_q] *)
Definition log_q (S : matrices) (k : 'I_(K + 1)) (i : 'I_N) : RR :=
  let y := augmented in
  - 2%:R^-1 * (\sum_j (y j i * (invmx (S k) *m y) j i : RR) + (ln `|\det (S k) : RR|)).
(** lines 133-151 *)
Definition cost (S : matrices) (v : 'rV[RF]_K) : RR :=
  - \sum_i logsumexp (fun k => ln (alpha v k) + log_q S k i).
End Mixture.

(** lines 165-172: the parameters read from the result ([pihat] is [alpha]) *)
Definition mu_hat D (S : 'M[RF]_(D + 1)) : 'cV[RF]_D := ursubmx S.
Definition sigma_hat D (S : 'M[RF]_(D + 1)) : 'M[RF]_D := ulsubmx S - mu_hat S *m (mu_hat S)^T.
