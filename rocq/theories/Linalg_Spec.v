(** What the linear algebra library promises, and positive definite matrices. *)
From mathcomp Require Import all_ssreflect all_algebra.
From Verif Require Import Mat_Base.
Set Implicit Arguments.
Unset Strict Implicit.
Unset Printing Implicit Defensive.
Import GRing.Theory Num.Theory.
Local Open Scope ring_scope.

Section Spec.
Variables (R : rcfType) (F : starField R).
Definition hermitian n (A : 'M[F]_n) : Prop := A^H = A.
Definition skew_hermitian n (A : 'M[F]_n) : Prop := A^H = - A.
(** orthonormal columns *)
Definition orthonormal m n (Q : 'M[F]_(m, n)) : Prop := Q^H *m Q = 1%:M.
Definition upper_triangular m n (A : 'M[F]_(m, n)) : Prop := forall (i : 'I_m) (j : 'I_n), (j < i)%N -> A i j = 0.
Definition real_diag n (w : 'rV[R]_n) : 'M[F]_n := diag_mx (map_mx sf_real w).
(** a (Hermitian) positive definite matrix *)
Definition posdef n (A : 'M[F]_n) : Prop :=
  hermitian A /\ forall x : 'cV[F]_n, x != 0 -> 0 < sf_re ((x^H *m A *m x) ord0 ord0).
(** [qr] of [A] *)
Definition valid_qr m k n (A : 'M[F]_(m, n)) (qr : 'M[F]_(m, k) * 'M[F]_(k, n)) : Prop :=
  A = qr.1 *m qr.2 /\ orthonormal qr.1 /\ upper_triangular qr.2.
(** [eigh] of [A] *)
Definition valid_eigh n (A : 'M[F]_n) (wv : 'rV[R]_n * 'M[F]_n) : Prop :=
  orthonormal wv.2 /\ A = wv.2 *m real_diag wv.1 *m wv.2^H.
(** [svd] of [A] without the full matrices: non-negative singular values *)
Definition valid_svd m k n (A : 'M[F]_(m, n)) (usv : 'M[F]_(m, k) * 'rV[R]_k * 'M[F]_(k, n)) : Prop :=
  let: (u, s, vt) := usv in
  orthonormal u /\ vt *m vt^H = 1%:M /\ (forall i, 0 <= s ord0 i) /\ A = u *m real_diag s *m vt.
(** [cholesky] of [A] *)
Definition valid_cholesky n (A L : 'M[F]_n) : Prop := A = L *m L^H /\ L \in unitmx.
(** [mpow A k]: the [k]-th power *)
Definition mpow n (A : 'M[F]_n) (k : nat) : 'M[F]_n := iter k (mulmx A) 1%:M.
(** [E] is the matrix exponential of [A]: the limit of the partial sums of the series *)
Definition expm_sum n (A : 'M[F]_n) (N : nat) : 'M[F]_n := \sum_(k < N) sf_real (k`!%:R)^-1 *: mpow A k.
Definition is_expm n (A E : 'M[F]_n) : Prop :=
  forall e : R, 0 < e -> exists N : nat, forall p : nat, (N <= p)%N -> fnorm (expm_sum A p - E) < e.
End Spec.
