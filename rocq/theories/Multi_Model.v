(** Model of src/pymanopt/tools/multi.py.

    A stack [stack F k m n] stands for an array of shape [(k, m, n)], and for [k = 1] also for one of shape
    [(m, n)].  Entries are real ([real_star]) or complex ([complex_star]) numbers in exact arithmetic.
    LAPACK's QR and eigendecomposition are arguments. *)
From mathcomp Require Import all_ssreflect all_algebra.
From Coq Require Reals.
From Verif Require Import Rstruct Mat_Base.
Set Implicit Arguments.
Unset Strict Implicit.
Unset Printing Implicit Defensive.
Import GRing.Theory.
Local Open Scope ring_scope.

Section Multi.
Variables (R : rcfType) (F : starField R).

(** the Python literal 0.5 *)
Definition half : F := 2%:R^-1.
Definition shalf k m n (A : stack F k m n) : stack F k m n := [ffun i => half *: A i].

(** lines 13-24 *)
Definition multitransp k m n (A : stack F k m n) : stack F k n m := [ffun i => (A i)^T].
(** lines 27-29 *)
Definition multihconj k m n (A : stack F k m n) : stack F k n m :=
  [ffun i => map_mx sf_conj (multitransp A i)].
(** lines 32-39 *)
Definition multisym k n (A : stack F k n n) : stack F k n n := shalf (A + multitransp A).
(** lines 42-43 *)
Definition multiherm k n (A : stack F k n n) : stack F k n n := shalf (A + multihconj A).
(** lines 46-53 *)
Definition multiskew k n (A : stack F k n n) : stack F k n n := shalf (A - multitransp A).
(** lines 56-57 *)
Definition multiskewh k n (A : stack F k n n) : stack F k n n := shalf (A - multihconj A).
(** lines 60-62 *)
Definition multieye k n : stack F k n n := [ffun _ => 1%:M].

(** ** QR *)
(** lines 98-106, for one matrix: [q] has [k] columns and [r] has [k <= n] rows (numpy's reduced QR has
    [k = min(m, n)]).  Line 99: the diagonal of [r]; line 100: zeros replaced by one; line 101: divided
    by the modulus; line 104: columns of [q] times [s]; line 105: rows of [r] times the conjugates. *)
Definition qr_phase k n (kn : (k <= n)%N) (r : 'M[F]_(k, n)) (i : 'I_k) : F :=
  let s := r i (widen_ord kn i) in
  let s := if s == 0 then 1 else s in
  s / modulus s.
Definition qr_normalise m k n (kn : (k <= n)%N) (q : 'M[F]_(m, k)) (r : 'M[F]_(k, n))
    : 'M[F]_(m, k) * 'M[F]_(k, n) :=
  let s := qr_phase kn r in
  (\matrix_(i, j) (q i j * s j), \matrix_(i, j) (r i j * sf_conj (s i))).
(** lines 91-106; line 96 applies the library's QR to each matrix.  The check of the number of axes is not
    modelled: only arrays of two or three axes are represented. *)
Definition multiqr m n (qr : 'M[F]_(m, n) -> 'M[F]_(m, minn m n) * 'M[F]_(minn m n, n))
    k (A : stack F k m n) : stack F k m (minn m n) * stack F k (minn m n) n :=
  ([ffun i => (qr_normalise (geq_minr m n) (qr (A i)).1 (qr (A i)).2).1],
   [ffun i => (qr_normalise (geq_minr m n) (qr (A i)).1 (qr (A i)).2).2]).
End Multi.

(** ** Matrix functions through eigendecompositions *)
Section Functions.
Import Coq.Reals.Reals.
Variables (F : starField R_rcfType).
(** [v @ (f(w) * multihconj(v))] with [w] expanded to a column: row [i] of the conjugate transpose times
    [f (w i)]. *)
Definition eig_apply n (f : R -> R) (wv : 'rV[R_rcfType]_n * 'M[F]_n) : 'M[F]_n :=
  wv.2 *m \matrix_(i, j) (sf_real (f (wv.1 ord0 i)) * sf_conj (wv.2 j i)).
(** lines 65-75 with [positive_definite=True]; taking the real part of the result for a real input is the
    identity in the real model. *)
Definition multilogm_pd n (eigh : 'M[F]_n -> 'rV[R_rcfType]_n * 'M[F]_n) k (A : stack F k n n) : stack F k n n :=
  [ffun i => eig_apply ln (eigh (A i))].
(** lines 78-88 with [symmetric=True] *)
Definition multiexpm_sym n (eigh : 'M[F]_n -> 'rV[R_rcfType]_n * 'M[F]_n) k (A : stack F k n n) : stack F k n n :=
  [ffun i => eig_apply exp (eigh (A i))].
End Functions.
