(** Model of src/pymanopt/manifolds/fixed_rank.py.

    The arithmetic is exact, except that [np.spacing(1)] is the number 2^-52 it stands for.  NumPy's QR factorisation and
    SVD and the draws of [np.random] are arguments.  Division by zero gives 0 here and not a NaN: the theorems about the
    gradient conversion are for points where it does not occur. *)
From mathcomp Require Import all_ssreflect all_algebra.
From Verif Require Import Mat_Base Stiefel_Model.
Set Implicit Arguments.
Unset Strict Implicit.
Unset Printing Implicit Defensive.
Import GRing.Theory Num.Theory Order.TTheory.
Local Open Scope ring_scope.

Section FixedRank.
Variables (R : rcfType) (m n k : nat).
Local Notation F := (real_star R).
(** lines 222-228: [_FixedRankPoint] *)
Record fr_point := FrPoint { fr_u : 'M[F]_(m, k); fr_s : 'rV[R]_k; fr_vt : 'M[F]_(k, n) }.
(** lines 231-236: [_FixedRankTangentVector] *)
Record fr_vector := FrVector { fr_Up : 'M[F]_(m, k); fr_M : 'M[F]_k; fr_Vp : 'M[F]_(n, k) }.
(** An ambient vector: a matrix, or a tuple [(U, S, V)] (lines 82, 87).  Only square [S] are modelled: [V @ S @ U.T] of
    line 88 raises for the others. *)
Inductive fr_ambient :=
| Dense (Z : 'M[F]_(m, n))
| Factored p (U : 'M[F]_(m, p)) (S : 'M[F]_p) (V : 'M[F]_(n, p)).
Implicit Types (point : fr_point) (tangent_vector : fr_vector) (vector : fr_ambient).

(** Arithmetic of tangent vectors. Lines 237-239, 241-243, 207-211, 213-215, 217-219. *)
Definition fr_add (a b : fr_vector) := FrVector (fr_Up a + fr_Up b) (fr_M a + fr_M b) (fr_Vp a + fr_Vp b).
Definition fr_sub (a b : fr_vector) := FrVector (fr_Up a - fr_Up b) (fr_M a - fr_M b) (fr_Vp a - fr_Vp b).
Definition fr_mul (c : R) (a : fr_vector) := FrVector ((c : F) *: fr_Up a) ((c : F) *: fr_M a) ((c : F) *: fr_Vp a).
Definition fr_div (a : fr_vector) (c : R) :=
  FrVector (((c : F))^-1 *: fr_Up a) (((c : F))^-1 *: fr_M a) (((c : F))^-1 *: fr_Vp a).
Definition fr_neg (a : fr_vector) := FrVector (- fr_Up a) (- fr_M a) (- fr_Vp a).

(** [np.tensordot(a, b)] of two matrices, and [np.diag(s)] *)
Definition tensordot p q (a b : 'M[F]_(p, q)) : R := \sum_i \sum_j (a i j * b i j).
Definition np_diag (s : 'rV[R]_k) : 'M[F]_k := \matrix_(i, j) (if i == j then s ord0 i else 0).
(** [a / s] and [a * s]: column [j] is divided by (multiplied with) [s[j]] *)
Definition over_columns p (a : 'M[F]_(p, k)) (s : 'rV[R]_k) : 'M[F]_(p, k) := \matrix_(i, j) (a i j / s ord0 j).
Definition times_columns p (a : 'M[F]_(p, k)) (s : 'rV[R]_k) : 'M[F]_(p, k) := \matrix_(i, j) (a i j * s ord0 j).
(** [s[:, np.newaxis] * a]: row [i] is multiplied with [s[i]] *)
Definition times_rows (s : 'rV[R]_k) (a : 'M[F]_k) : 'M[F]_k := \matrix_(i, j) (s ord0 i * a i j).
(** elementwise [a * b] *)
Definition hadamard p q (a b : 'M[F]_(p, q)) : 'M[F]_(p, q) := \matrix_(i, j) (a i j * b i j).

(** lines 73-79 *)
Definition fr_inner_product point (tangent_vector_a tangent_vector_b : fr_vector) : R :=
  tensordot (fr_Up tangent_vector_a) (fr_Up tangent_vector_b) +
  tensordot (fr_M tangent_vector_a) (fr_M tangent_vector_b) +
  tensordot (fr_Vp tangent_vector_a) (fr_Vp tangent_vector_b).
(** lines 81-84 *)
Definition fr_apply_ambient vector r (matrix : 'M[F]_(n, r)) : 'M[F]_(m, r) :=
  match vector with
  | @Factored p v0 v1 v2 => v0 *m v1 *m v2^T *m matrix
  | Dense Z => Z *m matrix
  end.
(** lines 86-89: the middle factor is not transposed *)
Definition fr_apply_ambient_transpose vector r (matrix : 'M[F]_(m, r)) : 'M[F]_(n, r) :=
  match vector with
  | @Factored p v0 v1 v2 => v2 *m v1 *m v0^T *m matrix
  | Dense Z => Z^T *m matrix
  end.
(** lines 91-114 *)
Definition fr_projection point vector : fr_vector :=
  let ZV := fr_apply_ambient vector (fr_vt point)^T in
  let UtZV := (fr_u point)^T *m ZV in
  let ZtU := fr_apply_ambient_transpose vector (fr_u point) in
  let Up := ZV - fr_u point *m UtZV in
  let M := UtZV in
  let Vp := ZtU - (fr_vt point)^T *m UtZV^T in
  FrVector Up M Vp.
(** lines 128-129: the matrix whose entries [f] is the inverse of *)
Definition fr_gaps point : 'M[F]_k :=
  \matrix_(i, j) (fr_s point ord0 j ^+ 2 - fr_s point ord0 i ^+ 2 + (if i == j then 1 else 0)).
(** lines 116-137 *)
Definition fr_gradient point (euclidean_gradient : 'M[F]_(m, k) * 'rV[R]_k * 'M[F]_(k, n)) : fr_vector :=
  let u := fr_u point in let s := fr_s point in let vt := fr_vt point in
  let '(du, ds, dvt) := euclidean_gradient in
  let utdu := u^T *m du in
  let uutdu := u *m utdu in
  let Up := over_columns (du - uutdu) s in
  let vtdv := vt *m dvt^T in
  let vvtdv := vt^T *m vtdv in
  let Vp := over_columns (dvt^T - vvtdv) s in
  let f : 'M[F]_k := \matrix_(i, j) (1 / fr_gaps point i j) in
  let M := times_columns (hadamard f (utdu - utdu^T)) s + hadamard (times_rows s f) (vtdv - vtdv^T) + np_diag ds in
  FrVector Up M Vp.
(** [np.spacing(1)] *)
Definition fr_spacing : R := (2 ^+ 52)^-1.
(** lines 139-157 *)
Definition fr_retraction (qr_m : 'M[F]_(m, k) -> 'M[F]_(m, k) * 'M[F]_k) (qr_n : 'M[F]_(n, k) -> 'M[F]_(n, k) * 'M[F]_k)
    (svd : 'M[F]_(k + k) -> 'M[F]_(k + k) * 'rV[R]_(k + k) * 'M[F]_(k + k)) point tangent_vector : fr_point :=
  let u := fr_u point in let s := fr_s point in let vt := fr_vt point in
  let '(Qu, Ru) := qr_m (fr_Up tangent_vector) in
  let '(Qv, Rv) := qr_n (fr_Vp tangent_vector) in
  let T := block_mx (np_diag s + fr_M tangent_vector) Rv^T Ru 0 in
  let '(Ut, St, Vt) := svd T in
  let U := row_mx u Qu *m lsubmx Ut in
  let S := \row_i (lsubmx St ord0 i + fr_spacing) in
  let V := row_mx vt^T Qv *m lsubmx Vt^T in
  FrPoint U S V^T.
(** lines 159-162 *)
Definition fr_norm point tangent_vector : R := Num.sqrt (fr_inner_product point tangent_vector tangent_vector).
(** [np.sort(s)[::-1]] *)
Definition sort_down (s : 'rV[R]_k) : 'rV[R]_k :=
  \row_i nth 0 (rev (sort <=%O [seq s ord0 j | j <- enum 'I_k])) i.
(** lines 164-168; [Stiefel(m, k).random_point()] with one component returns [point[0]] *)
Definition fr_random_point qr_m qr_n (draw_u : stack F 1 m k) (draw_s : 'rV[R]_k) (draw_v : stack F 1 n k) : fr_point :=
  let u : 'M[F]_(m, k) := st_random_point qr_m draw_u ord0 in
  let s := sort_down draw_s in
  let vt : 'M[F]_(k, n) := (st_random_point qr_n draw_v ord0 : 'M[F]_(n, k))^T in
  FrPoint u s vt.
(** lines 170-174 *)
Definition fr_to_tangent_space point (vector : fr_vector) : fr_vector :=
  let u := fr_u point in let vt := fr_vt point in
  let Up := fr_Up vector - u *m u^T *m fr_Up vector in
  let Vp := fr_Vp vector - vt^T *m vt *m fr_Vp vector in
  FrVector Up (fr_M vector) Vp.
(** lines 176-184; [draw] holds the three arrays drawn *)
Definition fr_random_tangent_vector point (draw : fr_vector) : fr_vector :=
  let tangent_vector := fr_to_tangent_space point draw in
  fr_div tangent_vector (fr_norm point tangent_vector).
(** lines 186-191 *)
Definition fr_embedding point tangent_vector : fr_ambient :=
  let u := fr_u point in let vt := fr_vt point in
  let U := row_mx (u *m fr_M tangent_vector + fr_Up tangent_vector) u in
  let S := 1%:M : 'M[F]_(k + k) in
  let V := row_mx vt^T (fr_Vp tangent_vector) in
  Factored U S V.
(** lines 193-196 *)
Definition fr_transport (point_a point_b : fr_point) (tangent_vector_a : fr_vector) : fr_vector :=
  fr_projection point_b (fr_embedding point_a tangent_vector_a).
(** lines 198-203 *)
Definition fr_zero_vector point : fr_vector := FrVector 0 0 0.
End FixedRank.
Arguments Dense {R m n}.
Arguments Factored {R m n} [p].
