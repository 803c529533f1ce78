(** Model of src/pymanopt/manifolds/group.py.

    Points are stacks of [k] matrices of shape [n x n] (for [k = 1] also one such matrix), in exact arithmetic.
    [_UnitaryBase] is modelled once: [SpecialOrthogonalGroup] is the case of real entries ([real_star]),
    [UnitaryGroup] that of complex entries ([complex_star]).  Tangent vectors are represented by elements of the Lie
    algebra; [embedding] gives the matrix they stand for.  LAPACK's QR and SVD, SciPy's [expm] and [logm] and the
    draws of [np.random] are arguments. *)
From mathcomp Require Import all_ssreflect all_algebra.
From mathcomp.real_closed Require Import complex.
From Verif Require Import Mat_Base Multi_Model Euclidean_Model Stiefel_Model.
Set Implicit Arguments.
Unset Strict Implicit.
Unset Printing Implicit Defensive.
Import GRing.Theory Num.Theory Order.TTheory.
Local Open Scope ring_scope.

Section Base.
Variables (R : rcfType) (F : starField R) (k n : nat).
Local Notation array := (stack F k n n).
Implicit Types point vector tangent_vector : array.

(** lines 30-35; the result is a number of the field of the entries, no real part is taken *)
Definition un_inner_product point (tangent_vector_a tangent_vector_b : array) : F :=
  \sum_i \sum_r \sum_c (sf_conj (tangent_vector_a i r c) * tangent_vector_b i r c).
(** lines 37-38 *)
Definition un_norm point tangent_vector : R := np_norm tangent_vector.
(** lines 47-48 *)
Definition un_projection point vector : array := multiskew (smul (multihconj point) vector).
(** lines 50-51 *)
Definition un_to_tangent_space point vector : array := multiskewh vector.
(** lines 53-54 *)
Definition un_embedding point tangent_vector : array := smul point tangent_vector.
(** manifold.py lines 432-433 *)
Definition un_gradient point (euclidean_gradient : array) : array := un_projection point euclidean_gradient.
(** lines 56-63 *)
Definition un_hessian point (euclidean_gradient euclidean_hessian tangent_vector : array) : array :=
  let Xt := multihconj point in
  let Xtegrad := smul Xt euclidean_gradient in
  let symXtegrad := multiherm Xtegrad in
  let Xtehess := smul Xt euclidean_hessian in
  multiskewh (Xtehess - smul tangent_vector symXtegrad).
(** lines 68-71 *)
Definition un_retraction_qr (qr : 'M[F]_n -> 'M[F]_n * 'M[F]_n) point tangent_vector : array :=
  let Y := point + smul point tangent_vector in (multiqr_tall qr Y).1.
(** lines 73-76 *)
Definition un_retraction_polar (svd : 'M[F]_n -> 'M[F]_n * 'rV[R]_n * 'M[F]_n) point tangent_vector : array :=
  let Y := point + smul point tangent_vector in
  let u : array := [ffun i => (svd (Y i)).1.1] in
  let vt : array := [ffun i => (svd (Y i)).2] in
  smul u vt.
(** lines 78-79 and tools/multi.py lines 78-81 *)
Definition un_exp (expm : 'M[F]_n -> 'M[F]_n) point tangent_vector : array :=
  smul point [ffun i => expm (tangent_vector i)].
(** lines 81-82 and tools/multi.py lines 65-68 *)
Definition un_log (logm : 'M[F]_n -> 'M[F]_n) (point_a point_b : array) : array :=
  multiskewh [ffun i => logm (smul (multihconj point_a) point_b i)].
(** lines 44-45 *)
Definition un_dist (logm : 'M[F]_n -> 'M[F]_n) (point_a point_b : array) : R :=
  un_norm point_a (un_log logm point_a point_b).
(** lines 84-88 *)
Definition un_zero_vector point : array := 0.
(** lines 90-91 *)
Definition un_transport (point_a point_b tangent_vector_a : array) : array := tangent_vector_a.
(** lines 93-94 *)
Definition un_pair_mean (expm logm : 'M[F]_n -> 'M[F]_n) (point_a point_b : array) : array :=
  un_exp expm point_a (np_div (un_log logm point_a point_b) 2%:R).
End Base.

Section Random.
Variables (R : rcfType) (k : nat).
Local Notation F := (real_star R).
Local Notation C := (complex_star R).
(** lines 157-170.  The statement on [point[negative_det, :, [0, 1]]] exchanges columns 0 and 1 of the matrices with
    negative determinant.  [SO(0)] is not modelled. *)
Definition so_random_point n : ('M[F]_n -> 'M[F]_n * 'M[F]_n) -> stack F k n n -> stack F k n n :=
  match n return ('M[F]_n -> 'M[F]_n * 'M[F]_n) -> stack F k n n -> stack F k n n with
  | 0%N => fun _ draw => draw
  | 1%N => fun _ _ => [ffun _ => \matrix_(i, j) 1]
  | n'.+2 => fun qr draw =>
      let point := (multiqr_tall qr draw).1 in
      [ffun i => if (\det (point i) : R) < 0 then xcol ord0 (lift ord0 ord0) (point i) else point i]
  end.
(** lines 266-274: [draw i r c] with [r < c] is the number drawn for row [r] and column [c] *)
Definition random_upper_triangular n (draw : stack F k n n) : stack F k n n :=
  [ffun i => \matrix_(r, c) if (r < c)%N then draw i r c else 0].
(** lines 246-250 *)
Definition random_skew_symmetric n (draw : stack F k n n) : stack F k n n :=
  if n == 1%N then 0
  else let vector := random_upper_triangular draw in vector - multitransp vector.
(** lines 253-263: [diagonal i r r] is the number drawn for the diagonal *)
Definition random_symmetric n (draw diagonal : stack F k n n) : stack F k n n :=
  if n == 1%N then diagonal
  else let vector := random_upper_triangular draw in
       let vector := vector + multitransp vector in
       [ffun i => \matrix_(r, c) if r == c then diagonal i r c else vector i r c].
(** lines 172-176 *)
Definition so_random_tangent_vector n (point draw : stack F k n n) : stack F k n n :=
  let vector := random_skew_symmetric draw in np_div vector (un_norm point vector).
(** lines 221-233; [draw] is the complex matrix of two draws.  [U(0)] is not modelled. *)
Definition u_random_point n (qr : 'M[C]_n -> 'M[C]_n * 'M[C]_n) (draw : stack C k n n) : stack C k n n :=
  if n == 1%N then [ffun _ => \matrix_(i, j) ((1 +i* 1)%C / modulus ((1 +i* 1)%C : C))]
  else (multiqr_tall qr draw).1.
(** lines 235-243 *)
Definition u_random_tangent_vector n (point : stack C k n n) (draw1 draw2 diagonal : stack F k n n) : stack C k n n :=
  let skew := random_skew_symmetric draw1 in
  let sym := random_symmetric draw2 diagonal in
  let vector : stack C k n n := [ffun i => \matrix_(r, c) ((skew i r c +i* sym i r c)%C / (Num.sqrt 2%:R)%:C%C)] in
  np_div vector (un_norm point vector).
End Random.
