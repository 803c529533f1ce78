(** Properties C66, C67 and C87 (and C61, C80 for this manifold) of src/pymanopt/manifolds/stiefel.py *)
From Coq Require Import Reals.
From mathcomp Require Import all_ssreflect all_algebra.
From Coq Require Import Ring Field ClassicalEpsilon.
From Verif Require Import Rstruct MCRing Mat_Base Geometry_Spec Linalg_Spec Calculus Components Multi_Model Multi_Proofs Euclidean_Model Euclidean_Props.
From Verif Require Import Sphere_Model Stiefel_Model Stiefel_Proofs Expm Stiefel_Exp Linalg_Exist.
Set Implicit Arguments.
Unset Strict Implicit.
Unset Printing Implicit Defensive.
Import GRing.Theory Num.Theory Order.TTheory.
Local Open Scope ring_scope.

(** ** Specification: every matrix of the stack has orthonormal columns; tangent vectors are the solutions of
    the linearised equation. *)
Section Spec.
Variables (R : rcfType) (k n p : nat).
Local Notation array := (stack (real_star R) k n p).
Definition on_stiefel (x : array) : Prop := forall i, (x i)^T *m x i = 1%:M.
Definition stiefel_tangent (x v : array) : Prop := forall i, (x i)^T *m v i + (v i)^T *m x i = 0.
End Spec.

Section Stiefel.
Variables (R : rcfType) (k n p : nat).
Local Notation F := (real_star R).
Local Notation array := (stack F k n p).
Local Notation scale := (@sscale R F k n p).
Local Notation dot := (@sinner R F k n p).
Local Notation J := (@sinner_ips R F k n p).
Local Notation I := (@inner_ips R F n p).
Implicit Types x y v w : array.

Lemma on_stiefelE x : on_stiefel x <-> forall i, orthonormal (x i).
Proof. by split=> H i; have := H i; rewrite /orthonormal real_adj. Qed.
Lemma stiefel_tangentE x v : stiefel_tangent x v <-> forall i, st_tangent (x i) (v i).
Proof. by split=> H i; have := H i; rewrite /st_tangent !real_adj. Qed.
Definition slice i (x : array) : 'M[F]_(n, p) := x i.
Lemma sliceB i x y : slice i (x - y) = slice i x - slice i y. Proof. by rewrite /slice !ffunE. Qed.
Lemma sliceZ i a x : slice i (scale a x) = rscale a (slice i x). Proof. by rewrite /slice ffunE. Qed.
Lemma slicedot x y : dot x y = \sum_i inner (slice i x) (slice i y). Proof. by []. Qed.
Lemma multisymE q (A : stack F k q q) i : multisym A i = hsym (A i).
Proof. by rewrite /multisym /shalf /hsym !ffunE real_adj. Qed.
Lemma st_innerE x a b : st_inner_product x a b = dot a b. Proof. by []. Qed.
Lemma projE i x v : st_projection x v i = st_proj (x i) (v i).
Proof. by rewrite /st_projection /st_proj /hsym !ffunE !real_adj. Qed.
Lemma weinE i x v w : st_weingarten x v w i = st_wein (x i) (v i) (w i).
Proof. by rewrite /st_weingarten /st_wein /hsym !ffunE !real_adj. Qed.
Lemma hessE i x g h v : st_hessian x g h v i = st_hess (x i) (g i) (h i) (v i).
Proof.
rewrite /st_hessian /st_hess ffunE projE weinE; congr (_ + st_wein _ _ _).
by rewrite ffunE [X in _ + X]ffunE projE.
Qed.

(** ** C66 *)
Lemma stiefel_projects x v : on_stiefel x -> projects_to dot (stiefel_tangent x) v (st_projection x v).
Proof.
move=> /on_stiefelE O.
have [T [E Q]] : projects_to dot (fun u => forall i, st_tangent (x i) (u i)) v (st_projection x v).
  by apply: (projects_to_stack (T := fun i => st_tangent (x i))) => i; rewrite projE; apply: st_projects.
split; first exact/stiefel_tangentE.
by split=> [/stiefel_tangentE/E|t /stiefel_tangentE /Q].
Qed.
Lemma stiefel_subspace x : real_subspace scale (stiefel_tangent x).
Proof.
have := subspace_comp sliceB sliceZ (fun i => st_subspace (slice i x)) => -[T0 [TD TZ]].
split; first exact/stiefel_tangentE.
split; first by move=> u v /stiefel_tangentE hu /stiefel_tangentE hv; apply/stiefel_tangentE; exact: (TD u v hu hv).
by move=> a u /stiefel_tangentE hu; apply/stiefel_tangentE; exact: (TZ a u hu).
Qed.
Lemma stiefel_tangentN x v : stiefel_tangent x v -> stiefel_tangent x (- v).
Proof. by move=> /stiefel_tangentE H; apply/stiefel_tangentE => i; rewrite ffunE; apply: st_tangentN. Qed.
Theorem C66_projection x v : on_stiefel x ->
  projects_to dot (stiefel_tangent x) v (st_projection x v) /\
  nearest_in dot (stiefel_tangent x) v (st_projection x v) /\
  st_to_tangent_space x v = st_projection x v /\
  (forall y, on_stiefel y -> projects_to dot (stiefel_tangent y) v (st_transport x y v)).
Proof.
move=> hx; have P := stiefel_projects v hx; split; first exact: P.
split; first exact: (projects_to_nearest J (stiefel_subspace x) (@stiefel_tangentN x) P).
by split; last by move=> y hy; exact: stiefel_projects.
Qed.
Theorem C66_gradient x g : on_stiefel x ->
  inner_product_on scale (stiefel_tangent x) (st_inner_product x) /\
  (forall u, st_norm x u = Num.sqrt (st_inner_product x u u)) /\
  stiefel_tangent x (st_zero_vector x) /\
  represents_gradient dot (stiefel_tangent x) (st_inner_product x) g (st_gradient x g).
Proof.
move=> hx; split.
  split; first by move=> a b _ _; apply: (dotC J).
  split; first by move=> a b c _ _ _; apply: (dotDl J).
  split; first by move=> a b c _ _; apply: (dotZl J).
  by move=> u _; apply: (dot_gt0 J).
split; first by [].
split; first by case: (stiefel_subspace x).
exact: (projection_represents J (stiefel_projects g hx)).
Qed.

(** ** C67 *)
Section Retractions.
Variable qr : 'M[F]_(n, p) -> 'M[F]_(n, p) * 'M[F]_p.
Variable svd : 'M[F]_(n, p) -> 'M[F]_(n, p) * 'rV[R]_p * 'M[F]_p.
Hypothesis qrP : forall A, valid_qr A (qr A).
Hypothesis svdP : forall A, valid_svd A (svd A).
Lemma qr_positive (A : 'M[F]_(n, p)) : let q := qr_normalise (leqnn p) (qr A).1 (qr A).2 in
  valid_qr A q /\ forall i, exists2 a : R, 0 <= a & q.2 i i = sf_real a.
Proof.
split; first exact: (qr_normalise_valid (leqnn p) (qrP A)).
move=> i; have [a a0] := qr_normalise_diag (leqnn p) (qr A).1 (qr A).2 i.
by rewrite (_ : widen_ord (leqnn p) i = i); [exists a|apply: val_inj].
Qed.
Lemma norm_le0 (A : 'M[F]_(n, p)) : fnorm A <= 0 -> A = 0.
Proof. by move=> H; apply/eqP; rewrite -fnorm_eq0 eq_le H fnorm_ge0. Qed.
Theorem C67_retraction_qr x v : on_stiefel x -> stiefel_tangent x v ->
  on_stiefel (st_retraction_qr qr x v) /\
  st_retraction_qr qr x (st_zero_vector x) = x /\
  (forall i, fnorm (st_retraction_qr qr x v i - (x i + v i)) <= 2%:R * fnorm (v i) ^+ 2) /\
  first_order dot (stiefel_tangent x) x (st_retraction_qr qr x).
Proof.
move=> hx' hv'; have /on_stiefelE hx := hx'; have /stiefel_tangentE hv := hv'.
have B w : stiefel_tangent x w -> forall i, fnorm (st_retraction_qr qr x w i - (x i + w i)) <= 2%:R * fnorm (w i) ^+ 2.
  move=> /stiefel_tangentE hw i; rewrite !ffunE; have [[E [Oq U]] P] := qr_positive (x i + w i).
  exact: (qr_bound (hx i) (hw i) E Oq U P).
split; first by apply/on_stiefelE => i; rewrite !ffunE; have [[_ [Oq _]] _] := qr_positive (x i + v i).
split.
  apply/ffunP => i; have := B 0 (proj1 (stiefel_subspace x)) i.
  rewrite [in X in _ - (_ + X)]ffunE [in X in fnorm X ^+ 2]ffunE addr0 /fnorm inner0l sqrtr0 expr0n mulr0.
  by move=> /norm_le0/eqP; rewrite subr_eq0 => /eqP.
split; first exact: B.
apply: (first_order_comp I J sliceB slicedot (C := 2%:R) (r := 1)); rewrite ?ler0n ?ltr01 //.
  by case: (stiefel_subspace x).
by move=> i w hw _; apply: B.
Qed.
(** The polar retraction agrees with the exponential map to second order: the next term of its expansion is
    the normal vector [- x v^T v / 2]. *)
Theorem C67_retraction_polar x v : on_stiefel x -> stiefel_tangent x v ->
  on_stiefel (st_retraction_polar svd x v) /\
  st_retraction_polar svd x (st_zero_vector x) = x /\
  (forall i, fnorm (st_retraction_polar svd x v i - (x i + v i)) <= fnorm (v i) ^+ 2) /\
  (forall i, fnorm (st_retraction_polar svd x v i - (x i + v i - 2%:R^-1 *: (x i *m ((v i)^T *m v i))))
     <= fnorm (v i) ^+ 3 * (2%:R^-1 + fnorm (v i))) /\
  first_order dot (stiefel_tangent x) x (st_retraction_polar svd x).
Proof.
move=> hx' hv'; have /on_stiefelE hx := hx'; have /stiefel_tangentE hv := hv'.
have V' (A : 'M[F]_(n, p)) : valid_svd A ((svd A).1.1, (svd A).1.2, (svd A).2) by have := svdP A; case: (svd A) => [[]].
have B w : stiefel_tangent x w -> forall i, fnorm (st_retraction_polar svd x w i - (x i + w i)) <= 1 * fnorm (w i) ^+ 2.
  move=> /stiefel_tangentE hw i; rewrite !ffunE; exact: (polar_bound (hx i) (hw i) (V' _)).
split; first by apply/on_stiefelE => i; rewrite !ffunE; apply: (polar_orthonormal (V' _)).
split.
  apply/ffunP => i; have := B 0 (proj1 (stiefel_subspace x)) i.
  rewrite [in X in _ - (_ + X)]ffunE [in X in fnorm X ^+ 2]ffunE addr0 /fnorm inner0l sqrtr0 expr0n mulr0.
  by move=> /norm_le0/eqP; rewrite subr_eq0 => /eqP.
split; first by move=> i; have := B v hv' i; rewrite mul1r.
split.
  move=> i; rewrite !ffunE; have := polar_second_order (hx i) (hv i) (V' _).
  by rewrite real_adj.
apply: (first_order_comp I J sliceB slicedot (C := 1) (r := 1)); rewrite ?ler01 ?ltr01 //.
  by case: (stiefel_subspace x).
by move=> i w hw _; apply: B.
Qed.
(** ** C80 *)
Theorem C80_stiefel x draw : on_stiefel x ->
  on_stiefel (st_random_point qr draw) /\
  (st_projection x draw != 0 ->
    stiefel_tangent x (st_random_tangent_vector x draw) /\ st_norm x (st_random_tangent_vector x draw) = 1).
Proof.
move=> hx; split.
  by apply/on_stiefelE => i; rewrite !ffunE; have [[_ [Oq _]] _] := qr_positive (draw i).
move=> H; rewrite /st_random_tangent_vector np_divE; have [T _] := stiefel_projects draw hx.
split; first by case: (stiefel_subspace x) => _ [_]; apply.
have N : np_norm (st_projection x draw) != 0 by rewrite np_normE (norm_eq0 J).
rewrite /st_norm np_normE (normZ J) -np_normE ger0_norm ?mulVf // invr_ge0 np_normE.
exact: (norm_ge0 dot).
Qed.
End Retractions.

(** ** C61 *)
Theorem C61_stiefel x g h v : on_stiefel x -> stiefel_tangent x v ->
  stiefel_tangent x (st_hessian x g h v) /\
  (forall h' v', stiefel_tangent x v' -> dot h v' = dot h' v ->
    st_inner_product x (st_hessian x g h v) v' = st_inner_product x (st_hessian x g h' v') v) /\
  (forall c e : R -> array, c 0 = x -> derives scale dot c v -> e 0 = g -> derives scale dot e h ->
    exists2 w, derives scale dot (fun t => st_gradient (c t) (e t)) w & st_hessian x g h v = st_projection x w).
Proof.
move=> /on_stiefelE hx /stiefel_tangentE hv; split.
  by apply/stiefel_tangentE => i; rewrite hessE; apply: st_hess_tangent.
split.
  move=> h' v' /stiefel_tangentE hv' E.
  have P (a b : array) : (forall i, st_tangent (x i) (a i)) -> forall u : array, (forall i, st_tangent (x i) (u i)) ->
    st_inner_product x (st_hessian x g b a) u = dot b u - \sum_i inner (a i *m hsym ((x i)^H *m g i)) (u i).
    move=> ha u hu; rewrite st_innerE /sinner -sumrB; apply: eq_bigr => i _.
    by rewrite hessE st_hess_inner.
  apply: etrans (P _ _ hv _ hv') _.
  apply: etrans (esym (P _ _ hv' _ hv)).
  rewrite E.
  have -> : \sum_i inner (v i *m hsym ((x i)^H *m g i)) (v' i) = \sum_i inner (v' i *m hsym ((x i)^H *m g i)) (v i).
    by apply: eq_bigr => i _; rewrite inner_mulr hsym_herm innerC.
  by [].
move=> c e c0 Dc e0 De.
have K (i : 'I_k) : exists w : 'M[F]_(n, p), derives (@rscale R F n p) (@inner R F n p) (fun t => st_proj (slice i (c t)) (slice i (e t))) w /\
    st_hess (x i) (g i) (h i) (v i) = st_proj (x i) w.
  have [w D E] := st_hess_derives (h := h i) (g := g i) (hx i) (hv i)
    (c := fun t => slice i (c t)) (e := fun t => slice i (e t)) (congr1 (slice i) c0) (comp_derives I sliceB sliceZ slicedot i Dc)
    (congr1 (slice i) e0) (comp_derives I sliceB sliceZ slicedot i De).
  by exists w.
have [w Hw] := fin_all_exists K; exists [ffun i => w i].
  apply: (derives_comp I sliceB sliceZ slicedot) => i; rewrite /slice ffunE.
  by apply: derives_ext (proj1 (Hw i)) => t; rewrite projE.
by apply/ffunP => i; rewrite hessE projE ffunE; case: (Hw i).
Qed.
End Stiefel.

(** ** C87: the exponential map *)
Section Exp.
Variables (k n p : nat).
Local Notation array := (stack RF k n p).
Local Notation scale := (@sscale RR RF k n p).
Local Notation dot := (@sinner RR RF k n p).
Local Notation I := (@inner_ips RR RF n p).
Variable expm : forall q, 'M[RF]_q -> 'M[RF]_q.
Hypothesis expmP : forall q (A : 'M[RF]_q), is_expm A (expm A).
Lemma expE i (x v : array) : st_exp expm x v i = st_exp1 expm (x i) (v i).
Proof. by rewrite /st_exp /st_exp1 !ffunE !real_adj. Qed.
(** Exponential curves start at the point with the given velocity, stay on the manifold, have constant speed, and
    their acceleration is orthogonal to all tangent vectors: they are the geodesics. *)
Theorem C87_geodesic (x v : array) : on_stiefel x -> stiefel_tangent x v ->
  on_stiefel (st_exp expm x v) /\ st_exp expm x (st_zero_vector x) = x /\
  exists velocity : RR -> array,
    velocity 0 = v /\
    (forall t, derives scale dot (fun s => st_exp expm x (scale (t + s) v)) (velocity t)) /\
    (forall t, on_stiefel (st_exp expm x (scale t v)) /\ stiefel_tangent (st_exp expm x (scale t v)) (velocity t)) /\
    (forall t, st_norm (st_exp expm x (scale t v)) (velocity t) = st_norm x v) /\
    (forall t, exists2 a, derives scale dot (fun s => velocity (t + s)) a &
       forall w, stiefel_tangent (st_exp expm x (scale t v)) w -> st_inner_product x a w = 0).
Proof.
move=> /on_stiefelE hx /stiefel_tangentE hv.
have C t i : st_exp expm x (scale t v) i = st_curve expm (x i) (v i) t.
  by rewrite expE ffunE -(st_curveE expmP (x i) (v i) t).
have E1 : v = scale 1 v by apply/ffunP => i; rewrite ffunE scale1r.
split; first by apply/on_stiefelE => i; rewrite {1}E1 C; apply: st_curve_orthonormal.
split.
  have -> : st_zero_vector x = scale 0 v by apply/ffunP => i; rewrite !ffunE scale0r.
  by apply/ffunP => i; rewrite C st_curve0.
exists (fun t => [ffun i => st_velocity expm (x i) (v i) t]); split.
  by apply/ffunP => i; rewrite ffunE st_velocity0.
split.
  move=> t; apply: (derives_comp I (@sliceB _ _ _ _) (@sliceZ _ _ _ _) (@slicedot _ _ _ _)) => i; rewrite /slice ffunE.
  by apply: derives_ext (st_curve_velocity expmP (x i) (v i) t) => s; rewrite C.
split.
  move=> t; split; first by apply/on_stiefelE => i; rewrite C; apply: st_curve_orthonormal.
  by apply/stiefel_tangentE => i; rewrite C ffunE; apply: st_velocity_tangent.
split.
  move=> t; rewrite /st_norm !np_normE /norm_of; congr Num.sqrt; apply: eq_bigr => i _.
  by rewrite ffunE -!fnorm_sqr st_velocity_norm.
move=> t; have [N HN D] := fin_all_exists2 (fun i => st_curve_acceleration expmP (hv i) t).
exists [ffun i => st_curve expm (x i) (v i) t *m N i].
  apply: (derives_comp I (@sliceB _ _ _ _) (@sliceZ _ _ _ _) (@slicedot _ _ _ _)) => i; rewrite /slice ffunE.
  by apply: derives_ext (D i) => s; rewrite ffunE.
move=> w /stiefel_tangentE hw; rewrite st_innerE /sinner big1 // => i _.
rewrite ffunE inner_mull; apply: inner_herm_skew; first exact: HN.
by have := hw i; rewrite C => /st_tangentE.
Qed.
End Exp.

(** *** The hypotheses above are met *)
Lemma library_functions (n p : nat) : (p <= n)%N ->
  (exists qr : 'M[RF]_(n, p) -> 'M[RF]_(n, p) * 'M[RF]_p, forall A, valid_qr A (qr A)) /\
  (exists svd : 'M[RF]_(n, p) -> 'M[RF]_(n, p) * 'rV[RR]_p * 'M[RF]_p, forall A, valid_svd A (svd A)) /\
  (exists expm : forall q, 'M[RF]_q -> 'M[RF]_q, forall q A, is_expm A (expm q A)).
Proof.
move=> pn; split; first exact: qr_function.
split; first by apply: svd_function pn; exact: real_has_eigenvectors.
exists (fun q A => epsilon (inhabits 0) (is_expm A)) => q A; exact: epsilon_spec (expm_exists_real A).
Qed.
Example stiefel_instance : exists (x v : stack RF 2 3 2) (qr : 'M[RF]_(3, 2) -> 'M[RF]_(3, 2) * 'M[RF]_2)
    (svd : 'M[RF]_(3, 2) -> 'M[RF]_(3, 2) * 'rV[RR]_2 * 'M[RF]_2) (expm : forall q, 'M[RF]_q -> 'M[RF]_q),
  (forall A, valid_qr A (qr A)) /\ (forall A, valid_svd A (svd A)) /\
  (forall q A, is_expm A (expm q A)) /\ on_stiefel x /\ stiefel_tangent x v /\ v != 0.
Proof.
pose X : 'M[RF]_(3, 2) := \matrix_(i, j) (i == j :> nat)%:R.
pose V : 'M[RF]_(3, 2) := \matrix_(i, j) ((i == 2 :> nat)%N && (j == 0 :> nat)%N)%:R.
have OX : X^T *m X = 1%:M.
  apply/matrixP => i j; rewrite !mxE !big_ord_recl big_ord0 !mxE /=.
  by case: i => -[|[|]] // ?; case: j => -[|[|]] // ?; rewrite /= ?mulr0 ?mul0r ?mulr1 ?addr0 ?add0r.
have XV : X^T *m V = 0.
  apply/matrixP => i j; rewrite !mxE !big_ord_recl big_ord0 !mxE /=.
  by case: i => -[|[|]] // ?; case: j => -[|[|]] // ?; rewrite /= ?mulr0 ?mul0r ?mulr1 ?addr0 ?add0r.
have V0 : V != 0.
  by apply/eqP => /matrixP /(_ (inord 2) 0) /eqP; rewrite !mxE !inordK //= oner_eq0.
have [[qr qrP] [[svd svdP] [expm expmP]]] := @library_functions 3 2 isT.
exists [ffun _ => X], [ffun _ => V], qr, svd, expm; split; first exact: qrP.
split; first exact: svdP.
split; first exact: expmP.
split; first by move=> i; rewrite ffunE.
split; first by move=> i; rewrite !ffunE XV -[V^T *m X]trmxK trmx_mul trmxK XV trmx0 addr0.
apply: contra V0 => /eqP H; apply/eqP.
by have := congr1 (fun f : stack RF 2 3 2 => f ord0) H; rewrite !ffunE.
Qed.
