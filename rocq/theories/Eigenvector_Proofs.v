(** For C100: the optimizers on the sphere find eigenvectors of symmetric matrices (examples/dominant_eigenvector.py). *)
From Coq Require Import Reals ZArith Lra Lia List.
From mathcomp Require Import all_ssreflect all_algebra.
From Coq Require Import Ring Field.
From Verif Require Import Rstruct MCRing Mat_Base Geometry_Spec Linalg_Spec Linalg_Exist Calculus Sphere_Model Sphere_Proofs Sphere_Props
  Num_Model Num_Instances LineSearch_Model Optimizer_Model TrustRegions_Model TrustRegions_Spec Eigenvector_Model ConvergenceTR_Props
  Num_Proofs LineSearch_Proofs Convergence_Props Optimizer_Props Stiefel_Proofs Multi_Proofs Expm Spectral.
Set Implicit Arguments.
Unset Strict Implicit.
Unset Printing Implicit Defensive.
Import GRing.Theory Num.Theory Order.TTheory.
Local Open Scope ring_scope.
Delimit Scope R_scope with Re.
Delimit Scope Z_scope with ZZ.

Section Eigen.
Variables (n : nat) (A : 'M[RF]_n).
Local Notation vec := 'cV[RF]_n.
Local Notation scale := (@rscale RR RF n 1).
Local Notation dot := (@inner RR RF n 1).
Local Notation I := (@inner_ips RR RF n 1).
Add Ring RR_ring : (mc_ring RR).
Implicit Types x y u v w : vec.

(** The quadratic form; its value at a unit vector is the Rayleigh quotient. *)
Definition form (v : vec) : RR := (v^T *m A *m v) ord0 ord0.
Lemma formE v : form v = dot v (A *m v).
Proof.
rewrite /form -mulmxA innerE /mxtrace big_ord_recl big_ord0 addr0 adjmx_real; congr (_ _).
Qed.
Hypothesis sym : A^T = A.
Lemma qC u v : dot u (A *m v) = dot v (A *m u).
Proof. by rewrite innerC inner_mull adjmx_real sym. Qed.

Lemma zE (c : RR) u v : dot u (c *: v) = c * dot u v. Proof. exact: innerZr. Qed.
Lemma zlE (c : RR) u v : dot (c *: u) v = c * dot u v. Proof. exact: innerZl. Qed.
(** The derivatives, for plain vectors. *)
Definition grad0 (x : vec) : vec := - (2%:R *: (A *m x)) + (2%:R * form x) *: x.
Definition hess0 (x v : vec) : vec := - (2%:R *: (A *m v)) + (2%:R * dot x (A *m v)) *: x + (2%:R * form x) *: v.
Lemma grad0E x : sp_gradient (@sp_projection n 1) x (euclidean_gradient A x) = grad0 x.
Proof.
rewrite /sp_gradient /sp_projection sp_innerE /euclidean_gradient /grad0 formE innerNr zE.
by rewrite scaleNr opprK.
Qed.
Lemma hess0E x v : dot x x = 1 ->
  sp_hessian (@sp_projection n 1) x (euclidean_gradient A x) (euclidean_hessian A x v) v = hess0 x v.
Proof.
move=> ux; rewrite /sp_hessian /sp_weingarten /sp_projection !sp_innerE /euclidean_gradient /euclidean_hessian /hess0 !innerNr !zE formE.
rewrite !(innerBr, innerNr, zE) ux.
move: (A *m v) (A *m x) => V X; set p := dot _ _; set q := dot _ _; clear ux.
by apply/matrixP => i j; rewrite !mxE; move: (V i j) (x i j) (v i j) p q => c d e p q; mcring RR.
Qed.
Lemma hess0D x u v : hess0 x (u + v) = hess0 x u + hess0 x v.
Proof.
rewrite /hess0 mulmxDr innerDr; move: (A *m u) (A *m v) (form x) => U V f; set p := dot _ _; set q := dot _ _.
by apply/matrixP => i j; rewrite !mxE; move: (U i j) (V i j) (x i j) (u i j) (v i j) p q => ? ? ? ? ? ? ?; mcring RR.
Qed.
Lemma hess0Z x (c : RR) u : hess0 x (c *: u) = c *: hess0 x u.
Proof.
rewrite /hess0 -scalemxAr zE; move: (A *m u) (form x) => U f; set p := dot _ _.
by apply/matrixP => i j; rewrite !mxE; move: (U i j) (x i j) (u i j) p => ? ? ? ?; mcring RR.
Qed.
Lemma hess0N x u : hess0 x (- u) = - hess0 x u.
Proof. by have := hess0Z x (-1) u; rewrite !scaleN1r. Qed.
Lemma hess00 x : hess0 x 0 = 0.
Proof. by have := hess0Z x 0 0; rewrite !scale0r. Qed.
(** [a] bounds the form on unit vectors. *)
Definition form_bound (a : R) : Prop := forall v : vec, (Rabs (form v) <= a * dot v v)%Re.
Lemma form_bound_fnorm : form_bound (fnorm A).
Proof.
move=> v; have H : `|dot v (A *m v)| <= fnorm v * fnorm (A *m v).
  by have := cauchy_schwarz I v (A *m v); rewrite !norm_of_inner.
have K : fnorm (A *m v) <= fnorm A * fnorm v by apply: fnorm_mul.
have P : 0 <= fnorm v by apply: sqrtr_ge0.
have -> : dot v v = fnorm v * fnorm v by rewrite /fnorm -expr2 sqr_sqrtr ?inner_ge0.
rewrite formE; Rify_in H; Rify_in K; Rify_in P; Rify_expr; nra.
Qed.

(** it is enough to look at unit vectors *)
Lemma form_bound_unit (a : R) : (forall x : vec, \sum_i x i ord0 ^+ 2 = 1 -> (Rabs (form x) <= a)%Re) -> form_bound a.
Proof.
move=> H v; have [->|v0] := eqVneq v 0.
  by rewrite formE inner0l inner0l Rabs_R0 Rmult_0_r; apply: Rle_refl.
have s0 : 0 < fnorm v by rewrite lt_def fnorm_eq0 v0 fnorm_ge0.
have s1 : fnorm v != 0 by rewrite fnorm_eq0.
have vv : v = fnorm v *: ((fnorm v)^-1 *: v) by rewrite scalerA divff // scale1r.
have vE : dot v v = fnorm v * fnorm v by rewrite -fnorm_sqr expr2.
set c := fnorm v in s0 s1 vv vE *; set u := c^-1 *: v in vv *.
have uu : dot u u = 1.
  have : dot (c^-1 *: v) (c^-1 *: v) = c^-1 * (c^-1 * dot v v) by rewrite -(innerZr c^-1) -(innerZl c^-1).
  by rewrite -/u vE => ->; rewrite mulrA -invfM mulVf // mulf_neq0.
have fE : form v = (c * c * form u)%Re.
  by rewrite !formE {1 2}vv -scalemxAr; rewrite (innerZl c) (innerZr c) mulrA.
have := H u; rewrite fE vE !Rabs_mult => /(_ _) K.
have cp : (0 <= c)%Re by apply/RlePx; apply: ltW.
rewrite (Rabs_pos_eq c) //; Rify_expr.
have : (Rabs (form u) <= a)%Re.
  by apply: K; rewrite -uu; apply: eq_bigr => i _; rewrite big_ord_recl big_ord0 addr0 expr2.
by move=> H0; have := Rmult_le_compat_l (c * c) _ _ (Rmult_le_pos _ _ cp cp) H0; lra.
Qed.

Variable a : R.
Hypotheses (a0 : (0 < a)%Re) (Ha : form_bound a).

Lemma q_bound v : (- (a * dot v v) <= dot v (A *m v) <= a * dot v v)%Re.
Proof. by have := Ha v; rewrite formE => H; split_Rabs; lra. Qed.

Lemma q_cross u v : (- (a * (dot u u + dot v v)) <= 2 * dot u (A *m v) <= a * (dot u u + dot v v))%Re.
Proof.
have [P1 P2] := q_bound (u + v); have [M1 M2] := q_bound (u - v).
have E1 : dot (u + v) (A *m (u + v)) = (dot u (A *m u) + 2 * dot u (A *m v) + dot v (A *m v))%Re.
  by rewrite mulmxDr innerDl !innerDr (qC v u); Rify; ring.
have E2 : dot (u - v) (A *m (u - v)) = (dot u (A *m u) - 2 * dot u (A *m v) + dot v (A *m v))%Re.
  by rewrite mulmxBr innerBl !innerBr (qC v u); Rify; ring.
have E3 : dot (u + v) (u + v) = (dot u u + 2 * dot u v + dot v v)%Re.
  by rewrite innerDl !innerDr (innerC v u); Rify; ring.
have E4 : dot (u - v) (u - v) = (dot u u - 2 * dot u v + dot v v)%Re.
  by rewrite innerBl !innerBr (innerC v u); Rify; ring.
rewrite E1 E3 in P1 P2; rewrite E2 E4 in M1 M2.
by split; nra.
Qed.

Local Notation M := (sphere_mfd n).
Local Notation prob := (eigen_problem A).
Definition tangent_at (x : pt M) (v : tv M) : Prop := sphere_tangent (sval x) v.

Lemma unitE (x : pt M) : dot (sval x) (sval x) = 1.
Proof. by case: x => x hx; apply/on_sphereE. Qed.
Lemma landedE (y : vec) (x : pt M) : on_sphere y -> sval (landed y x) = y.
Proof. by rewrite /landed; case: eqP. Qed.
Lemma ipE (x : pt M) u v : ip (M := M) x u v = dot u v. Proof. by []. Qed.
Lemma costE (x : pt M) : p_cost prob x = (- dot (sval x) (A *m sval x))%Re.
Proof. by rewrite -formE. Qed.
Lemma gradE (x : pt M) : p_grad prob x = grad0 (sval x). Proof. exact: grad0E. Qed.
Lemma hessE (x : pt M) v : p_hess prob x v = hess0 (sval x) v. Proof. by apply: hess0E; apply: unitE. Qed.
Lemma Rnorm2 v : sp_norm 0 v = sqrt (dot v v) :> R.
Proof. by rewrite /sp_norm np_fnormE /norm_of RsqrtE. Qed.

Lemma sphere_tangent_space (x : pt M) : tangent_space (M := M) x (tangent_at x).
Proof.
have T := @sphere_tangentE n 1 (sval x); split; rewrite /tangent_at /=.
- by apply/T; rewrite inner0r.
- by move=> u v /T hu /T hv; apply/T; rewrite innerDr hu hv addr0.
- by move=> c u /T hu; apply/T; rewrite zE hu mulr0.
- by move=> u /T hu; apply/T; rewrite innerNr hu oppr0.
- by move=> u v w _ _ _; rewrite /ip /= !sp_innerE innerDl.
- by move=> c u w _ _; rewrite /ip /= !sp_innerE zlE.
- by move=> u w _ _; rewrite /ip /= !sp_innerE innerNl.
- by move=> w _; rewrite /ip /= !sp_innerE inner0l.
- by move=> u v _ _; rewrite /ip /= !sp_innerE innerC.
- by move=> u _; apply/RlePx; rewrite /ip /= !sp_innerE; apply: inner_ge0.
- by move=> u /T hu; rewrite /sp_to_tangent_space /sp_projection sp_innerE hu scale0r subr0.
Qed.

Lemma grad_tangent (x : pt M) : tangent_at x (p_grad prob x).
Proof.
apply/sphere_tangentE; rewrite gradE /grad0 innerDr innerNr !zE unitE formE; mcring RR.
Qed.
Lemma hess_symmetric (x : pt M) : symmetric_operator (M := M) x (tangent_at x) (p_hess prob x).
Proof.
split.
- move=> u /sphere_tangentE hu; apply/sphere_tangentE.
  by rewrite hessE /hess0 !innerDr innerNr !zE unitE hu; mcring RR.
- by rewrite hessE; apply: hess00.
- by move=> u v _ _; rewrite !hessE; apply: hess0D.
- by move=> c u _; rewrite !hessE; apply: hess0Z.
- by move=> u _; rewrite !hessE; apply: hess0N.
- move=> u v /sphere_tangentE hu /sphere_tangentE hv.
  rewrite !ipE !hessE /hess0 !(innerDl, innerDr, innerNl, innerNr) !(zE, zlE) hv (innerC u (sval x)) hu (innerC (A *m u)) (qC v u).
  by mcring RR.
Qed.
Lemma curvature : bounded_curvature M prob tangent_at (4 * a)%Re.
Proof.
move=> x v /sphere_tangentE hv; rewrite !ipE hessE /hess0 !(innerDr, innerNr, zE) (innerC v (sval x)) hv formE.
have [Q1 Q2] := q_bound v; have [X1 X2] := q_bound (sval x); rewrite unitE in X1 X2.
have P : (0 <= dot v v)%Re by apply/RlePx; apply: inner_ge0.
Rify_expr; move: X1 X2; Rify_expr => X1 X2.
set s := dot v v in P Q1 Q2 *; set q := dot v _ in Q1 Q2 *; set p := dot (sval x) (A *m sval x) in X1 X2 *.
apply: Rabs_le; nra.
Qed.
Lemma lower (x : pt M) : (- a <= p_cost prob x)%Re.
Proof. rewrite costE; have [_ X] := q_bound (sval x); rewrite unitE in X; move: X; Rify_expr => X; lra. Qed.
Lemma smooth r : smooth_steps M prob tangent_at (6 * a)%Re r.
Proof.
move=> x v /sphere_tangentE hv _; have ux := unitE x.
have ne : sval x + v != 0 by apply: (add_tangent_neq0 I).
have U : on_sphere (sp_retraction (sval x) v).
  by apply/on_sphereE; rewrite /sp_retraction normalizeE; apply: (unormalize_unit I).
rewrite !costE /m_retr /sphere_mfd landedE // !ipE gradE /grad0 /sp_retraction /sp_normalize np_fnormE.
set y := sval x + v; rewrite -!scalemxAr !zE !zlE.
have yy : dot y y = 1 + dot v v.
  by rewrite /y innerDl !innerDr ux hv (innerC v) hv; mcring RR.
have qy : dot y (A *m y) = dot (sval x) (A *m sval x) + 2%:R * dot v (A *m sval x) + dot v (A *m v).
  by rewrite /y mulmxDr innerDl !innerDr (qC (sval x) v); mcring RR.
have s0 : 0 <= dot v v by apply: inner_ge0.
have cc : (norm_of dot y)^-1 * ((norm_of dot y)^-1 * dot y (A *m y)) = dot y (A *m y) / (1 + dot v v).
  by rewrite mulrA -invfM -expr2 /norm_of sqr_sqrtr ?inner_ge0 // yy mulrC.
rewrite cc qy innerDl innerNl !zlE hv mulr0 addr0 (innerC (A *m _)).
have [Q1 Q2] := q_bound v; have [X1 X2] := q_bound (sval x); have [C1 C2] := q_cross v (sval x).
rewrite ux in X1 X2 C1 C2.
Rify_in s0; move: X1 X2 C1 C2; Rify_expr => X1 X2 C1 C2.
move: (dot v v) (dot v (A *m v)) (dot v (A *m sval x)) (dot (sval x) (A *m sval x)) s0 Q1 Q2 X1 X2 C1 C2 => s q c p s0 Q1 Q2 X1 X2 C1 C2.
have -> : (- ((p + 2 * c + q) / (1 + s)) = - p - 2 * c + (s * (p + 2 * c) - q) / (1 + s))%Re by field; lra.
have : ((s * (p + 2 * c) - q) / (1 + s) <= 3 * a * s)%Re.
  apply: (Rmult_le_reg_r (1 + s)); first lra.
  have -> : ((s * (p + 2 * c) - q) / (1 + s) * (1 + s) = s * (p + 2 * c) - q)%Re by field; lra.
  have : (s * (2 * c) <= s * (a * (s + 1)))%Re by apply: Rmult_le_compat_l.
  have : (s * p <= s * a)%Re by apply: Rmult_le_compat_l => //; lra.
  nra.
lra.
Qed.

Lemma dotE u v : dot u v = \sum_i u i ord0 * v i ord0.
Proof. by apply: eq_bigr => i _; rewrite big_ord_recl big_ord0 addr0. Qed.

(** A unit vector with a small residual belongs to an eigenvalue nearby. *)
Lemma eigen_near (x : vec) (rho d : RR) : dot x x = 1 -> fnorm (A *m x - rho *: x) <= d ->
  exists (lam : RR) (w : vec), w != 0 /\ A *m w = lam *: w /\ `|lam - rho| <= d.
Proof.
move=> ux H; have hA : hermitian A by rewrite /hermitian adjmx_real sym.
have [[w v] [/= O E]] := eigh_exists (@real_has_eigenvectors RR) hA.
have O' : v *m v^H = 1%:M by apply: mulmx1C.
set y := v^H *m x.
have uy : dot y y = 1 by rewrite /y inner_mull adjmxK mulmxA O' mul1mx.
have vy : x = v *m y by rewrite /y mulmxA O' mul1mx.
have R0 : A *m x - rho *: x = v *m (real_diag RF w *m y - rho *: y).
  by rewrite mulmxBr -scalemxAr -vy E -!mulmxA -/y.
have [/existsP[i hi]|/existsPn no] := boolP [exists i, `|w ord0 i - rho| <= d].
  exists (w ord0 i), (col i v); split; [|split] => //.
    apply/eqP => z; have := column_unit' (wv := (w, v)) i O; rewrite /= z inner0l => /esym/eqP.
    by rewrite oner_eq0.
  have := @eigfun_col' RR RF n id (w, v) i O; rewrite eigfun_id /= -E => ->.
  by congr (_ *: _).
exfalso; have d0 : 0 <= d by apply: le_trans H; apply: fnorm_ge0.
have P i : 0 < (w ord0 i - rho) ^+ 2 - d ^+ 2.
  rewrite subr_gt0 -[X in _ < X]real_normK ?num_real // ltr_sqr ?nnegrE //.
  by rewrite ltNge; apply: no.
have S : \sum_i ((w ord0 i - rho) ^+ 2 - d ^+ 2) * (y i ord0) ^+ 2 <= 0.
  have : fnorm (A *m x - rho *: x) ^+ 2 <= d ^+ 2 by rewrite ler_sqr ?nnegrE ?fnorm_ge0.
  rewrite R0 fnorm_orthonormal // fnorm_sqr dotE => K.
  rewrite -(subr_le0) in K; apply: le_trans K; rewrite -[X in _ - X]mulr1 -uy dotE mulr_sumr -sumrB.
  apply: ler_sum => i _; rewrite mul_diag_mx !mxE /= (_ : 0 = ord0 :> 'I_1) //.
  rewrite le_eqVlt; apply/orP; left; apply/eqP; move: (w _ i) (\sum_(_ < n) _) => p q; rewrite !expr2; mcring RR.
have Z i : y i ord0 = 0.
  apply/eqP; rewrite -sqrf_eq0; have := P i; rewrite lt_def => /andP[p0 _].
  have /eqP : \sum_i ((w ord0 i - rho) ^+ 2 - d ^+ 2) * (y i ord0) ^+ 2 = 0.
    by apply/eqP; rewrite eq_le S /= sumr_ge0 // => j _; rewrite mulr_ge0 ?sqr_ge0 // ltW.
  rewrite psumr_eq0 => [|j _]; last by rewrite mulr_ge0 ?sqr_ge0 // ltW.
  by move=> /allP /(_ i (mem_index_enum i)) /=; rewrite mulf_eq0 (negPf p0).
by move: uy; rewrite dotE big1 => [/esym/eqP|i _]; rewrite ?oner_eq0 // Z mul0r.
Qed.

Lemma norm_residual (x : pt M) : m_norm M x (p_grad prob x) = (2 * fnorm (A *m sval x - form (sval x) *: sval x))%Re.
Proof.
have -> : p_grad prob x = (-2%:R) *: (A *m sval x - form (sval x) *: sval x).
  by rewrite gradE /grad0 scalerBr !scaleNr scalerA opprK.
rewrite [LHS](_ : _ = fnorm (scale (-2%:R) (A *m sval x - form (sval x) *: sval x))); last first.
  by rewrite /= /sp_norm np_fnormE norm_of_inner.
by rewrite fnormZ normrN ger0_norm ?ler0n //; Rify_expr.
Qed.
Lemma m_normE (x : pt M) v : tangent_at x v -> m_norm M x v = sqrt (ip (M := M) x v v).
Proof. by move=> _; rewrite ipE -RsqrtE /= /sp_norm np_fnormE. Qed.

Lemma downhill : smooth_downhill M prob (6 * a)%Re.
Proof.
move=> x t t0; set g := p_grad prob x; have hg : tangent_at x g by apply: grad_tangent.
have ht : tangent_at x (t *: - g).
  have [_ _ sc ng _ _ _ _ _ _ _] := sphere_tangent_space x; exact: sc (ng _ hg).
have P : (0 <= dot g g)%Re by apply/RlePx; apply: inner_ge0.
have := @smooth (sqrt (ip (M := M) x (t *: - g) (t *: - g))) x (t *: - g) ht.
rewrite !ipE -/g (m_normE hg) ipE !(zE, zlE, innerNl, innerNr).
set s := dot g g in P *; rewrite (pow2_sqrt s) // => /(_ _) K; move: K.
Rify_expr => K; apply: Rle_trans (K _) _; last by right; field.
by rewrite pow2_sqrt; [right|nra].
Qed.
End Eigen.

