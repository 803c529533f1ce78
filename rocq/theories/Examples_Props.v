(** C106: the derivatives supplied in the examples are the derivatives of the costs. *)
From mathcomp Require Import all_ssreflect all_algebra.
From Coq Require Import Ring Field.
From Verif Require Import MCRing Mat_Base Geometry_Spec Linalg_Spec Calculus Multi_Model Euclidean_Model Stiefel_Model Stiefel_Proofs Stiefel_Props
  Group_Proofs Examples_Model.
Set Implicit Arguments.
Unset Strict Implicit.
Unset Printing Implicit Defensive.
Import GRing.Theory Num.Theory Order.TTheory.
Local Open Scope ring_scope.

(** * The specification *)
Section Spec.
Variables (R : rcfType) (K : starField R).
(** [d] is the derivative at 0 of a curve of matrices, or of a real function. *)
Definition velocity m n (c : R -> 'M[K]_(m, n)) (d : 'M[K]_(m, n)) : Prop := derives (@rscale R K m n) (@inner R K m n) c d.
Definition slope (f : R -> R) (d : R) : Prop := derives (@real_scale R) (@real_dot R) f d.
(** [g] is the gradient of [f]: along every curve through any point, [f] changes at the rate given by the inner product with [g]. *)
Definition is_gradient m n (f : 'M[K]_(m, n) -> R) (g : 'M[K]_(m, n) -> 'M[K]_(m, n)) : Prop :=
  forall c d, velocity c d -> slope (fun t => f (c t)) (inner (g (c 0)) d).
(** [h] is the derivative of [g]. *)
Definition is_derivative m n (g : 'M[K]_(m, n) -> 'M[K]_(m, n)) (h : 'M[K]_(m, n) -> 'M[K]_(m, n) -> 'M[K]_(m, n)) : Prop :=
  forall c d, velocity c d -> velocity (fun t => g (c t)) (h (c 0) d).
End Spec.

Section Rules.
Variables (R : rcfType) (K : starField R).
Local Notation V := (@velocity R K _ _).
Lemma v_eq m n (c : R -> 'M[K]_(m, n)) d d' : velocity c d -> d = d' -> velocity c d'. Proof. by move=> H <-. Qed.
Lemma s_eq (f : R -> R) d d' : slope f d -> d = d' -> slope f d'. Proof. by move=> H <-. Qed.
Lemma v_ext m n (c c' : R -> 'M[K]_(m, n)) d : (forall t, c t = c' t) -> velocity c d -> velocity c' d.
Proof. exact: derives_ext. Qed.
Lemma s_ext (f f' : R -> R) d : (forall t, f t = f' t) -> slope f d -> slope f' d. Proof. exact: derives_ext. Qed.
Lemma v_const m n (x : 'M[K]_(m, n)) : velocity (fun _ => x) 0. Proof. exact: derives_const (@inner_ips R K m n) x. Qed.
Lemma v_add m n (c c' : R -> 'M[K]_(m, n)) d d' : velocity c d -> velocity c' d' -> velocity (fun t => c t + c' t) (d + d').
Proof. exact: derives_add (@inner_ips R K m n) _ _ _ _. Qed.
Lemma v_sub m n (c c' : R -> 'M[K]_(m, n)) d d' : velocity c d -> velocity c' d' -> velocity (fun t => c t - c' t) (d - d').
Proof. exact: derives_sub (@inner_ips R K m n) _ _ _ _. Qed.
Lemma v_mul m n p (c : R -> 'M[K]_(m, n)) (c' : R -> 'M[K]_(n, p)) d d' : velocity c d -> velocity c' d' ->
  velocity (fun t => c t *m c' t) (d *m c' 0 + c 0 *m d').
Proof. exact: derives_mul. Qed.
Lemma v_mull m n p (A : 'M[K]_(m, n)) (c : R -> 'M[K]_(n, p)) d : velocity c d -> velocity (fun t => A *m c t) (A *m d).
Proof. by move=> H; apply: v_eq (v_mul (v_const A) H) _; rewrite mul0mx add0r. Qed.
Lemma v_mulr m n p (A : 'M[K]_(n, p)) (c : R -> 'M[K]_(m, n)) d : velocity c d -> velocity (fun t => c t *m A) (d *m A).
Proof. by move=> H; apply: v_eq (v_mul H (v_const A)) _; rewrite mulmx0 addr0. Qed.
Lemma v_adj m n (c : R -> 'M[K]_(m, n)) d : velocity c d -> velocity (fun t => (c t)^H) d^H. Proof. exact: derives_adj. Qed.
Lemma v_scale m n a (c : R -> 'M[K]_(m, n)) d : velocity c d -> velocity (fun t => a *: c t) (a *: d).
Proof.
move=> H; apply: v_ext (v_eq (v_mulr a%:M H) _); last by rewrite mul_mx_scalar.
by move=> t; rewrite mul_mx_scalar.
Qed.
Lemma s_dot m n (c c' : R -> 'M[K]_(m, n)) d d' : velocity c d -> velocity c' d' ->
  slope (fun t => inner (c t) (c' t)) (inner d (c' 0) + inner (c 0) d').
Proof. exact: derives_dot (@inner_ips R K m n) _ _ _ _. Qed.
Lemma s_scale a (f : R -> R) d : slope f d -> slope (fun t => a * f t) (a * d).
Proof.
move=> H; have C : slope (fun _ => a) 0 by apply: (derives_const (@real_ips R)).
apply: s_eq (derives_scale (@real_ips R) C H) _.
by rewrite /real_scale mul0r add0r.
Qed.
Lemma s_opp (f : R -> R) d : slope f d -> slope (fun t => - f t) (- d).
Proof. by move=> H; apply: s_ext (s_eq (s_scale (-1) H) _); [move=> t|]; rewrite mulN1r. Qed.
Lemma v_line m n (x v : 'M[K]_(m, n)) : velocity (fun t => x + rscale t v) v.
Proof. exact: derives_line (@inner_ips R K m n) x v. Qed.
Lemma line0 m n (x v : 'M[K]_(m, n)) : x + rscale (0 : R) v = x. Proof. by rewrite /rscale rmorph0 scale0r addr0. Qed.
Lemma v_unique m n (c : R -> 'M[K]_(m, n)) d d' : velocity c d -> velocity c d' -> d = d'.
Proof. exact: derives_unique (@inner_ips R K m n) _ _ _. Qed.
Lemma s_unique (f : R -> R) d d' : slope f d -> slope f d' -> d = d'. Proof. exact: derives_unique (@real_ips R) _ _ _. Qed.
(** gradients and derivatives are unique *)
Lemma gradient_unique m n (f : 'M[K]_(m, n) -> R) g g' : is_gradient f g -> is_gradient f g' -> forall x, g x = g' x.
Proof.
move=> G G' x; have E v : inner (g x) v = inner (g' x) v.
  by have := s_unique (G _ _ (v_line x v)) (G' _ _ (v_line x v)); rewrite line0.
exact: dot_inj (@inner_ips R K m n) _ _ E.
Qed.
Lemma derivative_unique m n (g : 'M[K]_(m, n) -> 'M[K]_(m, n)) h h' : is_derivative g h -> is_derivative g h' -> forall x v, h x v = h' x v.
Proof. by move=> G G' x v; have := v_unique (G _ _ (v_line x v)) (G' _ _ (v_line x v)); rewrite line0. Qed.
(** squared norms *)
Lemma s_norm m n (c : R -> 'M[K]_(m, n)) d : velocity c d -> slope (fun t => fnorm (c t) ^+ 2) (2%:R * inner (c 0) d).
Proof.
move=> H; apply: s_ext (s_eq (s_dot H H) _); first by move=> t; rewrite fnorm_sqr.
by rewrite (innerC d) mulr_natl mulr2n.
Qed.
End Rules.

(** * C106 *)
Section Real.
Variable R : rcfType.
Local Notation F := (real_star R).
Add Ring R_ring : (mc_ring R).
Lemma v_tr m n (c : R -> 'M[F]_(m, n)) d : velocity c d -> velocity (fun t => (c t)^T) d^T.
Proof. by move=> H; apply: v_ext (v_eq (v_adj H) _); [move=> t|]; rewrite adj_real. Qed.
Lemma innerZF m n (a : F) (A B : 'M[F]_(m, n)) : inner (a *: A) B = a * inner A B. Proof. exact: innerZl. Qed.
Lemma innerZFr m n (a : F) (A B : 'M[F]_(m, n)) : inner A (a *: B) = a * inner A B. Proof. exact: innerZr. Qed.
Lemma inner_mulT m n p (A : 'M[F]_(m, n)) (B : 'M[F]_(n, p)) C : inner (A *m B) C = inner B (A^T *m C).
Proof. by rewrite inner_mull adj_real. Qed.
Lemma inner_mulTr m n p (A : 'M[F]_(m, n)) (B : 'M[F]_(n, p)) C : inner (A *m B) C = inner A (C *m B^T).
Proof. by rewrite inner_mulr adj_real. Qed.
Lemma inner_tr m n (A B : 'M[F]_(m, n)) : inner A^T B^T = inner A B. Proof. by rewrite -!adj_real inner_adj. Qed.
Lemma tensordotE m n (A B : 'M[F]_(m, n)) : tensordot A B = inner A B. Proof. by []. Qed.
Lemma sum_squaresE m n (A : 'M[F]_(m, n)) : sum_squares A = fnorm A ^+ 2.
Proof. by rewrite fnorm_sqr; apply: eq_bigr => i _; apply: eq_bigr => j _; rewrite expr2. Qed.
Lemma trace_inner n p (A : 'M[F]_n) (X : 'M[F]_(n, p)) : \tr (X^T *m A *m X) = inner X (A *m X).
Proof. by rewrite innerE adj_real mulmxA. Qed.

Lemma four_halves (a : R) : 2%:R * (a + a) = 4%:R * a.
Proof. by rewrite -mulr2n -[a *+ 2]mulr_natl mulrA -natrM. Qed.

Theorem C106_subspace n p (matrix : 'M[F]_n) : matrix^T = matrix ->
  is_gradient (@subspace_cost R n p matrix) (subspace_gradient matrix) /\
  is_derivative (@subspace_gradient R n p matrix) (subspace_hessian matrix).
Proof.
move=> sym; split=> c d H; last by apply: v_mull.
apply: s_ext (s_eq (s_opp (s_dot H (v_mull matrix H))) _); first by move=> t; rewrite /subspace_cost trace_inner.
rewrite /subspace_gradient -scalemxAl innerZF -[inner (c 0) _]innerC inner_mulT sym (innerC d).
by rewrite -mulr2n mulNr mulr_natl.
Qed.
Theorem C106_complex_subspace n p (matrix : 'M[complex_star R]_n) : matrix^H = matrix ->
  is_gradient (@complex_subspace_cost R n p matrix) (complex_subspace_gradient matrix) /\
  is_derivative (@complex_subspace_gradient R n p matrix) (complex_subspace_hessian matrix).
Proof.
move=> sym; split=> c d H; last by apply: v_mull.
apply: s_ext (s_eq (s_opp (s_dot H (v_mull matrix H))) _).
  by move=> t; rewrite /complex_subspace_cost innerE mulmxA.
have -> : complex_subspace_gradient matrix (c 0) = sf_real (- 2%:R) *: (matrix *m c 0).
  by rewrite /complex_subspace_gradient rmorphN rmorph_nat -scalemxAl.
rewrite innerZl -[inner (c 0) _]innerC inner_mull sym (innerC d).
by rewrite -mulr2n mulNr mulr_natl.
Qed.
(** The two formulas used for these costs by the different backends agree. *)
Theorem C106_backends n p (matrix : 'M[F]_n) (cmatrix : 'M[complex_star R]_n) :
  (forall X : 'M[F]_(n, p), subspace_cost_tensordot matrix X = subspace_cost matrix X) /\
  (forall X : 'M[complex_star R]_(n, p), complex_subspace_cost_tensordot cmatrix X = complex_subspace_cost cmatrix X).
Proof.
split=> X; first by rewrite /subspace_cost_tensordot /subspace_cost trace_inner.
rewrite /complex_subspace_cost -mulmxA -innerE /complex_subspace_cost_tensordot /inner; congr (- _).
by rewrite raddf_sum; apply: eq_bigr => i _; rewrite raddf_sum.
Qed.
Theorem C106_closest m n (matrix : 'M[F]_(m, n)) : is_gradient (closest_cost matrix) (closest_gradient matrix).
Proof.
move=> c d H; have E := v_sub H (v_const matrix).
apply: s_ext (s_eq (s_scale 2%:R^-1 (s_norm E)) _); first by move=> t; rewrite /closest_cost sum_squaresE.
by rewrite subr0 mulrA mulVf ?pnatr_eq0 // mul1r.
Qed.
Theorem C106_regression m n (samples : 'M[F]_(m, n)) targets :
  is_gradient (regression_cost samples targets) (regression_gradient samples targets) /\
  is_derivative (regression_gradient samples targets) (regression_hessian samples).
Proof.
split=> c d H; have E := v_sub (v_const targets) (v_mull samples H).
  apply: s_eq (s_norm E) _.
  by rewrite sub0r innerNr /regression_gradient -scalemxAl innerZF inner_mulT trmxK mulrN mulNr.
apply: v_eq (v_mull _ E) _.
by rewrite /regression_hessian sub0r mulmxN scaleNr mulNmx opprK -!scalemxAl mulmxA.
Qed.
Theorem C106_psdapprox n k (matrix : 'M[F]_n) : matrix^T = matrix ->
  is_gradient (@psdapprox_cost R n k matrix) (psdapprox_gradient matrix) /\
  is_derivative (@psdapprox_gradient R n k matrix) (psdapprox_hessian matrix).
Proof.
move=> sym; split=> c d H; have E := v_sub (v_mul H (v_tr H)) (v_const matrix).
  apply: s_eq (s_norm E) _; set x := c 0; set A := x *m x^T - matrix.
  have symA : A^T = A by rewrite /A linearB /= trmx_mul trmxK sym.
  rewrite subr0 innerDr -[inner A (x *m d^T)]inner_tr trmx_mul trmxK symA.
  have -> : inner A (d *m x^T) = inner (A *m x) d by rewrite inner_mulTr.
  rewrite /psdapprox_gradient -/x -/A -scalemxAl innerZF; exact: four_halves.
apply: v_eq (v_mul (v_scale (4%:R : F) E) H) _.
by rewrite /psdapprox_hessian subr0 (addrC (d *m _)) -!scalemxAl -scalerDr.
Qed.
(** The supplied gradient is half the gradient, while the supplied Hessian is the Hessian of the cost: twice the derivative of the
    supplied gradient. *)
Theorem C106_correlation_refuted k n (matrix : 'M[F]_n) : matrix^T = matrix ->
  is_gradient (@correlation_cost R k n matrix) (fun X => 2%:R *: correlation_gradient matrix X) /\
  is_derivative (fun X => 2%:R *: @correlation_gradient R k n matrix X) (correlation_hessian matrix) /\
  (forall X : 'M[F]_(k, n), correlation_gradient matrix X != 0 ->
     ~ is_gradient (@correlation_cost R k n matrix) (correlation_gradient matrix)) /\
  (forall X H : 'M[F]_(k, n), correlation_hessian matrix X H != 0 ->
     ~ is_derivative (@correlation_gradient R k n matrix) (correlation_hessian matrix)).
Proof.
move=> sym.
have two : (2%:R : F) * 2%:R^-1 = 1 by rewrite mulfV // pnatr_eq0.
have G2 (X : 'M[F]_(k, n)) : 2%:R *: correlation_gradient matrix X = X *m (X^T *m X - matrix) by rewrite /correlation_gradient -scalemxAl scalerA two scale1r.
have E (c : R -> 'M[F]_(k, n)) (d : 'M[F]_(k, n)) (H : velocity c d) := v_sub (v_mul (v_tr H) H) (v_const matrix).
have I : is_gradient (@correlation_cost R k n matrix) (fun X => 2%:R *: correlation_gradient matrix X).
  move=> c d H; apply: s_eq (s_scale 4%:R^-1 (s_norm (E _ _ H))) _; rewrite G2; set x := c 0; set A := x^T *m x - matrix.
  have symA : A^T = A by rewrite /A linearB /= trmx_mul trmxK sym.
  rewrite subr0 innerDr -[inner A (d^T *m x)]inner_tr trmx_mul trmxK symA.
  have -> : inner A (x^T *m d) = inner (x *m A) d by rewrite inner_mulT.
  by rewrite four_halves mulrA mulVf ?pnatr_eq0 // mul1r.
have D : is_derivative (fun X => 2%:R *: @correlation_gradient R k n matrix X) (correlation_hessian matrix).
  move=> c d H; apply: v_ext (v_eq (v_mul H (E _ _ H)) _); first by move=> t; rewrite G2.
  by rewrite /correlation_hessian subr0 addrC.
split=> //; split=> //; split=> [X X0 G|X H H0 G].
  have := gradient_unique I G X; rewrite -[RHS]scale1r => /eqP; rewrite -subr_eq0 -scalerBl scaler_eq0 (negPf X0) orbF.
  by rewrite mulrS addrK oner_eq0.
have K : is_derivative (fun X => 2%:R *: @correlation_gradient R k n matrix X) (fun X H => 2%:R *: correlation_hessian matrix X H).
  by move=> c d V; apply: v_scale; apply: G.
have := derivative_unique K D X H; rewrite -[RHS]scale1r => /eqP; rewrite -subr_eq0 -scalerBl scaler_eq0 (negPf H0) orbF.
by rewrite mulrS addrK oner_eq0.
Qed.

Theorem C106_pca m n p (samples : 'M[F]_(m, n)) : is_gradient (@pca_cost R m n p samples) (pca_gradient samples).
Proof.
move=> c d H; have E := v_sub (v_const samples) (v_mul (v_mull samples H) (v_tr H)).
apply: s_eq (s_norm E) _; set w := c 0; set A := samples - _.
rewrite sub0r innerNr innerDr -[inner A (samples *m w *m d^T)]inner_tr.
have -> : inner A (samples *m d *m w^T) = inner (samples^T *m A *m w) d.
  by rewrite inner_mulTr inner_mulT trmxK mulmxA.
have -> : inner A^T (samples *m w *m d^T)^T = inner (A^T *m samples *m w) d.
  by rewrite trmx_mul trmxK -mulmxA inner_mulTr.
by rewrite /pca_gradient -/w -/A -scalemxAl innerZF mulmxDl innerDl mulrN mulNr.
Qed.
(** The Hessian of the cost, from which the supplied one differs by [8 samples^T samples w], whatever the direction. *)
Definition pca_true_hessian m n p (samples : 'M[F]_(m, n)) (w h : 'M[F]_(n, p)) : 'M[F]_(n, p) :=
  pca_hessian samples w h + 8%:R *: (samples^T *m samples *m w).
Theorem C106_pca_hessian_refuted m n p (samples : 'M[F]_(m, n)) :
  is_derivative (@pca_gradient R m n p samples) (pca_true_hessian samples) /\
  (forall w : 'M[F]_(n, p), samples *m w != 0 -> ~ is_derivative (@pca_gradient R m n p samples) (pca_hessian samples)).
Proof.
have D : is_derivative (@pca_gradient R m n p samples) (pca_true_hessian samples).
  move=> c d H; have E := v_sub (v_const samples) (v_mul (v_mull samples H) (v_tr H)).
  apply: v_eq (v_mul (v_scale (- 2%:R : F) (v_add (v_mull samples^T E) (v_mulr samples (v_tr E)))) H) _.
  rewrite /pca_true_hessian /pca_hessian; set w := c 0; set A := samples - samples *m w *m w^T.
  have tN q r (X : 'M[F]_(q, r)) : (- X)^T = - X^T by rewrite linearN.
  have tD q r (X Y : 'M[F]_(q, r)) : (X + Y)^T = X^T + Y^T by rewrite linearD.
  have tB q r (X Y : 'M[F]_(q, r)) : (X - Y)^T = X^T - Y^T by rewrite linearB.
  have E1 : samples^T *m (0 - (samples *m d *m w^T + samples *m w *m d^T)) *m w
    = samples^T *m (samples - samples *m w *m d^T) *m w + samples^T *m (samples - samples *m d *m w^T) *m w
      - 2%:R *: (samples^T *m samples *m w).
    rewrite sub0r mulmxN mulNmx mulmxDr mulmxDl !mulmxBr !mulmxBl scaler_nat mulr2n.
    set a := samples^T *m samples *m w; set b := _ *m w; set b' := _ *m w.
    by rewrite addrACA [RHS]addrC addKr opprD addrC.
  have E2 : (0 - (samples *m d *m w^T + samples *m w *m d^T))^T *m samples *m w
    = (samples - samples *m w *m d^T)^T *m samples *m w + (samples - samples *m d *m w^T)^T *m samples *m w
      - 2%:R *: (samples^T *m samples *m w).
    rewrite sub0r !(tN, tD) !(mulmxDl, mulNmx) scaler_nat mulr2n.
    set a := samples^T *m samples *m w; set b := _ *m w; set b' := _ *m w.
    by rewrite addrACA [RHS]addrC addKr opprD addrC.
  rewrite -!scalemxAl !mulmxDl E1 E2.
  set a := samples^T *m samples *m w; apply/matrixP => i j; rewrite !mxE /=.
  by mcring R.
split=> // w w0 G; have := derivative_unique D G w 0; rewrite /pca_true_hessian => /eqP.
rewrite -subr_eq0 addrC addKr scaler_eq0 pnatr_eq0 /= => /eqP E; move/eqP: w0; apply.
apply: inner_eq0; rewrite inner_mulT mulmxA E; exact: inner0r.
Qed.

(** What the trust-region optimizer gets from it on the Stiefel manifold: the Riemannian Hessian does not map zero to zero, but to
    four times the gradient. *)
Theorem C106_pca_riemannian_refuted m n p (samples : 'M[F]_(m, n)) (w : 'M[F]_(n, p)) : w^T *m w = 1%:M ->
  let stacked (A : 'M[F]_(n, p)) : stack F 1 n p := [ffun _ => A] in
  st_hessian (stacked w) (stacked (pca_gradient samples w)) (stacked (pca_hessian samples w 0)) (stacked 0)
  = sscale 4%:R (st_gradient (stacked w) (stacked (pca_gradient samples w))).
Proof.
move=> O stacked; apply/ffunP => i; rewrite hessE [RHS]ffunE projE !ffunE.
pose b := samples^T *m samples *m w.
have sb : (w^T *m b)^T = w^T *m b by rewrite /b !trmx_mul !trmxK !mulmxA.
have G : pca_gradient samples w = (- 2%:R) *: (b - w *m (w^T *m b)).
  rewrite /pca_gradient -scalemxAl; congr (_ *: _); have tB q r (X Y : 'M[F]_(q, r)) : (X - Y)^T = X^T - Y^T by rewrite linearB.
  rewrite tB !trmx_mul trmxK mulmxBr mulmxBl mulmxDl !mulmxBl.
  by rewrite ?mulmxA -[samples^T *m samples *m w *m w^T *m w]mulmxA O mulmx1 subrr add0r /b ?mulmxA.
have H : pca_hessian samples w 0 = (- 2%:R) *: (4%:R *: b).
  rewrite /pca_hessian trmx0 !(mulmx0, mul0mx, subr0, addr0) -/b; congr (_ *: _).
  by rewrite scaler_nat !mulrSr mulr0n add0r.
have OG : w^T *m (b - w *m (w^T *m b)) = 0 by rewrite mulmxBr !mulmxA O mul1mx subrr.
have S0 : hsym (0 : 'M[F]_p) = 0 by apply: hsym_of_skew; rewrite adj_real trmx0 oppr0.
have W0 N : st_wein w 0 N = 0 by rewrite /st_wein oppr0 !mul0mx adj_real trmx0 mul0mx S0 mulmx0 subr0.
have PG : st_proj w (pca_gradient samples w) = pca_gradient samples w.
  have Z : w^T *m pca_gradient samples w = 0 by rewrite G -scalemxAr OG scaler0.
  by rewrite /st_proj adj_real Z S0 mulmx0 subr0.
have PH : st_proj w (pca_hessian samples w 0) = 4%:R *: pca_gradient samples w.
  rewrite /st_proj adj_real H G !scalerA (mulrC 4%:R) -[w^T *m _]scalemxAr.
  have -> : hsym ((- 2%:R * 4%:R) *: (w^T *m b)) = (- 2%:R * 4%:R) *: (w^T *m b) by apply: hsym_id; rewrite adj_real linearZ /= sb.
  by rewrite -scalemxAr scalerBr.
by rewrite /st_hess W0 addr0 PH PG.
Qed.

Lemma v_diag k (c : R -> 'rV[F]_k) d : velocity c d -> velocity (fun t => diag_mx (c t)) (diag_mx d).
Proof.
move=> H; apply: (derives_linear (L := fun u : 'rV[F]_k => diag_mx u) (C := 1) _ _ _ _ H).
- by move=> u v; rewrite linearB.
- by move=> a u; rewrite /rscale linearZ.
- move=> u; rewrite mul1r /norm_of (_ : inner (diag_mx u) (diag_mx u) = inner u u) //.
  rewrite /inner big_ord1; apply: eq_bigr => i _; rewrite (bigD1 i) //= big1 ?addr0 ?mxE ?eqxx // => j ji.
  by rewrite mxE eq_sym (negPf ji) mulr0n mulr0.
- exact: ler01.
Qed.
Lemma inner_diagonal k (A : 'M[F]_k) (s : 'rV[F]_k) : inner A (diag_mx s) = inner (diagonal A) s.
Proof.
rewrite /inner big_ord1; apply: eq_bigr => i _; rewrite (bigD1 i) //= big1 ?addr0 ?mxE ?eqxx // => j ji.
by rewrite mxE eq_sym (negPf ji) mulr0n mulr0.
Qed.
(** the gradient with respect to the three factors *)
Theorem C106_lowrank m n k (matrix : 'M[F]_(m, n)) (u : R -> 'M[F]_(m, k)) (s : R -> 'rV[F]_k) (vt : R -> 'M[F]_(k, n)) du ds dvt :
  velocity u du -> velocity s ds -> velocity vt dvt ->
  let: (gu, gs, gvt) := lowrank_gradient matrix (u 0) (s 0) (vt 0) in
  slope (fun t => lowrank_cost matrix (u t) (s t) (vt t)) (inner gu du + inner gs ds + inner gvt dvt).
Proof.
move=> Hu Hs Hv; have E := v_sub (v_mul (v_mul Hu (v_diag Hs)) Hv) (v_const matrix).
apply: s_eq (s_norm E) _; set A := _ - matrix; set S := diag_mx (s 0).
rewrite subr0 mulmxDl !innerDr !mulrDr; congr (_ + _ + _).
- by rewrite -scalemxAl innerZF inner_mulTr trmxK mulmxA.
- by rewrite innerZF -inner_diagonal inner_mulTr inner_mulT !trmxK mulmxA.
- by rewrite -scalemxAl innerZF inner_mulT trmxK.
Qed.
Theorem C106_rotations k n (ABt : stack F k n n) (c : R -> stack F k n n) d : derives (@sscale R F k n n) (@sinner R F k n n) c d ->
  slope (fun t => rotations_cost ABt (c t)) (sinner (rotations_gradient ABt (c 0)) d).
Proof.
move=> H; have C := derives_const (@sinner_ips R F k n n) ABt.
apply: s_ext (s_eq (s_opp (derives_dot (@sinner_ips R F k n n) H C)) _); first by [].
by rewrite (dot0r (@sinner_ips R F k n n)) addr0 /rotations_gradient (dotNl (@sinner_ips R F k n n)) sinnerC.
Qed.
End Real.

(** The hypotheses are met, and the deviations occur: one sample, one component. *)
Example C106_instance (R : rcfType) : let one : 'M[real_star R]_1 := 1%:M in
  one^T = one /\ correlation_gradient 0 one != 0 /\ correlation_hessian 0 one one != 0 /\ one *m one != 0 /\ one^T *m one = 1%:M /\
  velocity (fun t => one + rscale t one) one.
Proof.
have n0 (a : R) : a != 0 -> (a%:M : 'M[real_star R]_1) != 0.
  by apply: contra => /eqP/matrixP/(_ 0 0); rewrite !mxE eqxx mulr1n => ->.
split; first by rewrite trmx1.
split; first by rewrite /correlation_gradient trmx1 !mulmx1 subr0 mulmx1 scalemx1; apply: n0; rewrite invr_eq0 pnatr_eq0.
split.
  rewrite /correlation_hessian trmx1 !mulmx1 mul1mx subr0 mul1mx -!raddfD /=; apply: n0.
  by rewrite -[1]/(1%:R) -!natrD pnatr_eq0.
split; first by rewrite mulmx1; apply: n0; apply: oner_neq0.
split; first by rewrite trmx1 mulmx1.
exact: v_line.
Qed.
