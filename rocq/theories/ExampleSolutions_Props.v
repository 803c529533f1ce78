(** C107: the solutions with which the examples compare their results are optimal. *)
From mathcomp Require Import all_ssreflect all_algebra.
From Coq Require Import Ring Field.
From Verif Require Import MCRing Mat_Base Geometry_Spec Linalg_Spec Linalg_Exist Calculus Stiefel_Proofs Group_Proofs Examples_Model Examples_Props.
Set Implicit Arguments.
Unset Strict Implicit.
Unset Printing Implicit Defensive.
Import GRing.Theory Num.Theory Order.TTheory.
Local Open Scope ring_scope.

(** * The specification *)
(** [top] selects [p] of the numbers [l], none of the others being larger: what [np.argsort(l)[-p:]] gives. *)
Definition selects_largest (R : rcfType) r p (l : 'rV[R]_r) (top : 'I_p -> 'I_r) : Prop :=
  injective top /\ forall a j, (forall b, top b != j) -> l 0 j <= l 0 (top a).
(** [V[:, top]] *)
Definition select_columns (K : ringType) n r p (V : 'M[K]_(n, r)) (top : 'I_p -> 'I_r) : 'M[K]_(n, p) := \matrix_(i, a) V i (top a).
(** [V[top, :]] *)
Definition select_rows (K : ringType) n r p (V : 'M[K]_(r, n)) (top : 'I_p -> 'I_r) : 'M[K]_(p, n) := \matrix_(a, j) V (top a) j.

(** * Sums of largest numbers *)
Section Weights.
Variables (R : rcfType) (r p : nat) (l : 'rV[R]_r) (top : 'I_p -> 'I_r).
Hypothesis S : selects_largest l top.
Let T : {set 'I_r} := [set top a | a : 'I_p].
Lemma sum_top (f : 'I_r -> R) : \sum_a f (top a) = \sum_(i in T) f i.
Proof. by rewrite big_imset //= => a b _ _; case: S => I _; apply: I. Qed.
Lemma card_top : \sum_(i in T) (1 : R) = p%:R.
Proof. by rewrite -(sum_top (fun=> 1)) sumr_const card_ord. Qed.
Lemma weights (w : 'I_r -> R) : (forall i, 0 <= w i <= 1) -> \sum_i w i <= p%:R ->
  (forall i, 0 <= l 0 i) \/ \sum_i w i = p%:R -> \sum_i l 0 i * w i <= \sum_a l 0 (top a).
Proof.
move=> W Wp alt; have [I M] := S.
have W0 i : 0 <= w i by case/andP: (W i).
have [m [m1 m2 m3]] : exists m : R, [/\ (forall i, i \in T -> m <= l 0 i), (forall i, i \notin T -> l 0 i * w i <= m * w i) &
    (m * (\sum_i w i) <= m * p%:R)%R].
  have [p0|p0] := posnP p.
    have Z i : w i = 0.
      have E : \sum_i w i = 0 by apply/eqP; rewrite eq_le sumr_ge0 // andbT (le_trans Wp) // p0.
      move/eqP: E; rewrite psumr_eq0 // => /allP/(_ i).
      by rewrite mem_index_enum => /(_ isT)/eqP.
    exists 0; split=> [i /imsetP[[a ap]]|i _|]; first by exfalso; rewrite p0 in ap.
      by rewrite Z !mulr0.
    by rewrite !mul0r.
  pose a0 := [arg min_(a < Ordinal p0) l 0 (top a)]%O.
  have A0 a : l 0 (top a0) <= l 0 (top a) by rewrite /a0; case: arg_minP => // b _ /(_ a isT).
  exists (l 0 (top a0)); split.
  - by move=> i /imsetP[a _ ->].
  - move=> i iT; rewrite ler_wpmul2r //.
    by apply: M => b; apply: contraNneq iT => <-; apply: imset_f.
  - by case: alt => [l0|->] //; rewrite ler_wpmul2l.
have D : 0 <= m * p%:R - m * \sum_i w i by rewrite subr_ge0.
rewrite sum_top -subr_ge0; apply: le_trans D _.
rewrite (bigID (mem T)) /= [X in _ <= _ - X](bigID (mem T)) /= -card_top.
rewrite mulrDr !mulr_sumr !opprD !addrA ler_add //; last by rewrite ler_opp2 ler_sum.
rewrite -!sumrB ler_sum // => i iT; rewrite -[X in _ <= X - _]mulr1 -!mulrBr ler_wpmul2r ?m1 // subr_ge0.
by case/andP: (W i).
Qed.
End Weights.

(** * Ky Fan *)
Section KyFan.
Variables (R : rcfType) (K : starField R).
Lemma bessel m k l (Q : 'M[K]_(m, k)) (Z : 'M[K]_(m, l)) : orthonormal Q -> inner (Q^H *m Z) (Q^H *m Z) <= inner Z Z.
Proof.
move=> O; move: (inner_ge0 (Z - Q *m (Q^H *m Z))).
have E : inner Z (Q *m (Q^H *m Z)) = inner (Q^H *m Z) (Q^H *m Z) by rewrite innerC inner_mull.
have E2 Y : inner (Q *m Y) (Q *m Y) = inner Y Y by rewrite inner_mull mulmxA O mul1mx.
by rewrite innerBl !innerBr (innerC (Q *m _) Z) E E2 subrr subr0 subr_ge0.
Qed.
(** the weights of the columns of [X] with respect to those of [V] *)
Definition weight n r p (V : 'M[K]_(n, r)) (X : 'M[K]_(n, p)) i : R := \sum_b abs2 ((V^H *m X) i b).
Lemma form_weights n r p (V : 'M[K]_(n, r)) (l : 'rV[R]_r) (X : 'M[K]_(n, p)) :
  inner X (V *m real_diag K l *m V^H *m X) = \sum_i l 0 i * weight V X i.
Proof.
rewrite -!mulmxA innerC inner_mull innerC; set Y := V^H *m X.
rewrite /inner; apply: eq_bigr => i _; rewrite mulr_sumr; apply: eq_bigr => b _.
by rewrite /real_diag mul_diag_mx !mxE mulrCA sf_reZ.
Qed.
Lemma weight_bounds n r p (V : 'M[K]_(n, r)) (X : 'M[K]_(n, p)) i : orthonormal V -> orthonormal X -> 0 <= weight V X i <= 1.
Proof.
move=> OV OX; rewrite sumr_ge0 /= => [|b _]; last exact: abs2_ge0.
have -> : weight V X i = inner (X^H *m col i V) (X^H *m col i V).
  rewrite inner_entries; apply: eq_bigr => b _; rewrite big_ord1.
  have -> : (X^H *m col i V) b 0 = sf_conj ((V^H *m X) i b).
    by rewrite -adjmxE adjmxM adjmxK !mxE; apply: eq_bigr => k _; rewrite !mxE.
  by rewrite /abs2 sf_conjK mulrC.
apply: le_trans (bessel _ OX) _; rewrite innerE le_eqVlt; apply/orP; left.
have -> : (col i V)^H *m col i V = 1%:M.
  apply/matrixP => a b; rewrite !ord1 !mxE eqxx; have := congr1 (fun A : 'M_r => A i i) OV; rewrite !mxE eqxx => <-.
  by apply: eq_bigr => k _; rewrite !mxE.
by rewrite mxtrace1 -(rmorph_nat sf_real) re_real.
Qed.
Lemma weight_sum n r p (V : 'M[K]_(n, r)) (X : 'M[K]_(n, p)) : orthonormal V -> orthonormal X -> \sum_i weight V X i <= p%:R.
Proof.
move=> OV OX; have -> : \sum_i weight V X i = inner (V^H *m X) (V^H *m X) by [].
apply: le_trans (bessel _ OV) _; rewrite innerE OX mxtrace1 -(rmorph_nat sf_real) re_real //.
Qed.
Lemma weight_sum1 n p (V : 'M[K]_n) (X : 'M[K]_(n, p)) : orthonormal V -> orthonormal X -> \sum_i weight V X i = p%:R.
Proof.
move=> OV OX; have -> : \sum_i weight V X i = inner (V^H *m X) (V^H *m X) by [].
by rewrite inner_mull adjmxK mulmxA (mulmx1C OV) mul1mx innerE OX mxtrace1 -(rmorph_nat sf_real) re_real.
Qed.
End KyFan.

(** * C107 *)
Section Subspaces.
Variables (R : rcfType) (K : starField R).
Lemma select_orthonormal n r p (V : 'M[K]_(n, r)) (top : 'I_p -> 'I_r) : injective top -> orthonormal V -> orthonormal (select_columns V top).
Proof.
move=> I O; apply/matrixP => a b; rewrite !mxE; have := congr1 (fun A : 'M_r => A (top a) (top b)) O.
rewrite !mxE (inj_eq I) => <-; by apply: eq_bigr => k _; rewrite !mxE.
Qed.
Lemma select_weight n r p (V : 'M[K]_(n, r)) (top : 'I_p -> 'I_r) i : orthonormal V ->
  weight V (select_columns V top) i = \sum_(b | top b == i) 1.
Proof.
move=> O; rewrite big_mkcond; apply: eq_bigr => b _.
have -> : (V^H *m select_columns V top) i b = (i == top b)%:R.
  have := congr1 (fun A : 'M_r => A i (top b)) O; rewrite !mxE => <-; by apply: eq_bigr => k _; rewrite !mxE.
rewrite eq_sym; case: eqP => _; rewrite /abs2 ?rmorph1 ?mulr1 ?sf_re1 //.
by rewrite mulr0 raddf0.
Qed.
Lemma select_form n r p (V : 'M[K]_(n, r)) (l : 'rV[R]_r) (top : 'I_p -> 'I_r) : orthonormal V ->
  inner (select_columns V top) (V *m real_diag K l *m V^H *m select_columns V top) = \sum_a l 0 (top a).
Proof.
move=> O; rewrite form_weights (eq_bigr (fun i => \sum_(b | top b == i) l 0 (top b))).
  by rewrite [RHS](partition_big top xpredT).
by move=> i _; rewrite select_weight // mulr_sumr; apply: eq_bigr => b /eqP ->; rewrite mulr1.
Qed.
(** The sum of the largest eigenvalues is the maximum of the traces. *)
Lemma ky_fan n r p (V : 'M[K]_(n, r)) (l : 'rV[R]_r) (top : 'I_p -> 'I_r) (X : 'M[K]_(n, p)) :
  orthonormal V -> selects_largest l top -> orthonormal X -> (forall i, 0 <= l 0 i) \/ r = n ->
  inner X (V *m real_diag K l *m V^H *m X) <= \sum_a l 0 (top a).
Proof.
move=> O S OX alt; rewrite form_weights; apply: (weights S).
- by move=> i; apply: weight_bounds.
- exact: weight_sum.
- case: alt => [|E]; [by left|right]; move: V l top O S; rewrite E => V l top O S; exact: weight_sum1.
Qed.
End Subspaces.

Section Real.
Variable R : rcfType.
Local Notation F := (real_star R).
Add Ring R_ring : (mc_ring R).

(** The eigenvectors of the [p] largest eigenvalues minimise the cost among all orthonormal families. *)
Theorem C107_subspace n p (matrix : 'M[F]_n) (eigenvalues : 'rV[R]_n) (eigenvectors : 'M[F]_n) (top : 'I_p -> 'I_n) :
  valid_eigh matrix (eigenvalues, eigenvectors) -> selects_largest eigenvalues top ->
  let X := select_columns eigenvectors top in
  X^T *m X = 1%:M /\ forall Y : 'M[F]_(n, p), Y^T *m Y = 1%:M -> subspace_cost matrix X <= subspace_cost matrix Y.
Proof.
move=> [O ->] S /=; have [I _] := S; split; [rewrite -adj_real; refine (select_orthonormal I O)|].
move=> Y OY; rewrite /subspace_cost !trace_inner ler_opp2 select_form //; apply: ky_fan => //; last by right.
by rewrite /orthonormal adj_real.
Qed.
Theorem C107_complex_subspace n p (matrix : 'M[complex_star R]_n) (eigenvalues : 'rV[R]_n) eigenvectors (top : 'I_p -> 'I_n) :
  valid_eigh matrix (eigenvalues, eigenvectors) -> selects_largest eigenvalues top ->
  let X := select_columns eigenvectors top in
  X^H *m X = 1%:M /\ forall Y : 'M[complex_star R]_(n, p), Y^H *m Y = 1%:M -> complex_subspace_cost matrix X <= complex_subspace_cost matrix Y.
Proof.
move=> [O ->] S /=; have [I _] := S; split; [refine (select_orthonormal I O)|].
move=> Y OY; rewrite /complex_subspace_cost -!mulmxA -!innerE !mulmxA ler_opp2 select_form //; apply: ky_fan => //; last by right.
Qed.
(** Principal components: the eigenvectors of [samples^T samples]. *)
Lemma pca_costE m n p (samples : 'M[F]_(m, n)) (w : 'M[F]_(n, p)) : w^T *m w = 1%:M ->
  pca_cost samples w = inner samples samples - inner w (samples^T *m samples *m w).
Proof.
move=> O; rewrite /pca_cost fnorm_sqr innerBl !innerBr.
have E : inner samples (samples *m w *m w^T) = inner w (samples^T *m samples *m w).
  by rewrite innerC inner_mulTr trmxK inner_mulT mulmxA.
have E2 : inner (samples *m w *m w^T) (samples *m w *m w^T) = inner w (samples^T *m samples *m w).
  by rewrite inner_mulTr trmxK -[_ *m w^T *m w]mulmxA O mulmx1 inner_mulT mulmxA.
by rewrite (innerC (_ *m w^T) samples) E E2 subrr subr0.
Qed.
Theorem C107_pca m n p (samples : 'M[F]_(m, n)) (eigenvalues : 'rV[R]_n) (eigenvectors : 'M[F]_n) (top : 'I_p -> 'I_n) :
  valid_eigh (samples^T *m samples) (eigenvalues, eigenvectors) -> selects_largest eigenvalues top ->
  let w := select_columns eigenvectors top in
  w^T *m w = 1%:M /\ forall y : 'M[F]_(n, p), y^T *m y = 1%:M -> pca_cost samples w <= pca_cost samples y.
Proof.
move=> V S w; have [O H] := C107_subspace V S; split=> // y Oy.
have := H y Oy; rewrite /subspace_cost !trace_inner ler_opp2 => L.
by rewrite !pca_costE // ler_add2l ler_opp2.
Qed.

(** Least squares: where the gradient vanishes, and in particular at [pinv(samples) @ targets], the cost is minimal.  Of the
    pseudo-inverse two of the four Penrose equations are used. *)
Theorem C107_regression m n (samples : 'M[F]_(m, n)) (targets : 'cV[F]_m) :
  (forall w, regression_gradient samples targets w = 0 -> forall y, regression_cost samples targets w <= regression_cost samples targets y) /\
  (forall pinv : 'M[F]_(n, m), samples *m pinv *m samples = samples -> (samples *m pinv)^T = samples *m pinv ->
     regression_gradient samples targets (regression_solution targets pinv) = 0).
Proof.
split=> [w|pinv P1 P2].
  rewrite /regression_gradient -scalemxAl => /eqP; rewrite scaler_eq0 oppr_eq0 pnatr_eq0 /= => /eqP G y.
  rewrite /regression_cost !fnorm_sqr; set r := targets - samples *m w.
  have -> : targets - samples *m y = r + samples *m (w - y) by rewrite mulmxBr /r addrA subrK.
  have Z : inner (samples *m (w - y)) r = 0 by rewrite inner_mulT G inner0r.
  move: Z; clearbody r => Z; rewrite innerDl !innerDr.
  by rewrite (innerC r (samples *m _)) Z !(addr0, add0r) ler_addl inner_ge0.
have E : samples^T *m (samples *m pinv) = samples^T by rewrite -P2 -trmx_mul P1.
by rewrite /regression_gradient /regression_solution -scalemxAl mulmxBr !mulmxA -[samples^T *m samples *m pinv]mulmxA E subrr scaler0.
Qed.

(** The nearest matrix with columns of length one, which is unique. *)
Theorem C107_closest m n (matrix : 'M[F]_(m, n)) : (forall j, exists i, matrix i j != 0) ->
  (forall j, \sum_i closest_solution matrix i j ^+ 2 = 1) /\
  forall X : 'M[F]_(m, n), (forall j, \sum_i X i j ^+ 2 = 1) ->
    closest_cost matrix (closest_solution matrix) <= closest_cost matrix X /\
    (closest_cost matrix X = closest_cost matrix (closest_solution matrix) -> X = closest_solution matrix).
Proof.
move=> N; pose l j := Num.sqrt (\sum_i matrix i j ^+ 2).
have q0 j : 0 < \sum_i matrix i j ^+ 2.
  have [i M] := N j; rewrite (bigD1 i) //= ltr_paddr ?sumr_ge0 // => [k _|]; first exact: sqr_ge0.
  by rewrite exprn_even_gt0.
have l0 j : 0 < l j by rewrite sqrtr_gt0.
have l2 j : l j ^+ 2 = \sum_i matrix i j ^+ 2 by rewrite sqr_sqrtr ?ltW.
have U j : \sum_i closest_solution matrix i j ^+ 2 = 1.
  rewrite (eq_bigr (fun i => (l j ^+ 2)^-1 * matrix i j ^+ 2)); last by move=> i _; rewrite mxE -/(l j) expr_div_n mulrC.
  by rewrite -mulr_sumr -l2 mulVf // expf_neq0 // gt_eqF.
have key (X : 'M[F]_(m, n)) : (forall j, \sum_i X i j ^+ 2 = 1) ->
  closest_cost matrix X = 2%:R^-1 * (\sum_j ((l j - 1) ^+ 2 + l j * \sum_i (X i j - closest_solution matrix i j) ^+ 2)).
  move=> UX; rewrite /closest_cost /sum_squares exchange_big; congr (_ * _); apply: eq_bigr => j _.
  have E i : (X - matrix) i j ^+ 2 = X i j ^+ 2 - 2%:R * (X i j * matrix i j) + matrix i j ^+ 2.
    by rewrite !mxE sqrrB -mulr_natl.
  have E' i : (X i j - closest_solution matrix i j) ^+ 2 = X i j ^+ 2 - (2%:R / l j) * (X i j * matrix i j) + closest_solution matrix i j ^+ 2.
    rewrite [closest_solution _ _ _]mxE -/(l j) expr_div_n.
    have -> : (X i j - matrix i j / l j) ^+ 2 = X i j ^+ 2 - 2%:R / l j * (X i j * matrix i j) + matrix i j ^+ 2 / l j ^+ 2; last by [].
    by rewrite sqrrB expr_div_n -mulr_natl; congr (_ - _ + _); rewrite -[RHS]mulrA; congr (_ * _); rewrite mulrA mulrC.
  rewrite (eq_bigr _ (fun i _ => E i)) [Y in l j * Y](eq_bigr _ (fun i _ => E' i)).
  rewrite !big_split /= !sumrN -!mulr_sumr UX U -l2; set a := \sum_i _.
  have C : l j * (2%:R / l j * a) = 2%:R * a by rewrite mulrA [l j * _]mulrC divfK // gt_eqF.
  rewrite !mulrDr mulrN C; mcring R.
have h0 : 0 < (2%:R^-1 : R) by rewrite invr_gt0 ltr0n.
have D (X : 'M[F]_(m, n)) : (forall j, \sum_i X i j ^+ 2 = 1) -> closest_cost matrix X = closest_cost matrix (closest_solution matrix) +
    2%:R^-1 * \sum_j l j * \sum_i (X i j - closest_solution matrix i j) ^+ 2.
  move=> UX; rewrite !key // -mulrDr -big_split /=; congr (_ * _); apply: eq_bigr => j _.
  rewrite -addrA; congr (_ + _); have -> : \sum_i (closest_solution matrix i j - closest_solution matrix i j) ^+ 2 = 0 by apply: big1 => i _; rewrite subrr expr0n.
  by rewrite mulr0 add0r.
have G (X : 'M[F]_(m, n)) j : 0 <= l j * \sum_i (X i j - closest_solution matrix i j) ^+ 2.
  by apply: mulr_ge0; [exact: ltW|apply: sumr_ge0 => i _; exact: sqr_ge0].
split=> // X UX; rewrite (D X) //; split; first by rewrite ler_addl; apply: mulr_ge0; [exact: ltW|apply: sumr_ge0 => j _; exact: G].
move/eqP; rewrite -subr_eq0 addrAC subrr add0r mulf_eq0 gt_eqF //= psumr_eq0 // => /allP Z.
apply/matrixP => i j; have := Z j; rewrite mem_index_enum => /(_ isT) /=; rewrite mulf_eq0 gt_eqF //=.
rewrite psumr_eq0 => [/allP/(_ i)|k _]; last exact: sqr_ge0.
by rewrite mem_index_enum => /(_ isT) /=; rewrite expf_eq0 /= subr_eq0 => /eqP.
Qed.

(** * Rotations *)
Lemma orthogonal_entry n (Z : 'M[F]_n) i : Z^T *m Z = 1%:M -> (Z i i : R) <= 1.
Proof.
move=> O; have := congr1 (fun A : 'M_n => A i i) O; rewrite !mxE eqxx (bigD1 i) //= !mxE => E.
have [//|L] := leP (Z i i : R) 1; exfalso; move/eqP: E; rewrite gt_eqF // ltr_paddr //.
  by apply: sumr_ge0 => k _; rewrite mxE -expr2 sqr_ge0.
by rewrite -expr2 exprn_egt1.
Qed.
Lemma inner_tr1 n (A : 'M[F]_n) : inner A 1%:M = \tr A.
Proof.
rewrite innerC innerE adj_real trmx1 mul1mx; by [].
Qed.
Lemma reflection_trace n (Z : 'M[F]_n) : Z^T *m Z = 1%:M -> (\det Z : R) = -1 -> (\tr Z : R) <= n%:R - 2%:R.
Proof.
move=> O D.
have D0 : \det (Z + 1%:M) = 0.
  have E : Z + 1%:M = Z *m (Z + 1%:M)^T by rewrite linearD /= trmx1 mulmxDr mulmx1 (mulmx1C O) addrC.
  have {E}E : \det (Z + 1%:M) = - \det (Z + 1%:M) by rewrite {1}E det_mulmx det_tr D mulN1r.
  move/eqP: E; rewrite -subr_eq0 opprK -mulr2n mulrn_eq0 /= => /eqP; exact.
have /det0P[v v0 vZ] : \det (Z + 1%:M) == 0 by rewrite D0.
have {vZ}E : v *m (Z - 1%:M) = (- 2%:R : F) *: v.
  have -> : Z - 1%:M = Z + 1%:M - (1%:M + 1%:M) by rewrite opprD addrA addrK.
  rewrite mulmxBr vZ sub0r mulmxDr mulmx1 -mulr2n -scaler_nat scaleNr //.
have V : 0 < fnorm v by rewrite lt_def fnorm_eq0 v0 sqrtr_ge0.
have B : 2%:R <= fnorm (Z - 1%:M).
  have := fnorm_mul v (Z - 1%:M); rewrite E.
  have -> : fnorm ((- 2%:R : F) *: v) = fnorm v * 2%:R.
    rewrite /fnorm innerZF innerZFr mulrA mulrNN -expr2 sqrtrM ?sqr_ge0 // sqrtr_sqr ger0_norm ?ler0n // mulrC //.
  by rewrite ler_pmul2l.
have {B}: 2%:R ^+ 2 <= fnorm (Z - 1%:M) ^+ 2 by rewrite ler_pexpn2r ?nnegrE ?ler0n ?sqrtr_ge0.
rewrite fnorm_sqr innerBl !innerBr (innerC 1%:M Z) inner_tr1 [inner 1%:M _]inner_tr1 mxtrace1.
have -> : inner Z Z = n%:R by rewrite innerE adj_real O mxtrace1.
set a := (\tr Z : R) => H; rewrite -subr_ge0 -(pmulr_rge0 _ (ltr0Sn R 1)).
have -> : 2%:R * (n%:R - 2%:R - a) = n%:R - a - (a - n%:R) - 2%:R ^+ 2 by mcring R.
by rewrite subr_ge0.
Qed.

Lemma rotation_value n (U : 'M[F]_n) (s : 'rV[R]_n) (Vt Y : 'M[F]_n) :
  tensordot Y (U *m real_diag F s *m Vt) = \sum_i s 0 i * ((U^T *m Y *m Vt^T) i i : R).
Proof.
rewrite tensordotE innerC inner_mulTr inner_mulT mulmxA innerC inner_diagonal /inner big_ord1.
by apply: eq_bigr => i _; rewrite !mxE /= mulrC.
Qed.
(** Kabsch: of all rotations the one computed is the closest to [ABt]. *)
Theorem C107_rotations k n (svd : 'M[F]_n -> 'M[F]_n * 'rV[R]_n * 'M[F]_n) (ABt : stack F k n n) :
  (forall l, valid_svd (ABt l) (svd (ABt l)) /\ forall i j : 'I_n, (i <= j)%N -> (svd (ABt l)).1.2 0 j <= (svd (ABt l)).1.2 0 i) ->
  let X : stack F k n n := [ffun l => optimal_solution svd (ABt l)] in
  (forall l, (X l)^T *m X l = 1%:M /\ (\det (X l) : R) = 1) /\
  (forall (Y : stack F k n n), (forall l, (Y l)^T *m Y l = 1%:M /\ (\det (Y l) : R) = 1) ->
     (forall l, tensordot (Y l) (ABt l) <= tensordot (X l) (ABt l)) /\ rotations_cost ABt X <= rotations_cost ABt Y).
Proof.
move=> H X.
suff K l : ((X l)^T *m X l = 1%:M /\ (\det (X l) : R) = 1) /\
  forall Y : 'M[F]_n, Y^T *m Y = 1%:M /\ (\det Y : R) = 1 -> tensordot Y (ABt l) <= tensordot (X l) (ABt l).
  split=> [l|Y OY]; first by have [] := K l.
  split=> [l|]; first by have [_] := K l; apply.
  by rewrite /rotations_cost ler_opp2 ler_sum // => l _; have [_] := K l; apply.
rewrite /X ffunE /optimal_solution; move: (H l); case: (svd (ABt l)) => [[U s] Vt] /= [[OU [OV [s0 ->]]] sd].
have OU' : U^T *m U = 1%:M by rewrite -adj_real.
have OV' : Vt *m Vt^T = 1%:M by rewrite -adj_real.
have OZ (Y : 'M[F]_n) : Y^T *m Y = 1%:M -> (U^T *m Y *m Vt^T)^T *m (U^T *m Y *m Vt^T) = 1%:M.
  move=> OY; rewrite !trmx_mul !trmxK !mulmxA -[_ *m U *m U^T]mulmxA (mulmx1C OU') mulmx1.
  by rewrite -[_ *m Y^T *m Y]mulmxA OY mulmx1.
have OUV : orthonormal (U *m Vt).
  by rewrite /orthonormal adj_real trmx_mul !mulmxA -[_ *m U^T *m U]mulmxA OU' mulmx1 (mulmx1C OV').
have DZ (Y : 'M[F]_n) : (\det Y : R) = 1 -> \det (U^T *m Y *m Vt^T) = \det (U *m Vt).
  by move=> DY; rewrite !det_mulmx !det_tr DY mulr1.
have [D|D] := det_orthogonal OUV; rewrite D.
  rewrite subrr normr0 invr_gt0 exprn_gt0 ?ltr0n //; split; first by rewrite -{1}adj_real.
  move=> Y [OY DY]; rewrite !rotation_value ler_sum // => i _; rewrite ler_wpmul2l //.
  have -> : U^T *m (U *m Vt) *m Vt^T = 1%:M by rewrite mulmxA OU' mul1mx OV'.
  by rewrite [X in _ <= X]mxE eqxx; apply: orthogonal_entry; apply: OZ.
have -> : (`|1 - (- 1 : R)| < (10%:R ^+ 10)^-1) = false.
  apply/negbTE; rewrite -leNgt opprK ger0_norm ?addr_ge0 ?ler01 //.
  apply: (@le_trans _ _ 1); last by rewrite ler_addl ler01.
  by rewrite invf_le1 ?exprn_gt0 ?ltr0n // exprn_ege1 // ler1n.
case: n U s Vt ABt svd X H OU OV s0 sd OU' OV' OZ OUV DZ D => [|n] U s Vt _ _ _ _ OU OV s0 sd OU' OV' OZ OUV DZ D.
  by exfalso; move: D; rewrite det_mx00 => /eqP; rewrite gt_eqF // (lt_trans (ltrN10 R) ltr01).
pose J : 'rV[F]_n.+1 := \row_j (if j == ord_max then -1 else 1).
have -> : \matrix_(i, j) (U i j * if j.+1 == n.+1 then -1 else 1) = U *m diag_mx J.
  by apply/matrixP => i j; rewrite mul_mx_diag !mxE.
have JJ : diag_mx J *m diag_mx J = 1%:M.
  apply/matrixP => i j; rewrite mul_diag_mx !mxE; case: (i =P j) => _; last by rewrite !mulr0n mulr0.
  by rewrite !mulr1n; case: ifP => _; rewrite ?mulrNN mulr1.
have DJ : \det (diag_mx J) = -1.
  rewrite det_diag big_ord_recr /= !mxE eqxx big1 ?mul1r // => i _; rewrite !mxE ifF //.
  by apply/negbTE; rewrite neq_ltn /= ltn_ord.
split.
  split; last by rewrite !det_mulmx DJ mulrAC -det_mulmx D mulrNN mulr1.
  rewrite !trmx_mul tr_diag_mx !mulmxA -[_ *m U^T *m U]mulmxA OU' mulmx1 -[_ *m diag_mx J *m diag_mx J]mulmxA JJ mulmx1.
  by rewrite (mulmx1C OV').
move=> Y [OY DY]; rewrite !rotation_value.
have -> : U^T *m (U *m diag_mx J *m Vt) *m Vt^T = diag_mx J by rewrite !mulmxA OU' mul1mx -mulmxA OV' mulmx1.
set Z := U^T *m Y *m Vt^T; have T : (\tr Z : R) <= n.+1%:R - 2%:R.
  by apply: reflection_trace; [exact: OZ | rewrite DZ].
pose sl := s 0 ord_max.
have -> : \sum_i s 0 i * (diag_mx J i i : R) = \sum_i (s 0 i - sl) + sl * (n.+1%:R - 2%:R).
  have -> : \sum_i s 0 i * (diag_mx J i i : R) = \sum_i s 0 i - 2%:R * sl.
    rewrite !big_ord_recr /= !mxE !eqxx mulr1n mulrN1 (eq_bigr (fun i => s 0 (widen_ord (leqnSn n) i))).
      by rewrite /sl; move: (\sum_i _) (s 0 _) => a b; mcring R.
    move=> i _; rewrite !mxE eqxx mulr1n ifF ?mulr1 //; by apply/negbTE; rewrite neq_ltn /= ltn_ord.
  rewrite sumrB sumr_const card_ord -[sl *+ _]mulr_natl; move: (\sum_i _) (n.+1%:R : R) => a b; mcring R.
have -> : \sum_i s 0 i * (Z i i : R) = \sum_i (s 0 i - sl) * (Z i i : R) + sl * (\tr Z : R).
  by rewrite /mxtrace mulr_sumr -big_split /=; apply: eq_bigr => i _; rewrite mulrBl subrK.
apply: ler_add; last by rewrite ler_wpmul2l // s0.
apply: ler_sum => i _; rewrite -[X in _ <= X]mulr1 ler_wpmul2l ?subr_ge0 ?sd ?leq_ord //.
by apply: orthogonal_entry; apply: OZ.
Qed.

(** * Low rank *)
Lemma pid_mul k l : (k <= l)%N -> (pid_mx k : 'M[F]_(k, l)) *m (pid_mx k : 'M[F]_(l, k)) = 1%:M.
Proof. by move=> kl; rewrite pid_mx_id // pid_mx_1. Qed.
(** Eckart-Young: the truncated singular value decomposition is closest to [matrix] among all matrices of rank at most [k], and
    in particular among the points of the manifold. *)
Theorem C107_lowrank m n r k (matrix : 'M[F]_(m, n)) (u : 'M[F]_(m, r)) (s : 'rV[R]_r) (vt : 'M[F]_(r, n)) (top : 'I_k -> 'I_r) :
  valid_svd matrix (u, s, vt) -> selects_largest s top ->
  let U := select_columns u top in let Vt := select_rows vt top in let S : 'rV[F]_k := \row_a s 0 (top a) in
  U^T *m U = 1%:M /\ Vt *m Vt^T = 1%:M /\
  (forall B : 'M[F]_(m, n), (\rank B <= k)%N -> lowrank_cost matrix U S Vt <= fnorm (B - matrix) ^+ 2) /\
  (forall (U' : 'M[F]_(m, k)) S' Vt', lowrank_cost matrix U S Vt <= lowrank_cost matrix U' S' Vt').
Proof.
move=> [Ou [Ov [s0 E]]] T U Vt S; have [I M] := T.
pose P : 'M[F]_(k, r) := \matrix_(a, i) (top a == i)%:R.
have sum1 (f : 'I_r -> F) j : \sum_i f i * (j == i)%:R = f j.
  rewrite (bigD1 j) //= eqxx mulr1 big1 ?addr0 // => i; rewrite eq_sym => /negbTE ->; by rewrite mulr0.
have UE : U = u *m P^T.
  by apply/matrixP => i a; rewrite !mxE -(sum1 (u i)); apply: eq_bigr => j _; rewrite !mxE.
have VE : Vt = P *m vt.
  by apply/matrixP => a j; rewrite !mxE -(sum1 (vt^~ j)); apply: eq_bigr => i _; rewrite !mxE mulrC.
have PP : P *m P^T = 1%:M.
  apply/matrixP => a b; rewrite !mxE -(inj_eq I) eq_sym -[RHS](sum1 (fun i => (top b == i)%:R)).
  by apply: eq_bigr => i _; rewrite !mxE mulrC.
have SE : diag_mx S = P *m real_diag F s *m P^T.
  apply/matrixP => a b; rewrite /real_diag mul_mx_diag [RHS]mxE.
  rewrite (eq_bigr (fun i => ((top a == i)%:R * (s 0 i : F)) * (top b == i)%:R)) => [|i _]; last by rewrite !mxE.
  rewrite (sum1 (fun i => (top a == i)%:R * (s 0 i : F))) !mxE (inj_eq I).
  by case: eqP => [->|_]; rewrite ?mul1r ?mulr1n ?mul0r ?mulr0n.
have OU : U^T *m U = 1%:M by rewrite UE trmx_mul trmxK !mulmxA -[P *m u^T *m u]mulmxA -adj_real Ou mulmx1.
have OV : Vt *m Vt^T = 1%:M by rewrite VE trmx_mul !mulmxA -[P *m vt *m vt^T]mulmxA -adj_real Ov mulmx1.
have C : lowrank_cost matrix U S Vt = inner matrix matrix - \sum_a s 0 (top a) ^+ 2.
  have D : inner (diag_mx S) (diag_mx S) = \sum_a s 0 (top a) ^+ 2.
    by rewrite inner_diagonal /inner big_ord1; apply: eq_bigr => a _; rewrite !mxE eqxx.
  rewrite /lowrank_cost fnorm_sqr innerBl !innerBr.
  have -> : inner (U *m diag_mx S *m Vt) (U *m diag_mx S *m Vt) = \sum_a s 0 (top a) ^+ 2.
    by rewrite inner_mulTr -[_ *m Vt *m Vt^T]mulmxA OV mulmx1 inner_mulT mulmxA OU mul1mx.
  have XA : inner (U *m diag_mx S *m Vt) matrix = \sum_a s 0 (top a) ^+ 2.
    rewrite inner_mulTr inner_mulT -D; congr inner; rewrite SE UE VE E !trmx_mul trmxK !mulmxA.
    by rewrite -[P *m u^T *m u]mulmxA -adj_real Ou mulmx1 -[_ *m vt *m vt^T]mulmxA -adj_real Ov mulmx1.
  by rewrite (innerC matrix (_ *m Vt)) XA subrr sub0r opprB.
have L (B : 'M[F]_(m, n)) : (\rank B <= k)%N -> lowrank_cost matrix U S Vt <= fnorm (B - matrix) ^+ 2.
  move=> rB; have km : (k <= m)%N.
    by apply: leq_trans (mulmx1_min Ou); have := leq_card _ I; rewrite !card_ord.
  have [[Q W] /= [QE [OQ _]]] := qr_exists (col_base B *m (pid_mx (\rank B) : 'M_(_, k))) km.
  pose Y := W *m (pid_mx (\rank B) : 'M_(k, _)) *m row_base B.
  have BE : B = Q *m Y.
    by rewrite /Y 2!mulmxA -QE -[col_base B *m _ *m pid_mx _]mulmxA pid_mul // mulmx1 mulmx_base.
  have -> : fnorm (B - matrix) ^+ 2 = inner matrix matrix - inner (Q^H *m matrix) (Q^H *m matrix) + inner (Y - Q^H *m matrix) (Y - Q^H *m matrix).
    have E1 : inner (Q *m Y) matrix = inner Y (Q^H *m matrix) by rewrite inner_mull.
    have E2 : inner (Q *m Y) (Q *m Y) = inner Y Y by rewrite inner_mull mulmxA OQ mul1mx.
    rewrite fnorm_sqr BE; move: (Q^H *m matrix) E1 => G E1; rewrite !innerBl !innerBr (innerC matrix (Q *m Y)) (innerC G Y) E1 E2.
    move: (inner matrix matrix) (inner G G) (inner Y Y) (inner Y G) => a b c d; mcring R.
  rewrite C; apply: (@le_trans _ _ (inner matrix matrix - inner (Q^H *m matrix) (Q^H *m matrix))); last by rewrite ler_addl inner_ge0.
  rewrite ler_add2l ler_opp2.
  pose l : 'rV[R]_r := \row_i s 0 i ^+ 2.
  have -> : inner (Q^H *m matrix) (Q^H *m matrix) = inner Q (u *m real_diag F l *m u^H *m Q).
    rewrite inner_mulr -inner_adj adjmxK !adjmxM !adjmxK; congr inner; rewrite mulmxA; congr (_ *m _).
    rewrite E !adjmxM -!mulmxA; congr (_ *m _); rewrite [vt *m _]mulmxA Ov mul1mx mulmxA; congr (_ *m _).
    apply/matrixP => i j; rewrite /real_diag mul_diag_mx !mxE eq_sym; case: eqP => [->|_]; last by rewrite !mulr0n rmorph0 mulr0.
    by rewrite !mulr1n.
  have -> : \sum_a s 0 (top a) ^+ 2 = \sum_a l 0 (top a) by apply: eq_bigr => a _; rewrite mxE.
  apply: ky_fan => //; last by left=> i; rewrite mxE sqr_ge0.
  split=> // a j H; rewrite !mxE ler_pexpn2r ?nnegrE ?s0 //; exact: M.
split=> //; split=> //; split=> // U' S' Vt'; by apply: L; apply: mulmx_max_rank.
Qed.
End Real.

(** The hypotheses are met: two eigenvalues of which the larger one is selected; a matrix with decreasing singular values of negative
    determinant; a pseudo-inverse of a singular matrix; columns that do not vanish. *)
Section Instance.
Variable R : rcfType.
Local Notation F := (real_star R).
Let lam : 'rV[R]_2 := \row_i (if i == 0 then 2%:R else 1).
Let sgn : 'rV[F]_2 := \row_i (if i == 0 then 1 else -1).
Let two_one : 'M[F]_2 := real_diag F lam.
Let one_zero : 'M[F]_2 := delta_mx 0 0.
Example C107_instance :
  valid_eigh two_one (lam, 1%:M) /\ selects_largest lam (fun _ : 'I_1 => 0) /\ ~ selects_largest lam (fun _ : 'I_1 => 1) /\
  (valid_svd (two_one *m diag_mx sgn) (1%:M, lam, diag_mx sgn) /\
   (forall i j : 'I_2, (i <= j)%N -> lam 0 j <= lam 0 i) /\ (\det (1%:M *m diag_mx sgn) : R) = -1) /\
  (one_zero *m one_zero *m one_zero = one_zero /\ (one_zero *m one_zero)^T = one_zero *m one_zero) /\
  (forall j, exists i, two_one i j != 0).
Proof.
have lamP i : 0 < lam 0 i by rewrite mxE; case: ifP => _; rewrite ?ltr0n ?ltr01.
split.
  split=> /=; first by rewrite /orthonormal adjmx1 mulmx1.
  by rewrite adjmx1 mulmx1 mul1mx.
split.
  split=> [i j _|a j]; first by rewrite !ord1.
  by rewrite !mxE eqxx => /(_ 0) _; case: ifP => _ //; rewrite ler1n.
split.
  case=> _ /(_ 0 0 _) H; have : forall b : 'I_1, (1 : 'I_2) != 0 by [].
  by move/H; rewrite !mxE /= leNgt ltr1n.
split; first split.
- split; first by rewrite /orthonormal adjmx1 mulmx1.
  split; last first.
    by split=> [i|]; [exact: ltW | rewrite mul1mx].
  apply/matrixP => i j; rewrite mul_diag_mx !mxE; case: (altP (i =P j)) => [->|ij]; last by rewrite [j == i]eq_sym (negbTE ij) mulr0n rmorph0 mulr0.
  by rewrite eqxx mulr1n; case: ifP => _; rewrite ?rmorphN rmorph1 ?mulrNN mulr1.
- split.
    move=> i j ij; rewrite !mxE; case: (altP (i =P 0)) => [_|i0]; case: (altP (j =P 0)) => [j0|_] //; first by rewrite ler1n.
    by exfalso; move: ij; rewrite j0 leqn0 => /eqP E; case/eqP: i0; apply: val_inj.
  by rewrite mul1mx det_diag big_ord_recl big_ord1 !mxE /= mul1r.
split; first by rewrite /one_zero !mul_delta_mx trmx_delta.
by move=> j; exists j; rewrite mxE mxE eqxx mulr1n gt_eqF //; exact: lamP.
Qed.
End Instance.
