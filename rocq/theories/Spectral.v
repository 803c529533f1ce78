(** Functions of Hermitian matrices: similarity, traces, Klein's inequality, logarithms of positive definite matrices *)
From Coq Require Import Reals Lra.
From mathcomp Require Import all_ssreflect all_algebra.
From Coq Require Import Ring Field.
From Verif Require Import Rstruct MCRing Mat_Base Geometry_Spec Linalg_Spec Calculus Connection Multi_Model Multi_Proofs.
From Verif Require Import Sphere_Model Sphere_Proofs Stiefel_Proofs Grassmann_Proofs Logm Linalg_Exist PosDef_Proofs.
Set Implicit Arguments.
Unset Strict Implicit.
Unset Printing Implicit Defensive.
Import GRing.Theory Num.Theory Order.TTheory.
Local Open Scope ring_scope.
Delimit Scope R_scope with Re.

Section Trace.
Variables (R : rcfType) (F : starField R) (n : nat).
Local Notation dot := (@inner R F n n).
Implicit Types (A B X : 'M[F]_n) (wv uv : 'rV[R]_n * 'M[F]_n).
Add Ring R_ring : (mc_ring R).
(** the sum of the values of [f] at the eigenvalues *)
Definition eigsum (f : R -> R) wv : R := \sum_i f (wv.1 ord0 i).
Lemma re_tr_eigfun f wv : orthonormal wv.2 -> sf_re (\tr (eigfun f wv)) = eigsum f wv.
Proof.
move=> O; rewrite /eigfun mxtrace_mulC mulmxA O mul1mx /mxtrace.
rewrite (big_morph sf_re (@sf_reD R F) (raddf0 _)); apply: eq_bigr => i _.
by rewrite !mxE eqxx mulr1n re_real.
Qed.
(** A matrix that intertwines Hermitian matrices intertwines their functions. *)
Lemma eigfun_intertwine f wv uv B : orthonormal wv.2 -> orthonormal uv.2 ->
  B *m eigfun id wv = eigfun id uv *m B -> B *m eigfun f wv = eigfun f uv *m B.
Proof.
case: wv uv => [w v] [w' v'] /= O O'; rewrite /eigfun /= => C; have Oc := orthonormalC O; have Oc' := orthonormalC O'.
pose U := v'^H *m B *m v.
have UD : U *m real_diag F (map_mx id w) = real_diag F (map_mx id w') *m U.
  rewrite /U; have := congr1 (fun Z => v'^H *m Z *m v) C; rewrite !mulmxA O' mul1mx -(mulmxA _ v^H v) O mulmx1.
  by [].
have Uf : U *m real_diag F (map_mx f w) = real_diag F (map_mx f w') *m U.
  apply/matrixP => i j; move/matrixP/(_ i j): UD.
  rewrite !mul_diag_mx !mul_mx_diag !mxE => /eqP.
  rewrite [_ * sf_real _]mulrC -subr_eq0 -mulrBl mulf_eq0 => /orP[|/eqP ->]; last by rewrite mulr0 mul0r.
  by rewrite -rmorphB fmorph_eq0 subr_eq0 => /eqP ->; rewrite mulrC.
have BE : B = v' *m U *m v^H by rewrite /U !mulmxA Oc' mul1mx -mulmxA Oc mulmx1.
clearbody U; rewrite BE !mulmxA -(mulmxA _ v^H v) O mulmx1 -(mulmxA v' U) Uf !mulmxA; congr (_ *m _).
by rewrite -(mulmxA _ v'^H v') O' mulmx1.
Qed.
Lemma eigsum_similar f wv uv A A' B : valid_eigh A wv -> valid_eigh A' uv -> B \in unitmx -> B *m A = A' *m B ->
  eigsum f wv = eigsum f uv.
Proof.
move=> [O E] [O' E'] U; rewrite E E' -!eigfun_id => /(eigfun_intertwine f O O') H.
rewrite -!re_tr_eigfun //; congr (sf_re _).
by rewrite -[eigfun f wv](mulKmx U) H mxtrace_mulC -mulmxA mulmxV // mulmx1.
Qed.
(** *** Klein's inequality *)
Definition overlap wv uv i j : R := abs2 ((wv.2^H *m uv.2) i j).
Lemma dot_eigfun f g wv uv : dot (eigfun f wv) (eigfun g uv) =
  \sum_i \sum_j f (wv.1 ord0 i) * g (uv.1 ord0 j) * overlap wv uv i j.
Proof.
case: wv uv => [w v] [w' v'] /=.
rewrite /eigfun /= inner_mulr adjmxK inner_mull; set W := v^H *m v'.
have -> : v^H *m (v' *m real_diag F (map_mx g w') *m v'^H *m v) = W *m real_diag F (map_mx g w') *m W^H.
  by rewrite /W adjmxM adjmxK !mulmxA.
rewrite /overlap /= -/W; clearbody W; apply: eq_bigr => i _.
rewrite (bigD1 i) //= big1 ?addr0; last first.
  by move=> j ji; rewrite mxE eq_sym (negbTE ji) mulr0n rmorph0 mul0r raddf0.
rewrite !mxE eqxx mulr1n sf_conj_real mulr_sumr raddf_sum /=; apply: eq_bigr => j _.
rewrite mul_mx_diag !mxE /abs2 -[RHS]sf_reZ rmorphM; congr (sf_re _).
move: (W i j) (sf_conj _) (sf_real _) (sf_real _) => a b c d.
by rewrite [b * a]mulrC !mulrA; congr (_ * _); rewrite -!mulrA; congr (_ * _); rewrite mulrC.
Qed.
Lemma overlap_row wv uv i : orthonormal wv.2 -> orthonormal uv.2 -> \sum_j overlap wv uv i j = 1.
Proof.
case: wv uv => [w v] [w' v'] /= O O'; set W := v^H *m v'.
have WW : W *m W^H = 1%:M by rewrite /W adjmxM adjmxK mulmxA -(mulmxA v^H) orthonormalC // mulmx1.
rewrite /overlap /= -/W; clearbody W.
have := congr1 (fun M : 'M[F]_n => sf_re (M i i)) WW; rewrite !mxE eqxx sf_re1 => <-.
by rewrite raddf_sum; apply: eq_bigr => j _; rewrite !mxE /abs2; congr (sf_re _); apply: mulrC.
Qed.
Lemma overlap_col wv uv j : orthonormal wv.2 -> orthonormal uv.2 -> \sum_i overlap wv uv i j = 1.
Proof.
case: wv uv => [w v] [w' v'] /= O O'; set W := v^H *m v'.
have WW : W^H *m W = 1%:M by rewrite /W adjmxM adjmxK mulmxA -(mulmxA v'^H) orthonormalC // mulmx1.
rewrite /overlap /= -/W; clearbody W.
have := congr1 (fun M : 'M[F]_n => sf_re (M j j)) WW; rewrite !mxE eqxx sf_re1 => <-.
by rewrite raddf_sum; apply: eq_bigr => i _; rewrite !mxE /abs2.
Qed.
Lemma klein (g d : R -> R) (C : R) A B wv uv : valid_eigh A wv -> valid_eigh B uv -> 
  (forall i j, let x := wv.1 ord0 i in let y := uv.1 ord0 j in `|g y - g x - d x * (y - x)| <= C * (y - x) ^+ 2) ->
  `|eigsum g uv - eigsum g wv - dot (eigfun d wv) (B - A)| <= C * fnorm (B - A) ^+ 2.
Proof.
move=> [O E] [O' E'] H; rewrite E E' -!eigfun_id.
pose S (q : R -> R -> R) : R := \sum_i \sum_j q (wv.1 ord0 i) (uv.1 ord0 j) * overlap wv uv i j.
have S2 f h : dot (eigfun f wv) (eigfun h uv) = S (fun x y => f x * h y) by rewrite dot_eigfun.
have S1 (f h : R -> R) : dot (eigfun f wv) (eigfun h wv) = S (fun x y => f x * h x).
  rewrite {1}/eigfun inner_orthonormal_r // inner_orthonormal // inner_real_diag; apply: eq_bigr => i _.
  by rewrite -mulr_sumr overlap_row // mulr1 !mxE.
have S0 (f : R -> R) : eigsum f wv = S (fun x y => f x).
  by apply: eq_bigr => i _; rewrite -mulr_sumr overlap_row // mulr1.
have S0' (f : R -> R) : eigsum f uv = S (fun x y => f y).
  by rewrite /S exchange_big; apply: eq_bigr => j _; rewrite -mulr_sumr overlap_col // mulr1.
have S3 (f h : R -> R) : dot (eigfun f uv) (eigfun h uv) = S (fun x y => f y * h y).
  rewrite {1}/eigfun inner_orthonormal_r // inner_orthonormal // inner_real_diag -(S0' (fun y => f y * h y)).
  by apply: eq_bigr => i _; rewrite !mxE.
have SB q r : S q - S r = S (fun x y => q x y - r x y).
  by rewrite /S -sumrB; apply: eq_bigr => i _; rewrite -sumrB; apply: eq_bigr => j _; rewrite -mulrBl.
have SZ a q : a * S q = S (fun x y => a * q x y).
  by rewrite /S mulr_sumr; apply: eq_bigr => i _; rewrite mulr_sumr; apply: eq_bigr => j _; rewrite mulrA.
rewrite fnorm_sqr innerBr innerBl !innerBr [dot (eigfun id uv) (eigfun id wv)]innerC S0 S0' !S1 !S2 !S3 !SB SZ.
have ov i j : 0 <= overlap wv uv i j by apply: abs2_ge0.
rewrite /S; apply: le_trans (ler_norm_sum _ _ _) _; apply: ler_sum => i _.
apply: le_trans (ler_norm_sum _ _ _) _; apply: ler_sum => j _; rewrite normrM (ger0_norm (ov i j)) ler_wpmul2r //.
have := H i j; cbv zeta; move: (wv.1 _ _) (uv.1 _ _) => x y.
have -> : C * (y * y - x * y - (x * y - x * x)) = C * (y - x) ^+ 2 by rewrite expr2; mcring R.
by rewrite -mulrBr.
Qed.
(** *** Determinants *)
Lemma det_eigfun f wv : orthonormal wv.2 -> \det (eigfun f wv) = sf_real (\prod_i f (wv.1 ord0 i)).
Proof.
move=> O; rewrite /eigfun det_mulmx mulrC -det_mulmx mulmxA O mul1mx det_diag rmorph_prod.
by apply: eq_bigr => i _; rewrite !mxE.
Qed.
Lemma det_eigh A wv : valid_eigh A wv -> \det A = sf_real (\prod_i wv.1 ord0 i).
Proof. by move=> [O ->]; rewrite -eigfun_id det_eigfun. Qed.
(** *** Lower bounds *)
Lemma posdef_lower A : posdef A -> exists2 a : R, 0 < a & forall z : 'cV[F]_n, a * inner z z <= inner z (A *m z).
Proof.
move=> /cholesky_factor [L [E U]].
pose b := fnorm (invmx L^H) ^+ 2 + 1; have b0 : 0 < b by rewrite ltr_paddl ?ltr01 ?sqr_ge0.
exists b^-1; first by rewrite invr_gt0.
move=> z; rewrite E -mulmxA -{1}[L]adjmxK -inner_mull.
have zE : z = invmx L^H *m (L^H *m z) by rewrite mulKmx ?adj_unit.
rewrite mulrC ler_pdivr_mulr // -!fnorm_sqr {1}zE.
apply: le_trans (_ : (fnorm (invmx L^H) * fnorm (L^H *m z)) ^+ 2 <= _).
  by rewrite ler_sqr ?nnegrE ?mulr_ge0 ?fnorm_ge0 // fnorm_mul.
by rewrite exprMn mulrC ler_wpmul2l ?sqr_ge0 // ler_addl ler01.
Qed.
Lemma column_unit' wv i : orthonormal wv.2 -> inner (col i wv.2) (col i wv.2) = 1.
Proof.
move=> O; have := congr1 (fun M : 'M[F]_n => M i i) O; rewrite mxE [in X in _ = X]mxE eqxx => E.
rewrite innerE (_ : (col i wv.2)^H *m _ = 1%:M) ?mxtrace1 ?mulr1n ?sf_re1 //.
apply/matrixP => a b; rewrite [a]ord1 [b]ord1 [in RHS]mxE eqxx -[RHS]E mxE; apply: eq_bigr => j _.
by rewrite !mxE.
Qed.
Lemma eigfun_col' f wv i : orthonormal wv.2 -> eigfun f wv *m col i wv.2 = sf_real (f (wv.1 ord0 i)) *: col i wv.2.
Proof.
move=> O; rewrite !colE /eigfun !mulmxA -(mulmxA _ wv.2^H) O mulmx1 -!colE.
by apply/matrixP => a b; rewrite [b]ord1 mul_mx_diag !mxE mulrC.
Qed.
Lemma eig_lower A B uv (a : R) : (forall z : 'cV[F]_n, a * inner z z <= inner z (A *m z)) -> valid_eigh B uv ->
  forall j, a - fnorm (B - A) <= uv.1 ord0 j.
Proof.
move=> H [O E] j; set z := col j uv.2; have z1 : inner z z = 1 by apply: column_unit'.
have Bz : inner z (B *m z) = uv.1 ord0 j by rewrite E -eigfun_id eigfun_col' // innerZr z1 mulr1.
have := H z; rewrite z1 mulr1 => Ha.
have : `|inner z ((B - A) *m z)| <= fnorm (B - A).
  apply: le_trans (cauchy_schwarz (@inner_ips R F n 1) _ _) _; rewrite !norm_of_inner.
  have f1 : fnorm z = 1 by rewrite /fnorm z1 sqrtr1.
  by rewrite f1 mul1r -[X in _ <= X]mulr1 -[in X in _ <= X]f1 fnorm_mul.
rewrite mulmxBl innerBr Bz ler_norml => /andP[K _].
rewrite ler_subl_addr; apply: le_trans Ha _.
by rewrite -ler_subl_addl -[X in _ <= X]opprK ler_oppr opprB.
Qed.
(** *** Derivatives of traces *)
Definition tangent_bound (g d : R -> R) : Prop := forall a x, 0 < a -> a <= x ->
  exists2 C, 0 <= C & forall y, a <= y -> `|g y - g x - d x * (y - x)| <= C * (y - x) ^+ 2.
Lemma klein_local (g d : R -> R) A wv : tangent_bound g d -> posdef A -> valid_eigh A wv ->
  exists2 C, 0 <= C & exists2 r, 0 < r & forall B uv, valid_eigh B uv -> fnorm (B - A) <= r ->
    `|eigsum g uv - eigsum g wv - dot (eigfun d wv) (B - A)| <= C * fnorm (B - A) ^+ 2.
Proof.
move=> T P V; have [a a0 Ha] := posdef_lower P.
have a2 : 0 < a / 2%:R by rewrite divr_gt0 ?ltr0n.
have lo i : a / 2%:R <= wv.1 ord0 i.
  have := eig_lower Ha V i; rewrite subrr /fnorm inner0l sqrtr0 subr0; apply: le_trans.
  by rewrite ler_pdivr_mulr ?ltr0n // ler_pmulr // ler1n.
have K i : exists C, 0 <= C /\ forall y, a / 2%:R <= y -> `|g y - g (wv.1 ord0 i) - d (wv.1 ord0 i) * (y - wv.1 ord0 i)| <= C * (y - wv.1 ord0 i) ^+ 2.
  by have [C C0 H] := T _ _ a2 (lo i); exists C.
have [c Hc] := fin_all_exists K.
have c0 i : 0 <= c i by case: (Hc i).
exists (\sum_i c i); first exact: sumr_ge0.
exists (a / 2%:R) => // B uv VB Br; apply: klein => // i j /=.
have y0 : a / 2%:R <= uv.1 ord0 j.
  apply: le_trans (eig_lower Ha VB j); rewrite ler_subr_addr; apply: le_trans (ler_add (lexx _) Br) _.
  by rewrite -splitr.
have [_ /(_ _ y0)] := Hc i; move/le_trans; apply; rewrite ler_wpmul2r ?sqr_ge0 //.
by rewrite (bigD1 i) //= ler_addl; apply: sumr_ge0.
Qed.
Lemma trace_derives (g d : R -> R) (M : R -> 'M[F]_n) M' (wv : R -> 'rV[R]_n * 'M[F]_n) : tangent_bound g d ->
  posdef (M 0) -> (forall t, valid_eigh (M t) (wv t)) -> derives (@rscale R F n n) dot M M' ->
  derives (@real_scale R) (@real_dot R) (fun t => eigsum g (wv t)) (dot (eigfun d (wv 0)) M').
Proof.
move=> T P V D; have [C C0 [r r0 H]] := klein_local T P (V 0).
have [K K0 [s s0 HK]] := derives_lipschitz (@inner_ips R F n n) D.
set G := eigfun d (wv 0); have G0 := fnorm_ge0 G.
move=> e e0.
pose q := C * K ^+ 2 + 1; have q0 : 0 < q by rewrite ltr_paddl ?ltr01 // mulr_ge0 ?sqr_ge0.
have e1 : 0 < e / 2%:R / (fnorm G + 1) by rewrite !divr_gt0 ?ltr0n // ltr_paddl ?ltr01.
have [u u0 Hu] := D _ e1.
have k0 : 0 < K + 1 by rewrite ltr_paddl ?ltr01.
exists (Num.min (Num.min s u) (Num.min (r / (K + 1)) (e / 2%:R / q))).
  by rewrite !lt_minr s0 u0 !divr_gt0 ?ltr0n.
move=> t; rewrite !le_minr => /andP[/andP[t1 t2] /andP[t3 t4]].
rewrite norm_real /real_scale.
have t0 := normr_ge0 t.
have {HK} L : fnorm (M t - M 0) <= K * `|t| := HK t t1.
have {Hu} U : fnorm (M t - M 0 - rscale t M') <= e / 2%:R / (fnorm G + 1) * `|t| := Hu t t2.
have Lr : fnorm (M t - M 0) <= r.
  apply: le_trans L _; apply: le_trans (_ : (K + 1) * `|t| <= _); first by rewrite ler_wpmul2r // ler_addl ler01.
  by rewrite mulrC -ler_pdivl_mulr.
have {H} H := H _ _ (V t) Lr.
have -> : eigsum g (wv t) - eigsum g (wv 0) - t * dot G M' =
   (eigsum g (wv t) - eigsum g (wv 0) - dot G (M t - M 0)) + dot G (M t - M 0 - rscale t M').
  by rewrite (innerBr _ (M t - M 0)) innerZr; move: (eigsum _ _) (eigsum _ _) (dot _ _) (dot _ _) => *; mcring R.
apply: le_trans (ler_norm_add _ _) _.
have -> : e * `|t| = e / 2%:R * `|t| + e / 2%:R * `|t| by rewrite -mulrDl -splitr.
apply: ler_add.
  apply: le_trans H _; apply: le_trans (_ : C * (K * `|t|) ^+ 2 <= _).
    by rewrite ler_wpmul2l // ler_sqr ?nnegrE ?fnorm_ge0 // mulr_ge0.
  have -> : C * (K * `|t|) ^+ 2 = (C * K ^+ 2 * `|t|) * `|t| by rewrite !expr2; mcring R.
  rewrite ler_wpmul2r //; apply: le_trans (_ : q * `|t| <= _).
    by rewrite ler_wpmul2r // ler_addl ler01.
  by rewrite mulrC -ler_pdivl_mulr.
apply: le_trans (cauchy_schwarz (@inner_ips R F n n) _ _) _; rewrite !norm_of_inner.
apply: le_trans (ler_wpmul2l G0 U) _.
have g1 : 0 < fnorm G + 1 by rewrite ltr_paddl ?ltr01.
rewrite mulrA ler_wpmul2r // mulrA ler_pdivr_mulr // [X in X <= _]mulrC ler_wpmul2l ?divr_ge0 ?ler0n ?ltW //.
by rewrite ltr_addl ltr01.
Qed.
End Trace.

(** ** Logarithms *)
Section Log.
Local Notation rderives := (derives (@real_scale RR) (@real_dot RR)).
Lemma ln_le (t : R) : (0 < t)%Re -> (ln t <= t - 1)%Re.
Proof. by move=> t0; have := exp_ineq1_le (ln t); rewrite exp_ln //; lra. Qed.
Lemma ln_ge (t : R) : (0 < t)%Re -> (1 - / t <= ln t)%Re.
Proof.
move=> t0; have i0 : (0 < / t)%Re by apply: Rinv_0_lt_compat.
by have := ln_le i0; rewrite ln_Rinv //; lra.
Qed.
Lemma ln_quot (x y : R) : (0 < x -> 0 < y -> ln (y / x) = ln y - ln x)%Re.
Proof.
move=> x0 y0; have i : (0 < / x)%Re by apply: Rinv_0_lt_compat.
by rewrite /Rdiv ln_mult // ln_Rinv //; ring.
Qed.
Lemma ln_taylor (a x y : R) : (0 < a -> a <= x -> a <= y -> - ((y - x) ^ 2 / a ^ 2) <= ln y - ln x - / x * (y - x) <= 0)%Re.
Proof.
move=> a0 ax ay; have x0 : (0 < x)%Re by lra.
have y0 : (0 < y)%Re by lra.
have t0 : (0 < y / x)%Re by apply: Rdiv_lt_0_compat.
have L := ln_le t0; have G := ln_ge t0; rewrite ln_quot // in L G.
have E1 : (y / x - 1 = / x * (y - x))%Re by field; lra.
have E2 : (1 - / (y / x) - (y / x - 1) = - ((y - x) ^ 2 / (x * y)))%Re by field; lra.
split; last lra.
have H : ((y - x) ^ 2 / (x * y) <= (y - x) ^ 2 / a ^ 2)%Re.
  apply: Rmult_le_compat_l; first by apply: pow2_ge_0.
  apply: Rinv_le_contravar; first by nra.
  nra.
lra.
Qed.
Lemma ln_lipschitz (a x y : R) : (0 < a -> a <= x -> a <= y -> (ln y - ln x) ^ 2 <= (y - x) ^ 2 / a ^ 2)%Re.
Proof.
move=> a0 ax ay.
have K u v : (a <= u -> u <= v -> 0 <= ln v - ln u <= (v - u) / a)%Re.
  move=> au uv; have u0 : (0 < u)%Re by lra.
  have v0 : (0 < v)%Re by lra.
  have t0 : (0 < v / u)%Re by apply: Rdiv_lt_0_compat.
  have L := ln_le t0; have G := ln_ge t0; rewrite ln_quot // in L G.
  have E1 : (v / u - 1 = (v - u) * / u)%Re by field; lra.
  have E2 : (1 - / (v / u) = (v - u) * / v)%Re by field; lra.
  have i1 : (/ u <= / a)%Re by apply: Rinv_le_contravar.
  have i2 : (0 < / v)%Re by apply: Rinv_0_lt_compat.
  rewrite E1 in L; rewrite E2 in G; rewrite /Rdiv; nra.
have ia : (0 < / a)%Re by apply: Rinv_0_lt_compat.
have -> : ((y - x) ^ 2 / a ^ 2 = ((y - x) / a) ^ 2)%Re by field; lra.
case: (Rle_or_lt x y) => xy; first by have := K _ _ ax xy; nra.
have := K _ _ ay (Rlt_le _ _ xy); rewrite /Rdiv; nra.
Qed.
Lemma ln_tangent : @tangent_bound RR ln Rinv.
Proof.
move=> a x /RltPx a0 /RlePx ax; exists (/ a ^ 2)%Re.
  by apply/RlePx/Rlt_le/Rinv_0_lt_compat/pow_lt.
move=> y /RlePx ay; have [h1 h2] := ln_taylor a0 ax ay.
apply/RlePx; Rify; rewrite Rabs_left1; last by [].
move: h1; rewrite /Rdiv; Rify; lra.
Qed.
Lemma lnsq_tangent : @tangent_bound RR (fun x => (ln x : RR) ^+ 2) (fun x => (2%:R * ln x * / x)%Re).
Proof.
move=> a x /RltPx a0 /RlePx ax; exists ((1 + 2 * Rabs (ln x)) * / a ^ 2)%Re.
  have i : (0 < / a ^ 2)%Re by apply: Rinv_0_lt_compat; apply: pow_lt.
  have b := Rabs_pos (ln x); apply/RlePx; apply: Rmult_le_pos; last by apply: Rlt_le.
  move: b; clear => *; lra.
move=> y /RlePx ay; have [h1 h2] := ln_taylor a0 ax ay; have h3 := ln_lipschitz a0 ax ay.
apply/RlePx; Rify; rewrite /Rdiv in h1 h3.
set l := (ln y - ln x - / x * (y - x))%Re in h1 h2.
have -> : (ln y ^ 2 - ln x ^ 2 - 2 * ln x * / x * (y - x) = (ln y - ln x) ^ 2 + 2 * ln x * l)%Re by rewrite /l; ring.
apply: Rle_trans (Rabs_triang _ _) _.
rewrite (Rabs_right (_ ^ 2)); last by apply: Rle_ge; apply: pow2_ge_0.
rewrite !Rabs_mult (Rabs_left1 l) // (Rabs_right 2); last lra.
have b := Rabs_pos (ln x); move: h1 h2 h3 b; clear; move: l (ln y - ln x)%Re (Rabs (ln x)) (/ a ^ 2)%Re (y - x)%Re => l u w v d.
nra.
Qed.
End Log.
