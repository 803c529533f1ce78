(** Lemmas about tools/multi.py: QR with non-negative diagonal, matrix functions. *)
From mathcomp Require Import all_ssreflect all_algebra.
From Coq Require Reals.
From Coq Require Import Ring Field Lra.
From Verif Require Import MCRing Rstruct Mat_Base Linalg_Spec Geometry_Spec Multi_Model.
Set Implicit Arguments.
Unset Strict Implicit.
Unset Printing Implicit Defensive.
Import GRing.Theory Num.Theory Order.TTheory.
Local Open Scope ring_scope.

Section QR.
Variables (R : rcfType) (F : starField R).
Implicit Types x : F.
Add Ring F_ring : (mc_ring F).

Lemma half2 : half F + half F = 1.
Proof. by rewrite -[half F]mulr1 -mulrDr -[1 + 1]/(2%:R) mulVf // natF_neq0. Qed.
Lemma conj_half : sf_conj (half F) = half F.
Proof. by rewrite /half fmorphV rmorph_nat. Qed.
Lemma half_real : half F = sf_real 2%:R^-1.
Proof. by rewrite /half fmorphV rmorph_nat. Qed.
Lemma scale_half2 (V : lmodType F) (v : V) : half F *: (v + v) = v.
Proof. by rewrite scalerDr -scalerDl half2 scale1r. Qed.

Lemma phase_unit s : s != 0 -> (s / modulus s) * sf_conj (s / modulus s) = 1 :> F.
Proof.
move=> s0; rewrite rmorphM /= fmorphV /= conj_modulus mulrACA -invfM -expr2 modulus_sqr mulrC.
by rewrite [sf_conj s * s]mulrC mulVf // mulf_neq0 // fmorph_eq0.
Qed.
Lemma qr_phase_unit k n (kn : (k <= n)%N) (r : 'M[F]_(k, n)) i : qr_phase kn r i * sf_conj (qr_phase kn r i) = 1.
Proof.
rewrite /qr_phase; case: eqP => [_|/eqP s0]; last exact: phase_unit.
by apply: phase_unit; apply: oner_neq0.
Qed.

Lemma qr_normalise_valid m k n (kn : (k <= n)%N) (A : 'M[F]_(m, n)) qr :
  valid_qr A qr -> valid_qr A (qr_normalise kn qr.1 qr.2).
Proof.
case: qr => q r [/= E [O U]]; split=> /=; last split=> /=.
- rewrite E; apply/matrixP => i j; rewrite !mxE; apply: eq_bigr => l _; rewrite !mxE.
  by rewrite mulrACA qr_phase_unit mulr1.
- apply/matrixP => i j; rewrite !mxE.
  transitivity (sf_conj (qr_phase kn r i) * (q^H *m q) i j * qr_phase kn r j).
    rewrite !mxE mulr_sumr mulr_suml; apply: eq_bigr => l _; rewrite !mxE rmorphM.
    by rewrite /=; mcring F.
  rewrite O !mxE; case: eqP => [->|]; last by rewrite mulr0 mul0r.
  by rewrite mulr1 mulrC qr_phase_unit.
- by move=> i j ij; rewrite mxE U // mul0r.
Qed.
Lemma qr_normalise_diag m k n (kn : (k <= n)%N) (q : 'M[F]_(m, k)) r i :
  exists2 a : R, 0 <= a & (qr_normalise kn q r).2 i (widen_ord kn i) = sf_real a.
Proof.
rewrite mxE /qr_phase; set s := r i _; case: eqP => [->|/eqP s0]; first by exists 0 => //; rewrite mul0r rmorph0.
exists (Num.sqrt (abs2 s)); first exact: sqrtr_ge0.
rewrite rmorphM /= fmorphV /= conj_modulus -/(modulus s) mulrA [s * _]mulrC -modulus_sqr expr2 mulfK //.
by rewrite modulus_eq0.
Qed.

(** Uniqueness *)
Definition nonneg_diag k n (kn : (k <= n)%N) (r : 'M[F]_(k, n)) :=
  forall i, exists2 a : R, 0 <= a & r i (widen_ord kn i) = sf_real a.

Lemma upper_diag_neq0 n (r : 'M[F]_n) : upper_triangular r -> r \in unitmx -> forall i, r i i != 0.
Proof.
move=> U; rewrite unitmxE -det_tr unitfE => D i.
have T : is_trig_mx r^T by apply/is_trig_mxP => a b ab; rewrite mxE U.
apply: contra D => /eqP H; rewrite (det_trig T) (bigD1 i) //= mxE H mul0r; exact: eqxx.
Qed.

Lemma upper_unitary_id n (U : 'M[F]_n) : upper_triangular U -> U^H *m U = 1%:M ->
  (forall i, exists2 a : R, 0 <= a & U i i = sf_real a) -> U = 1%:M.
Proof.
move=> T O P.
have H (m : nat) : forall i : 'I_n, (i < m)%N -> U i i = 1 /\ forall j : 'I_n, (i < j)%N -> U i j = 0.
  elim: m => // m IH i im.
  have S (j : 'I_n) : (U^H *m U) i j = sf_conj (U i i) * U i j.
    rewrite mxE (bigD1 i) //= big1 ?addr0 ?mxE // => l li; rewrite !mxE.
    have [il|li'] := ltnP i l; first by rewrite T // rmorph0 mul0r.
    have {}li' : (l < i)%N by rewrite ltn_neqAle li' andbT; move: li; rewrite -val_eqE.
    by have [_ ->] := IH l (leq_trans li' im); rewrite ?rmorph0 ?mul0r.
  have D : sf_conj (U i i) * U i i = 1 by rewrite -S O mxE eqxx.
  have U1 : U i i = 1.
    have [a a0 E] := P i; rewrite E in D *; move: D; rewrite sf_conj_real -rmorphM -(rmorph1 sf_real).
    by move/real_inj/eqP; rewrite -expr2 sqrp_eq1 // => /eqP ->.
  split=> // j ij; have := S j; rewrite O mxE U1 rmorph1 mul1r => <-.
  by rewrite -val_eqE /= ltn_eqF.
apply/matrixP => i j; rewrite mxE.
have [Ui Uij] := H n i (ltn_ord i).
case: eqP => [->|/eqP]; first by have [-> _] := H n j (ltn_ord j).
rewrite -val_eqE neq_ltn => /orP[/Uij -> //|ji]; exact: T.
Qed.

Lemma qr_unique_square m n (A : 'M[F]_(m, n)) q r q' r' :
  \rank A = n -> valid_qr A (q, r) -> valid_qr A (q', r') ->
  (forall i, exists2 a : R, 0 <= a & r i i = sf_real a) ->
  (forall i, exists2 a : R, 0 <= a & r' i i = sf_real a) -> (q, r) = (q', r').
Proof.
move=> rk [/= E [O U]] [/= E' [O' U']] P P'.
have inv (s : 'M[F]_n) (p : 'M[F]_(m, n)) : A = p *m s -> s \in unitmx.
  move=> H; rewrite -row_full_unit -col_leq_rank -[X in (X <= _)%N]rk H; exact: mulmx_max_rank || exact: mxrankM_maxr.
have ur := inv _ _ E; have ur' := inv _ _ E'.
have d := upper_diag_neq0 U ur.
pose W := q'^H *m q.
have W1 : W *m r = r' by rewrite /W -mulmxA -E E' mulmxA O' mul1mx.
have W2 : q = q' *m W.
  have H : q *m r = q' *m W *m r by rewrite -mulmxA W1 -E -E'.
  by rewrite -[q](mulmxK ur) H mulmxK.
have OW : W^H *m W = 1%:M.
  have : q^H *m q = 1%:M by [].
  by rewrite {1 2}W2 adjmxM mulmxA -(mulmxA W^H) O' mulmx1.
have TW : upper_triangular W.
  have H (l : nat) : forall (i j : 'I_n), (j < l)%N -> (j < i)%N -> W i j = 0.
    elim: l => // l IH i j jl ji.
    have : (W *m r) i j = 0 by rewrite W1 U'.
    rewrite [LHS]mxE (bigD1 j) //= big1 ?addr0; last first.
      move=> p pj; have [jp|pj'] := ltnP j p; first by rewrite (U p j) // mulr0.
      have {}pj' : (p < j)%N by rewrite ltn_neqAle pj' andbT; move: pj; rewrite -val_eqE.
      rewrite IH ?mul0r //; first exact: leq_trans pj' jl.
      exact: ltn_trans pj' ji.
    by move/eqP; rewrite mulf_eq0 (negPf (d j)) orbF => /eqP.
  by move=> i j; apply: (H n).
have DW i : W i i * r i i = r' i i.
  rewrite -W1 [RHS]mxE (bigD1 i) //= big1 ?addr0 // => p pi.
  have [ip|] := ltnP i p; first by rewrite (U p i) // mulr0.
  by rewrite leq_eqVlt => /orP[|pi']; [move: pi; rewrite -val_eqE => /negPf ->|rewrite TW ?mul0r].
have W_1 : W = 1%:M.
  apply: upper_unitary_id => // i.
  have [a a0 Ea] := P i; have [b b0 Eb] := P' i.
  exists (b / a); first by rewrite divr_ge0.
  by rewrite rmorphM fmorphV /= -Ea -Eb -DW mulfK.
by rewrite -W1 W2 W_1 mulmx1 mul1mx.
Qed.

Lemma qr_unique m k n (kn : (k <= n)%N) (A : 'M[F]_(m, n)) (x y : 'M[F]_(m, k) * 'M[F]_(k, n)) :
  \rank A = n -> valid_qr A x -> valid_qr A y -> nonneg_diag kn x.2 -> nonneg_diag kn y.2 -> x = y.
Proof.
move=> rk Hx Hy P P'.
have E : k = n.
  apply/eqP; rewrite eqn_leq kn -[X in (X <= _)%N]rk; case: Hx => -> _.
  exact: leq_trans (mxrankM_maxr _ _) (rank_leq_row _).
subst k; case: x y Hx Hy P P' => [q r] [q' r'] Hx Hy P P'.
have ww (i : 'I_n) : widen_ord kn i = i by apply: val_inj.
apply: (@qr_unique_square m n A) => // i; [move: (P i)|move: (P' i)]; by rewrite ww.
Qed.
End QR.

(** ** Functions of Hermitian matrices *)
Section Spectral.
Variables (R : rcfType) (F : starField R).
Definition eigfun n (f : R -> R) (wv : 'rV[R]_n * 'M[F]_n) : 'M[F]_n :=
  wv.2 *m real_diag F (map_mx f wv.1) *m wv.2^H.

Lemma orthonormalC n (v : 'M[F]_n) : orthonormal v -> v *m v^H = 1%:M.
Proof. exact: mulmx1C. Qed.
Lemma real_diag_adj n (w : 'rV[R]_n) : (real_diag F w)^H = real_diag F w.
Proof. by rewrite adjmx_diag; congr diag_mx; apply/matrixP => i j; rewrite !mxE sf_conj_real. Qed.
Lemma eigfun_hermitian n f (wv : 'rV[R]_n * 'M[F]_n) : hermitian (eigfun f wv).
Proof. by rewrite /hermitian /eigfun !adjmxM adjmxK real_diag_adj mulmxA. Qed.
Lemma eigfun_id n (wv : 'rV[R]_n * 'M[F]_n) : eigfun id wv = wv.2 *m real_diag F wv.1 *m wv.2^H.
Proof. by rewrite /eigfun map_mx_id. Qed.
Lemma valid_eigh_hermitian n (A : 'M[F]_n) wv : valid_eigh A wv -> hermitian A.
Proof. by move=> [_ ->]; rewrite -eigfun_id; apply: eigfun_hermitian. Qed.
Lemma eigfun_valid n f (wv : 'rV[R]_n * 'M[F]_n) : orthonormal wv.2 ->
  valid_eigh (eigfun f wv) (map_mx f wv.1, wv.2).
Proof. by move=> O; split. Qed.
Lemma eigfun_comp n f g (wv : 'rV[R]_n * 'M[F]_n) :
  eigfun f (map_mx g wv.1, wv.2) = eigfun (fun x => f (g x)) wv.
Proof. by rewrite /eigfun /= -map_mx_comp. Qed.
Lemma eigfun_ext n f g (wv : 'rV[R]_n * 'M[F]_n) :
  (forall i, f (wv.1 ord0 i) = g (wv.1 ord0 i)) -> eigfun f wv = eigfun g wv.
Proof.
move=> H; rewrite /eigfun; suff -> : map_mx f wv.1 = map_mx g wv.1 by [].
by apply/matrixP => i j; rewrite !mxE [i]ord1 H.
Qed.

(** The value of a function at a Hermitian matrix does not depend on the eigendecomposition. *)
Lemma eigfun_unique n f (A : 'M[F]_n) wv wv' :
  valid_eigh A wv -> valid_eigh A wv' -> eigfun f wv = eigfun f wv'.
Proof.
case: wv wv' => [w v] [w' v'] [/= O E] [/= O' E'].
pose U := v^H *m v'.
have DU : real_diag F w *m U = U *m real_diag F w'.
  transitivity (v^H *m A *m v').
    by rewrite E /U !mulmxA O mul1mx.
  by rewrite E' !mulmxA -(mulmxA _ v'^H) O' mulmx1.
have fU : real_diag F (map_mx f w) *m U = U *m real_diag F (map_mx f w').
  apply/matrixP => i j; move/matrixP/(_ i j): DU.
  rewrite !mul_diag_mx !mul_mx_diag !mxE => /eqP.
  rewrite [_ * sf_real _]mulrC -subr_eq0 -mulrBl mulf_eq0 => /orP[|/eqP ->]; last by rewrite mulr0 mul0r.
  by rewrite -rmorphB fmorph_eq0 subr_eq0 => /eqP ->; rewrite mulrC.
have UU : U *m U^H = 1%:M.
  by rewrite /U adjmxM adjmxK mulmxA -(mulmxA v^H) orthonormalC // mulmx1.
have E1 : v' = v *m U by rewrite /U mulmxA orthonormalC // mul1mx.
clearbody U; rewrite /eigfun /= E1 adjmxM !mulmxA -(mulmxA v U) -fU !mulmxA -(mulmxA _ U) UU mulmx1.
by [].
Qed.

(** ** Positive definite matrices and eigenvalues *)
Lemma re_quad_diag n (w : 'rV[R]_n) (y : 'cV[F]_n) :
  sf_re ((y^H *m real_diag F w *m y) ord0 ord0) = \sum_i w ord0 i * abs2 (y i ord0).
Proof.
rewrite mul_mx_diag mxE raddf_sum; apply: eq_bigr => i _; rewrite !mxE.
by rewrite /= [X in sf_re X]mulrAC [X in sf_re X]mulrC sf_reZ.
Qed.
Lemma adjmx_eq0 m n (A : 'M[F]_(m, n)) : (A^H == 0) = (A == 0).
Proof. by apply/eqP/eqP => [H|->]; [rewrite -[A]adjmxK H raddf0|rewrite raddf0]. Qed.
Lemma conjugate_quad n (v D : 'M[F]_n) (y : 'cV[F]_n) : orthonormal v ->
  (v *m y)^H *m (v *m D *m v^H) *m (v *m y) = y^H *m D *m y.
Proof.
move=> O; rewrite adjmxM -!mulmxA (mulmxA v^H v) O mul1mx.
by rewrite (mulmxA v^H v) O mul1mx !mulmxA.
Qed.
Lemma posdef_eigfun n f (wv : 'rV[R]_n * 'M[F]_n) : orthonormal wv.2 ->
  (forall i, 0 < f (wv.1 ord0 i)) -> posdef (eigfun f wv).
Proof.
case: wv => w v /= O P; split=> [|x x0]; first exact: eigfun_hermitian.
set y := v^H *m x.
have xE : x = v *m y by rewrite /y mulmxA orthonormalC // mul1mx.
rewrite /eigfun /= [in X in sf_re X]xE conjugate_quad // re_quad_diag.
have y0 : y != 0.
  by apply: contra x0 => /eqP H; apply/eqP; rewrite xE H mulmx0.
clear xE; clearbody y.
have [i yi] : exists i, y i ord0 != 0.
  apply/existsP; apply: contraR y0; rewrite negb_exists => /forallP H; apply/eqP/matrixP => i j.
  by rewrite [j]ord1 mxE; apply/eqP; move: (H i); rewrite negbK.
rewrite (bigD1 i) //= mxE ltr_spaddl //.
  by rewrite mulr_gt0 // lt_def abs2_ge0 abs2_eq0 yi.
by apply: sumr_ge0 => j _; rewrite mxE mulr_ge0 ?abs2_ge0 // ltW.
Qed.
Lemma posdef_eig_gt0 n (A : 'M[F]_n) wv : posdef A -> valid_eigh A wv -> forall i, 0 < wv.1 ord0 i.
Proof.
case: wv => w v [_ P] [/= O E] i.
pose e : 'cV[F]_n := delta_mx i ord0.
have ve : v^H *m (v *m e) = e by rewrite mulmxA O mul1mx.
have x0 : v *m e != 0.
  apply/eqP => H; move: ve; rewrite H mulmx0 => /matrixP/(_ i ord0)/eqP.
  by rewrite !mxE !eqxx eq_sym oner_eq0.
have := P _ x0; rewrite E conjugate_quad // re_quad_diag (bigD1 i) //= big1 ?addr0.
  by rewrite mxE !eqxx /abs2 mulr1 rmorph1 sf_re1 mulr1.
by move=> j ji; rewrite mxE (negPf ji) /abs2 mulr0 raddf0 mulr0.
Qed.
End Spectral.

Section Unitary.
Variables (R : rcfType) (F : starField R).
Lemma inner_orthonormal m n p (v : 'M[F]_(m, n)) (A B : 'M[F]_(n, p)) : orthonormal v ->
  inner (v *m A) (v *m B) = inner A B.
Proof. by move=> O; rewrite inner_mull mulmxA O mul1mx. Qed.
Lemma inner_orthonormal_r m n p (v : 'M[F]_(m, n)) (A B : 'M[F]_(p, n)) : orthonormal v ->
  inner (A *m v^H) (B *m v^H) = inner A B.
Proof. by move=> O; rewrite inner_mulr adjmxK -mulmxA O mulmx1. Qed.
Lemma inner_real_diag n (w z : 'rV[R]_n) : inner (real_diag F w) (real_diag F z) = \sum_i w ord0 i * z ord0 i.
Proof.
apply: eq_bigr => i _; rewrite (bigD1 i) //= big1 ?addr0.
  by rewrite !mxE !eqxx sf_conj_real sf_reZ re_real.
by move=> j ji; rewrite !mxE eq_sym (negPf ji) rmorph0 mul0r raddf0.
Qed.
Lemma eigfunB n f g (wv : 'rV[R]_n * 'M[F]_n) : eigfun f wv - eigfun g wv = eigfun (fun x => f x - g x) wv.
Proof.
rewrite /eigfun -mulmxBl -mulmxBr; congr (_ *m _ *m _); apply/matrixP => i j; rewrite !mxE.
by rewrite rmorphB mulrnBl.
Qed.
Lemma inner_eigfun n f (wv : 'rV[R]_n * 'M[F]_n) : orthonormal wv.2 ->
  inner (eigfun f wv) (eigfun f wv) = \sum_i f (wv.1 ord0 i) ^+ 2.
Proof.
move=> O; rewrite /eigfun inner_orthonormal_r // inner_orthonormal // inner_real_diag.
by apply: eq_bigr => i _; rewrite mxE expr2.
Qed.
Lemma eigfun_pow n (wv : 'rV[R]_n.+1 * 'M[F]_n.+1) k : orthonormal wv.2 ->
  (wv.2 *m real_diag F wv.1 *m wv.2^H) ^+ k = eigfun (fun x => x ^+ k) wv.
Proof.
case: wv => w v /= O; rewrite /eigfun /=; elim: k => [|k IH].
  rewrite expr0; have -> : real_diag F (map_mx (fun=> 1) w) = 1%:M.
    by apply/matrixP => i j; rewrite !mxE rmorph1.
  by rewrite mulmx1 orthonormalC.
rewrite exprS IH -[_ * _]/(_ *m _) !mulmxA -(mulmxA _ v^H v) O mulmx1 -(mulmxA v); congr (_ *m _ *m _).
by apply/matrixP => i j; rewrite mul_diag_mx !mxE exprS rmorphM; case: eqP => [->|]; rewrite ?mulr0 //= mulr1n.
Qed.
Lemma eigfun_sum n (I : Type) (r : seq I) (f : I -> R -> R) (wv : 'rV[R]_n * 'M[F]_n) :
  \sum_(k <- r) eigfun (f k) wv = eigfun (fun x => \sum_(k <- r) f k x) wv.
Proof.
rewrite /eigfun -mulmx_suml -mulmx_sumr; congr (_ *m _ *m _); apply/matrixP => i j.
rewrite summxE !mxE rmorph_sum -sumrMnl; apply: eq_bigr => k _; by rewrite !mxE.
Qed.
Lemma eigfunZ n a f (wv : 'rV[R]_n * 'M[F]_n) : sf_real a *: eigfun f wv = eigfun (fun x => a * f x) wv.
Proof.
rewrite /eigfun scalemxAl scalemxAr; congr (_ *m _ *m _); apply/matrixP => i j.
by rewrite !mxE rmorphM mulrnAr.
Qed.
End Unitary.

Section Expm.
Import Coq.Reals.Reals.
Variable F : starField R_rcfType.
Lemma eig_applyE n f (wv : 'rV[R_rcfType]_n * 'M[F]_n) : eig_apply f wv = eigfun f wv.
Proof.
rewrite /eig_apply /eigfun -mulmxA; congr (_ *m _); apply/matrixP => i j.
by rewrite mul_diag_mx !mxE.
Qed.
Lemma exp_series x (e : R) : Rlt 0 e -> exists N, forall p, leq N p ->
  Rlt (Rabs (\sum_(k < p) (/ INR (fact k))%R * x ^+ k - exp x : R_rcfType)) e.
Proof.
move=> e0; have [N H] := proj2_sig (exist_exp x) e e0; exists N.+1 => -[//|p] Np.
have /H : (p >= N)%coq_nat by apply/ssrnat.leP.
rewrite /R_dist -/(exp x).
suff -> : sum_f_R0 (fun i : nat => (/ INR (fact i) * x ^ i)%R) p = \sum_(k < p.+1) (/ INR (fact k))%R * x ^+ k :> R_rcfType by [].
elim: p {Np} => [|p IH]; first by rewrite big_ord1 /= expr0.
by rewrite big_ord_recr -IH; Rify.
Qed.
Lemma INR_fact k : (/ INR (fact k))%R = (k`!%:R)^-1 :> R_rcfType.
Proof.
have FE : fact k = k`! by elim: k => //= k ->; rewrite factS mulSn.
by rewrite FE -INRE RinvE.
Qed.
Lemma mpowE n (A : 'M[F]_n.+1) k : mpow A k = A ^+ k.
Proof. by elim: k => //= k ->; rewrite exprS. Qed.
Lemma eigfun_expm n (A : 'M[F]_n) wv : valid_eigh A wv -> is_expm A (eigfun exp wv).
Proof.
case: n A wv => [|n] A wv; first by move=> _ e e0; exists 0%N => p _; rewrite [_ - _]flatmx0 /fnorm inner0l sqrtr0.
case: wv => w v [/= O E] e /RltPx e0.
have n1 : Rle 1 (INR n.+1) by rewrite -[1%R]/(INR 1); apply: le_INR; apply/ssrnat.leP.
pose e1 : R := (e / (2 * INR n.+1))%R.
have e10 : (0 < e1)%R by apply: Rdiv_lt_0_compat => //; lra.
have [N H] : exists N, forall p, leq N p -> forall i : 'I_n.+1,
   Rlt (Rabs (\sum_(k < p) (/ INR (fact k))%R * (w ord0 i) ^+ k - exp (w ord0 i) : R_rcfType)) e1.
  have [f Hf] := fin_all_exists (fun i => exp_series (w ord0 i) e10).
  exists (\max_i f i) => p Hp i; apply: Hf; apply: leq_trans Hp; exact: leq_bigmax.
exists N => p Np.
apply/RltPx.
have -> : expm_sum A p =
  eigfun (fun x => \sum_(k < p) (/ INR (fact k))%R * x ^+ k : R_rcfType) (w, v).
  rewrite -(@eigfun_sum _ _ _ _ _ (fun (k : 'I_p) x => (/ INR (fact k))%R * x ^+ k : R_rcfType)).
  by apply: eq_bigr => k _; rewrite -INR_fact mpowE E (@eigfun_pow _ _ _ (w, v)) // eigfunZ.
rewrite eigfunB /fnorm inner_eigfun //=.
set s := \sum_i _ : R_rcfType.
have s0 : Rle 0 s by apply/RlePx; apply: sumr_ge0 => i _; apply: sqr_ge0.
have s1 : Rle s (\sum_(i < n.+1) e1 ^+ 2 : R_rcfType).
  apply/RlePx; apply: ler_sum => i _; rewrite -real_normK ?num_real //.
  rewrite ler_expn2r ?nnegrE ?normr_ge0 //; apply/RlePx; first exact: Rlt_le.
  by apply: Rlt_le; apply: (H p Np i).
have s2 : \sum_(i < n.+1) e1 ^+ 2 = (INR n.+1 * (e1 * e1))%R :> R_rcfType.
  by rewrite big_const_ord iter_addr addr0 -mulr_natl INRE expr2.
rewrite s2 in s1; rewrite RsqrtE -(sqrt_square e); last exact: Rlt_le.
apply: sqrt_lt_1_alt; split=> //; apply: Rle_lt_trans s1 _.
have -> : (INR n.+1 * (e1 * e1) = e * e / (4 * INR n.+1))%R by rewrite /e1; field; lra.
apply: (Rmult_lt_reg_r (4 * INR n.+1)); first lra.
rewrite /Rdiv Rmult_assoc Rinv_l; last lra.
by have := Rmult_lt_0_compat _ _ e0 e0; nra.
Qed.
End Expm.
