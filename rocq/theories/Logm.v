(** Exponentials and logarithms of skew-Hermitian and unitary matrices *)
From Coq Require Import Reals Lra.
From mathcomp Require Import all_ssreflect all_algebra.
From Verif Require Import Rstruct MCRing Mat_Base Geometry_Spec Linalg_Spec Calculus Multi_Model Multi_Proofs Stiefel_Proofs Sphere_Model Sphere_Proofs Expm Linalg_Exist Grassmann_Proofs.
Set Implicit Arguments.
Unset Strict Implicit.
Unset Printing Implicit Defensive.
Import GRing.Theory Num.Theory Order.TTheory.
Local Open Scope ring_scope.
Delimit Scope R_scope with Re.

(** [L] is the principal logarithm of the unitary matrix [A]: skew-Hermitian, with exponential [A], and eigenvalues
    of modulus less than [PI] (it multiplies lengths by less than [PI]). *)
Definition principal_log (F : starField RR) n (A L : 'M[F]_n) : Prop :=
  L^H = - L /\ is_expm L A /\ forall z : 'cV[F]_n, z != 0 -> fnorm (L *m z) < PI * fnorm z.

(** ** The series of [cos (sqrt w)] and [sin (sqrt w) / sqrt w] *)
Definition csq (w : RR) : RR := cos (sqrt w).
Definition ssq (w : RR) : RR := if w == 0 then 1 else sin (sqrt w) / sqrt w.
Definition cterm (k : nat) (w : RR) : RR := if odd k then 0 else ecoef k * (- w) ^+ k./2.
Definition sterm (k : nat) (w : RR) : RR := if odd k then ecoef k * (- w) ^+ k./2 else 0.

Lemma factE k : fact k = k`!. Proof. by elim: k => //= k ->; rewrite factS mulSn. Qed.
Lemma addnn2 (j : nat) : (2 * j)%coq_nat = j.*2. Proof. by rewrite -mul2n. Qed.
Lemma ecoefR k : ecoef k = (/ INR (fact k))%Re. Proof. by rewrite INR_fact. Qed.
Lemma coscoef j (w : RR) : (cos_n j * w ^ j)%Re = ecoef j.*2 * (- w) ^+ j.
Proof.
rewrite ecoefR /cos_n addnn2 -[- w]mulN1r exprMn !RpowE.
rewrite -!RmultE /Rdiv; set f := INR _; have -> : (- 1%R : RR) = (-1)%Re by rewrite /= -[RHS]/(- 1)%Re.
ring.
Qed.
Lemma sincoef j (w : RR) : (sin_n j * w ^ j)%Re = ecoef j.*2.+1 * (- w) ^+ j.
Proof.
have N : (2 * j + 1)%coq_nat = j.*2.+1 by rewrite -mul2n -[RHS]addn1.
rewrite ecoefR /sin_n N -[- w]mulN1r exprMn !RpowE.
rewrite -!RmultE /Rdiv; set f := INR _; have -> : (- 1%R : RR) = (-1)%Re by rewrite /= -[RHS]/(- 1)%Re.
ring.
Qed.
Lemma csum_even j (w : RR) : \sum_(k < j.*2.+1) cterm k w = sum_f_R0 (fun i => (cos_n i * w ^ i)%Re) j.
Proof.
elim: j => [|j IH]; first by rewrite big_ord1 -[RHS]/((cos_n 0 * w ^ 0)%Re) coscoef /cterm /=.
by rewrite doubleS 2!big_ord_recr tech5 -IH RplusE coscoef /cterm /= odd_double /= addr0 doubleS doubleK.
Qed.
Lemma ssum_even j (w : RR) : \sum_(k < j.*2.+2) sterm k w = sum_f_R0 (fun i => (sin_n i * w ^ i)%Re) j.
Proof.
elim: j => [|j IH]; first by rewrite !big_ord_recr big_ord0 -[RHS]/((sin_n 0 * w ^ 0)%Re) sincoef /sterm /= !add0r.
rewrite doubleS big_ord_recr big_ord_recr IH tech5 RplusE sincoef /sterm /= odd_double /= addr0 doubleS uphalf_double.
by [].
Qed.
Lemma csum p (w : RR) : \sum_(k < p.+1) cterm k w = sum_f_R0 (fun i => (cos_n i * w ^ i)%Re) p./2.
Proof.
rewrite -csum_even; have := odd_double_half p; move: p./2 => q; case: (odd p) => <-; rewrite ?add0n ?add1n //.
by rewrite big_ord_recr {2}/cterm /= odd_double addr0.
Qed.
Lemma ssum p (w : RR) : \sum_(k < p.+2) sterm k w = sum_f_R0 (fun i => (sin_n i * w ^ i)%Re) p./2.
Proof.
rewrite -ssum_even; have := odd_double_half p; move: p./2 => q; case: (odd p) => <-; rewrite ?add0n ?add1n //.
by rewrite big_ord_recr {2}/sterm /= odd_double addr0.
Qed.
Lemma half_large N p : (N.*2 <= p)%N -> (p./2 >= N)%coq_nat.
Proof. by move=> H; apply/ssrnat.leP; rewrite -[N]doubleK half_leq. Qed.
Lemma csq_series (w : RR) : 0 <= w -> vanishes (fun p => `|\sum_(k < p) cterm k w - csq w|).
Proof.
move=> /RlePx w0 e /RltPx e0; rewrite /csq /cos; case: (exist_cos _) => a; rewrite /cos_in Rsqr_sqrt // => /(_ e e0) [N H].
by exists N.*2.+1 => -[//|p] Np; apply/RltPx; rewrite csum; apply: (H _ (half_large Np)).
Qed.
Lemma ssq_series (w : RR) : 0 <= w -> vanishes (fun p => `|\sum_(k < p) sterm k w - ssq w|).
Proof.
move=> /RlePx w0 e /RltPx e0.
have -> : ssq w = proj1_sig (exist_sin w).
  rewrite /ssq; case: eqP => [->|/eqP N].
    case: (exist_sin 0) => l Hl /=; apply: (uniqueness_sum (fun i => (sin_n i * 0 ^ i)%Re) 1%Re l _ Hl).
    move=> d d0; exists 0%N => p _; rewrite (_ : sum_f_R0 _ p = 1%Re); first by rewrite R_dist_eq.
    elim: p => [|p IH]; first by rewrite /= /sin_n /=; field.
    by rewrite tech5 IH pow_i; [ring|apply/ssrnat.leP].
  have s0 : (sqrt w <> 0)%Re by move=> /(sqrt_eq_0 _ w0) W; case/eqP: N.
  rewrite /sin RdivE; case: (exist_sin (Rsqr _)) => a; rewrite /sin_in Rsqr_sqrt // => Ha.
  case: (exist_sin w) => b Hb /=; rewrite (uniqueness_sum _ _ _ Ha Hb); by field.
case: (exist_sin w) => a /= /(_ e e0) [N H].
by exists N.*2.+2 => -[//|[//|p]] Np; apply/RltPx; rewrite ssum; apply: (H _ (half_large _)).
Qed.

Add Ring RR_ring : (mc_ring RR).
Section Skew.
Variables (F : starField RR) (n : nat).
Implicit Types (A L : 'M[F]_n) (wv : 'rV[RR]_n * 'M[F]_n).
Lemma fnorm_eigfun_sum f wv : orthonormal wv.2 -> fnorm (eigfun f wv) <= \sum_i `|f (wv.1 ord0 i)|.
Proof.
move=> W; have S0 : 0 <= \sum_i `|f (wv.1 ord0 i)| by apply: sumr_ge0.
rewrite -(@ler_sqr _ _ (\sum_i _)) ?nnegrE ?fnorm_ge0 // fnorm_sqr inner_eigfun // expr2 mulr_suml.
apply: ler_sum => i _; rewrite -real_normK ?num_real // expr2 ler_wpmul2l //.
by rewrite (bigD1 i) //= ler_addl sumr_ge0.
Qed.
Lemma vanishes_sum (I : Type) (r : seq I) (v : I -> nat -> RR) : (forall i, vanishes (v i)) -> vanishes (fun p => \sum_(i <- r) v i p).
Proof.
move=> H; elim: r => [|i r IH]; first by move=> e e0; exists 0%N => p _; rewrite big_nil.
by apply: vanishes_le (vanishesD (H i) IH) => p; rewrite big_cons.
Qed.
Lemma tends_eigfun (f : nat -> RR -> RR) g wv : orthonormal wv.2 ->
  (forall i, vanishes (fun p => `|f p (wv.1 ord0 i) - g (wv.1 ord0 i)|)) -> tends (fun p => eigfun (f p) wv) (eigfun g wv).
Proof.
move=> W H; have := vanishes_sum (index_enum (ordinal_finType n)) H; apply: vanishes_le => p.
by rewrite eigfunB; apply: fnorm_eigfun_sum.
Qed.
(** ** The exponential of a skew-Hermitian matrix from its square *)
Lemma mpow_skew L wv k : orthonormal wv.2 -> L *m L = - eigfun id wv ->
  mpow L k = if odd k then eigfun (fun x => (- x) ^+ k./2) wv *m L else eigfun (fun x => (- x) ^+ k./2) wv.
Proof.
move=> W LL; elim: k => [|k IH]; first by rewrite /= eigfun_const.
rewrite /mpow iterS -/(mpow L k) mpow_comm IH /=; case: (boolP (odd k)) => o /=.
  rewrite -mulmxA LL mulmxN eigfunM // eigfun_opp uphalf_half o; apply: eigfun_ext => i.
  by rewrite add1n exprSr mulrN.
by rewrite uphalf_half (negPf o).
Qed.
Lemma expm_sum_skew L wv p : orthonormal wv.2 -> L *m L = - eigfun id wv ->
  expm_sum L p = eigfun (fun x => \sum_(k < p) cterm k x) wv + eigfun (fun x => \sum_(k < p) sterm k x) wv *m L.
Proof.
move=> W LL; rewrite -(eigfun_sum _ (fun (k : 'I_p) x => cterm k x)) -(eigfun_sum _ (fun (k : 'I_p) x => sterm k x)).
rewrite mulmx_suml -big_split; apply: eq_bigr => k _ /=; rewrite (mpow_skew _ W LL) /cterm /sterm.
have Z : eigfun (fun=> 0) wv = 0.
  by have := eigfunB id id wv; rewrite subrr => ->; apply: eigfun_ext => i; rewrite subrr.
case: (odd k); rewrite Z ?mul0mx ?add0r ?addr0; last exact: eigfunZ.
by rewrite -eigfunZ -scalemxAl.
Qed.
Lemma expm_skew L wv : orthonormal wv.2 -> (forall i, 0 <= wv.1 ord0 i) -> L *m L = - eigfun id wv ->
  is_expm L (eigfun csq wv + eigfun ssq wv *m L).
Proof.
move=> W P LL; apply: tends_ext (fun p => esym (expm_sum_skew p W LL)) _.
apply: tends_add; first by apply: tends_eigfun => // i; apply: csq_series.
by apply: tends_mul (@tends_const _ _ _ _ L); apply: tends_eigfun => // i; apply: ssq_series.
Qed.

(** What commutes with a Hermitian matrix commutes with its functions. *)
Lemma eigfun_comm f wv (B : 'M[F]_n) : orthonormal wv.2 -> B *m eigfun id wv = eigfun id wv *m B ->
  B *m eigfun f wv = eigfun f wv *m B.
Proof.
case: wv => w v /= O; rewrite /eigfun /= => C; have Oc := orthonormalC O.
pose U := v^H *m B *m v.
have UD : U *m real_diag F (map_mx id w) = real_diag F (map_mx id w) *m U.
  rewrite /U; have := congr1 (fun Z => v^H *m Z *m v) C; rewrite !mulmxA O mul1mx -(mulmxA _ v^H v) O mulmx1.
  by [].
have Uf : U *m real_diag F (map_mx f w) = real_diag F (map_mx f w) *m U.
  apply/matrixP => i j; move/matrixP/(_ i j): UD.
  rewrite !mul_diag_mx !mul_mx_diag !mxE => /eqP.
  rewrite [_ * sf_real _]mulrC -subr_eq0 -mulrBl mulf_eq0 => /orP[|/eqP ->]; last by rewrite mulr0 mul0r.
  by rewrite -rmorphB fmorph_eq0 subr_eq0 => /eqP ->; rewrite mulrC.
have BE : B = v *m U *m v^H by rewrite /U !mulmxA Oc mul1mx -mulmxA Oc mulmx1.
clearbody U; rewrite BE !mulmxA -(mulmxA _ v^H v) O mulmx1 -(mulmxA v U) Uf !mulmxA; congr (_ *m _).
by rewrite -(mulmxA _ v^H v) O mulmx1.
Qed.
Lemma column_unit wv i : orthonormal wv.2 -> fnorm (col i wv.2) = 1.
Proof.
move=> O; have := congr1 (fun M : 'M[F]_n => M i i) O; rewrite mxE [in X in _ = X]mxE eqxx => E.
rewrite /fnorm innerE (_ : (col i wv.2)^H *m _ = 1%:M) ?mxtrace1 ?mulr1n ?sf_re1 ?sqrtr1 //.
apply/matrixP => a b; rewrite [a]ord1 [b]ord1 [in RHS]mxE eqxx -[RHS]E mxE; apply: eq_bigr => j _.
by rewrite !mxE.
Qed.
Lemma column_neq0 wv i : orthonormal wv.2 -> col i wv.2 != 0.
Proof. by move=> O; rewrite -fnorm_eq0 column_unit // oner_eq0. Qed.
Lemma eigfun_col f wv i : orthonormal wv.2 -> eigfun f wv *m col i wv.2 = sf_real (f (wv.1 ord0 i)) *: col i wv.2.
Proof.
move=> O; rewrite !colE /eigfun !mulmxA -(mulmxA _ wv.2^H) O mulmx1 -!colE.
by apply/matrixP => a b; rewrite [b]ord1 mul_mx_diag !mxE mulrC.
Qed.
Section Principal.
Hypothesis EV : has_eigenvectors F.
Lemma skew_square L : L^H = - L -> hermitian (L^H *m L) /\ L *m L = - (L^H *m L).
Proof. by move=> h; split; [rewrite /hermitian adjmxM adjmxK|rewrite h mulNmx opprK]. Qed.
(** The data of a principal logarithm *)
Lemma principal_data A L : principal_log A L -> exists wv,
  [/\ orthonormal wv.2, forall i, 0 <= wv.1 ord0 i /\ sqrt (wv.1 ord0 i) < PI, L *m L = - eigfun id wv,
   hsym A = eigfun csq wv & hskew A = eigfun ssq wv *m L].
Proof.
move=> [h [E B]]; have [hH LL] := skew_square h; have [wv V] := eigh_exists EV hH; have [W H] := V.
have HE : L^H *m L = eigfun id wv by rewrite eigfun_id.
have P i : wv.1 ord0 i = fnorm (L *m col i wv.2) ^+ 2.
  rewrite fnorm_sqr inner_mull mulmxA HE eigfun_col // innerZr -fnorm_sqr column_unit // expr1n mulr1.
  by [].
have P0 i : 0 <= wv.1 ord0 i by rewrite P sqr_ge0.
rewrite HE in LL.
have AE : A = eigfun csq wv + eigfun ssq wv *m L by apply: expm_unique E _; apply: expm_skew.
have C : L *m eigfun ssq wv = eigfun ssq wv *m L.
  by apply: eigfun_comm => //; apply: oppr_inj; rewrite -mulmxN -mulNmx -LL mulmxA.
have K : (eigfun ssq wv *m L)^H = - (eigfun ssq wv *m L).
  by rewrite adjmxM h (eigfun_hermitian ssq wv) mulNmx C.
exists wv; split=> //.
- move=> i; split; first exact: P0.
  rewrite -RsqrtE P sqrtr_sqr ger0_norm ?fnorm_ge0 //.
  by have := B _ (column_neq0 i W); rewrite column_unit // mulr1.
- by rewrite AE hsymD (hsym_id (eigfun_hermitian csq wv)) (hsym_of_skew K) addr0.
- by rewrite AE hskewD (hskew_of_herm (eigfun_hermitian csq wv)) (hskew_id K) add0r.
Qed.
Lemma csqK (w : RR) : 0 <= w -> (sqrt w < PI)%R -> (acos (csq w) : RR) ^+ 2 = w.
Proof.
move=> /RlePx w0 /RltPx wp; have := sqrt_pos w => s0; rewrite /csq acos_cos; last by lra.
by rewrite expr2 -RmultE sqrt_sqrt.
Qed.
Lemma ssq_neq0 (w : RR) : 0 <= w -> (sqrt w < PI)%R -> ssq w != 0.
Proof.
move=> w0 /RltPx wp; rewrite /ssq; case: (w =P 0) => [_|/eqP N]; first exact: (oner_neq0 RR).
have /RltPx wp0 : 0 < w by rewrite lt_def N.
have s0 := sqrt_lt_R0 w wp0; have := sin_gt_0 _ s0 wp => p.
by apply/eqP; rewrite RdivE => /Rmult_integral [|/Rinv_neq_0_compat]; lra.
Qed.
Theorem principal_log_unique A L L' : principal_log A L -> principal_log A L' -> L = L'.
Proof.
move=> /principal_data [wv [W P LL C S]] /principal_data [wv' [W' P' LL' C' S']].
have H f : eigfun f wv = eigfun f wv'.
  have E1 : eigfun f wv = eigfun (fun x => f ((acos x : RR) ^+ 2)) (map_mx csq wv.1, wv.2).
    by rewrite eigfun_comp; apply: eigfun_ext => i; have [a b] := P i; rewrite csqK.
  have E2 : eigfun f wv' = eigfun (fun x => f ((acos x : RR) ^+ 2)) (map_mx csq wv'.1, wv'.2).
    by rewrite eigfun_comp; apply: eigfun_ext => i; have [a b] := P' i; rewrite csqK.
  by rewrite E1 E2; apply: (eigfun_unique _ (eigfun_valid csq W)); rewrite -C C'; apply: eigfun_valid.
have I : eigfun (fun x => (ssq x)^-1) wv *m eigfun ssq wv = 1%:M.
  rewrite eigfunM // -(eigfun_const W); apply: eigfun_ext => i; have [a b] := P i.
  by rewrite mulVf // ssq_neq0.
have -> : L = eigfun (fun x => (ssq x)^-1) wv *m hskew A by rewrite S mulmxA I mul1mx.
by rewrite S' -(H ssq) mulmxA I mul1mx.
Qed.
(** ** A unitary matrix has a principal logarithm exactly when [-1] is not an eigenvalue. *)
Lemma inner_quad (B : 'M[F]_n) (z : 'cV[F]_n) : inner z (B *m z) = sf_re ((z^H *m B *m z) ord0 ord0).
Proof. by rewrite innerE mulmxA /mxtrace big_ord1. Qed.
Lemma inner_hsym (B : 'M[F]_n) (z : 'cV[F]_n) : inner z (hsym B *m z) = inner z (B *m z).
Proof.
rewrite -[in RHS](hsym_skew B) mulmxDl innerDr -[LHS]addr0; congr (_ + _).
have : inner z (hskew B *m z) = - inner z (hskew B *m z).
  by rewrite -{1}[hskew B]adjmxK -inner_mull innerC hskew_skew mulNmx innerNr.
by move/eqP; rewrite -addr_eq0 -mulr2n mulrn_eq0 => /eqP ->.
Qed.
Lemma singular_vector (B : 'M[F]_n) : B \notin unitmx -> exists2 z : 'cV[F]_n, z != 0 & B *m z = 0.
Proof.
rewrite -unitmx_tr -row_free_unit -kermx_eq0 => /rowV0Pn [v /sub_kermxP E v0].
exists v^T; first by rewrite -(inj_eq trmx_inj) trmxK trmx0.
by apply: trmx_inj; rewrite trmx_mul trmxK E trmx0.
Qed.
Theorem principal_log_exists A : orthonormal A -> A + 1%:M \in unitmx -> exists L, principal_log A L.
Proof.
move=> O U; have [wv V] := eigh_exists EV (hsym_herm A : hermitian _); have [W CE] := V.
rewrite -eigfun_id in CE; have OC := orthonormalC O.
have c1 i : -1 < wv.1 ord0 i /\ wv.1 ord0 i <= 1.
  set z := col i wv.2; have z1 : fnorm z = 1 by apply: column_unit.
  have Az : fnorm (A *m z) = 1 by rewrite fnorm_orthonormal.
  have c : inner z (A *m z) = wv.1 ord0 i.
    by rewrite -inner_hsym CE eigfun_col // innerZr -fnorm_sqr z1 expr1n mulr1.
  have S (a : RR) : a ^+ 2 = 1 -> fnorm (A *m z + sf_real a *: z) ^+ 2 = 2%:R + 2%:R * a * wv.1 ord0 i.
    move=> a2; rewrite fnorm_sqr innerDl !innerDr innerZl !innerZr innerZl -!fnorm_sqr Az z1 (innerC (A *m z)) c !expr1n.
    rewrite mulr1 -expr2 a2; mcring RR.
  have := S 1 (expr1n _ _); have := S (-1) (etrans (sqrrN 1) (expr1n _ _)); rewrite !mulr1 mulrN1 mulNr.
  move=> S1 S2; split; last first.
    have : 0 <= 2%:R * (1 - wv.1 ord0 i) by rewrite mulrBr mulr1 -S1 sqr_ge0.
    by rewrite pmulr_rge0 ?ltr0n // subr_ge0.
  have : 0 <= 2%:R * (1 + wv.1 ord0 i) by rewrite mulrDr mulr1 -S2 sqr_ge0.
  rewrite pmulr_rge0 ?ltr0n // addrC -[X in _ + X]opprK subr_ge0 le_eqVlt => /orP[/eqP E|//].
  move: S2; rewrite -E mulrN1 subrr rmorph1 scale1r => /eqP; rewrite sqrf_eq0 fnorm_eq0 => /eqP N.
  have : z = 0 by rewrite -[z]mul1mx -(mulVmx U) -mulmxA mulmxDl mul1mx N mulmx0.
  by move/eqP; rewrite (negPf (column_neq0 i W)).
pose th (c : RR) : RR := (acos c : RR) ^+ 2.
have thP i : 0 <= th (wv.1 ord0 i) /\ (sqrt (th (wv.1 ord0 i)) < PI)%R /\ csq (th (wv.1 ord0 i)) = wv.1 ord0 i
    /\ th (wv.1 ord0 i) * ssq (th (wv.1 ord0 i)) ^+ 2 = 1 - wv.1 ord0 i ^+ 2.
  have [/RltPx a /RlePx b] := c1 i; rewrite /th; move: (wv.1 ord0 i) a b => c a b.
  have A0 := acos_bound c; have Ca := cos_acos c (conj (Rlt_le _ _ a) b).
  have SQ : sqrt ((acos c : RR) ^+ 2) = acos c by rewrite expr2 -RmultE sqrt_square; last by case: A0.
  have aP : (acos c < PI)%Re.
    by case: (Rle_lt_or_eq_dec _ _ (proj2 A0)) => // E; move: Ca; rewrite E cos_PI => Q; move: a; rewrite -Q => /Rlt_irrefl.
  split; first exact: sqr_ge0.
  split; first by rewrite SQ; apply/RltPx.
  split; first by rewrite /csq SQ.
  rewrite /ssq sqrf_eq0 SQ; case: (acos c =P 0) => [E|N].
    by move: Ca; rewrite E cos_0 => <-; rewrite expr0n mul0r /= expr1n subrr.
  have s2 := sin2_cos2 (acos c); rewrite Ca /Rsqr in s2.
  have N' : (acos c : RR) != 0 by apply/eqP.
  rewrite exprMn exprVn mulrCA mulfV ?mulr1 ?sqrf_eq0 //; Rify; lra.
pose D := hskew A; pose S := eigfun (fun c => (ssq (th c))^-1) wv; pose L := S *m D.
have hD : D^H = - D := hskew_skew A.
have DD : D *m D = eigfun (fun c => c ^+ 2 - 1) wv.
  have -> : eigfun (fun c => c ^+ 2 - 1) wv = hsym A *m hsym A - 1%:M.
    by rewrite CE eigfunM // -(eigfun_const W) eigfunB.
  rewrite /D /hskew /hsym -!scalemxAl -!scalemxAr !scalerA.
  have -> : 1%:M = (half F * half F) *: (4%:R *: (1%:M : 'M[F]_n)).
    have h4 : half F * half F * 4%:R = 1.
      by rewrite half_real -[4%:R](rmorph_nat (@sf_real _ F)) -!rmorphM (_ : _ * _ * _ = 1) ?rmorph1 //; Rify; field.
    by rewrite scalerA h4 scale1r.
  rewrite -scalerBr; congr (_ *: _); rewrite mulmxBl !mulmxBr mulmxDl !mulmxDr O OC.
  rewrite (_ : 4%:R *: 1%:M = 1%:M + 1%:M + (1%:M + 1%:M)); last by rewrite scaler_nat -!mulr2n -mulrnA.
  move: (A *m A) (A^H *m A^H) (1%:M) => P Q E; vring (@inner_ips RR F n n) RR.
have CD : D *m eigfun id wv = eigfun id wv *m D.
  rewrite -CE /D /hskew /hsym -!scalemxAl -!scalemxAr; congr (_ *: (_ *: _)).
  rewrite !mulmxDl !mulmxDr !mulNmx !mulmxN O OC.
  move: (A *m A) (A^H *m A^H) (1%:M) => P Q E; vring (@inner_ips RR F n n) RR.
have SD f : D *m eigfun f wv = eigfun f wv *m D by apply: eigfun_comm.
have hL : L^H = - L by rewrite /L /S adjmxM hD (eigfun_hermitian _ wv) mulNmx SD.
have LL : L *m L = - eigfun th wv.
  have -> : L *m L = S *m (D *m S) *m D by rewrite /L !mulmxA.
  rewrite SD mulmxA /S eigfunM // -mulmxA DD eigfunM // eigfun_opp; apply: eigfun_ext => i.
  have [a [b [_ E]]] := thP i; have N := ssq_neq0 a b.
  rewrite -[_ - 1]opprB -E mulrN; congr (- _); rewrite mulrCA -mulrA -invfM -expr2 mulVf ?mulr1 //.
  by rewrite sqrf_eq0.
exists L; split; first exact: hL.
have E : eigfun th wv = eigfun id (map_mx th wv.1, wv.2) by rewrite eigfun_comp.
split.
  rewrite E in LL; have := expm_skew (wv := (map_mx th wv.1, wv.2)) W _ LL.
  rewrite !eigfun_comp /L mulmxA eigfunM //.
  rewrite (@eigfun_ext _ _ _ (fun x => csq (th x)) id) => [|i]; last by have [_ [_ []]] := thP i.
  rewrite (@eigfun_ext _ _ _ (fun x => ssq (th x) * (ssq (th x))^-1) (fun=> 1)) => [|i]; last by have [a [b _]] := thP i; rewrite (mulfV (ssq_neq0 a b)).
  rewrite eigfun_const // mul1mx -CE hsym_skew; apply=> i; rewrite mxE; by have [] := thP i.
move=> z z0; have pi0 : 0 < (PI : RR) by apply/RltPx; exact: PI_RGT_0.
rewrite -(@ltr_sqr _ _ (PI * _)) ?nnegrE ?fnorm_ge0 ?(mulr_ge0 (ltW pi0) (fnorm_ge0 _)) //.
rewrite exprMn !fnorm_sqr inner_mull mulmxA hL mulNmx LL opprK.
rewrite -subr_gt0 -[X in _ * inner z X]mul1mx -(eigfun_const W) -innerZr scalemxAl eigfunZ -innerBr -mulmxBl eigfunB inner_quad.
apply: (proj2 (posdef_eigfun W _)) => // i; have [a [b _]] := thP i; rewrite mulr1 subr_gt0.
have -> : th (wv.1 ord0 i) = sqrt (th (wv.1 ord0 i)) ^+ 2 by rewrite expr2 -RmultE sqrt_sqrt //; apply/RlePx.
by rewrite ltr_sqr // nnegrE ?(ltW pi0) //; apply/RlePx; apply: sqrt_pos.
Qed.
Theorem principal_log_domain A L : principal_log A L -> orthonormal A /\ A + 1%:M \in unitmx.
Proof.
move=> H; split; first by case: H => h [E _]; apply: expm_unitary E.
apply: contraT => /singular_vector [z z0]; rewrite mulmxDl mul1mx => /eqP; rewrite addr_eq0 => /eqP E.
have [wv [W P _ C _]] := principal_data H.
have : inner z (A *m z) = - inner z z by rewrite E innerNr.
rewrite -inner_hsym C => /eqP; rewrite -addr_eq0 -[X in _ + inner z X]mul1mx -(eigfun_const W) -innerDr -mulmxDl eigfunD inner_quad.
rewrite gt_eqF //; apply: (proj2 (posdef_eigfun W _)) => // i; have [/RlePx a /RltPx b] := P i.
rewrite -ltr_subl_addr sub0r; apply/RltPx; rewrite -[X in (X < _)%Re]cos_PI /csq.
by apply: cos_decreasing_1; have := sqrt_pos (wv.1 ord0 i); have := PI_RGT_0; lra.
Qed.
End Principal.
End Skew.
