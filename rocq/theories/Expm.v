(** The matrix exponential as a limit of partial sums: products, inverses, adjoints, derivative, existence. *)
From Coq Require Import Reals Lra.
From mathcomp Require Import all_ssreflect all_algebra.
From mathcomp.real_closed Require Import complex.
From Coq Require Import Ring Field.
From Verif Require Import Rstruct MCRing Mat_Base Linalg_Spec Geometry_Spec Calculus Multi_Model Multi_Proofs Sphere_Model Stiefel_Proofs.
Set Implicit Arguments.
Unset Strict Implicit.
Unset Printing Implicit Defensive.
Import GRing.Theory Num.Theory Order.TTheory.
Local Open Scope ring_scope.
Delimit Scope R_scope with Re.

(** ** Triangular sums *)
Lemma triangle_sum (V : zmodType) (f : nat -> nat -> V) N :
  \sum_(0 <= k < N) \sum_(0 <= i < k.+1) f i (k - i)%N = \sum_(0 <= i < N) \sum_(0 <= j < N - i) f i j.
Proof.
elim: N => [|N IH]; first by rewrite !big_geq.
rewrite big_nat_recr //= IH [in LHS](big_nat_recr N) // [in RHS]big_nat_recr //= subSnn big_nat1 subnn addrA.
congr (_ + _); rewrite -big_split; apply: eq_big_nat => i /andP[_ iN] /=.
by rewrite subSn ?(ltnW iN) // big_nat_recr.
Qed.
Lemma cauchy_sums (V : zmodType) (f : nat -> nat -> V) N :
  \sum_(0 <= i < N) \sum_(0 <= j < N) f i j - \sum_(0 <= k < N) \sum_(0 <= i < k.+1) f i (k - i)%N
  = \sum_(0 <= i < N) \sum_(N - i <= j < N) f i j.
Proof.
rewrite triangle_sum -sumrB; apply: eq_big_nat => i /andP[_ iN].
by rewrite [X in X - _](@big_cat_nat _ _ _ (N - i)) ?leq_subr //= addrC addKr.
Qed.
Section Binomial.
Variables (K : comRingType) (A : algType K) (c : nat -> K).
Hypothesis cE : forall k i, (i <= k)%N -> c k *+ 'C(k, i) = c i * c (k - i)%N.
Lemma exp_binomial (x y : A) k : x * y = y * x ->
  c k *: (x + y) ^+ k = \sum_(0 <= i < k.+1) (c i *: y ^+ i) * (c (k - i)%N *: x ^+ (k - i)).
Proof.
move=> xy; rewrite exprDn_comm // scaler_sumr big_mkord; apply: eq_bigr => i _.
have ik : (i <= k)%N by rewrite -ltnS.
rewrite -scaler_nat scalerA mulr_natr cE // -scalerAl -scalerAr scalerA; congr (_ *: _).
by apply: commrX; apply/commr_sym/commrX.
Qed.
Lemma exp_product (x y : A) N : x * y = y * x ->
  (\sum_(0 <= i < N) c i *: y ^+ i) * (\sum_(0 <= j < N) c j *: x ^+ j) - \sum_(0 <= k < N) c k *: (x + y) ^+ k
  = \sum_(0 <= i < N) \sum_(N - i <= j < N) (c i *: y ^+ i) * (c j *: x ^+ j).
Proof.
move=> xy; rewrite -(cauchy_sums (fun i j => (c i *: y ^+ i) * (c j *: x ^+ j))); congr (_ - _).
  by rewrite big_distrlr.
by apply: eq_bigr => k _; rewrite exp_binomial.
Qed.
End Binomial.

(** ** The real exponential *)
Definition ecoef (k : nat) : RR := (k`!%:R)^-1.
Lemma ecoef_ge0 k : 0 <= ecoef k. Proof. by rewrite invr_ge0 ler0n. Qed.
Lemma ecoefE k i : (i <= k)%N -> ecoef k *+ 'C(k, i) = ecoef i * ecoef (k - i)%N.
Proof.
move=> ik; rewrite -mulr_natr /ecoef -(bin_fact ik) !natrM !invfM. rewrite mulrAC mulVf ?mul1r //.
by rewrite pnatr_eq0 -lt0n bin_gt0.
Qed.
Definition esum (x : RR) N : RR := \sum_(0 <= k < N) ecoef k * x ^+ k.
Lemma esum_lim x (e : RR) : 0 < e -> exists N, forall p, (N <= p)%N -> `|esum x p - exp x| < e.
Proof.
move=> /RltPx e0; have [N H] := exp_series x e0; exists N => p /H; rewrite RabsE => K; apply/RltPx.
suff -> : esum x p = \sum_(k < p) (/ INR (fact k))%Re * x ^+ k by [].
by rewrite /esum big_mkord; apply: eq_bigr => k _; rewrite INR_fact.
Qed.
Lemma esum_mono (x : RR) N p : 0 <= x -> (N <= p)%N -> esum x N <= esum x p.
Proof.
move=> x0 Np; rewrite /esum (@big_cat_nat _ _ _ N 0 p) //= ler_addl big_seq; apply: sumr_ge0 => i _.
by rewrite mulr_ge0 ?ecoef_ge0 ?exprn_ge0.
Qed.
Lemma esum_le (x : RR) N : 0 <= x -> esum x N <= exp x.
Proof.
move=> x0; rewrite leNgt; apply/negP => H.
have e0 : 0 < esum x N - exp x by rewrite subr_gt0.
have [M HM] := esum_lim x e0.
have := HM (maxn M N) (leq_maxl _ _); apply/negP; rewrite -leNgt.
apply: le_trans (ler_norm _); rewrite ler_add2r; exact: (esum_mono x0 (leq_maxr _ _)).
Qed.
Lemma esum_product (x y : RR) N :
  esum y N * esum x N - esum (x + y) N = \sum_(0 <= i < N) \sum_(N - i <= j < N) (ecoef i * y ^+ i) * (ecoef j * x ^+ j).
Proof. exact: (@exp_product RR [algType RR of RR^o] ecoef ecoefE x y N (mulrC x y)). Qed.

(** ** Limits of matrices *)
Section Limits.
Variables (R : rcfType) (F : starField R).
Definition tends m n (u : nat -> 'M[F]_(m, n)) (L : 'M[F]_(m, n)) : Prop :=
  forall e : R, 0 < e -> exists N : nat, forall p : nat, (N <= p)%N -> fnorm (u p - L) < e.
Definition vanishes (w : nat -> R) : Prop := forall e : R, 0 < e -> exists N : nat, forall p : nat, (N <= p)%N -> w p < e.
Lemma vanishesD v w : vanishes v -> vanishes w -> vanishes (fun p => v p + w p).
Proof.
move=> H K e e0; have e2 : 0 < e / 2%:R by rewrite divr_gt0 ?ltr0n.
have [N HN] := H _ e2; have [M HM] := K _ e2; exists (maxn N M) => p; rewrite geq_max => /andP[/HN h /HM k].
by rewrite (splitr e) ltr_add.
Qed.
Lemma vanishesZ a v : 0 <= a -> vanishes v -> vanishes (fun p => a * v p).
Proof.
move=> a0 H e e0; have a1 : 0 < a + 1 by rewrite ltr_paddl ?ltr01.
have [N HN] := H (e / (a + 1)) (divr_gt0 e0 a1); exists N => p /HN h.
have [v0|v0] := ltP (v p) 0; first by rewrite (le_lt_trans _ e0) // mulr_ge0_le0 // ltW.
apply: le_lt_trans (_ : (a + 1) * v p < _); first by rewrite ler_wpmul2r // ler_addl ler01.
by rewrite mulrC -ltr_pdivl_mulr.
Qed.
Lemma vanishes_le v w : (forall p, v p <= w p) -> vanishes w -> vanishes v.
Proof. by move=> H K e e0; have [N HN] := K e e0; exists N => p /HN; apply: le_lt_trans. Qed.
Lemma vanishes_const a : vanishes (fun=> a) -> a <= 0.
Proof. by move=> H; rewrite leNgt; apply/negP => /H [N /(_ N (leqnn N))]; rewrite ltxx. Qed.

Variables (m n : nat).
Implicit Types u v : nat -> 'M[F]_(m, n).
Implicit Types L : 'M[F]_(m, n).
Lemma tendsE u L : tends u L <-> vanishes (fun p => fnorm (u p - L)). Proof. by []. Qed.
Lemma tends_ext u v L : (forall p, u p = v p) -> tends u L -> tends v L.
Proof. by move=> E H e /H [N K]; exists N => p /K; rewrite E. Qed.
Lemma tends_near u v L : vanishes (fun p => fnorm (v p - u p)) -> tends u L -> tends v L.
Proof.
move=> H K; apply: vanishes_le (vanishesD H K) => p.
have -> : v p - L = (v p - u p) + (u p - L) by rewrite addrA subrK.
exact: fnormD'.
Qed.
Lemma tends_unique u L L' : tends u L -> tends u L' -> L = L'.
Proof.
move=> H K; apply/eqP; rewrite -subr_eq0 -fnorm_eq0 eq_le fnorm_ge0 andbT.
apply: vanishes_const; apply: vanishes_le (vanishesD H K) => p.
have -> : L - L' = - (u p - L) + (u p - L') by rewrite opprB addrA subrK.
by apply: le_trans (fnormD' _ _) _; rewrite fnormN.
Qed.
Lemma tends_const L : tends (fun=> L) L.
Proof. by move=> e e0; exists 0%N => p _; rewrite subrr /fnorm inner0l sqrtr0. Qed.
Lemma tends_add u v L L' : tends u L -> tends v L' -> tends (fun p => u p + v p) (L + L').
Proof.
move=> H K; apply: vanishes_le (vanishesD H K) => p; rewrite opprD addrACA; exact: fnormD'.
Qed.
Lemma tends_opp u L : tends u L -> tends (fun p => - u p) (- L).
Proof. by apply: vanishes_le => p; rewrite -opprD fnormN. Qed.
Lemma tends_le u L (b : R) : tends u L -> (forall p, fnorm (u p) <= b) -> fnorm L <= b.
Proof.
move=> H B; rewrite -subr_le0; apply: vanishes_const; apply: vanishes_le H => p.
rewrite ler_subl_addr; apply: le_trans (_ : fnorm (u p - L) + fnorm (u p) <= _); last by rewrite ler_add2l.
by have := fnormD' (L - u p) (u p); rewrite subrK -(fnormN (u p - L)) opprB.
Qed.
End Limits.
Lemma tends_adj (R : rcfType) (F : starField R) m n (u : nat -> 'M[F]_(m, n)) L :
  tends u L -> tends (fun p => (u p)^H) L^H.
Proof. by apply: vanishes_le => p; rewrite -adjmxB fnorm_adj. Qed.
Lemma tends_mul (R : rcfType) (F : starField R) m n q (u : nat -> 'M[F]_(m, n)) (v : nat -> 'M[F]_(n, q)) L L' :
  tends u L -> tends v L' -> tends (fun p => u p *m v p) (L *m L').
Proof.
move=> H K e e0.
pose a := fnorm L + fnorm L' + 1.
have a1 : 1 <= a by rewrite ler_addr addr_ge0 ?fnorm_ge0.
have a0 : 0 < a := lt_le_trans ltr01 a1.
pose d := Num.min 1 (e / (3%:R * a)).
have d0 : 0 < d by rewrite lt_minr ltr01 divr_gt0 ?mulr_gt0 ?ltr0n.
have [N HN] := H _ d0; have [M HM] := K _ d0; exists (maxn N M) => p; rewrite geq_max => /andP[/HN h /HM k].
have -> : u p *m v p - L *m L' = (u p - L) *m (v p - L') + (u p - L) *m L' + L *m (v p - L').
  by rewrite -mulmxDr subrK mulmxBl mulmxBr addrA subrK.
have d1 : d <= 1 by rewrite le_minl lexx.
have da : 3%:R * (a * d) <= e.
  by rewrite mulrA mulrC -ler_pdivl_mulr ?mulr_gt0 ?ltr0n // le_minl lexx orbT.
apply: le_lt_trans (fnormD' _ _) _; apply: le_lt_trans (_ : d * d + d * fnorm L' + fnorm L * fnorm (v p - L') < _).
  apply: ler_add; last exact: fnorm_mul.
  apply: le_trans (fnormD' _ _) _; apply: ler_add; apply: le_trans (fnorm_mul _ _) _.
    by apply: ler_pmul; rewrite ?fnorm_ge0 ?ltW.
  by rewrite ler_wpmul2r ?fnorm_ge0 // ltW.
apply: lt_le_trans da.
have -> : 3%:R * (a * d) = a * d + a * d + a * d by rewrite mulr_natl !mulrS mulr0n addr0 addrA.
have A1 : d * d <= a * d by rewrite ler_wpmul2r ?(ltW d0) // (le_trans d1).
have A2 : d * fnorm L' <= a * d by rewrite mulrC ler_wpmul2r ?(ltW d0) // /a -addrA addrCA ler_addl addr_ge0 ?fnorm_ge0 ?ler01.
have A3 : fnorm L * fnorm (v p - L') < a * d.
  apply: le_lt_trans (_ : fnorm L * d < _); first by rewrite ler_wpmul2l ?fnorm_ge0 // ltW.
  by rewrite ltr_pmul2r // /a -addrA ltr_addl ltr_paddl ?fnorm_ge0 ?ltr01.
by rewrite ler_lt_add // ler_add.
Qed.

Lemma tends_shift (R : rcfType) (F : starField R) m n (u : nat -> 'M[F]_(m, n)) L q :
  tends u L -> tends (fun p => u (p + q)%N) L.
Proof. by move=> H e /H [N K]; exists N => p Np; apply: K; apply: leq_trans (leq_addr _ _). Qed.

(** ** Properties of the exponential *)
Section Expm.
Variable (F : starField RR).
Lemma expm_sumE n (A : 'M[F]_n.+1) N : expm_sum A N = \sum_(0 <= k < N) sf_real (ecoef k) *: A ^+ k.
Proof. by rewrite big_mkord; apply: eq_bigr => k _; rewrite mpowE. Qed.
Lemma sf_ecoefE k i : (i <= k)%N -> sf_real (ecoef k) *+ 'C(k, i) = sf_real (ecoef i) * sf_real (ecoef (k - i)) :> F.
Proof. by move=> ik; rewrite -rmorphMn ecoefE // rmorphM. Qed.
Lemma fnorm_pow n (A : 'M[F]_n.+1) k : fnorm (A ^+ k) <= fnorm (1 : 'M[F]_n.+1) * fnorm A ^+ k.
Proof.
elim: k => [|k IH]; first by rewrite !expr0 mulr1.
rewrite exprS; apply: le_trans (fnorm_mul _ _) _.
by rewrite exprS mulrCA ler_wpmul2l ?fnorm_ge0.
Qed.
Lemma fnorm_term n (A : 'M[F]_n.+1) k :
  fnorm (sf_real (ecoef k) *: A ^+ k) <= fnorm (1 : 'M[F]_n.+1) * (ecoef k * fnorm A ^+ k).
Proof. by rewrite fnormZ ger0_norm ?ecoef_ge0 // mulrCA ler_wpmul2l ?ecoef_ge0 ?fnorm_pow. Qed.
Lemma fnorm_sum m n (I : Type) (r : seq I) (P : pred I) (f : I -> 'M[F]_(m, n)) :
  fnorm (\sum_(i <- r | P i) f i) <= \sum_(i <- r | P i) fnorm (f i).
Proof.
elim/big_rec2: _ => [|i y x _ H]; first by rewrite /fnorm inner0l sqrtr0.
by apply: le_trans (fnormD' _ _) _; rewrite ler_add2l.
Qed.
Lemma expm_product_bound n (A B : 'M[F]_n.+1) N : A * B = B * A ->
  fnorm (expm_sum B N *m expm_sum A N - expm_sum (A + B) N) <=
  fnorm (1 : 'M[F]_n.+1) ^+ 2 * (esum (fnorm B) N * esum (fnorm A) N - esum (fnorm A + fnorm B) N).
Proof.
move=> AB; rewrite !expm_sumE esum_product (exp_product sf_ecoefE N AB).
apply: le_trans (fnorm_sum _ _ _) _; rewrite mulr_sumr; apply: ler_sum => i _.
apply: le_trans (fnorm_sum _ _ _) _; rewrite mulr_sumr; apply: ler_sum => j _.
apply: le_trans (fnorm_mul _ _) _; rewrite expr2 mulrACA.
by apply: ler_pmul; rewrite ?fnorm_ge0 // fnorm_term.
Qed.
Lemma esum_gap_vanishes (a b : RR) : vanishes (fun N => esum b N * esum a N - esum (a + b) N).
Proof.
move=> e e0.
have T (x : RR) : tends (fun N => (esum x N)%:M : 'M[RF]_1) (exp x)%:M.
  move=> d d0; have [N H] := esum_lim x d0; exists N => p /H.
  rewrite -raddfB /= /fnorm /inner !big_ord1 mxE eqxx mulr1n /=.
  by rewrite -expr2 sqrtr_sqr.
have := tends_add (tends_mul (T b) (T a)) (tends_opp (T (a + b))).
rewrite exp_plus -!scalar_mxM (mulrC (exp b)) subrr => /(_ e e0) [N H]; exists N => p /H.
rewrite -scalar_mxM -raddfB /= subr0 /fnorm /inner !big_ord1 !mxE eqxx mulr1n /= -expr2 sqrtr_sqr.
exact: le_lt_trans (ler_norm _).
Qed.
Lemma expm_mul n (A B EA EB : 'M[F]_n) : A *m B = B *m A -> is_expm A EA -> is_expm B EB -> is_expm (A + B) (EB *m EA).
Proof.
case: n A B EA EB => [|n] A B EA EB AB HA HB.
  by move=> e e0; exists 0%N => p _; rewrite [_ - _]flatmx0 /fnorm inner0l sqrtr0.
apply: (tends_near (u := fun N => expm_sum B N *m expm_sum A N)); last exact: tends_mul.
apply: vanishes_le (vanishesZ (sqr_ge0 (fnorm (1 : 'M[F]_n.+1))) (esum_gap_vanishes (fnorm A) (fnorm B))) => N.
by rewrite -opprB fnormN; apply: expm_product_bound.
Qed.
Lemma expm_unique n (A E E' : 'M[F]_n) : is_expm A E -> is_expm A E' -> E = E'. Proof. exact: tends_unique. Qed.
Lemma mpow0 n k : mpow (0 : 'M[F]_n) k = if k is 0 then 1%:M else 0.
Proof. by case: k => // k; rewrite /mpow iterS mul0mx. Qed.
Lemma expm0 n : is_expm (0 : 'M[F]_n) 1%:M.
Proof.
move=> e e0; exists 1%N => -[//|p] _; rewrite /expm_sum big_ord_recl big1 ?addr0 => [|i _]; last by rewrite mpow0 /= scaler0.
by rewrite fact0 invr1 rmorph1 scale1r subrr /fnorm inner0l sqrtr0.
Qed.
Lemma expm_inv n (A E E' : 'M[F]_n) : is_expm A E -> is_expm (- A) E' -> E *m E' = 1%:M.
Proof.
move=> H K; apply: (expm_unique (A := 0)); last exact: expm0.
by rewrite -[X in is_expm X](addNr A); apply: expm_mul => //; rewrite mulNmx mulmxN.
Qed.
Lemma mpow_comm n (A : 'M[F]_n) k : A *m mpow A k = mpow A k *m A.
Proof. by elim: k => [|k IH]; rewrite ?mulmx1 ?mul1mx //= -mulmxA -IH. Qed.
Lemma mpow_adj n (A : 'M[F]_n) k : mpow A^H k = (mpow A k)^H.
Proof. by elim: k => [|k IH]; rewrite /= ?adjmx1 // IH -adjmxM mpow_comm. Qed.
Lemma expm_adj n (A E : 'M[F]_n) : is_expm A E -> is_expm A^H E^H.
Proof.
move=> /tends_adj; apply: tends_ext => p; rewrite /expm_sum raddf_sum; apply: eq_bigr => k _.
by rewrite /= adjmxZreal mpow_adj.
Qed.
(** a matrix that intertwines [A] and [B] intertwines their exponentials *)
Lemma expm_intertwine m n (G : 'M[F]_(m, n)) A B EA EB : G *m A = B *m G -> is_expm A EA -> is_expm B EB -> G *m EA = EB *m G.
Proof.
move=> GA HA HB; apply: tends_unique (tends_mul (@tends_const _ _ _ _ G) HA) _.
apply: tends_ext (tends_mul HB (@tends_const _ _ _ _ G)) => p.
rewrite /expm_sum mulmx_suml mulmx_sumr; apply: eq_bigr => k _; rewrite -scalemxAl -scalemxAr; congr (_ *: _).
by elim: (k : nat) => [|i IH]; rewrite ?mulmx1 ?mul1mx //= mulmxA GA -!mulmxA IH.
Qed.
(** exponentials of skew-Hermitian matrices are unitary; more generally a form is kept *)
Lemma expm_form n (G A E E' : 'M[F]_n) : A^H *m G + G *m A = 0 -> is_expm A E -> is_expm (- A^H) E' -> E^H *m G *m E = G.
Proof.
move=> H HE HE'; rewrite -mulmxA (expm_intertwine (B := - A^H) _ HE HE').
  by rewrite mulmxA (expm_inv (expm_adj HE) HE') mul1mx.
by apply/eqP; rewrite mulNmx -addr_eq0 addrC H.
Qed.
Lemma expm_unitary n (A E : 'M[F]_n) : A^H = - A -> is_expm A E -> E^H *m E = 1%:M.
Proof.
move=> H HE; have := expm_form (G := 1%:M) (E' := E) _ HE; rewrite !mulmx1 mul1mx; apply.
  by rewrite H addNr.
by rewrite H opprK.
Qed.

(** ** Remainder and derivative *)
Lemma expm_remainder n (A E : 'M[F]_n.+1) N : is_expm A E ->
  fnorm (E - expm_sum A N) <= fnorm (1 : 'M[F]_n.+1) * (exp (fnorm A) - esum (fnorm A) N).
Proof.
move=> /(@tends_shift _ _ _ _ _ _ N) H.
apply: (tends_le (tends_add H (tends_opp (@tends_const _ _ _ _ (expm_sum A N))))) => p.
apply: le_trans (_ : fnorm (1 : 'M[F]_n.+1) * (esum (fnorm A) (p + N) - esum (fnorm A) N) <= _); last first.
  by rewrite ler_wpmul2l ?fnorm_ge0 // ler_add2r esum_le ?fnorm_ge0.
have S (V : zmodType) (f : nat -> V) : \sum_(0 <= k < p + N) f k - \sum_(0 <= k < N) f k = \sum_(N <= k < p + N) f k.
  by rewrite (@big_cat_nat _ _ _ N 0 (p + N)) ?leq_addl //= addrC addKr.
rewrite !expm_sumE /esum !S mulr_sumr; apply: le_trans (fnorm_sum _ _ _) _.
by apply: ler_sum => k _; apply: fnorm_term.
Qed.
Lemma exp_quadratic (a : RR) : 0 <= a -> a <= 2%:R^-1 -> exp a - esum a 2 <= 2%:R * a ^+ 2.
Proof.
move=> a0 a1; have -> : esum a 2 = 1 + a.
  by rewrite /esum big_nat_recl // big_nat1 /ecoef !factE /= invr1 !mul1r expr0 expr1.
have h2 : (2%:R : RR) = 2%Re by rewrite INRE.
rewrite h2 in a1 *; move: a0 a1 => /RlePx a0 /RlePx; Rify => a1.
have := exp_ineq1_le (- a)%Re; have := exp_pos a; rewrite exp_Ropp => p0 H; apply/RlePx; Rify.
have e1 : (exp a * (1 - a) <= 1)%Re.
  have := Rmult_le_compat_l _ _ _ (Rlt_le _ _ p0) H; rewrite Rinv_r; last lra.
  lra.
have a2 : (a <= / 2)%Re by [].
have : (0 <= ((1 + a + 2 * (a * a)) - exp a) * (1 - a))%Re by nra.
nra.
Qed.
Lemma expm_near_one n (A E : 'M[F]_n.+1) : is_expm A E -> fnorm A <= 2%:R^-1 ->
  fnorm (E - 1%:M - A) <= fnorm (1 : 'M[F]_n.+1) * 2%:R * fnorm A ^+ 2.
Proof.
move=> H A1; have := expm_remainder 2 H.
rewrite {1}/expm_sum big_ord_recl big_ord1 !factE invr1 rmorph1 !scale1r /= mulmx1 opprD addrA => K.
apply: le_trans K _; rewrite -mulrA ler_wpmul2l ?fnorm_ge0 //; apply: exp_quadratic => //; exact: fnorm_ge0.
Qed.
Section Derivative.
Add Ring RR_ring : (mc_ring RR).
Variables (n : nat) (A : 'M[F]_n) (E : RR -> 'M[F]_n).
Hypothesis H : forall t, is_expm (rscale t A) (E t).
Lemma expm_curve0 : E 0 = 1%:M.
Proof. by apply: expm_unique (H 0) _; rewrite /rscale rmorph0 scale0r; apply: expm0. Qed.
Lemma expm_curveD s t : E (s + t) = E s *m E t.
Proof.
apply: expm_unique (H _) _; rewrite addrC /rscale rmorphD scalerDl.
apply: expm_mul; try exact: H.
by rewrite -!scalemxAl -!scalemxAr !scalerA mulrC.
Qed.
Lemma expm_derives0 : derives (@rscale RR F n n) (@inner RR F n n) E A.
Proof.
move: A E H expm_curve0; case: (n) => [|m] B D K D0.
  move=> e e0; exists 1; first exact: ltr01.
  by move=> t _; rewrite [_ - _]flatmx0 /norm_of inner0l sqrtr0 mulr_ge0 ?normr_ge0 // ltW.
move=> e e0.
have N0 := fnorm_ge0 (1 : 'M[F]_m.+1); have B0 := fnorm_ge0 B.
pose C := fnorm (1 : 'M[F]_m.+1) * 2%:R * fnorm B ^+ 2 + 1.
have C0 : 0 < C by rewrite ltr_paddl ?ltr01 // mulr_ge0 ?exprn_ge0 // mulr_ge0 ?ler0n.
pose d := 2%:R^-1 / (fnorm B + 1) : RR.
have b0 : 0 < fnorm B + 1 by rewrite ltr_paddl ?ltr01.
have d0 : 0 < d by rewrite divr_gt0 ?invr_gt0 ?ltr0n.
exists (Num.min d (e / C)); first by rewrite lt_minr d0 divr_gt0.
move=> t; rewrite le_minr => /andP[td te].
have tB : fnorm (rscale t B) <= 2%:R^-1.
  rewrite fnormZ; apply: le_trans (_ : `|t| * (fnorm B + 1) <= _).
    by rewrite ler_wpmul2l ?normr_ge0 // ler_addl ler01.
  by rewrite -ler_pdivl_mulr.
rewrite D0; apply: le_trans (expm_near_one (K t) tB) _; rewrite fnormZ exprMn.
have -> : fnorm (1 : 'M[F]_m.+1) * 2%:R * (`|t| ^+ 2 * fnorm B ^+ 2) = (fnorm (1 : 'M[F]_m.+1) * 2%:R * fnorm B ^+ 2) * `|t| * `|t|.
  by move: (fnorm _) (fnorm B) `|t| => a b c; mcring RR.
rewrite ler_wpmul2r ?normr_ge0 //; apply: le_trans (_ : C * `|t| <= _).
  by rewrite ler_wpmul2r ?normr_ge0 // ler_addl ler01.
by rewrite mulrC -ler_pdivl_mulr.
Qed.
Lemma expm_derives t : derives (@rscale RR F n n) (@inner RR F n n) (fun h => E (t + h)) (A *m E t).
Proof.
have := derives_mul expm_derives0 (derives_const (@inner_ips RR F n n) (E t)).
rewrite mulmx0 addr0; apply: derives_ext => h; by rewrite addrC expm_curveD.
Qed.
Lemma expm_comm t : A *m E t = E t *m A.
Proof.
apply: (expm_intertwine (A := rscale t A) (B := rscale t A)) => //.
by rewrite /rscale -scalemxAl -scalemxAr.
Qed.
End Derivative.
End Expm.

(** ** Existence *)
Section Existence.
Variable (F : starField RR).
Definition fabs (x : F) : RR := Num.sqrt (abs2 x).
Definition complete_field : Prop := forall u : nat -> F,
  (forall e : RR, 0 < e -> exists N, forall p q, (N <= p)%N -> (N <= q)%N -> fabs (u p - u q) < e) ->
  exists l, forall e : RR, 0 < e -> exists N, forall p, (N <= p)%N -> fabs (u p - l) < e.
Hypothesis FC : complete_field.
Lemma fabs_le m n (A : 'M[F]_(m, n)) i j : fabs (A i j) <= fnorm A.
Proof.
apply: ler_wsqrtr; rewrite inner_entries (bigD1 i) //= (bigD1 j) //= -addrA ler_addl addr_ge0 //.
  by apply: sumr_ge0 => k _; apply: abs2_ge0.
by apply: sumr_ge0 => k _; apply: sumr_ge0 => l _; apply: abs2_ge0.
Qed.
Lemma fnorm_le m n (A : 'M[F]_(m, n)) (e : RR) : 0 <= e -> (forall i j, fabs (A i j) <= e) -> fnorm A <= e * (m * n)%:R.
Proof.
move=> e0 H; have -> : e * (m * n)%:R = \sum_(i < m) \sum_(j < n) e.
  by rewrite !sumr_const !card_ord -mulrnA mulr_natr mulnC.
rewrite {1}[A]matrix_sum_delta; apply: le_trans (fnorm_sum _ _ _) _; apply: ler_sum => i _.
apply: le_trans (fnorm_sum _ _ _) _; apply: ler_sum => j _; apply: le_trans (H i j).
apply: ler_wsqrtr; rewrite inner_entries (bigD1 i) //= (bigD1 j) //= !mxE !eqxx /= mulr1 !big1 ?addr0 //.
  move=> k ki; rewrite big1 // => l _; rewrite !mxE (negbTE ki) /= mulr0 /abs2 mulr0 raddf0 //.
by move=> l lj; rewrite !mxE (negbTE lj) andbF mulr0 /abs2 mulr0 raddf0.
Qed.
Lemma tends_cauchy m n (u : nat -> 'M[F]_(m, n)) :
  (forall e : RR, 0 < e -> exists N, forall p q, (N <= p)%N -> (N <= q)%N -> fnorm (u p - u q) < e) -> exists L, tends u L.
Proof.
move=> H.
have K (ij : 'I_m * 'I_n) : exists l, forall e : RR, 0 < e -> exists N, forall p, (N <= p)%N -> fabs (u p ij.1 ij.2 - l) < e.
  apply: FC => e /H [N HN]; exists N => p q Np Nq; apply: le_lt_trans (HN p q Np Nq).
  by have := fabs_le (u p - u q) ij.1 ij.2; rewrite !mxE.
have [L HL] := fin_all_exists K; exists (\matrix_(i, j) L (i, j)) => e e0.
pose d := e / ((m * n)%:R + 1) : RR.
have c0 : 0 < (m * n)%:R + 1 :> RR by rewrite ltr_paddl ?ltr01 ?ler0n.
have d0 : 0 < d by rewrite divr_gt0.
have [N HN] := fin_all_exists (fun ij => HL ij d d0); exists (\max_ij N ij) => p Np.
apply: le_lt_trans (_ : d * (m * n)%:R < _).
  apply: fnorm_le (ltW d0) _ => i j; rewrite !mxE; apply: ltW; apply: (HN (i, j)).
  apply: leq_trans Np; exact: leq_bigmax.
rewrite /d -mulrA -[X in _ < X]mulr1 ltr_pmul2l // mulrC ltr_pdivr_mulr // mul1r ltr_addl; exact: ltr01.
Qed.
Theorem expm_exists n (A : 'M[F]_n) : exists E, is_expm A E.
Proof.
case: n A => [|n] A; first by exists 0 => e e0; exists 0%N => p _; rewrite [_ - _]flatmx0 /fnorm inner0l sqrtr0.
apply: tends_cauchy => e e0.
have N0 := fnorm_ge0 (1 : 'M[F]_n.+1).
pose C := fnorm (1 : 'M[F]_n.+1) + 1.
have C0 : 0 < C by rewrite ltr_paddl ?ltr01.
pose d := e / (2%:R * C).
have d0 : 0 < d by rewrite divr_gt0 ?mulr_gt0 ?ltr0n.
have [N HN] := esum_lim (fnorm A) d0; exists N.
have S p q : (q <= p)%N -> fnorm (expm_sum A p - expm_sum A q) <= fnorm (1 : 'M[F]_n.+1) * (esum (fnorm A) p - esum (fnorm A) q).
  move=> qp; have S (V : zmodType) (f : nat -> V) : \sum_(0 <= k < p) f k - \sum_(0 <= k < q) f k = \sum_(q <= k < p) f k.
    by rewrite (@big_cat_nat _ _ _ q 0 p) //= addrC addKr.
  rewrite !expm_sumE /esum !S mulr_sumr; apply: le_trans (fnorm_sum _ _ _) _.
  by apply: ler_sum => k _; apply: fnorm_term.
have T p q : (N <= p)%N -> (N <= q)%N -> (q <= p)%N -> fnorm (expm_sum A p - expm_sum A q) < e.
  move=> /HN Np /HN Nq /S; move/le_lt_trans; apply.
  apply: le_lt_trans (_ : C * `|esum (fnorm A) p - esum (fnorm A) q| < _).
    apply: le_trans (_ : fnorm (1 : 'M[F]_n.+1) * `|esum (fnorm A) p - esum (fnorm A) q| <= _).
      by rewrite ler_wpmul2l // ler_norm.
    by rewrite ler_wpmul2r ?normr_ge0 // ler_addl ler01.
  have -> : e = C * (d + d).
    rewrite -mulr2n -mulr_natl mulrA (mulrC C) /d [RHS]mulrC divfK // mulf_neq0 ?pnatr_eq0 //.
    by rewrite gt_eqF.
  rewrite ltr_pmul2l //; apply: le_lt_trans (ler_dist_add (exp (fnorm A)) _ _) _.
  by rewrite ltr_add // distrC.
move=> p q Np Nq; have [qp|/ltnW pq] := leqP q p; first exact: T.
by rewrite -opprB fnormN; apply: T.
Qed.
End Existence.
Lemma fabs_real (x : RF) : fabs x = `|x : RR|.
Proof. by rewrite /fabs /abs2 /= -expr2 sqrtr_sqr. Qed.
Lemma real_complete : complete_field RF.
Proof.
move=> u H; have [l Hl] : {l | Un_cv u l}.
  apply: R_complete => e e0; have [N HN] := H e (introT (RltPx _ _) e0).
  by exists N => p q /ssrnat.leP Np /ssrnat.leP Nq; have /RltPx := HN p q Np Nq; rewrite fabs_real.
exists l => e /RltPx e0; have [N HN] := Hl e e0; exists N => p /ssrnat.leP Np.
by apply/RltPx; rewrite fabs_real; apply: HN.
Qed.
Lemma abs2_complex (x : complex_star RR) : abs2 x = complex.Re x ^+ 2 + complex.Im x ^+ 2.
Proof. by case: x => a b; rewrite /abs2 /= mulNr opprK !expr2. Qed.
Lemma complex_complete : complete_field (complex_star RR).
Proof.
move=> u H.
have P (f : complex_star RR -> RF) : {morph f : x y / x - y} -> (forall x, (f x : RR) ^+ 2 <= abs2 x) ->
  exists l : RR, forall e : RR, 0 < e -> exists N, forall p, (N <= p)%N -> `|f (u p) - l| < e.
  move=> fB fle; have L x : fabs (f x) <= fabs x by apply: ler_wsqrtr; apply: le_trans (fle x); rewrite expr2.
  have [e e0|l Hl] := @real_complete (fun p => f (u p)).
    have [N HN] := H e e0; exists N => p q Np Nq; rewrite -fB; exact: le_lt_trans (L _) (HN p q Np Nq).
  by exists l => e /Hl [N HN]; exists N => p /HN; rewrite fabs_real.
have [a Ha] : exists l : RR, forall e : RR, 0 < e -> exists N, forall p, (N <= p)%N -> `|complex.Re (u p) - l| < e.
  by apply: P => [[? ?] [? ?] //|x]; rewrite abs2_complex ler_addl sqr_ge0.
have [b Hb] : exists l : RR, forall e : RR, 0 < e -> exists N, forall p, (N <= p)%N -> `|complex.Im (u p) - l| < e.
  by apply: P => [[? ?] [? ?] //|x]; rewrite abs2_complex ler_addr sqr_ge0.
exists (Complex a b) => e e0; have e2 : 0 < e / 2%:R by rewrite divr_gt0 ?ltr0n.
have [N HN] := Ha _ e2; have [M HM] := Hb _ e2; exists (maxn N M) => p; rewrite geq_max => /andP[/HN h /HM k].
have S (x y : RR) : Num.sqrt (x ^+ 2 + y ^+ 2) <= `|x| + `|y|.
  have n0 : 0 <= `|x| + `|y| by rewrite addr_ge0 ?normr_ge0.
  rewrite -[X in _ <= X](ger0_norm n0) -(sqrtr_sqr (`|x| + `|y|)); apply: ler_wsqrtr.
  by rewrite sqrrD !real_normK ?num_real // addrAC ler_addl pmulrn_lge0 // mulr_ge0 ?normr_ge0.
rewrite (splitr e) /fabs abs2_complex; case: (u p) h k => x y /= h k.
by apply: le_lt_trans (S _ _) _; apply: ltr_add.
Qed.
(** Real and complex matrices have an exponential. *)
Theorem expm_exists_real n (A : 'M[RF]_n) : exists E, is_expm A E. Proof. exact: expm_exists real_complete _ _. Qed.
Theorem expm_exists_complex n (A : 'M[complex_star RR]_n) : exists E, is_expm A E.
Proof. exact: expm_exists complex_complete _ _. Qed.
