(** Positive definite matrices with determinant one, one matrix at a time *)
From Coq Require Import Reals Lra.
From mathcomp Require Import all_ssreflect all_algebra.
From Coq Require Import Ring Field.
From Verif Require Import Rstruct MCRing Mat_Base Geometry_Spec Linalg_Spec Calculus Connection Multi_Model Multi_Proofs.
From Verif Require Import Sphere_Model Sphere_Proofs Stiefel_Proofs Grassmann_Proofs Expm Logm Linalg_Exist PosDef_Model PosDef_Proofs Spectral PosDef_Exp.
Set Implicit Arguments.
Unset Strict Implicit.
Unset Printing Implicit Defensive.
Import GRing.Theory Num.Theory Order.TTheory.
Local Open Scope ring_scope.
Delimit Scope R_scope with Re.

(** *** Real functions *)
Lemma abs_between (x a : R) : (Rabs x <= a -> - a <= x <= a)%Re.
Proof. by rewrite /Rabs; case: (Rcase_abs x) => *; lra. Qed.
Lemma prod_ln n (f : 'I_n -> RR) : (forall i, 0 < f i) -> 0 < \prod_i f i /\ ln (\prod_i f i) = \sum_i (ln (f i) : RR).
Proof.
move=> f0; suff : (0 < \prod_i f i)%Re /\ ln (\prod_i f i) = \sum_i (ln (f i) : RR) by move=> [/RltPx].
apply: (big_ind2 (fun a b => (0 < a)%Re /\ ln a = b)); first by split; [exact: Rlt_0_1|exact: ln_1].
  by move=> a b c d [a0 <-] [c0 <-]; split; [apply: Rmult_lt_0_compat|exact: ln_mult].
by move=> i _; split=> //; apply/RltPx.
Qed.
Lemma prod_exp n (f : 'I_n -> RR) : \prod_i (exp (f i) : RR) = exp (\sum_i f i).
Proof.
apply: (big_ind2 (fun a b => a = exp b)); first by rewrite exp_0.
  by move=> a b c d -> ->; symmetry; exact: exp_plus.
by [].
Qed.
(** the eigenvalues of the retraction *)
Definition retr_eig (w : R) : R := (1 + w + w ^ 2 / 2)%Re.
Lemma retr_eig_half w : (/ 2 <= retr_eig w)%Re. Proof. by rewrite /retr_eig; have := pow2_ge_0 (w + 1)%Re; nra. Qed.
Lemma retr_eig_ln (w : R) : (Rabs w <= 1)%Re -> (Rabs (ln (retr_eig w) - w) <= 10 * w ^ 2)%Re.
Proof.
move=> /abs_between w1.
have h : (0 < / 2)%Re by lra.
have h1 : (/ 2 <= 1)%Re by lra.
have := ln_taylor h h1 (retr_eig_half w); rewrite ln_1 Rinv_1.
have -> : ((retr_eig w - 1) ^ 2 / (/ 2) ^ 2 = 4 * (w + w ^ 2 / 2) ^ 2)%Re by rewrite /retr_eig; field.
have -> : (retr_eig w - 1 = w + w ^ 2 / 2)%Re by rewrite /retr_eig; ring.
have E : ((w + w ^ 2 / 2) ^ 2 = w ^ 2 * (1 + w / 2) ^ 2)%Re by field.
have B : ((1 + w / 2) ^ 2 <= 9 / 4)%Re by nra.
have := pow2_ge_0 w; move: (ln _ : R) => l q H; apply: Rabs_le; rewrite E in H; nra.
Qed.
Lemma exp_near (l : R) : (Rabs l <= / 2)%Re -> (Rabs (exp l - 1) <= 2 * Rabs l)%Re.
Proof.
move=> l2; have lo := exp_ineq1_le l; have p := exp_pos l.
have hi : (exp l * (1 - l) <= 1)%Re.
  have := exp_ineq1_le (- l)%Re; rewrite exp_Ropp => H.
  have := Rmult_le_compat_l _ _ _ (Rlt_le _ _ p) H; rewrite Rinv_r; lra.
move: l2; rewrite {3}/Rabs; case: (Rcase_abs l) => s.
  move=> _; have e1 : (exp l <= 1)%Re by rewrite -exp_0; left; apply: exp_increasing.
  by apply: Rabs_le; lra.
move=> /abs_between l2; apply: Rabs_le; split; first lra.
have : (0 <= (1 + 2 * l - exp l) * (1 - l))%Re by nra.
nra.
Qed.

Section Special.
Variables (F : starField RR) (n : nat).
Hypothesis n0 : (0 < n)%N.
Hypothesis EV : has_eigenvectors F.
Local Notation scale := (@rscale RR F n n).
Local Notation dot := (@inner RR F n n).
Local Notation I := (@inner_ips RR F n n).
Implicit Types P Q L A B V W X : 'M[F]_n.
Add Ring RR_ring : (mc_ring RR).
Local Notation rtr A := (sf_re (\tr A)).
Definition stang P V : Prop := V^H = V /\ rtr (invmx P *m V) = 0.
Lemma rtrD A B : rtr (A + B) = rtr A + rtr B. Proof. by rewrite linearD raddfD. Qed.
Lemma rtrZ (a : RR) A : rtr (sf_real a *: A) = a * rtr A. Proof. by rewrite linearZ /= sf_reZ. Qed.
Lemma rtrN A : rtr (- A) = - rtr A. Proof. by rewrite linearN raddfN. Qed.
Lemma rtr1 : rtr (1%:M : 'M[F]_n) = n%:R. Proof. by rewrite mxtrace1 -(rmorph_nat (@sf_real RR F)) re_real. Qed.
Lemma nR : (n%:R : RR) != 0. Proof. by rewrite pnatr_eq0 -lt0n. Qed.
Lemma stang_subspace P : real_subspace scale (stang P).
Proof.
split; first by split; rewrite ?adjmx0 // mulmx0 linear0 raddf0.
split; first by move=> A B [hA tA] [hB tB]; split; rewrite ?adjmxD ?hA ?hB // mulmxDr rtrD tA tB addr0.
by move=> a A [hA tA]; split; rewrite /rscale ?adjmxZreal ?hA // -scalemxAr rtrZ tA mulr0.
Qed.
(** *** Projection and gradient *)
Definition sproj P V : 'M[F]_n := hsym V - sf_real (n%:R^-1 * rtr (invmx P *m hsym V)) *: P.
Lemma pip_self P A : posdef P -> pip P P A = rtr (invmx P *m A).
Proof. by move=> /posdef_unit U; rewrite /pip mulVmx // mul1mx. Qed.
Lemma sproj_projects P V : posdef P -> projects_to (pip P) (stang P) V (sproj P V).
Proof.
move=> PP; have U := posdef_unit PP; have [hP _] := PP.
split.
  split; first by rewrite /sproj adjmxB hsym_herm adjmxZreal hP.
  rewrite /sproj mulmxBr rtrD rtrN -(scalemxAr _ _ P) rtrZ mulVmx // rtr1 mulrAC.
  by rewrite mulVf ?nR // mul1r subrr.
split; first by move=> [hV tV]; rewrite /sproj hsym_id // tV mulr0 rmorph0 scale0r subr0.
move=> T [hT tT]; rewrite /sproj opprB addrCA pipDl -/(scale _ _) pipZl pip_self // tT mulr0 add0r.
by rewrite pipDl pipNl pip_hsym // subrr.
Qed.
Lemma sproj_gradient P g : posdef P -> represents_gradient dot (stang P) (pip P) g (sproj P (sproj P (P *m g *m P))).
Proof.
move=> PP; have [S1 [_ O1]] := sproj_projects (P *m g *m P) PP.
have [_ [E _]] := sproj_projects (sproj P (P *m g *m P)) PP; rewrite (E S1); split=> // T TT.
have := O1 T TT; rewrite pipDl pipNl => /eqP; rewrite subr_eq0 => /eqP <-.
by have [hT _] := TT; rewrite -(pip_gradient g PP hT) -hsym_congr ?pip_hsym //; case: PP.
Qed.
(** *** Determinants *)
Lemma det_pos A : posdef A -> \det A = sf_real (sf_re (\det A)) /\ 0 < sf_re (\det A).
Proof.
move=> PA; have [wv V] := eigh_exists EV (proj1 PA); rewrite (det_eigh V) re_real; split=> //.
by apply: prodr_gt0 => i _; apply: posdef_eig_gt0 PA V i.
Qed.
Lemma ln_det A wv : posdef A -> valid_eigh A wv -> ln (sf_re (\det A)) = eigsum ln wv.
Proof.
move=> PA V; rewrite (det_eigh V) re_real.
by have [_ ->] := prod_ln (fun i => posdef_eig_gt0 PA V i).
Qed.
Lemma root_pos A : 0 < np_root_det A. Proof. by apply/RltPx; apply: exp_pos. Qed.
Definition sdet A : 'M[F]_n := sf_real (np_root_det A)^-1 *: A.
Lemma nINR : (n%:R : RR) = INR n. Proof. by rewrite INRE. Qed.
Lemma root_pow A : posdef A -> np_root_det A ^+ n = sf_re (\det A).
Proof.
move=> /det_pos [_ /RltPx d0]; rewrite /np_root_det RpowE -[RHS](exp_ln _ d0).
have nz : INR n <> 0%Re by apply: not_0_INR; apply/eqP; rewrite -lt0n.
have E k x : (exp x ^ k = exp (INR k * x))%Re.
  elim: k => [|k IH]; first by rewrite /= Rmult_0_l exp_0.
  by rewrite S_INR -tech_pow_Rmult IH -exp_plus; congr exp; ring.
by rewrite E; congr exp; field.
Qed.
Lemma sdet_det A : posdef A -> \det (sdet A) = 1.
Proof.
move=> PA; have [E _] := det_pos PA; rewrite /sdet detZ E -root_pow // -rmorphX -rmorphM /= exprVn mulVf ?rmorph1 //.
by rewrite expf_neq0 // gt_eqF // root_pos.
Qed.
Lemma sdet_posdef A : posdef A -> posdef (sdet A).
Proof. by move=> PA; apply: posdefZ => //; rewrite invr_gt0 root_pos. Qed.
Lemma sdet_id A : \det A = 1 -> sdet A = A.
Proof.
move=> E; rewrite /sdet /np_root_det E -(rmorph1 (@sf_real RR F)) re_real ln_1 /Rdiv Rmult_0_l exp_0.
by rewrite -[1%Re]/(1 : RR) invr1 rmorph1 scale1r.
Qed.
Lemma det_unwht P L B : valid_cholesky P L -> \det (unwht L B) = \det P * \det B.
Proof. by move=> [-> _]; rewrite /unwht !det_mulmx mulrAC. Qed.
Lemma rtr_wht P L V : valid_cholesky P L -> rtr (wht L V) = rtr (invmx P *m V).
Proof. by move=> C; rewrite (inv_chol C) /wht trC mulmxA. Qed.
Lemma det_expm W E : W^H = W -> is_expm W E -> \det E = sf_real (exp (rtr W)).
Proof.
move=> hW HE; have [wv V] := eigh_exists EV hW; have [O WE] := V.
by rewrite (expm_unique HE (eigfun_expm V)) det_eigfun // prod_exp WE -eigfun_id re_tr_eigfun.
Qed.
Section Exp.
Variable expm : 'M[F]_n -> 'M[F]_n.
Hypothesis expmP : forall A, is_expm A (expm A).
Lemma det_pexp P V : posdef P -> V^H = V -> \det (pexp expm P V) = \det P * sf_real (exp (rtr (invmx P *m V))).
Proof.
move=> /cholesky_factor [L C] hV; rewrite (pexpE expmP _ C) (det_unwht _ C); congr (_ * _).
by rewrite (det_expm (W := wht L V)) ?wht_adj ?hV // (rtr_wht _ C).
Qed.
Lemma det_pexp1 P V : posdef P -> \det P = 1 -> stang P V -> \det (pexp expm P V) = 1.
Proof.
by move=> PP d1 [hV tV]; rewrite det_pexp // d1 tV mul1r -[0]/(0%Re) exp_0 -[1%Re]/(1 : RR) rmorph1.
Qed.
End Exp.
Section Log.
Variables (cholesky : 'M[F]_n -> 'M[F]_n) (eigh : 'M[F]_n -> 'rV[RR]_n * 'M[F]_n).
Hypothesis choleskyP : forall A, posdef A -> valid_cholesky A (cholesky A).
Hypothesis eighP : forall A, hermitian A -> valid_eigh A (eigh A).
Lemma plog_stang P Q : posdef P -> posdef Q -> \det P = 1 -> \det Q = 1 -> stang P (plog cholesky eigh P Q).
Proof.
move=> PP PQ dP dQ; split; first exact: plog_herm.
have C := choleskyP PP; have [_ U] := C; have PM := wht_unit U PQ.
rewrite -(rtr_wht _ C) /plog unwhtK // /pmlog /plogm re_tr_eigfun; last by case: (eighP (proj1 PM)).
rewrite -(ln_det PM (eighP (proj1 PM))).
have := det_unwht (wht (cholesky P) Q) C; rewrite whtK // dP dQ mul1r => <-.
by rewrite -(rmorph1 (@sf_real RR F)) re_real ln_1.
Qed.
End Log.
(** *** Curves of matrices with determinant one have such velocities. *)
Lemma det_curve (c : RR -> 'M[F]_n) V : (forall t, posdef (c t)) -> (forall t, \det (c t) = 1) ->
  derives scale dot c V -> stang (c 0) V.
Proof.
move=> Pc dc D; split.
  apply: (derives_unique I (derives_ext (c' := c) _ (derives_adj D)) D) => t; by case: (Pc t).
have [eigh eighP] := eigh_function EV n.
have V0 := eighP _ (proj1 (Pc 0)).
have := trace_derives ln_tangent (Pc 0) (fun t => eighP _ (proj1 (Pc t))) D.
rewrite -(inv_eigfun (Pc 0) V0) innerE adj_inv (proj1 (Pc 0)).
move=> H; apply: (derives_unique (@real_ips RR) (derives_ext _ H) (derives_const (@real_ips RR) 0)) => t.
by rewrite -(ln_det (Pc t) (eighP _ (proj1 (Pc t)))) dc -(rmorph1 (@sf_real RR F)) re_real ln_1.
Qed.
(** *** Retraction *)
Lemma ln_det_retr P V : posdef P -> \det P = 1 -> stang P V -> forall L, valid_cholesky P L -> fnorm (wht L V) <= 1 ->
  `|ln (sf_re (\det (pretr P V))) : RR| <= 10%:R * fnorm (wht L V) ^+ 2.
Proof.
move=> PP d1 [hV tV] L C; set W := wht L V => W1; have [_ U] := C.
have hW : W^H = W by rewrite wht_adj hV.
have [wv VW] := eigh_exists EV hW; have [O WE] := VW.
have RE : pretr P V = unwht L (eigfun retr_eig wv).
  have -> : eigfun retr_eig wv = 1%:M + W + half F *: (W *m W).
    rewrite WE -eigfun_id eigfunM // half_real eigfunZ -(eigfun_const O) !eigfunD.
    apply: eigfun_ext => i; rewrite /retr_eig; Rify; field.
  rewrite /unwht !mulmxDr !mulmxDl mulmx1 /pretr; congr (_ + _ + _); first by case: C.
    by rewrite -/(unwht L W) whtK.
  rewrite -scalemxAr -scalemxAl -(wht_mul _ _ C) -/(unwht _ _) whtK //.
have p i : 0 < retr_eig (wv.1 ord0 i) by apply/RltPx; apply: Rlt_le_trans (retr_eig_half _); apply: Rinv_0_lt_compat; exact: Rlt_0_2.
rewrite RE (det_unwht _ C) d1 mul1r det_eigfun // re_real.
have [_ ->] := prod_ln p.
have t0 : \sum_i wv.1 ord0 i = 0 by have := re_tr_eigfun id O; rewrite eigfun_id -WE (rtr_wht _ C) tV.
have -> : \sum_i (ln (retr_eig (wv.1 ord0 i)) : RR) = \sum_i ((ln (retr_eig (wv.1 ord0 i)) : RR) - wv.1 ord0 i).
  by rewrite sumrB t0 subr0.
apply: le_trans (ler_norm_sum _ _ _) _.
have n2 : fnorm W ^+ 2 = \sum_i wv.1 ord0 i ^+ 2 by rewrite fnorm_sqr {1 2}WE -eigfun_id inner_eigfun.
rewrite n2 mulr_sumr; apply: ler_sum => i _.
have wi : (Rabs (wv.1 ord0 i) <= 1)%Re.
  apply/RlePx; rewrite -[Rabs _]/`|_ : RR|; apply: le_trans W1.
  rewrite -(@ler_sqr _ _ (fnorm W)) ?nnegrE ?fnorm_ge0 // real_normK ?num_real // n2 (bigD1 i) //= ler_addl.
  by apply: sumr_ge0 => j _; apply: sqr_ge0.
apply/RlePx; have := retr_eig_ln wi; by rewrite RabsE; Rify => h.
Qed.
Definition sretr P V := sdet (pretr P V).
Lemma sretr_bound P : posdef P -> \det P = 1 -> exists2 C : RR, 0 <= C & exists2 r : RR, 0 < r &
  forall V, stang P V -> fnorm V <= r -> fnorm (sretr P V - (P + V)) <= C * fnorm V ^+ 2.
Proof.
move=> PP d1; have [L C] := cholesky_factor PP; have [_ U] := C.
pose m : RR := fnorm (invmx L) ^+ 2; have m0 : 0 <= m by apply: sqr_ge0.
pose b : RR := 2%:R^-1 * fnorm (invmx P); have b0 : 0 <= b by rewrite mulr_ge0 ?invr_ge0 ?ler0n ?fnorm_ge0.
pose a : RR := fnorm P + 1 + b; have a0 : 0 <= a by rewrite !addr_ge0 ?fnorm_ge0 ?ler01.
exists (20%:R * m ^+ 2 * a + b); first by rewrite addr_ge0 // mulr_ge0 // mulr_ge0 ?ler0n // sqr_ge0.
have q0 : 0 < 5%:R * (m + 1) by rewrite mulr_gt0 ?ltr0n // ltr_paddl ?ltr01.
exists (Num.min 1 (5%:R * (m + 1))^-1); first by rewrite lt_minr ltr01 invr_gt0.
move=> V TV; rewrite le_minr => /andP[V1 V2]; have [hV tV] := TV.
have v0 := fnorm_ge0 V.
have W1 : fnorm (wht L V) <= m * fnorm V.
  rewrite /wht; apply: le_trans (fnorm_mul _ _) _; rewrite fnorm_adj.
  have := ler_wpmul2r (fnorm_ge0 (invmx L)) (fnorm_mul (invmx L) V); rewrite /m expr2 mulrAC //.
have W2 : fnorm (wht L V) <= 5%:R^-1.
  apply: le_trans W1 _; apply: le_trans (_ : (m + 1) * fnorm V <= _); first by rewrite ler_wpmul2r // ler_addl ler01.
  move: V2; rewrite -[X in _ <= X]mul1r ler_pdivl_mulr // => V2.
  by rewrite -[X in _ <= X]mul1r ler_pdivl_mulr ?ltr0n // mulrAC [_ * 5%:R]mulrC mulrC.
have w0 := fnorm_ge0 (wht L V).
have W3 : fnorm (wht L V) <= 1 by apply: le_trans W2 _; rewrite invf_le1 ?ltr0n // ler1n.
have B := ln_det_retr PP d1 TV C W3.
have B1 := pretr_bound P V.
set RP := pretr P V in B B1 *.
pose l : RR := ln (sf_re (\det RP)); rewrite -/l in B.
pose s : RR := (np_root_det RP)^-1.
have sE : s = exp (- (l / INR n))%Re by rewrite /s /np_root_det RinvE exp_Ropp.
have n1 : (1 <= INR n)%Re by rewrite -[1%Re]/(INR 1); apply: le_INR; apply/ssrnat.leP.
have i1 : (0 < / INR n <= 1)%Re.
  split; first by apply: Rinv_0_lt_compat; lra.
  by rewrite -Rinv_1; apply: Rinv_le_contravar; lra.
have lB : (Rabs l <= 10 * fnorm (wht L V) ^ 2)%Re by move: B => /RlePx; rewrite RabsE; Rify.
have W2' : (0 <= fnorm (wht L V) <= / 5)%Re by split; [apply/RlePx|move: W2 => /RlePx; Rify].
have lB2 : (Rabs l <= / 2)%Re by move: lB W2'; clear; move: (Rabs l) (fnorm _ : R) => x y h1 h2; nra.
have ln' : (Rabs (- (l / INR n)) <= Rabs l)%Re.
  rewrite Rabs_Ropp /Rdiv Rabs_mult (Rabs_pos_eq (/ INR n)); last lra.
  have := Rabs_pos l; nra.
have sB : `|s - 1| <= 20%:R * m ^+ 2 * fnorm V ^+ 2.
  have H1 : `|s - 1| <= 20%:R * fnorm (wht L V) ^+ 2.
    have h : (Rabs (s - 1) <= 20 * fnorm (wht L V) ^ 2)%Re.
      rewrite sE; apply: Rle_trans (exp_near _) _; first by apply: Rle_trans ln' _.
      move: ln' lB; clear; move: (Rabs _) (Rabs _) (fnorm _ ^ 2)%Re => x y z; lra.
    apply/RlePx; rewrite RabsE; move: h; Rify; by [].
  apply: le_trans H1 _; rewrite -mulrA ler_wpmul2l ?ler0n // -exprMn ler_sqr ?nnegrE ?(mulr_ge0 m0 v0) //.
have RB : fnorm RP <= a.
  rewrite -[RP](subrK (P + V)) addrC; apply: le_trans (fnormD _ _) _; apply: ler_add.
    by apply: le_trans (fnormD _ _) _; rewrite ler_add2l.
  apply: le_trans B1 _; rewrite -/b -[X in _ <= X]mulr1 ler_wpmul2l //.
  by rewrite expr_le1.
have -> : sretr P V - (P + V) = scale (s - 1) RP + (RP - (P + V)).
  by rewrite /sretr /sdet -/RP -/s /rscale rmorphB rmorph1 scalerBl scale1r addrA subrK.
apply: le_trans (fnormD _ _) _; rewrite mulrDl; apply: ler_add => //.
rewrite /rscale fnormZ mulrAC; apply: ler_pmul => //; exact: fnorm_ge0.
Qed.
End Special.
