(** Positive definite matrices: exponential map, logarithm and distance, one matrix at a time *)
From Coq Require Import Reals Lra.
From mathcomp Require Import all_ssreflect all_algebra.
From Coq Require Import Ring Field.
From Verif Require Import Rstruct MCRing Mat_Base Geometry_Spec Linalg_Spec Calculus Connection Multi_Model Multi_Proofs.
From Verif Require Import Sphere_Model Sphere_Proofs Stiefel_Proofs Expm Logm Linalg_Exist PosDef_Proofs Spectral.
Set Implicit Arguments.
Unset Strict Implicit.
Unset Printing Implicit Defensive.
Import GRing.Theory Num.Theory Order.TTheory.
Local Open Scope ring_scope.
Delimit Scope R_scope with Re.

(** A function whose square root grows at most with rate [K]. *)
Lemma sqrt_growth (f f' : R -> R) (K : R) : (0 <= K)%Re -> (forall t, derivable_pt_lim f t (f' t)) -> (forall t, 0 <= f t)%Re ->
  (forall t, Rabs (f' t) <= 2 * K * sqrt (f t))%Re -> (sqrt (f 1) <= sqrt (f 0) + K)%Re.
Proof.
move=> K0 D f0 B.
suff H : forall e, (0 < e -> sqrt (f 1) <= sqrt (f 0) + K + e)%Re.
  apply: Rnot_lt_le => L; have := H ((sqrt (f 1) - (sqrt (f 0) + K)) / 2)%Re; move: L; clear => *; lra.
move=> e e0; pose g t := sqrt (f t + e ^ 2).
have p t : (0 < f t + e ^ 2)%Re by have := f0 t; have := pow_lt e 2 e0; lra.
have Dg t : derivable_pt_lim g t (/ (2 * sqrt (f t + e ^ 2)) * f' t)%Re.
  apply: (derivable_pt_lim_comp (fun s => f s + e ^ 2)%Re sqrt); last by apply: derivable_pt_lim_sqrt.
  rewrite -(Rplus_0_r (f' t)); apply: derivable_pt_lim_plus; [exact: D|exact: derivable_pt_lim_const].
have [c [E _]] := MVT_cor2 g _ 0 1 Rlt_0_1 (fun t _ => Dg t).
have s0 : (0 < sqrt (f c + e ^ 2))%Re by apply: sqrt_lt_R0.
have lk : (/ (2 * sqrt (f c + e ^ 2)) * f' c <= K)%Re.
  have le : (sqrt (f c) <= sqrt (f c + e ^ 2))%Re by apply: sqrt_le_1_alt; have := pow2_ge_0 e; lra.
  have := B c; have := Rle_abs (f' c) => h1 h2.
  move: s0 le h1 h2 K0; clear; move: (sqrt (f c + e ^ 2)) (sqrt (f c)) (Rabs (f' c)) (f' c) => u v w x s0 le h1 h2 K0.
  apply: (Rmult_le_reg_l (2 * u)); first lra.
  rewrite -Rmult_assoc Rinv_r; [nra|lra].
have h1 : (sqrt (f 1) <= g 1)%Re by apply: sqrt_le_1_alt; have := pow2_ge_0 e; lra.
have h0 : (g 0 <= sqrt (f 0) + e)%Re.
  have := sqrt_pos (f 0%Re) => q; rewrite /g -(sqrt_pow2 (sqrt (f 0) + e)%Re); last lra.
  apply: sqrt_le_1_alt; have := sqrt_sqrt _ (f0 0%Re) => E0; nra.
lra.
Qed.
Lemma derives_at (f : R -> R) t l : derives (@real_scale RR) (@real_dot RR) (fun h : RR => f (t + h)%Re) l -> derivable_pt_lim f t l.
Proof.
move=> /derives_lim D e e0; have [d H] := D e e0; exists d => h h0 hd; have := H h h0 hd.
by rewrite !Rplus_0_l Rplus_0_r.
Qed.

Section Exp.
Variables (F : starField RR) (n : nat).
Local Notation scale := (@rscale RR F n n).
Local Notation dot := (@inner RR F n n).
Local Notation I := (@inner_ips RR F n n).
Implicit Types P Q L A B V W X : 'M[F]_n.
Add Ring RR_ring : (mc_ring RR).
Lemma wht_unit L P : L \in unitmx -> posdef P -> posdef (wht L P).
Proof. by move=> U PP; apply: posdef_congr => //; rewrite unitmx_inv. Qed.
Lemma unwht_unit L P : L \in unitmx -> posdef P -> posdef (unwht L P).
Proof. by move=> U PP; apply: posdef_congr. Qed.
Lemma whtZ L a A : wht L (scale a A) = scale a (wht L A).
Proof. by rewrite /wht /rscale -scalemxAr -scalemxAl. Qed.
Lemma inv_wht L P : L \in unitmx -> P \in unitmx -> invmx (wht L P) = L^H *m invmx P *m L.
Proof.
move=> U UP; apply: inv_unique; rewrite /wht -!mulmxA (mulmxA _ L^H) -adjmxM mulmxV // adjmx1 mul1mx.
by rewrite (mulmxA P) mulmxV // mul1mx mulVmx.
Qed.
Lemma pip_congr L P A B : L \in unitmx -> P \in unitmx -> pip (wht L P) (wht L A) (wht L B) = pip P A B.
Proof.
move=> U UP; rewrite /pip inv_wht // /wht; congr (sf_re _).
have K X : L^H *m invmx P *m L *m (invmx L *m X *m (invmx L)^H) = L^H *m (invmx P *m X) *m (invmx L)^H.
  by rewrite -!mulmxA (mulKVmx U).
rewrite !K -!mulmxA (mulmxA (invmx L)^H) -adjmxM mulmxV // adjmx1 mul1mx trC -!mulmxA -adjmxM mulmxV // adjmx1 mulmx1.
by rewrite !mulmxA.
Qed.
Lemma pip_cs P A B : posdef P -> A^H = A -> B^H = B -> `|pip P A B| <= Num.sqrt (pip P A A) * Num.sqrt (pip P B B).
Proof.
by move=> /cholesky_factor [L V] hA hB; rewrite !(pip_wht _ V) //; apply: cauchy_schwarz I _ _.
Qed.
Lemma sandwich_herm A B : A^H = A -> B^H = B -> (A *m B *m A)^H = A *m B *m A.
Proof. by move=> hA hB; rewrite !adjmxM hA hB mulmxA. Qed.
(** *** The exponential map *)
Section Expm.
Variable expm : 'M[F]_n -> 'M[F]_n.
Hypothesis expmP : forall A, is_expm A (expm A).
Lemma expm_herm W : W^H = W -> (expm W)^H = expm W.
Proof. by move=> h; apply: expm_unique (expmP W); rewrite -{1}h; apply: expm_adj. Qed.
Lemma expm_posdef W : W^H = W -> posdef (expm W).
Proof.
move=> h; pose H := rscale 2%:R^-1 W; have hH : H^H = H by rewrite /H /rscale adjmxZreal h.
have E : expm W = expm H *m (expm H)^H.
  rewrite (expm_herm hH); apply: expm_unique (expmP W) _.
  have -> : W = H + H by rewrite /H /rscale -scalerDl -rmorphD -[2%:R^-1]mul1r -splitr rmorph1 scale1r.
  exact: expm_mul.
rewrite E; apply: posdef_gram.
have := expm_inv (expmP H) (expmP (- H)) => /mulmx1_unit; by case.
Qed.
Definition pexp P V := P *m expm (invmx P *m V).
Lemma pexpE P L V : valid_cholesky P L -> pexp P V = unwht L (expm (wht L V)).
Proof.
move=> C; have [E U] := C; rewrite /pexp /unwht {1}E -!mulmxA; congr (_ *m _).
apply: (expm_intertwine (A := invmx P *m V) (B := wht L V)) => //.
have e1 : L^H *m (invmx L)^H = 1%:M by rewrite -adjmxM mulVmx // adjmx1.
have e2 : (invmx L)^H *m L^H = 1%:M by rewrite -adjmxM mulmxV // adjmx1.
by rewrite (inv_chol C) /wht !mulmxA e1 mul1mx -!mulmxA e2 mulmx1.
Qed.
Lemma pexp_posdef P V : posdef P -> V^H = V -> posdef (pexp P V).
Proof.
move=> /cholesky_factor [L C] hV; rewrite (pexpE _ C); apply: unwht_unit; first by case: C.
by apply: expm_posdef; rewrite wht_adj hV.
Qed.
Lemma pexp0 P : pexp P 0 = P.
Proof. by rewrite /pexp mulmx0 (expm_unique (expmP 0) (expm0 F n)) mulmx1. Qed.
(** geodesics *)
Definition pvel P V t := V *m expm (invmx P *m scale t V).
Lemma scaleM P V t : invmx P *m scale t V = scale t (invmx P *m V). Proof. by rewrite /rscale -scalemxAr. Qed.
Lemma curveP P V t : is_expm (scale t (invmx P *m V)) (expm (invmx P *m scale t V)).
Proof. by rewrite scaleM. Qed.
Lemma pexp_derives P V t : posdef P -> derives scale dot (fun h => pexp P (scale (t + h) V)) (pvel P V t).
Proof.
move=> PP; have U := posdef_unit PP.
have := derives_mul (derives_const I P) (expm_derives (curveP P V) t).
by rewrite mul0mx add0r mulmxA mulKVmx.
Qed.
Lemma pvel_derives P V t : derives scale dot (fun h => pvel P V (t + h)) (V *m (invmx P *m V) *m expm (invmx P *m scale t V)).
Proof.
have := derives_mul (derives_const I V) (expm_derives (curveP P V) t).
by rewrite mul0mx add0r mulmxA.
Qed.
Lemma pvelE P V t : posdef P -> pvel P V t = pexp P (scale t V) *m (invmx P *m V).
Proof.
move=> PP; have U := posdef_unit PP.
by rewrite /pvel /pexp -[RHS]mulmxA -(expm_comm (curveP P V)) !mulmxA mulmxV // mul1mx.
Qed.
Lemma scale_herm t V : V^H = V -> (scale t V)^H = scale t V.
Proof. by move=> h; rewrite /rscale adjmxZreal h. Qed.
Lemma pvel_herm P V t : posdef P -> V^H = V -> (pvel P V t)^H = pvel P V t.
Proof.
move=> PP hV; have [hc _] := pexp_posdef PP (scale_herm t hV).
rewrite {1}pvelE // adjmxM hc adjmxM (proj1 (posdef_inv PP)) hV /pvel /pexp !mulmxA.
by rewrite mulmxKV ?posdef_unit.
Qed.
Lemma pvel_coord P V t : posdef P -> V^H = V -> invmx (pexp P (scale t V)) *m pvel P V t = invmx P *m V.
Proof. by move=> PP hV; rewrite pvelE // mulKmx // posdef_unit //; apply: pexp_posdef => //; apply: scale_herm. Qed.
Lemma pvel_speed P V t : posdef P -> V^H = V -> pip (pexp P (scale t V)) (pvel P V t) (pvel P V t) = pip P V V.
Proof. by move=> PP hV; rewrite /pip !pvel_coord. Qed.
Lemma pvel0 P V : pvel P V 0 = V.
Proof. by rewrite /pvel /rscale rmorph0 scale0r mulmx0 (expm_unique (expmP 0) (expm0 F n)) mulmx1. Qed.
Lemma pvel_parallel P V t : posdef P -> V^H = V ->
  V *m (invmx P *m V) *m expm (invmx P *m scale t V) + pgam (pexp P (scale t V)) (pvel P V t) (pvel P V t) = 0.
Proof.
move=> PP hV; rewrite /pgam; have hv := pvel_herm t PP hV.
have [hc _] := pexp_posdef PP (scale_herm t hV).
rewrite hsym_id; last by apply: sandwich_herm => //; rewrite adj_inv hc.
have -> : pvel P V t *m invmx (pexp P (scale t V)) *m pvel P V t = V *m (invmx P *m V) *m expm (invmx P *m scale t V).
  by rewrite -mulmxA pvel_coord // /pvel -[LHS]mulmxA -(expm_comm (curveP P V)) !mulmxA.
exact: subrr.
Qed.
(** near zero *)
Lemma pexp_near P V : fnorm (invmx P *m V) <= 2%:R^-1 -> posdef P ->
  fnorm (pexp P V - (P + V)) <= fnorm P * (fnorm (1%:M : 'M[F]_n) * 2%:R * fnorm (invmx P) ^+ 2) * fnorm V ^+ 2.
Proof.
move=> S PP; have U := posdef_unit PP.
have -> : pexp P V - (P + V) = P *m (expm (invmx P *m V) - 1%:M - invmx P *m V).
  by rewrite /pexp !mulmxBr mulmx1 mulKVmx // opprD addrA.
apply: le_trans (fnorm_mul _ _) _; rewrite -!mulrA ler_wpmul2l ?fnorm_ge0 //.
have H : fnorm (expm (invmx P *m V) - 1%:M - invmx P *m V) <= fnorm (1%:M : 'M[F]_n) * 2%:R * fnorm (invmx P *m V) ^+ 2.
  move: (expm _) (expmP (invmx P *m V)) S; move: (invmx P *m V).
  case: (n) => [|m] X E EP X1; last exact: expm_near_one.
  by rewrite [_ - _]flatmx0 {1}/fnorm inner0l sqrtr0 !mulr_ge0 ?ler0n ?fnorm_ge0 ?sqr_ge0.
apply: le_trans H _; rewrite -mulrA ler_wpmul2l ?fnorm_ge0 // ler_wpmul2l ?ler0n // mulrA -expr2 -exprMn ler_sqr ?nnegrE ?mulr_ge0 ?fnorm_ge0 //.
exact: fnorm_mul.
Qed.
End Expm.
(** *** Logarithm and distance *)
Section Dist.
Variables (cholesky : 'M[F]_n -> 'M[F]_n) (eigh : 'M[F]_n -> 'rV[RR]_n * 'M[F]_n).
Hypothesis choleskyP : forall A, posdef A -> valid_cholesky A (cholesky A).
Hypothesis eighP : forall A, hermitian A -> valid_eigh A (eigh A).
Definition plogm A : 'M[F]_n := eigfun ln (eigh A).
Definition pmlog P Q := plogm (wht (cholesky P) Q).
Definition pdist P Q : RR := fnorm (pmlog P Q).
Definition plog P Q := unwht (cholesky P) (pmlog P Q).
Definition lsum A : RR := eigsum (fun x => (ln x : RR) ^+ 2) (eigh A).
Lemma plogm_herm A : (plogm A)^H = plogm A. Proof. exact: eigfun_hermitian. Qed.
Lemma pdist_sqr P Q : posdef P -> posdef Q -> pdist P Q ^+ 2 = lsum (wht (cholesky P) Q).
Proof.
move=> PP PQ; have [_ U] := choleskyP PP.
by rewrite /pdist fnorm_sqr inner_eigfun //; case: (eighP (proj1 (wht_unit U PQ))).
Qed.
Lemma pdist_ge0 P Q : 0 <= pdist P Q. Proof. exact: fnorm_ge0. Qed.
Lemma lsum_ge0 A : 0 <= lsum A. Proof. by apply: sumr_ge0 => i _; apply: sqr_ge0. Qed.
Lemma lsum_similar A A' B : hermitian A -> hermitian A' -> B \in unitmx -> B *m A = A' *m B -> lsum A = lsum A'.
Proof. by move=> /eighP V /eighP V'; apply: eigsum_similar V V'. Qed.
Lemma inv_eigfun A wv : posdef A -> valid_eigh A wv -> invmx A = eigfun Rinv wv.
Proof.
move=> PA V; have p i := posdef_eig_gt0 PA V i; have [O E] := V; apply: inv_unique.
rewrite E -eigfun_id eigfunM // -(eigfun_const O); apply: eigfun_ext => i /=.
by rewrite -RinvE mulfV // gt_eqF.
Qed.
Lemma lsum_inv A : posdef A -> lsum (invmx A) = lsum A.
Proof.
move=> PA; have V := eighP (proj1 PA); have p i := posdef_eig_gt0 PA V i; have [O _] := V.
have V' := eighP (proj1 (posdef_inv PA)).
have W : valid_eigh (invmx A) (map_mx Rinv (eigh A).1, (eigh A).2) by rewrite {1}(inv_eigfun PA V); apply: eigfun_valid.
rewrite /lsum (eigsum_similar _ V' W (unitmx1 _ _)) ?mul1mx ?mulmx1 //.
by apply: eq_bigr => i _; rewrite mxE ln_Rinv ?sqrrN //; apply/RltPx.
Qed.
(** whitened matrices are similar to [P^-1 Q] *)
Lemma wht_similar P L Q : valid_cholesky P L -> L^H *m (invmx P *m Q) = wht L Q *m L^H.
Proof.
move=> C; have [E U] := C.
have e1 : L^H *m (invmx L)^H = 1%:M by rewrite -adjmxM mulVmx // adjmx1.
have e2 : (invmx L)^H *m L^H = 1%:M by rewrite -adjmxM mulmxV // adjmx1.
by rewrite (inv_chol C) /wht !mulmxA e1 mul1mx -!mulmxA e2 mulmx1.
Qed.
Lemma lsum_common A A' X S S' : hermitian A -> hermitian A' -> S \in unitmx -> S' \in unitmx ->
  S *m X = A *m S -> S' *m X = A' *m S' -> lsum A = lsum A'.
Proof.
move=> hA hA' U U' E E'; apply: (lsum_similar (B := S' *m invmx S)) => //; first by rewrite unitmx_mul U' unitmx_inv.
have -> : A = S *m X *m invmx S by rewrite E mulmxK.
by rewrite -!mulmxA (mulKmx U) !mulmxA E'.
Qed.
(** the distance does not depend on the factor *)
Lemma lsum_factor P L L' Q : valid_cholesky P L -> valid_cholesky P L' -> posdef Q -> lsum (wht L Q) = lsum (wht L' Q).
Proof.
move=> C C' PQ; have [_ U] := C; have [_ U'] := C'.
apply: lsum_common (wht_similar Q C) (wht_similar Q C'); rewrite ?adj_unit //.
  exact: (proj1 (wht_unit U PQ)).
exact: (proj1 (wht_unit U' PQ)).
Qed.
Lemma sqr_inj (a b : RR) : 0 <= a -> 0 <= b -> a ^+ 2 = b ^+ 2 -> a = b.
Proof. by move=> a0 b0 /eqP; rewrite eqr_expn2 // => /eqP. Qed.
Lemma pdistC P Q : posdef P -> posdef Q -> pdist P Q = pdist Q P.
Proof.
move=> PP PQ; apply: sqr_inj; rewrite ?pdist_ge0 // !pdist_sqr //.
have CP := choleskyP PP; have CQ := choleskyP PQ; have [_ U] := CP; have [_ U'] := CQ.
have W := wht_unit U PQ; have W' := wht_unit U' PP.
rewrite -[RHS](lsum_inv W'); have UW := posdef_unit W'.
apply: (lsum_common (X := invmx P *m Q) (S := (cholesky P)^H) (S' := (cholesky Q)^H)); rewrite ?adj_unit //.
- exact: (proj1 W).
- exact: (proj1 (posdef_inv W')).
- exact: wht_similar.
have UP := posdef_unit PP; have UQ := posdef_unit PQ; have E := wht_similar P CQ.
apply: (can_inj (mulKmx UW)); rewrite [RHS]mulKVmx // mulmxA -E -!mulmxA (mulmxA P) mulmxV // mul1mx mulVmx //.
by rewrite mulmx1.
Qed.
Lemma inv_mul A B : A \in unitmx -> B \in unitmx -> invmx (A *m B) = invmx B *m invmx A.
Proof. by move=> UA UB; apply: inv_unique; rewrite -mulmxA (mulKVmx UB) mulmxV. Qed.
(** congruences are isometries *)
Lemma pdist_congr P Q S : S \in unitmx -> posdef P -> posdef Q -> pdist (S *m P *m S^H) (S *m Q *m S^H) = pdist P Q.
Proof.
move=> US PP PQ; have PP' := posdef_congr PP US; have PQ' := posdef_congr PQ US.
apply: sqr_inj; rewrite ?pdist_ge0 // !pdist_sqr //.
have CP := choleskyP PP; have C' := choleskyP PP'; have [EP U] := CP; have [_ U'] := C'.
rewrite (@lsum_factor _ _ (S *m cholesky P) _ C') //; last first.
  by split; [rewrite {1}EP adjmxM !mulmxA|rewrite unitmx_mul US].
congr lsum; rewrite /wht inv_mul // !adjmxM -!mulmxA; congr (_ *m _).
by rewrite (mulKmx US) (mulmxA S^H) -adjmxM mulVmx // adjmx1 mul1mx.
Qed.
(** inversion is an isometry *)
Lemma pdist_inv P Q : posdef P -> posdef Q -> pdist (invmx P) (invmx Q) = pdist P Q.
Proof.
move=> PP PQ; rewrite [RHS]pdistC //; have PPi := posdef_inv PP; have PQi := posdef_inv PQ.
apply: sqr_inj; rewrite ?pdist_ge0 // !pdist_sqr //.
have UP := posdef_unit PP; have UQ := posdef_unit PQ.
have CP := choleskyP PPi; have CQ := choleskyP PQ; have [_ U] := CP; have [_ U'] := CQ.
have E := wht_similar P CQ.
apply: (lsum_common (X := P *m invmx Q) (S := (cholesky (invmx P))^H) (S' := (cholesky Q)^H *m invmx Q)).
- exact: (proj1 (wht_unit U PQi)).
- exact: (proj1 (wht_unit U' PP)).
- by rewrite adj_unit.
- by rewrite unitmx_mul adj_unit U' unitmx_inv.
- by have := wht_similar (invmx Q) CP; rewrite invmxK.
by rewrite [RHS]mulmxA -E !mulmxA.
Qed.
(** logarithm and exponential *)
Variable expm : 'M[F]_n -> 'M[F]_n.
Hypothesis expmP : forall A, is_expm A (expm A).
Lemma expm_plogm A : posdef A -> expm (plogm A) = A.
Proof.
move=> PA; have V := eighP (proj1 PA); have [O E] := V.
apply: expm_unique (expmP _) _; have := eigfun_expm (eigfun_valid ln O); rewrite eigfun_comp.
suff -> : eigfun (fun x => exp (ln x)) (eigh A) = A by [].
rewrite [RHS]E -eigfun_id; apply: eigfun_ext => i; apply: exp_ln; apply/RltPx.
exact: posdef_eig_gt0 PA V i.
Qed.
Lemma plogm_expm W : W^H = W -> plogm (expm W) = W.
Proof.
move=> hW; have V := eighP hW; have [O E] := V.
have EE : expm W = eigfun exp (eigh W) by apply: expm_unique (expmP _) (eigfun_expm V).
have V' := eigfun_valid exp O; rewrite -EE in V'.
rewrite /plogm (eigfun_unique ln (eighP (expm_herm expmP hW)) V') eigfun_comp [RHS]E -eigfun_id.
by apply: eigfun_ext => i; rewrite ln_exp.
Qed.
Lemma pmlog_herm P Q : (pmlog P Q)^H = pmlog P Q. Proof. exact: plogm_herm. Qed.
Lemma plog_herm P Q : (plog P Q)^H = plog P Q. Proof. by rewrite unwht_adj pmlog_herm. Qed.
Lemma pexp_plog P Q : posdef P -> posdef Q -> pexp expm P (plog P Q) = Q.
Proof.
move=> PP PQ; have C := choleskyP PP; have [_ U] := C.
by rewrite (pexpE expmP _ C) /plog unwhtK // expm_plogm ?whtK //; apply: wht_unit.
Qed.
Lemma plog_pexp P V : posdef P -> V^H = V -> plog P (pexp expm P V) = V.
Proof.
move=> PP hV; have C := choleskyP PP; have [_ U] := C.
by rewrite (pexpE expmP _ C) /plog /pmlog unwhtK // plogm_expm ?whtK // wht_adj hV.
Qed.
Lemma pip_plog P Q : posdef P -> posdef Q -> pip P (plog P Q) (plog P Q) = pdist P Q ^+ 2.
Proof.
move=> PP PQ; have C := choleskyP PP; have [_ U] := C.
by rewrite (pip_wht _ C (plog_herm P Q)) /plog unwhtK // fnorm_sqr.
Qed.
Lemma pdist_pexp P V : posdef P -> V^H = V -> pdist P (pexp expm P V) ^+ 2 = pip P V V.
Proof. by move=> PP hV; rewrite -pip_plog ?plog_pexp //; apply: pexp_posdef. Qed.
Lemma pdist_eq0 P Q : posdef P -> posdef Q -> pdist P Q = 0 <-> P = Q.
Proof.
move=> PP PQ; split=> [E|<-].
  have /eqP := pip_plog PP PQ; rewrite E expr0n /= => /eqP Z.
  have [L0|/(pip_gt0 PP (plog_herm _ _))] := eqVneq (plog P Q) 0; last by rewrite Z ltxx.
  by rewrite -(pexp_plog PP PQ) L0 pexp0.
apply: sqr_inj; rewrite ?pdist_ge0 // -[P in pdist _ P](pexp0 expmP) pdist_pexp ?adjmx0 //.
by rewrite /pip mulmx0 mul0mx linear0 raddf0 expr0n.
Qed.
Lemma pip_lnsq A W : posdef A -> W^H = W ->
  `|dot (eigfun (fun x => 2%:R * ln x * / x)%Re (eigh A)) W| <= 2%:R * Num.sqrt (lsum A) * Num.sqrt (pip A W W).
Proof.
move=> PA hW; have V := eighP (proj1 PA); have p i := posdef_eig_gt0 PA V i; have [O E] := V.
pose X : 'M[F]_n := eigfun (fun x => 2%:R * ln x * x)%Re (eigh A).
have hX : X^H = X := eigfun_hermitian _ _.
have XE : invmx A *m X = eigfun (fun x => 2%:R * ln x)%Re (eigh A).
  rewrite (inv_eigfun PA V) eigfunM //; apply: eigfun_ext => i.
  move: (p i) => /RltPx; move: (_ ord0 i : R) => x x0; Rify; field; exact: Rgt_not_eq x0.
have -> : dot (eigfun (fun x => 2%:R * ln x * / x)%Re (eigh A)) W = pip A X W.
  rewrite /pip XE innerE eigfun_hermitian mulmxA (inv_eigfun PA V) eigfunM //.
apply: le_trans (pip_cs PA hX hW) _; rewrite ler_wpmul2r ?sqrtr_ge0 //.
have -> : pip A X X = 2%:R ^+ 2 * lsum A.
  rewrite /pip XE eigfunM // re_tr_eigfun // /lsum /eigsum mulr_sumr; apply: eq_bigr => i _.
  by rewrite !expr2; Rify; ring.
by rewrite sqrtrM ?sqr_ge0 // sqrtr_sqr ger0_norm ?ler0n.
Qed.
Lemma pdist_triangle P Q S : posdef P -> posdef Q -> posdef S -> pdist P S <= pdist P Q + pdist Q S.
Proof.
move=> PP PQ PS; have C := choleskyP PP; have [_ U] := C; set L := cholesky P in C U.
pose V := plog Q S; have hV : V^H = V := plog_herm Q S.
pose c t := pexp expm Q (scale t V); pose M t := wht L (c t).
have Pc t : posdef (c t) by apply: pexp_posdef => //; apply: scale_herm.
have PM t : posdef (M t) := wht_unit U (Pc t).
pose f t := lsum (M t).
pose f' t : R := dot (eigfun (fun x => 2%:R * ln x * / x)%Re (eigh (M t))) (wht L (pvel expm Q V t)).
have D t : derivable_pt_lim f t (f' t).
  apply: derives_at.
  have D1 : derives scale dot (fun h => M (t + h)%Re) (wht L (pvel expm Q V t)).
    have := derives_mul (derives_mul (derives_const I (invmx L)) (pexp_derives expmP V t PQ)) (derives_const I (invmx L)^H).
    by rewrite mul0mx add0r mulmx0 addr0.
  have /= := trace_derives (M := fun h => M (t + h)%Re) lnsq_tangent (PM _) (fun h => eighP (proj1 (PM (t + h)%Re))) D1.
  by rewrite Rplus_0_r.
have f0 t : (0 <= f t)%Re by apply/RlePx; apply: lsum_ge0.
have sq (t : R) : sqrt (f t) = Num.sqrt (f t : RR) by rewrite RsqrtE.
have K0 := pdist_ge0 Q S.
have B t : (Rabs (f' t) <= 2 * pdist Q S * sqrt (f t))%Re.
  have hw : (wht L (pvel expm Q V t))^H = wht L (pvel expm Q V t) by rewrite wht_adj pvel_herm.
  have sp : pip (c t) (pvel expm Q V t) (pvel expm Q V t) = pip Q V V := pvel_speed expmP t PQ hV.
  have := pip_lnsq (PM t) hw.
  have -> : pip (M t) = pip (wht L (c t)) by [].
  have sq2 : sqrt (f t) = Num.sqrt (lsum (M t)) := sq t.
  rewrite pip_congr //; last exact: posdef_unit.
  rewrite sp pip_plog // sqrtr_sqr (ger0_norm K0) -sq2 => /RlePx.
  by rewrite RabsE -/(f' t); Rify; move=> h; apply: Rle_trans h _; right; ring.
have := sqrt_growth (elimT (RlePx _ _) K0) D f0 B; rewrite !sq.
have e1 : f 1%Re = pdist P S ^+ 2 by rewrite pdist_sqr // /f /M /c /rscale rmorph1 scale1r pexp_plog.
have e0 : f 0%Re = pdist P Q ^+ 2 by rewrite pdist_sqr // /f /M /c /rscale rmorph0 scale0r pexp0.
by rewrite e0 e1 !sqrtr_sqr !ger0_norm ?pdist_ge0 // => /RlePx.
Qed.
End Dist.
End Exp.
