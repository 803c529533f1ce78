(** Facts about one orthogonal or unitary matrix *)
From mathcomp Require Import all_ssreflect all_algebra polyrcf.
From Verif Require Import Mat_Base Geometry_Spec Linalg_Spec Calculus Components Multi_Model Multi_Proofs Euclidean_Model Stiefel_Model Stiefel_Proofs Stack_Proofs.
Set Implicit Arguments.
Unset Strict Implicit.
Unset Printing Implicit Defensive.
Import GRing.Theory Num.Theory Order.TTheory.
Local Open Scope ring_scope.

Section Unitary.
Variables (R : rcfType) (F : starField R) (n : nat).
Implicit Types X Y V W g h : 'M[F]_n.
Lemma unitary_proj X W : orthonormal X -> st_proj X W = X *m hskew (X^H *m W).
Proof.
move=> O; rewrite /st_proj -{1}[W]mul1mx -(orthonormalC O) -mulmxA -mulmxBr; congr (_ *m _).
by rewrite -{1}[X^H *m W]hsym_skew addrC addKr.
Qed.
Lemma skew_tangent X V : orthonormal X -> (st_tangent X (X *m V) <-> V^H = - V).
Proof. by move=> O; rewrite st_tangentE mulmxA O mul1mx. Qed.
Lemma tangent_skew X W : orthonormal X -> st_tangent X W -> exists2 V, V^H = - V & W = X *m V.
Proof.
move=> O T; exists (X^H *m W); first by apply/st_tangentE.
by rewrite mulmxA orthonormalC // mul1mx.
Qed.
Lemma hskew_projects W : projects_to (@inner R F n n) (fun V => V^H = - V) W (hskew W).
Proof.
split; first exact: hskew_skew.
split; first by move=> h; rewrite hskew_id.
move=> t ht; have -> : W - hskew W = hsym W by rewrite -{1}[W]hsym_skew addrK.
by apply: inner_herm_skew => //; apply: hsym_herm.
Qed.
Lemma unitary_hess X g h V : orthonormal X -> V^H = - V -> st_hess X g h (X *m V) = X *m hskew (X^H *m h - V *m hsym (X^H *m g)).
Proof.
move=> O hV; rewrite (st_hessE _ _ O (proj2 (skew_tangent V O) hV)) -st_projB unitary_proj //; congr (_ *m hskew _).
by rewrite mulmxBr !mulmxA O mul1mx.
Qed.
Lemma fnorm_unitary X V : orthonormal X -> fnorm (X *m V) = fnorm V. Proof. exact: fnorm_orthonormal. Qed.
Lemma mul_unitary X Y : orthonormal X -> orthonormal Y -> orthonormal (X *m Y).
Proof. by move=> OX OY; rewrite /orthonormal adjmxM -mulmxA (mulmxA X^H) OX mul1mx. Qed.
Lemma adj_unitary X : orthonormal X -> orthonormal X^H.
Proof. by move=> O; rewrite /orthonormal adjmxK orthonormalC. Qed.
End Unitary.

(** ** Determinants *)
Section Det.
Variables (R : rcfType) (n : nat).
Local Notation F := (real_star R).
Implicit Types X V : 'M[F]_n.
Lemma adj_real m p (A : 'M[F]_(m, p)) : A^H = A^T. Proof. by apply/matrixP => i j; rewrite !mxE. Qed.
Lemma det_orthogonal X : orthonormal X -> (\det X : R) = 1 \/ (\det X : R) = -1.
Proof.
move=> O; have : (\det X : R) ^+ 2 = 1.
  by rewrite expr2 -{1}det_tr -det_mulmx -adj_real O det1.
by move/eqP; rewrite sqrf_eq1 => /orP[/eqP ->|/eqP ->]; [left|right].
Qed.
Lemma det_one X : orthonormal X -> 0 < (\det X : R) -> (\det X : R) = 1.
Proof. by move=> /det_orthogonal [] // ->; rewrite oppr_gt0 ltr10. Qed.
(** [1 + t V] is invertible for all [t], so that its determinant keeps the sign it has at [t = 0]. *)
Lemma det_skew V : V^H = - V -> 0 < (\det (1%:M + V) : R).
Proof.
move=> h.
pose P : {poly R} := \det (1%:M + 'X *: map_mx polyC (V : 'M[R]_n)).
have PE t : P.[t] = \det (1%:M + t *: (V : 'M[R]_n)).
  rewrite /P -[in LHS]horner_evalE -det_map_mx; congr (\det _); apply/matrixP => i j.
  by rewrite !mxE -[LHS]/(_.[t]) hornerD hornerMn hornerC hornerM hornerX hornerC.
have nz t : P.[t] != 0.
  rewrite PE -unitfE -unitmxE; have T : st_tangent (1%:M : 'M[F]_n) (t *: V).
    have E : (t *: V : 'M[F]_n)^H = - (t *: V) by rewrite adjmxZ /= h scalerN.
    by rewrite /st_tangent adjmx1 mul1mx mulmx1 E subrr.
  have O : orthonormal (1%:M : 'M[F]_n) by rewrite /orthonormal adjmx1 mulmx1.
  by have := st_rank O T; rewrite -row_free_unit /row_free => ->.
have P1 : \det (1%:M + V) = P.[1] by rewrite PE scale1r.
rewrite P1 lt_def nz leNgt; apply/negP => N.
have P0 : P.[0] = 1 by rewrite PE scale0r addr0 det1.
have [||t _ /rootP E] := @poly_ivt _ (- P) 0 1; first exact: ler01.
  by rewrite !hornerN P0 oppr_ge0 oppr_le0 ler01 ltW.
by move: (nz t); rewrite -[P.[t]]opprK -hornerN E oppr0 eqxx.
Qed.
Lemma upper_det (r : 'M[F]_n) : upper_triangular r -> \det r = \prod_i r i i.
Proof.
move=> U; rewrite -det_tr det_trig; first by apply: eq_bigr => i _; rewrite mxE.
by apply/is_trig_mxP => i j ij; rewrite mxE U.
Qed.
Lemma qr_det X V (q : 'M[F]_n * 'M[F]_n) : orthonormal X -> (\det X : R) = 1 -> V^H = - V ->
  valid_qr (X + X *m V) q -> (forall i, exists2 a : R, 0 <= a & q.2 i i = sf_real a) -> (\det q.1 : R) = 1.
Proof.
move=> O d hV [E [OQ U]] P; apply: det_one => //.
have D : (\det q.1 : R) * \det q.2 = \det (1%:M + V).
  by rewrite -det_mulmx -E -{1}[X]mulmx1 -mulmxDr det_mulmx d mul1r.
have r0 : 0 <= (\det q.2 : R).
  by rewrite upper_det //; apply: prodr_ge0 => i _; have [a a0 ->] := P i.
have := det_skew hV; rewrite -D; case: (ltgtP (\det q.1 : R) 0) => // [n0|-> //]; last by rewrite mul0r ltxx.
by rewrite ltNge mulr_le0_ge0 // ltW.
Qed.
Lemma polar_det X V (u : 'M[F]_n) (s : 'rV[R]_n) (vt : 'M[F]_n) : orthonormal X -> (\det X : R) = 1 -> V^H = - V ->
  valid_svd (X + X *m V) (u, s, vt) -> (\det (u *m vt) : R) = 1.
Proof.
move=> O d hV S; have [ou [vv [s0 E]]] := S; apply: det_one; first exact: (polar_orthonormal S).
have D : (\det (u *m vt) : R) * \det (real_diag F s) = \det (1%:M + V).
  by rewrite !det_mulmx mulrAC -!det_mulmx -E -{1}[X]mulmx1 -mulmxDr det_mulmx d mul1r.
have r0 : 0 <= (\det (real_diag F s) : R).
  by rewrite det_diag; apply: prodr_ge0 => i _; rewrite mxE; apply: s0.
have := det_skew hV; rewrite -D; case: (ltgtP (\det (u *m vt) : R) 0) => // [n0|-> //]; last by rewrite mul0r ltxx.
by rewrite ltNge mulr_le0_ge0 // ltW.
Qed.
End Det.
