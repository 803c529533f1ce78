(** Logarithm and distance on the Grassmann manifolds, one matrix *)
From Coq Require Import Reals Lra.
From mathcomp Require Import all_ssreflect all_algebra.
From Verif Require Import Rstruct MCRing Mat_Base Geometry_Spec Linalg_Spec Calculus Components Multi_Model Multi_Proofs Stiefel_Proofs Sphere_Model Sphere_Proofs Expm Grassmann_Proofs.
Set Implicit Arguments.
Unset Strict Implicit.
Unset Printing Implicit Defensive.
Import GRing.Theory Num.Theory Order.TTheory.
Local Open Scope ring_scope.
Delimit Scope R_scope with Re.

Section Log.
Variables (F : starField RR) (n p : nat).
Implicit Types X Y V W : 'M[F]_(n, p).
Local Notation dot := (@inner RR F n p).

(** principal angle of a singular value *)
Definition angle (c : RR) : RR := acos (if (1 < c)%R then 1 else c).
Lemma angle_ge0 c : (0 <= angle c)%Re. Proof. by rewrite /angle; case: ifP => _; have := acos_bound (if false then 1%Re else c); case: (acos_bound 1); case: (acos_bound c). Qed.
Lemma angle1 : angle 1 = 0. Proof. by rewrite /angle ltxx; apply: acos_1. Qed.
Lemma angle_cos (t : RR) : (0 <= t <= PI)%Re -> angle (cos t) = t.
Proof.
move=> Ht; have [_ H] := COS_bound t; rewrite /angle ifF; first exact: acos_cos.
by apply/negbTE; rewrite -leNgt; apply/RlePx.
Qed.
Lemma angle_eq0 c : angle c = 0 -> 1 <= c.
Proof.
rewrite /angle; case: ltP => [/ltW //|c1] A; have [c0|c0] := lerP (-1) c.
  have := cos_acos c (conj (RlePx _ _ c0) (RlePx _ _ c1)); rewrite A => <-; rewrite cos_0; exact: lexx.
have : acos c = PI by rewrite /acos; case: Rle_dec => // N; case: N; exact: RlePx (ltW c0).
by rewrite A => P; have := PI_RGT_0; rewrite -P => /Rlt_irrefl.
Qed.
Local Notation sv := ('M[F]_p * 'rV[RR]_p * 'M[F]_p)%type.
Definition gdist2 (usv : 'M[F]_p * 'rV[RR]_p * 'M[F]_p) : RR := \sum_i angle (usv.1.2 ord0 i) ^+ 2.
Lemma gdist2_unique (A : 'M[F]_p) (usv usv' : sv) : valid_svd A usv -> valid_svd A usv' -> gdist2 usv = gdist2 usv'.
Proof. exact: svd_sum. Qed.
Lemma svd_adj (A : 'M[F]_p) (usv : sv) : valid_svd A usv -> valid_svd A^H (usv.2^H, usv.1.2, usv.1.1^H).
Proof.
move=> S; have [O W P E] := svdP S; split; first by rewrite /orthonormal adjmxK.
split; first by rewrite adjmxK.
split=> //; by rewrite E /svdfun map_mx_id // !adjmxM real_diag_adj mulmxA.
Qed.
Lemma gdist2_sym X Y (usv usv' : sv) : valid_svd (X^H *m Y) usv -> valid_svd (Y^H *m X) usv' -> gdist2 usv = gdist2 usv'.
Proof.
by move=> S S'; have := svd_adj S; rewrite adjmxM adjmxK => S1; rewrite -(gdist2_unique S1 S').
Qed.
Lemma gdist2_right X Y (Q : 'M[F]_p) (usv usv' : sv) : Q *m Q^H = 1%:M -> valid_svd (X^H *m Y) usv ->
  valid_svd (X^H *m (Y *m Q)) usv' -> gdist2 usv' = gdist2 usv.
Proof. by move=> QQ S; rewrite mulmxA => S'; rewrite (gdist2_unique S' (svd_right S QQ)). Qed.
Lemma gdist2_left X Y (Q : 'M[F]_p) (usv usv' : sv) : Q *m Q^H = 1%:M -> valid_svd (X^H *m Y) usv ->
  valid_svd ((X *m Q)^H *m Y) usv' -> gdist2 usv' = gdist2 usv.
Proof.
move=> QQ S; rewrite adjmxM -mulmxA => S'; rewrite (gdist2_unique S' (svd_left S _)) //.
by rewrite /orthonormal adjmxK.
Qed.
Lemma svd_one (Q : 'M[F]_p) : Q *m Q^H = 1%:M -> valid_svd Q (1%:M, const_mx 1, Q).
Proof.
move=> QQ; split; first by rewrite /orthonormal adjmx1 mulmx1.
split=> //; split; first by move=> i; rewrite mxE ler01.
rewrite mul1mx (_ : real_diag F _ = 1%:M) ?mul1mx //.
by apply/matrixP => i j; rewrite !mxE rmorph1.
Qed.
(** the distance is zero exactly for matrices with the same column space *)
Lemma gdist2_eq0 X Y (usv : sv) : orthonormal X -> orthonormal Y -> valid_svd (X^H *m Y) usv ->
  (gdist2 usv = 0 <-> exists2 Q : 'M[F]_p, Q *m Q^H = 1%:M & Y = X *m Q).
Proof.
move=> OX OY S; split; last first.
  move=> [Q QQ E]; have S1 := svd_one QQ; rewrite E mulmxA OX mul1mx in S.
  by rewrite (gdist2_unique S S1) /gdist2 big1 // => i _; rewrite mxE angle1 expr0n.
move=> D.
have s1 i : 1 <= usv.1.2 ord0 i.
  apply: angle_eq0; apply/eqP; rewrite -sqrf_eq0; apply/eqP.
  by move/eqP: D; rewrite psumr_eq0 => [/allP /(_ i (mem_index_enum _)) /eqP|j _]; rewrite ?sqr_ge0.
have Pyth : inner Y Y = inner (X^H *m Y) (X^H *m Y) + inner (gr_proj X Y) (gr_proj X Y).
  have H := gr_proj_horizontal Y OX.
  rewrite -(inner_orthonormal (X^H *m Y) (X^H *m Y) OX).
  have {1 2}-> : Y = gr_proj X Y + X *m (X^H *m Y) by rewrite subrK.
  have G (P N : 'M[F]_(n, p)) : dot N P = 0 -> dot (P + N) (P + N) = dot N N + dot P P.
    by move=> Z; have Z' := Z; rewrite innerC in Z'; rewrite innerDl !innerDr Z Z' addr0 add0r addrC.
  exact: G (gr_inner Y H).
have SS : inner (X^H *m Y) (X^H *m Y) = \sum_i usv.1.2 ord0 i ^+ 2.
  by have [_ _ _ E] := svdP S; rewrite {1 2}E (svdfun_norm _ S).
have YY : inner Y Y = \sum_(i < p) 1.
  rewrite innerE OY mxtrace1 sumr_const card_ord -[sf_re _]/(sf_re (p%:R : F)) -(rmorph_nat (@sf_real _ F)) re_real //.
have Z : inner (gr_proj X Y) (gr_proj X Y) = 0 /\ forall i, usv.1.2 ord0 i = 1.
  have L : \sum_(i < p) 1 <= \sum_i usv.1.2 ord0 i ^+ 2 :> RR by apply: ler_sum => i _; rewrite exprn_ege1.
  have N := inner_ge0 (gr_proj X Y).
  have Z : inner (gr_proj X Y) (gr_proj X Y) = 0.
    apply/eqP; rewrite eq_le N andbT -(ler_add2l (\sum_i usv.1.2 ord0 i ^+ 2)) addr0 -SS -Pyth YY SS //.
  split=> // i; move: Pyth; rewrite Z addr0 YY SS => /eqP; rewrite eq_sym -subr_eq0 -sumrB psumr_eq0.
    move=> /allP /(_ i (mem_index_enum _)) /eqP /eqP; rewrite subr_eq0 sqrf_eq1 => /orP[/eqP //|/eqP E].
    by have := s1 i; rewrite E => /le_trans /(_ (lerN10 _)); rewrite ler10.
  by move=> j _; rewrite subr_ge0 exprn_ege1.
case: Z => /inner_eq0/eqP; rewrite subr_eq0 => /eqP E s_1; exists (X^H *m Y) => //.
have [OU W _ E1] := svdP S; rewrite E1 /svdfun (_ : real_diag F _ = 1%:M); last first.
  by apply/matrixP => i j; rewrite !mxE s_1 rmorph1.
by rewrite mulmx1 adjmxM mulmxA -(mulmxA _ usv.2) W mulmx1 orthonormalC.
Qed.

(** ** Distances along geodesics *)
Lemma gdist2_exp X V usv (w : sv) : orthonormal X -> horizontal X V -> valid_svd V usv ->
  (forall i, usv.1.2 ord0 i <= PI / 2%:R)%R -> valid_svd (X^H *m grexp X usv) w -> gdist2 w = inner V V.
Proof.
move=> OX H S B S'; have [O W P E] := svdP S.
have cosge (x : R) : (0 <= x <= PI / 2)%Re -> (0 <= cos x)%Re by move=> [? ?]; move: PI_RGT_0 => ?; apply: cos_ge_0; lra.
have halfpi (x : R) : (0 <= x <= PI / 2)%Re -> (0 <= x <= PI)%Re by move=> [? ?]; move: PI_RGT_0 => ?; lra.
have PB i : (0 <= usv.1.2 ord0 i <= PI / 2)%Re.
  by split; [exact: RlePx (P i)|have := RlePx _ _ (B i); Rify].
have S1 : valid_svd (X^H *m grexp X usv) (usv.2^H, map_mx cos usv.1.2, usv.2).
  rewrite (pair_left OX H S) ?sin00 //; split; first by rewrite /orthonormal adjmxK.
  split=> //; split; last by rewrite /eigfun /= adjmxK.
  by move=> i; rewrite mxE; apply/RlePx; apply: cosge.
rewrite (gdist2_unique S' S1) /gdist2 {1 2}E (svdfun_norm id S); apply: eq_bigr => i _.
by rewrite mxE angle_cos //; apply: halfpi.
Qed.

(** ** The logarithm *)
Definition grlogB X Y : 'M[F]_(n, p) := (invmx (Y^H *m X) *m (Y^H - Y^H *m X *m X^H))^H.
Lemma atan00 : (atan 0 : RR) = 0. Proof. exact: atan_0. Qed.
Lemma sin_atan_cos (x : RR) : sin (atan x) = x * cos (atan x) :> RR.
Proof.
have [a b] := atan_bound x; have c0 : (0 < cos (atan x))%Re by apply: cos_gt_0; lra.
have := tan_atan x; rewrite /tan => H; Rify; rewrite -{2}H; field; lra.
Qed.
Section Point.
Variables (X Y : 'M[F]_(n, p)) (usv : 'M[F]_(n, p) * 'rV[RR]_p * 'M[F]_p).
Hypothesis (OX : orthonormal X) (OY : orthonormal Y) (U : Y^H *m X \in unitmx).
Hypothesis (S : valid_svd (grlogB X Y) usv).
Definition grlog : 'M[F]_(n, p) := svdfun atan usv.
Lemma UC : X^H *m Y \in unitmx.
Proof. by rewrite -[X^H *m Y]adjmxK adjmxM adjmxK unitmxE det_adj unitfE fmorph_eq0 -unitfE -unitmxE. Qed.
Lemma grlogBE : grlogB X Y = Y *m invmx (X^H *m Y) - X.
Proof.
rewrite /grlogB mulmxBr adjmxB adjmxM adjmxK mulmxA mulVmx // mul1mx adjmxK; congr (_ *m _ - _).
apply: (can_inj (mulmxK UC)); rewrite mulVmx ?UC //.
have -> : X^H *m Y = (Y^H *m X)^H by rewrite adjmxM adjmxK.
by rewrite -adjmxM mulmxV // adjmx1.
Qed.
Lemma grlogB_horizontal : horizontal X (grlogB X Y).
Proof. by rewrite /horizontal grlogBE mulmxBr mulmxA mulmxV ?UC // OX subrr. Qed.
Lemma grlog_horizontal : horizontal X grlog.
Proof. exact: (svdfun_horizontal grlogB_horizontal S atan00). Qed.
Lemma atan_ge0 (x : RR) : 0 <= x -> 0 <= (atan x : RR).
Proof.
rewrite le_eqVlt => /orP[/eqP <-|x0]; first by rewrite atan00.
have := atan_increasing 0 x (RltPx _ _ x0); rewrite atan_0 => H; exact: ltW (introT (RltPx _ _) H).
Qed.
Lemma grlog_svd : valid_svd grlog (usv.1.1, map_mx atan usv.1.2, usv.2).
Proof. exact: svd_map S atan_ge0. Qed.
Lemma grexp_log w : valid_svd grlog w ->
  grexp X w = Y *m (invmx (X^H *m Y) *m eigfun (fun x => cos (atan x)) (righteig usv)).
Proof.
move=> S'; rewrite /grexp (pair_unique X cos sin00 S' grlog_svd) (pair_map X usv).
have [_ W _ E] := svdP S.
rewrite /pair (svdfun_ext (g := fun x => id x * cos (atan x))) => [|i]; last exact: sin_atan_cos.
by rewrite -svdfunM // -E -mulmxDl grlogBE addrCA subrr addr0; rewrite -[LHS]mulmxA.
Qed.
(** the exponential of the logarithm has the column space of [Y] *)
Lemma grexp_log_span w : valid_svd grlog w -> exists2 Q : 'M[F]_p, Q *m Q^H = 1%:M & grexp X w = Y *m Q.
Proof.
move=> S'; rewrite (grexp_log S'); set Q := _ *m eigfun _ _; exists Q => //; apply: mulmx1C.
have : orthonormal (grexp X w) by apply: (pair_orthonormal OX grlog_horizontal S' sin00) => x; apply: cos2sin2.
by rewrite (grexp_log S') /orthonormal adjmxM -/Q mulmxA -(mulmxA _ Y^H) OY mulmx1.
Qed.
(** the logarithm is as long as the distance *)
Lemma grlog_norm (w : sv) : valid_svd (X^H *m Y) w -> gdist2 w = inner grlog grlog.
Proof.
move=> S'; have [Q QQ E] := grexp_log_span grlog_svd.
have [w' S1] : exists w' : sv, valid_svd (X^H *m (Y *m Q)) w' by exists (w.1.1, w.1.2, w.2 *m Q); rewrite mulmxA; exact: svd_right.
rewrite -(gdist2_right QQ S' S1); rewrite -E in S1; apply: (gdist2_exp OX grlog_horizontal grlog_svd _ S1).
have B (x : R) : (atan x <= PI / 2)%Re by case: (atan_bound x) => _ /Rlt_le.
by move=> i; rewrite mxE; apply/RlePx; have := B (usv.1.2 ord0 i); Rify.
Qed.
End Point.
End Log.
