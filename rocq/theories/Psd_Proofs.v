(** Facts about the quotient geometry of matrices of full column rank. *)
From mathcomp Require Import all_ssreflect all_algebra.
From Verif Require Import MCRing Mat_Base Linalg_Spec Geometry_Spec Calculus Multi_Model Multi_Proofs Stiefel_Proofs PosDef_Proofs.
Set Implicit Arguments.
Unset Strict Implicit.
Unset Printing Implicit Defensive.
Import GRing.Theory Num.Theory Order.TTheory.
Local Open Scope ring_scope.
Local Notation "A ^H" := (adjmx A) (at level 8, format "A ^H") : ring_scope.

Section Psd.
Variables (R : rcfType) (F : starField R).
Add Ring R_ring : (mc_ring R).

Lemma sylvester_unique k (A C Z : 'M[F]_k) : posdef A -> A *m Z + Z *m (C *m C^H) = 0 -> Z = 0.
Proof.
move=> PA E; have [L [AL UL]] := cholesky_factor PA.
have : inner Z (A *m Z + Z *m (C *m C^H)) = 0 by rewrite E inner0r.
rewrite innerDr AL -[L *m L^H *m Z]mulmxA -{1}[L]adjmxK -inner_mull mulmxA -inner_mulr => /eqP.
rewrite paddr_eq0 ?inner_ge0 // => /andP[/eqP/inner_eq0 H _].
by rewrite -[Z]mul1mx -(mulVmx (_ : L^H \in unitmx)) ?adj_unit // -mulmxA H mulmx0.
Qed.
Lemma lyapunov_unique k (A Z : 'M[F]_k) : posdef A -> A *m Z + Z *m A = 0 -> Z = 0.
Proof. by move=> PA; have [L [AL _]] := cholesky_factor PA; rewrite {2}AL => H; apply: (sylvester_unique PA H). Qed.
Lemma lyapunov_skew k (A X Q : 'M[F]_k) : posdef A -> A *m X + X *m A = Q -> Q^H = - Q -> X^H = - X.
Proof.
move=> PA E SQ; have [hA _] := PA; apply/eqP; rewrite -subr_eq0 opprK; apply/eqP; apply: (lyapunov_unique PA).
have e : (A *m X + X *m A)^H = - Q by rewrite E.
rewrite adjmxD !adjmxM [A^H]hA in e; rewrite mulmxDr mulmxDl.
rewrite (_ : _ + _ = (A *m X + X *m A) + (X^H *m A + A *m X^H)); first by rewrite E e subrr.
by move: (A *m X) (A *m X^H) (X *m A) (X^H *m A) => a b c d; vring (@inner_ips R F k k) R.
Qed.
(** Two Hermitian factors with the same square. *)
Lemma polar_unique k (U V H K : 'M[F]_k) (C D : 'M[F]_k) : orthonormal U -> orthonormal V -> U *m H = V *m K -> U *m H \in unitmx ->
  H = C *m C^H -> K = D *m D^H -> U = V.
Proof.
move=> OU OV E UH HC KD.
have hH : H^H = H by rewrite HC adjmxM adjmxK.
have hK : K^H = K by rewrite KD adjmxM adjmxK.
have S : H *m H = K *m K.
  have : (U *m H)^H *m (U *m H) = (V *m K)^H *m (V *m K) by rewrite E.
  by rewrite !adjmxM hH hK !mulmxA -(mulmxA H) OU -(mulmxA K) OV !mulmx1.
have uH : H \in unitmx by move: UH; rewrite unitmx_mul => /andP[].
have uC : C \in unitmx by move: uH; rewrite HC unitmx_mul => /andP[].
have PH : posdef H by rewrite HC; apply: posdef_gram.
have Z : H - K = 0.
  by apply: (sylvester_unique (C := D) PH); rewrite -KD mulmxBr mulmxBl S addrC addrA subrK subrr.
have HK : H = K by apply/eqP; rewrite -subr_eq0 Z.
by move: E; rewrite -HK => /(congr1 (fun M => M *m invmx H)); rewrite !mulmxK.
Qed.
Lemma full_gram n k (Y : 'M[F]_(n, k)) : \rank Y = k <-> posdef (Y^H *m Y).
Proof.
have hh : (Y^H *m Y)^H = Y^H *m Y by rewrite adjmxM adjmxK.
have G z : inner z (Y^H *m Y *m z) = inner (Y *m z) (Y *m z) by rewrite -mulmxA -inner_mull.
split=> [r|P].
  apply/posdefP; split=> // z z0; rewrite G; apply: inner_gt0; apply: contra z0 => /eqP H.
  have rf : row_free Y^T by rewrite /row_free mxrank_tr r.
  have : z^T *m Y^T = 0 *m Y^T by rewrite -trmx_mul H trmx0 mul0mx.
  by move/(row_free_inj rf) => /(congr1 trmx); rewrite trmxK trmx0 => ->.
have : row_free Y^T.
  apply/inj_row_free => v H.
  have H2 : Y *m v^T = 0 by rewrite -[LHS]trmxK trmx_mul trmxK H trmx0.
  apply/eqP/contraT => v0; have /posdefP[_ Q] := P.
  have := Q v^T; rewrite G H2 inner0l ltxx; apply; apply: contra v0 => /eqP E; by rewrite -[v]trmxK E trmx0.
by rewrite /row_free mxrank_tr => /eqP.
Qed.

Section Quotient.
Variables n k : nat.
Local Notation array := 'M[F]_(n, k).
Local Notation dot := (@inner R F n k).
Implicit Types Y V W : array.
Definition full Y := posdef (Y^H *m Y).
Definition hor Y V := (Y^H *m V)^H = Y^H *m V.
Definition ver Y W := W *m Y^H + Y *m W^H = 0.
Lemma full_unit Y : full Y -> Y^H *m Y \in unitmx. Proof. exact: posdef_unit. Qed.
Lemma ver_skew Y (S : 'M[F]_k) : S^H = - S -> ver Y (Y *m S).
Proof. by move=> hS; rewrite /ver adjmxM hS mulNmx mulmxN mulmxA addrN. Qed.
Lemma verP Y W : full Y -> ver Y W -> exists2 S : 'M[F]_k, S^H = - S & W = Y *m S.
Proof.
move=> fY E; have U := full_unit fY; have [hG _] := fY; set G := Y^H *m Y in U hG *.
pose S := - (W^H *m Y *m invmx G).
have WE : W = Y *m S.
  have : W *m Y^H *m Y = - (Y *m W^H *m Y) by rewrite -mulNmx; congr (_ *m _); apply/eqP; rewrite -addr_eq0; apply/eqP.
  rewrite -mulmxA -/G => /(congr1 (fun M => M *m invmx G)); rewrite mulmxK // => ->.
  by rewrite /S mulmxN mulNmx !mulmxA.
exists S => //.
have : Y^H *m (W *m Y^H + Y *m W^H) *m Y = 0 by rewrite [X in _ *m X *m _](E : _ = _) mulmx0 mul0mx.
rewrite {1 2}WE adjmxM mulmxDr mulmxDl !mulmxA -/G -!mulmxA -/G => H.
have {}H : G *m ((S + S^H) *m G) = 0 by rewrite mulmxDl mulmxDr -{}[RHS]H; congr (_ + _); rewrite /G !mulmxA.
have : S + S^H = 0 by rewrite -[LHS](mulmxK U) -[X in X *m _](mulKmx U) H mulmx0 mul0mx.
by move/eqP; rewrite addrC addr_eq0 => /eqP.
Qed.
Lemma horP Y V : full Y -> hor Y V <-> forall W, ver Y W -> dot V W = 0.
Proof.
move=> fY; split=> [h W /(verP fY)[S hS ->]|H].
  by rewrite innerC inner_mull innerC inner_herm_skew.
have := H _ (ver_skew Y (hskew_skew (Y^H *m V))); rewrite innerC inner_mull innerC -{1}[Y^H *m V]hsym_skew innerDl.
rewrite inner_herm_skew ?hsym_herm ?hskew_skew // add0r => /inner_eq0 E.
by rewrite /hor -[Y^H *m V]hsym_skew E addr0 hsym_herm.
Qed.
Lemma hor_subspace Y : real_subspace (@rscale R F n k) (hor Y).
Proof.
split; first by rewrite /hor mulmx0 adjmx0.
split; first by move=> u v hu hv; rewrite /hor mulmxDr adjmxD hu hv.
by move=> a v hv; rewrite /hor /rscale -scalemxAr adjmxZreal hv.
Qed.
Lemma horN Y V : hor Y V -> hor Y (- V).
Proof. by move=> h; rewrite /hor mulmxN adjmxN h. Qed.
Definition qproj (lyap : 'M[F]_k -> 'M[F]_k -> 'M[F]_k) Y V := V - Y *m lyap (Y^H *m Y) (Y^H *m V - V^H *m Y).
Section Projection.
Variable lyap : 'M[F]_k -> 'M[F]_k -> 'M[F]_k.
Hypothesis lyapP : forall A Q, posdef A -> A *m lyap A Q + lyap A Q *m A^H = Q.
Lemma lyap_eq A Q : posdef A -> A *m lyap A Q + lyap A Q *m A = Q.
Proof. by move=> PA; have [hA _] := PA; have := lyapP Q PA; rewrite [A^H]hA. Qed.
Lemma skew_part Y V : (Y^H *m V - V^H *m Y)^H = - (Y^H *m V - V^H *m Y).
Proof. by rewrite adjmxB !adjmxM !adjmxK opprB. Qed.
Lemma lyap_skew Y V : full Y -> (lyap (Y^H *m Y) (Y^H *m V - V^H *m Y))^H = - lyap (Y^H *m Y) (Y^H *m V - V^H *m Y).
Proof. by move=> fY; apply: (lyapunov_skew fY (lyap_eq _ fY)); apply: skew_part. Qed.
Lemma qproj_hor Y V : full Y -> hor Y (qproj lyap Y V).
Proof.
move=> fY; have E := lyap_eq (Y^H *m V - V^H *m Y) fY; have S := lyap_skew V fY; rewrite /qproj.
move: (lyap _ _) E S => O E S; rewrite /hor.
have -> : (Y^H *m (V - Y *m O))^H = V^H *m Y + O *m (Y^H *m Y).
  by rewrite adjmxM adjmxK adjmxB adjmxM S mulNmx opprK mulmxDl mulmxA.
apply/eqP; rewrite mulmxBr -subr_eq0; apply/eqP.
have -> : V^H *m Y + O *m (Y^H *m Y) - (Y^H *m V - Y^H *m (Y *m O)) = (Y^H *m Y *m O + O *m (Y^H *m Y)) - (Y^H *m V - V^H *m Y).
  by rewrite [Y^H *m (Y *m O)]mulmxA; move: (V^H *m Y) (O *m _) (_ *m O) (Y^H *m V) => a b c d; vring (@inner_ips R F k k) R.
by rewrite E subrr.
Qed.
Lemma qproj_ver Y V : full Y -> ver Y (V - qproj lyap Y V).
Proof. by move=> fY; rewrite /qproj opprB addrC subrK; apply: ver_skew; apply: lyap_skew. Qed.
Lemma qproj_projects Y V : full Y -> projects_to dot (hor Y) V (qproj lyap Y V).
Proof.
move=> fY; split; first exact: qproj_hor.
split; last by move=> t ht; rewrite innerC; apply: (proj1 (horP t fY) ht); apply: qproj_ver.
move=> hV; rewrite /qproj.
have Z : Y^H *m V - V^H *m Y = 0 by rewrite -{1}hV adjmxM adjmxK subrr.
by rewrite Z (lyapunov_unique fY (lyap_eq 0 fY)) mulmx0 subr0.
Qed.
Lemma full_right Y (Q : 'M[F]_k) : Q \in unitmx -> full Y -> full (Y *m Q).
Proof.
move=> uQ fY; have := posdef_congr fY (_ : Q^H \in unitmx); rewrite adj_unit => /(_ uQ).
by rewrite adjmxK /full adjmxM !mulmxA.
Qed.
Lemma orthonormal_unit (Q : 'M[F]_k) : orthonormal Q -> Q \in unitmx.
Proof. by move=> O; have [] := mulmx1_unit O. Qed.
Lemma qproj_right Y V (Q : 'M[F]_k) : full Y -> orthonormal Q -> qproj lyap (Y *m Q) (V *m Q) = qproj lyap Y V *m Q.
Proof.
move=> fY OQ; have OC := orthonormalC OQ; have fQ := full_right (orthonormal_unit OQ) fY.
rewrite /qproj mulmxBl -!mulmxA; congr (_ - _ *m _).
have E := lyap_eq (Y^H *m V - V^H *m Y) fY.
have E2 := lyap_eq ((Y *m Q)^H *m (V *m Q) - (V *m Q)^H *m (Y *m Q)) fQ.
move: (lyap (Y^H *m Y) _) E => O E; move: (lyap ((Y *m Q)^H *m (Y *m Q)) _) E2 => O2 E2.
have : O2 - Q^H *m O *m Q = 0.
  apply: (lyapunov_unique fQ); rewrite mulmxBr mulmxBl.
  have K (a b c d : 'M[F]_k) : a - b + (c - d) = (a + c) - (b + d) by rewrite opprD addrACA.
  rewrite K E2; apply/eqP; rewrite subr_eq0 !adjmxM !mulmxA; apply/eqP.
  have QA (X : 'M[F]_k) : X *m Q *m Q^H = X by rewrite -mulmxA OC mulmx1.
  rewrite !QA; transitivity (Q^H *m (Y^H *m V - V^H *m Y) *m Q); first by rewrite mulmxBr mulmxBl !mulmxA.
  by rewrite -E mulmxDr mulmxDl !mulmxA.
move/eqP; rewrite subr_eq0 => /eqP ->; by rewrite !mulmxA OC mul1mx.
Qed.
End Projection.

(** ** Procrustes alignment *)
Lemma svd_align_max (M u vt Q : 'M[F]_k) (s : 'rV[R]_k) : valid_svd M (u, s, vt) -> orthonormal Q ->
  inner Q M <= inner (u *m vt) M.
Proof.
move=> [Ou [Ov [s0 E]]] OQ; pose D := real_diag F (map_mx Num.sqrt s).
have DD : D *m D^H = real_diag F s.
  rewrite real_diag_adj /D /real_diag mulmx_diag; congr diag_mx; apply/rowP => i.
  by rewrite !mxE -rmorphM -expr2 sqr_sqrtr.
pose W := u^H *m Q *m vt^H.
have OW : orthonormal W.
  rewrite /orthonormal /W !adjmxM !adjmxK !mulmxA -(mulmxA _ u) (orthonormalC Ou) mulmx1 -(mulmxA vt) OQ mulmx1.
  by rewrite Ov.
have I1 : inner Q M = inner (W *m D) D.
  by rewrite [RHS]inner_mulr DD E [LHS]innerC [LHS]inner_mulr [LHS]inner_mull [LHS]innerC /W !mulmxA.
have I2 : inner (u *m vt) M = inner D D.
  rewrite E inner_mulr -mulmxA Ov mulmx1 -{1}[u]mulmx1 inner_orthonormal // -DD -inner_mulr mul1mx //.
rewrite I1 I2 -subr_ge0.
have : 0 <= inner (D - W *m D) (D - W *m D) by apply: inner_ge0.
rewrite innerBl !innerBr (inner_orthonormal _ _ OW) (innerC D).
set a := inner D D; set b := inner _ D.
have -> : a - b - (b - a) = (a - b) *+ 2 by rewrite mulr2n opprB.
by rewrite pmulrn_lge0.
Qed.
Lemma fnorm_right m (A : 'M[F]_(m, k)) (Q : 'M[F]_k) : orthonormal Q -> fnorm (A *m Q) = fnorm A.
Proof. by move=> /orthonormalC O; rewrite /fnorm inner_mulr -mulmxA O mulmx1. Qed.
Lemma same_right Y V : full Y -> full V -> Y *m Y^H = V *m V^H -> exists2 Q : 'M[F]_k, orthonormal Q & V = Y *m Q.
Proof.
move=> fY fV E; have UY := full_unit fY; have UV := full_unit fV; have [hG _] := fY.
set G := Y^H *m Y in UY hG *; pose Q := invmx G *m Y^H *m V.
have hI : (invmx G)^H = invmx G by rewrite adj_inv [G^H]hG.
have QQ : Q *m Q^H = 1%:M.
  rewrite /Q !adjmxM adjmxK hI !mulmxA -(mulmxA _ V) -E !mulmxA -(mulmxA _ Y^H Y) -/G -(mulmxA _ Y^H Y) -/G.
  by rewrite (mulVmx UY) mul1mx mulmxV.
exists Q; first exact: mulmx1C.
have Z : (V - Y *m Q) *m V^H = 0.
  rewrite mulmxBl -[Y *m Q *m _]mulmxA /Q -[_ *m V *m _]mulmxA -E -!mulmxA [Y^H *m (Y *m _)]mulmxA -/G (mulKmx UY) subrr //.
have : (V - Y *m Q) *m (V^H *m V) = 0 by rewrite mulmxA Z mul0mx.
move=> /(congr1 (fun M => M *m invmx (V^H *m V))); rewrite mulmxK // mul0mx => /eqP; rewrite subr_eq0 => /eqP //.
Qed.
Lemma same_of_right Y (Q : 'M[F]_k) : orthonormal Q -> Y *m Q *m (Y *m Q)^H = Y *m Y^H.
Proof. by move=> /orthonormalC O; rewrite adjmxM mulmxA -(mulmxA Y) O mulmx1. Qed.
Section Align.
Variable svd : 'M[F]_k -> 'M[F]_k * 'rV[R]_k * 'M[F]_k.
Hypothesis svdP : forall M, valid_svd M (svd M).
Definition align Y V := (svd (V^H *m Y)).1.1 *m (svd (V^H *m Y)).2.
Definition qlog Y V := V *m align Y V - Y.
Lemma align_spec Y V : orthonormal (align Y V) /\ exists C : 'M[F]_k, V^H *m Y = align Y V *m (C *m C^H).
Proof.
rewrite /align; have := svdP (V^H *m Y); case: (svd _) => [[u s] vt] /= [Ou [Ov [s0 E]]].
have Ov' : vt^H *m vt = 1%:M by apply: mulmx1C.
split; first by rewrite /orthonormal adjmxM mulmxA -(mulmxA vt^H) Ou mulmx1.
exists (vt^H *m real_diag F (map_mx Num.sqrt s)).
have DD : real_diag F (map_mx Num.sqrt s) *m (real_diag F (map_mx Num.sqrt s))^H = real_diag F s.
  rewrite real_diag_adj /real_diag mulmx_diag; congr diag_mx; apply/rowP => i.
  by rewrite !mxE -rmorphM -expr2 sqr_sqrtr.
by rewrite adjmxM adjmxK !mulmxA -(mulmxA u) Ov mulmx1 -(mulmxA u) DD.
Qed.
Lemma align_orth Y V : orthonormal (align Y V). Proof. by case: (align_spec Y V). Qed.
Lemma qlog_hor Y V : hor Y (qlog Y V).
Proof.
have [O [C E]] := align_spec Y V.
have e : Y^H *m V = (C *m C^H) *m (align Y V)^H.
  by have := congr1 (fun M => M^H) E; rewrite !adjmxM !adjmxK => ->.
rewrite /hor /qlog mulmxBr mulmxA e -!mulmxA O !mulmxA mulmx1 adjmxB !adjmxM !adjmxK //.
Qed.
Lemma align_best Y V (Q : 'M[F]_k) : orthonormal Q -> fnorm (qlog Y V) <= fnorm (V *m Q - Y).
Proof.
move=> OQ; have OU := align_orth Y V.
have M : inner (V *m Q) Y <= inner (V *m align Y V) Y.
  rewrite (inner_mull V Q) (inner_mull V (align Y V)); apply: (svd_align_max (s := (svd (V^H *m Y)).1.2)) => //.
  by have := svdP (V^H *m Y); rewrite /align; case: (svd _) => [[]].
have N (P : 'M[F]_k) : orthonormal P -> inner (V *m P - Y) (V *m P - Y) = inner V V + inner Y Y - inner (V *m P) Y *+ 2.
  move=> /orthonormalC OP; have e : inner (V *m P) (V *m P) = inner V V by rewrite inner_mulr -mulmxA OP mulmx1.
  rewrite innerBl !innerBr e (innerC Y (V *m P)) mulr2n; move: (inner V V) (inner Y Y) (inner _ Y) => p q r; mcring R.
by rewrite /fnorm ler_wsqrtr // /qlog (N _ OU) (N _ OQ) ler_add2l ler_opp2 ler_muln2r /=.
Qed.
Lemma align_unique Y V (U C : 'M[F]_k) : V^H *m Y \in unitmx -> orthonormal U -> V^H *m Y = U *m (C *m C^H) -> align Y V = U.
Proof.
move=> u OU E; have [OA [D E']] := align_spec Y V.
by apply: (polar_unique OA OU _ _ (erefl (D *m D^H)) (erefl (C *m C^H))); rewrite -E'.
Qed.
Lemma qlog_line Y V : hor Y V -> posdef (Y^H *m (Y + V)) -> qlog Y (Y + V) = V.
Proof.
move=> h P; have [L [E UL]] := cholesky_factor P.
have E2 : (Y + V)^H *m Y = Y^H *m (Y + V) by have [hP _] := P; rewrite -[RHS]hP adjmxM adjmxK.
have -> : qlog Y (Y + V) = (Y + V) *m 1%:M - Y.
  rewrite /qlog (@align_unique _ _ 1%:M L) ?E2 ?posdef_unit //; last by rewrite mul1mx.
  by rewrite /orthonormal adjmx1 mul1mx.
by rewrite mulmx1 addrC addKr.
Qed.
Lemma full_line Y V : posdef (Y^H *m (Y + V)) -> full (Y + V).
Proof.
move=> /posdef_unit U; apply/full_gram; apply/eqP; rewrite eqn_leq rank_leq_col /=.
by have := mxrankM_maxr Y^H (Y + V)%R; rewrite mxrank_unit.
Qed.
Lemma qdist_sym Y V : fnorm (qlog Y V) = fnorm (qlog V Y).
Proof.
have H A B : fnorm (qlog A B) <= fnorm (qlog B A).
  have O := align_orth B A; have OC := orthonormalC O.
  apply: le_trans (align_best A B (_ : orthonormal (align B A)^H)) _; first by rewrite /orthonormal adjmxK.
  rewrite -(fnorm_right _ O) mulmxBl -mulmxA O mulmx1 -fnormN opprB //.
by apply/eqP; rewrite eq_le !H.
Qed.
Lemma qdist_triangle X Y V : fnorm (qlog X V) <= fnorm (qlog X Y) + fnorm (qlog Y V).
Proof.
have O1 := align_orth X Y; have O2 := align_orth Y V.
have O : orthonormal (align Y V *m align X Y).
  by rewrite /orthonormal adjmxM mulmxA -(mulmxA _ _ (align Y V)) O2 mulmx1.
apply: le_trans (align_best X V O) _; rewrite [X in _ <= X]addrC -(fnorm_right (qlog Y V) O1).
apply: le_trans (fnormD' _ _); rewrite le_eqVlt; apply/orP; left; apply/eqP; congr fnorm.
by rewrite /qlog mulmxBl mulmxA addrA subrK.
Qed.
Lemma qdist_eq0 Y V : full Y -> full V -> fnorm (qlog Y V) = 0 <-> Y *m Y^H = V *m V^H.
Proof.
move=> fY fV; split.
  move/eqP; rewrite fnorm_eq0 subr_eq0 => /eqP <-; exact: same_of_right (align_orth Y V).
move=> /esym E; have [Q OQ ->] := same_right fV fY E; apply/eqP; rewrite eq_le fnorm_ge0 andbT.
apply: le_trans (align_best _ _ OQ) _; by rewrite subrr /fnorm inner0l sqrtr0.
Qed.
End Align.
End Quotient.
End Psd.
