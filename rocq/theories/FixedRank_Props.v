(** Properties C78 and C79 (and C80 for this manifold) of src/pymanopt/manifolds/fixed_rank.py *)
From Coq Require Import Reals.
From mathcomp Require Import all_ssreflect all_algebra.
From mathcomp Require Import perm.
From Coq Require Import Ring Field.
From Verif Require Import Rstruct MCRing Mat_Base Geometry_Spec Linalg_Spec Calculus Connection Linalg_Exist Stiefel_Model.
From Verif Require Import Stiefel_Proofs Stiefel_Props Sphere_Model FixedRank_Model FixedRank_Proofs Psd_Props.
Set Implicit Arguments.
Unset Strict Implicit.
Unset Printing Implicit Defensive.
Import GRing.Theory Num.Theory Order.TTheory.
Local Open Scope ring_scope.
Delimit Scope R_scope with Re.
Local Notation "A ^H" := (adjmx A) (at level 8, format "A ^H") : ring_scope.

(** ** Specification *)
Section Spec.
Variables (R : rcfType) (m n k : nat).
Local Notation F := (real_star R).
Local Notation point := (fr_point R m n k).
Local Notation tvector := (fr_vector R m n k).
(** the matrix a point stands for *)
Definition fr_matrix (x : point) : 'M[F]_(m, n) := fr_u x *m diag_mx (fr_s x : 'rV[F]_k) *m fr_vt x.
(** a point: a singular value decomposition of a matrix of rank [k] *)
Definition on_fixed_rank (x : point) : Prop :=
  (fr_u x)^T *m fr_u x = 1%:M /\ fr_vt x *m (fr_vt x)^T = 1%:M /\ forall i, 0 < fr_s x ord0 i.
Definition decreasing p (s : 'rV[R]_p) : Prop := forall i j : 'I_p, (i <= j)%N -> s ord0 j <= s ord0 i.
(** the triples allowed as tangent vectors, and the matrix such a triple stands for *)
Definition fr_valid (x : point) (t : tvector) : Prop := (fr_u x)^T *m fr_Up t = 0 /\ fr_vt x *m fr_Vp t = 0.
Definition fr_represented (x : point) (t : tvector) : 'M[F]_(m, n) :=
  fr_u x *m fr_M t *m fr_vt x + fr_Up t *m fr_vt x + fr_u x *m (fr_Vp t)^T.
Definition fr_dense (z : fr_ambient R m n) : 'M[F]_(m, n) :=
  match z with Dense Z => Z | @Factored _ _ _ p U C V => U *m C *m V^T end.
(** The tangent space: the velocities of curves through the point in the matrices of rank at most [k] *)
Definition rank_velocity (x : point) (Z : 'M[F]_(m, n)) : Prop :=
  exists c : R -> 'M[F]_(m, n), c 0 = fr_matrix x /\ (forall t, (\rank (c t) <= k)%N) /\
    derives (@rscale R F m n) (@inner R F m n) c Z.
(** [(du, ds, dvt)] are the derivatives of [f] as a function of the three factors. *)
Definition coordinate_gradient (f : 'M[F]_(m, n) -> R) (x : point) (du : 'M[F]_(m, k)) (ds : 'rV[F]_k) (dvt : 'M[F]_(k, n)) : Prop :=
  forall (cu : R -> 'M[F]_(m, k)) (cs : R -> 'rV[F]_k) (cv : R -> 'M[F]_(k, n)) a b c,
    cu 0 = fr_u x -> cs 0 = fr_s x -> cv 0 = fr_vt x ->
    derives (@rscale R F m k) (@inner R F m k) cu a -> derives (@rscale R F 1 k) (@inner R F 1 k) cs b ->
    derives (@rscale R F k n) (@inner R F k n) cv c ->
    derives (@real_scale R) (@real_dot R) (fun t => f (cu t *m diag_mx (cs t) *m cv t)) (inner du a + inner ds b + inner dvt c).
End Spec.

Section FixedRank.
Variables (R : rcfType) (m n k : nat).
Local Notation F := (real_star R).
Local Notation point := (fr_point R m n k).
Local Notation tvector := (fr_vector R m n k).
Local Notation on := (@on_fixed_rank R m n k).
Local Notation dot := (@inner R F m n).
Implicit Types (x y : point) (t w : tvector).
Add Ring R_ring : (mc_ring R).

Lemma adjT p q (A : 'M[F]_(p, q)) : A^T = A^H.
Proof. by apply/matrixP => i j; rewrite !mxE. Qed.
Lemma diagE p (s : 'rV[R]_p) : diag_mx (s : 'rV[F]_p) = real_diag F s.
Proof. by congr diag_mx; apply/rowP => i; rewrite !mxE. Qed.
Lemma np_diagE (s : 'rV[R]_k) : np_diag s = real_diag F s.
Proof. by apply/matrixP => i j; rewrite !mxE; case: (i == j). Qed.
Local Notation vv x := ((fr_vt x)^H).
Lemma on_u x : on x -> orthonormal (fr_u x). Proof. by move=> [h _]; rewrite /orthonormal -adjT. Qed.
Lemma on_v x : on x -> orthonormal (vv x). Proof. by move=> [_ [h _]]; rewrite /orthonormal adjmxK -adjT. Qed.
Lemma valid_u x t : fr_valid x t -> (fr_u x)^H *m fr_Up t = 0. Proof. by move=> [h _]; rewrite -adjT. Qed.
Lemma valid_v x t : fr_valid x t -> (vv x)^H *m fr_Vp t = 0. Proof. by move=> [_ h]; rewrite adjmxK. Qed.
Lemma repE x t : fr_represented x t = emb (fr_u x) (vv x) (fr_Up t) (fr_M t) (fr_Vp t).
Proof. by rewrite /fr_represented /emb adjmxK adjT. Qed.
Lemma matrixE x : fr_matrix x = fr_u x *m real_diag F (fr_s x) *m (vv x)^H.
Proof. by rewrite /fr_matrix diagE adjmxK. Qed.
Lemma tensordotE p q (A B : 'M[F]_(p, q)) : tensordot A B = inner A B. Proof. by []. Qed.

Lemma fnorm_0 p q : fnorm (0 : 'M[F]_(p, q)) = 0.
Proof. by rewrite /fnorm inner0l sqrtr0. Qed.
Lemma fnorm_0P p q (A : 'M[F]_(p, q)) : fnorm A = 0 -> A = 0.
Proof.
move/eqP; rewrite sqrtr_eq0 => h; apply: inner_eq0; apply/eqP; rewrite eq_le h; exact: inner_ge0.
Qed.

(** ** C78 *)
Lemma proj_dense x (Z : 'M[F]_(m, n)) : fr_projection x (Dense Z) =
  let M := (fr_u x)^H *m (Z *m vv x) in FrVector (Z *m vv x - fr_u x *m M) M (Z^H *m fr_u x - vv x *m M^H).
Proof. by rewrite /fr_projection /= !adjT. Qed.
Lemma proj_valid x Z : on x -> fr_valid x (fr_projection x (Dense Z)).
Proof.
move=> hx; have ou := on_u hx; have ov := on_v hx; rewrite proj_dense; split; rewrite /=.
  by rewrite adjT mulmxBr (mulmxA _ (fr_u x)) ou mul1mx subrr.
have hv : fr_vt x *m vv x = 1%:M by have [_ [e _]] := hx; rewrite -adjT.
by rewrite mulmxBr (mulmxA _ (vv x)) hv mul1mx !adjmxM !adjmxK mulmxA subrr.
Qed.
Lemma tan_rep x Z : on x -> cu (fr_u x) *m Z *m cv (vv x) = 0 -> fr_represented x (fr_projection x (Dense Z)) = Z.
Proof.
by move=> hx h; rewrite proj_dense repE /=; have := proj_rest (fr_u x) (vv x) Z; rewrite h => /eqP; rewrite subr_eq0 => /eqP <-.
Qed.
Lemma rep_tan x t : on x -> cu (fr_u x) *m fr_represented x t *m cv (vv x) = 0.
Proof. by move=> hx; rewrite repE; apply: emb_tan; [apply: on_u | apply: on_v]. Qed.
Lemma rep_inner x t w : on x -> fr_valid x t -> fr_valid x w ->
  dot (fr_represented x t) (fr_represented x w) = fr_inner_product x t w.
Proof.
move=> hx ht hw; rewrite !repE (emb_inner (on_u hx) (on_v hx)) //; try by [apply: valid_u | apply: valid_v].
Qed.
Lemma velocityE x Z : on x -> rank_velocity x Z <-> cu (fr_u x) *m Z *m cv (vv x) = 0.
Proof.
move=> hx; have [_ [_ s0]] := hx; rewrite /rank_velocity matrixE; split.
  by move=> [c [c0 [rk D]]]; apply: (velocity_tan (on_u hx) (on_v hx) s0 c0).
move=> h; rewrite -(tan_rep hx h) repE; exact: velocity_emb.
Qed.
Theorem C78_tangent_space x Z : on x ->
  (rank_velocity x Z <-> exists2 t, fr_valid x t & fr_represented x t = Z) /\
  (forall t w, fr_valid x t -> fr_valid x w -> fr_represented x t = fr_represented x w -> t = w).
Proof.
move=> hx; split.
  rewrite (velocityE _ hx); split=> [h|[t _ <-]]; last exact: rep_tan.
  by exists (fr_projection x (Dense Z)); [apply: proj_valid | apply: tan_rep].
have P t : fr_valid x t -> fr_projection x (Dense (fr_represented x t)) = t.
  move=> ht; have [a b] := (valid_u ht, valid_v ht); have ou := on_u hx; have ov := on_v hx.
  rewrite proj_dense repE /emb; case: t ht a b => Up M Vp ht /= a b.
  have e1 : (fr_u x *m M *m (vv x)^H + Up *m (vv x)^H + fr_u x *m Vp^H) *m vv x = fr_u x *m M + Up.
    rewrite !mulmxDl -!mulmxA [_ *m vv x]ov !mulmx1 (_ : Vp^H *m vv x = 0) ?mulmx0 ?addr0 //.
    by rewrite -[LHS]adjmxK adjmxM (adjmxK Vp) b adjmx0.
  have e2 : (fr_u x)^H *m (fr_u x *m M + Up) = M by rewrite mulmxDr a addr0 mulmxA ou mul1mx.
  have e3 : (fr_u x *m M *m (vv x)^H + Up *m (vv x)^H + fr_u x *m Vp^H)^H *m fr_u x = vv x *m M^H + Vp.
    have a' : Up^H *m fr_u x = 0 by rewrite -[LHS]adjmxK adjmxM adjmxK a adjmx0.
    by rewrite !adjmxD !adjmxM !adjmxK !mulmxDl -!mulmxA ou a' !mulmx0 !mulmx1 addr0.
  by rewrite e1 e2 e3 [_ + Up]addrC addrK [_ + Vp]addrC addrK.
by move=> t w ht hw e; rewrite -(P t ht) e P.
Qed.
Theorem C78_metric x : on x ->
  (forall t w, fr_valid x t -> fr_valid x w -> fr_inner_product x t w = dot (fr_represented x t) (fr_represented x w)) /\
  (forall t, fr_valid x t -> fr_norm x t = fnorm (fr_represented x t)) /\
  (forall a t w, fr_represented x (fr_add t w) = fr_represented x t + fr_represented x w /\
    fr_represented x (fr_sub t w) = fr_represented x t - fr_represented x w /\
    fr_represented x (fr_neg t) = - fr_represented x t /\
    fr_represented x (fr_mul a t) = (a : F) *: fr_represented x t /\
    fr_represented x (fr_div t a) = (a : F)^-1 *: fr_represented x t) /\
  fr_valid x (fr_zero_vector x) /\ fr_represented x (fr_zero_vector x) = 0.
Proof.
move=> hx; split; first by move=> t w ht hw; rewrite rep_inner.
split; first by move=> t ht; rewrite /fnorm rep_inner.
split; last by rewrite /fr_valid /fr_represented /= trmx0 !mulmx0 !mul0mx !addr0.
move=> a t w; rewrite /fr_represented /=; split.
  have T0 (A B : 'M[F]_(n, k)) : (A + B)^T = A^T + B^T by apply/matrixP => i j; rewrite !mxE.
  rewrite T0 !mulmxDr !mulmxDl.
  move: (fr_u x *m fr_M t *m fr_vt x) (fr_u x *m fr_M w *m fr_vt x) (fr_Up t *m fr_vt x) (fr_Up w *m fr_vt x) (fr_u x *m (fr_Vp t)^T) (fr_u x *m (fr_Vp w)^T) => A B C D E G.
  by vring (@inner_ips R F m n) R.
have T1 (A B : 'M[F]_(n, k)) : (A - B)^T = A^T - B^T by apply/matrixP => i j; rewrite !mxE.
have T2 (A : 'M[F]_(n, k)) : (- A)^T = - A^T by apply/matrixP => i j; rewrite !mxE.
have T3 (b : F) (A : 'M[F]_(n, k)) : (b *: A)^T = b *: A^T by apply/matrixP => i j; rewrite !mxE.
split.
  rewrite T1 !mulmxBr !mulmxBl.
  move: (fr_u x *m fr_M t *m fr_vt x) (fr_u x *m fr_M w *m fr_vt x) (fr_Up t *m fr_vt x) (fr_Up w *m fr_vt x) (fr_u x *m (fr_Vp t)^T) (fr_u x *m (fr_Vp w)^T) => A B C D E G.
  by vring (@inner_ips R F m n) R.
split; first by rewrite T2 !mulmxN !mulNmx !opprD.
by rewrite !T3 -!scalemxAr -!scalemxAl -!scalerDr.
Qed.
Definition middle_symmetric (z : fr_ambient R m n) : Prop :=
  match z with Dense _ => True | @Factored _ _ _ p U C V => C^T = C end.
Lemma proj_ambient x z : middle_symmetric z -> fr_projection x z = fr_projection x (Dense (fr_dense z)).
Proof. by case: z => //= p U S V hS; rewrite /fr_projection /= !trmx_mul hS !trmxK !mulmxA. Qed.
Lemma velocity_projects x Z : on x -> projects_to dot (rank_velocity x) Z (fr_represented x (fr_projection x (Dense Z))).
Proof.
move=> hx; split; first by apply/(velocityE _ hx); apply: rep_tan.
split; first by move/(velocityE _ hx); apply: tan_rep.
move=> T /(velocityE _ hx) hT; rewrite proj_dense repE /= (proj_rest (fr_u x) (vv x) Z).
by apply: inner_rest => //; [apply: on_u | apply: on_v].
Qed.
Theorem C78_projection x z : on x -> middle_symmetric z ->
  fr_valid x (fr_projection x z) /\
  projects_to dot (rank_velocity x) (fr_dense z) (fr_represented x (fr_projection x z)).
Proof. by move=> hx /proj_ambient ->; split; [apply: proj_valid | apply: velocity_projects]. Qed.
(** What is computed for any tuple: the middle factor is not transposed. *)
Theorem C78_projection_tuple x p (U : 'M[F]_(m, p)) (S : 'M[F]_p) (V : 'M[F]_(n, p)) : on x ->
  fr_projection x (Factored U S V) =
  fr_add (fr_projection x (Dense (U *m S *m V^T))) (FrVector 0 0 (V *m (S - S^T) *m U^T *m fr_u x)).
Proof.
move=> hx; rewrite /fr_projection /fr_add /= !addr0 !trmx_mul !trmxK; congr FrVector.
rewrite mulmxBr !mulmxBl !mulmxA.
move: (V *m S *m U^T *m fr_u x) (V *m S^T *m U^T *m fr_u x) => a b.
by rewrite addrAC [b + _]addrC subrK.
Qed.
Theorem C78_to_tangent_space x t : on x ->
  fr_valid x (fr_to_tangent_space x t) /\ (fr_valid x t -> fr_to_tangent_space x t = t) /\
  (forall w, fr_valid x w -> fr_inner_product x (fr_sub t (fr_to_tangent_space x t)) w = 0).
Proof.
move=> hx; have [hu [hv _]] := hx; split.
  split; rewrite /= mulmxBr; first by rewrite !mulmxA hu mul1mx subrr.
  by rewrite -mulmxA (mulmxA (fr_vt x)) hv mul1mx subrr.
split.
  case: t => Up M Vp [/= a b]; rewrite /fr_to_tangent_space /=; congr FrVector.
    by rewrite -mulmxA a mulmx0 subr0.
  by rewrite -mulmxA b mulmx0 subr0.
move=> w [a b]; rewrite /fr_inner_product /= !tensordotE !opprB ![_ + (_ - _)]addrC !subrK subrr inner0l.
have Q p q r (A : 'M[F]_(p, q)) (B C : 'M[F]_(p, r)) : A^T *m C = 0 -> inner (A *m A^T *m B) C = 0.
  by move=> e; rewrite -mulmxA inner_mull -adjT e inner0r.
by rewrite Q // -{2}[fr_vt x]trmxK Q ?trmxK // !addr0.
Qed.
Theorem C78_embedding x y t : on x -> on y ->
  fr_dense (fr_embedding x t) = fr_represented x t /\
  fr_valid y (fr_transport x y t) /\
  projects_to dot (rank_velocity y) (fr_represented x t) (fr_represented y (fr_transport x y t)).
Proof.
move=> hx hy.
have E : fr_dense (fr_embedding x t) = fr_represented x t.
  by rewrite /fr_dense /fr_embedding mulmx1 tr_row_mx mul_row_col trmxK mulmxDl.
by split=> //; rewrite -E; apply: C78_projection => //=; rewrite trmx1.
Qed.

(** ** C79: the gradient conversion *)
Lemma over_times p (A : 'M[F]_(p, k)) (s : 'rV[R]_k) : (forall i, s ord0 i != 0) -> over_columns (A *m real_diag F s) s = A.
Proof.
move=> h; apply/matrixP => i j; rewrite mxE /real_diag mul_mx_diag !mxE /=.
by rewrite -mulrA (@mulfV R) // mulr1.
Qed.
Lemma coordinate_gradientE f x G du ds dvt : has_gradient f (fr_matrix x) G -> coordinate_gradient f x du ds dvt ->
  du = G *m vv x *m real_diag F (fr_s x) /\ (forall i, ds ord0 i = ((fr_u x)^H *m G *m vv x) i i) /\
  dvt = real_diag F (fr_s x) *m (fr_u x)^H *m G.
Proof.
move=> hG hc; have J := real_ips R; set S := real_diag F (fr_s x).
have nd p q (A B : 'M[F]_(p, q)) : (forall C, inner A C = inner B C) -> A = B.
  by move=> h; apply/eqP; rewrite -subr_eq0; apply/eqP/inner_eq0; rewrite innerBl h subrr.
have K p q (a : 'M[F]_(p, q)) : derives (@rscale R F p q) (@inner R F p q) (fun=> a) 0 := derives_const (@inner_ips R F p q) a.
have L p q (a b : 'M[F]_(p, q)) : derives (@rscale R F p q) (@inner R F p q) (fun r => a + rscale r b) b := derives_line (@inner_ips R F p q) a b.
have z p q (a b : 'M[F]_(p, q)) : a + rscale 0 b = a by rewrite /rscale rmorph0 scale0r addr0.
have go (Z : 'M[F]_(m, n)) (c : R -> 'M[F]_(m, n)) (d : R) : (forall r, c r = fr_matrix x + rscale r Z) ->
  derives (@real_scale R) (@real_dot R) (fun r => f (c r)) d -> inner G Z = d.
  move=> cE D; apply: (derives_unique J) D; apply: hG; first by rewrite cE z.
  by apply: derives_ext (L m n (fr_matrix x) Z).
split; [|split].
- apply: nd => a; have := hc _ _ _ _ _ _ _ _ _ (L _ _ (fr_u x) a) (K _ _ (fr_s x : 'rV[F]_k)) (K _ _ (fr_vt x)).
  rewrite z !inner0r !addr0 => /(_ erefl erefl erefl) D.
  rewrite -(@go (a *m S *m fr_vt x) _ _ _ D); last first.
    by move=> t; rewrite diagE -/S /fr_matrix diagE /rscale !mulmxDl -!scalemxAl.
  by rewrite 2!inner_mulr rdH adjmxK.
- move=> i; pose b : 'rV[F]_k := delta_mx ord0 i.
  have := hc _ _ _ _ _ _ _ _ _ (K _ _ (fr_u x)) (L _ _ (fr_s x : 'rV[F]_k) b) (K _ _ (fr_vt x)).
  rewrite z !inner0r !addr0 add0r => /(_ erefl erefl erefl) D.
  have {D} : inner G (fr_u x *m diag_mx b *m fr_vt x) = inner ds b.
    by apply: go D => t; rewrite /fr_matrix /rscale linearD /= linearZ /= !(mulmxDl, mulmxDr) -scalemxAr -scalemxAl.
  have -> : inner ds b = ds ord0 i.
    rewrite -tensordotE /tensordot big_ord1 (bigD1 i) //= big1 ?addr0 => [|j ji]; rewrite mxE ?eqxx ?mulr1 //.
    by rewrite (negPf ji) mulr0.
  move=> <-; have -> : inner G (fr_u x *m diag_mx b *m fr_vt x) = inner ((fr_u x)^H *m G *m vv x) (diag_mx b).
    by rewrite inner_mulr inner_mull !adjmxK mulmxA.
  move: (_ *m vv x) => N; rewrite -tensordotE /tensordot (bigD1 i) //= (bigD1 i) //=.
  rewrite !big1 ?addr0 => [|j ji|j ji]; first by rewrite !mxE !eqxx mulr1.
    by apply: big1 => l _; rewrite !mxE (negPf ji) andbF mul0rn mulr0.
  by rewrite !mxE [i == j]eq_sym (negPf ji) mulr0n mulr0.
- apply: nd => a; have := hc _ _ _ _ _ _ _ _ _ (K _ _ (fr_u x)) (K _ _ (fr_s x : 'rV[F]_k)) (L _ _ (fr_vt x) a).
  rewrite z !inner0r !add0r => /(_ erefl erefl erefl) D.
  rewrite -(@go (fr_u x *m S *m a) _ _ _ D); last first.
    by move=> t; rewrite diagE -/S /fr_matrix diagE /rscale mulmxDr -!scalemxAr.
  by rewrite -!mulmxA inner_mull rdH inner_mull adjmxK.
Qed.
Lemma derives_diag p (c : R -> 'rV[F]_p) d : derives (@rscale R F 1 p) (@inner R F 1 p) c d ->
  derives (@rscale R F p p) (@inner R F p p) (fun r => diag_mx (c r)) (diag_mx d).
Proof.
move=> D; apply: (derives_linear (L := @diag_mx F p) (C := 1) _ _ _ _ D).
- exact: linearB.
- by move=> a b; rewrite /rscale linearZ.
- move=> b; rewrite mul1r; apply: ler_wsqrtr; rewrite le_eqVlt; apply/orP; left; apply/eqP.
  have := @inner_rd R F p (b : 'rV[R]_p); rewrite -diagE => ->.
  by rewrite -tensordotE /tensordot big_ord1; apply: eq_bigr => i _; rewrite expr2.
- exact: ler01.
Qed.
(** the two kinds of derivative exist together *)
Lemma coordinate_gradient_exists f x G : has_gradient f (fr_matrix x) G -> exists du ds dvt, coordinate_gradient f x du ds dvt.
Proof.
move=> hG; set S := diag_mx (fr_s x : 'rV[F]_k).
exists (G *m vv x *m S), (\row_i ((fr_u x)^H *m G *m vv x) i i), (S *m (fr_u x)^H *m G).
move=> cu cs cv a b c u0 s0 v0 du ds dv.
have D := derives_mul (derives_mul du (derives_diag ds)) dv; rewrite u0 s0 v0 -/S in D.
have := hG _ _ _ D; rewrite u0 s0 v0 => /(_ erefl); congr (derives _ _ _ _).
have SH : S^H = S by rewrite /S diagE rdH.
rewrite mulmxDl !innerDr; congr (_ + _ + _).
- by rewrite 2!inner_mulr SH adjmxK.
- rewrite (_ : inner G _ = inner ((fr_u x)^H *m G *m vv x) (diag_mx b)); last by rewrite inner_mulr inner_mull !adjmxK mulmxA.
  move: (_ *m vv x) => N; rewrite -!tensordotE /tensordot big_ord1; apply: eq_bigr => i _.
  rewrite (bigD1 i) //= big1 ?addr0 => [|j ji]; first by rewrite !mxE eqxx mulr1n.
  by rewrite !mxE [i == j]eq_sym (negPf ji) mulr0n mulr0.
- by rewrite -!mulmxA inner_mull SH inner_mull adjmxK.
Qed.
Lemma gradient_projection x (G : 'M[F]_(m, n)) (ds : 'rV[R]_k) : on x -> injective (fr_s x ord0) ->
  (forall i, ds ord0 i = ((fr_u x)^H *m G *m vv x) i i) ->
  fr_gradient x (G *m vv x *m real_diag F (fr_s x), ds, real_diag F (fr_s x) *m (fr_u x)^H *m G) = fr_projection x (Dense G).
Proof.
move=> hx inj hds; have [_ [_ s0]] := hx; have sn i : fr_s x ord0 i != 0 by rewrite gt_eqF.
rewrite proj_dense /fr_gradient !adjT.
set S := real_diag F (fr_s x); set N := (fr_u x)^H *m (G *m vv x).
have e1 : (fr_u x)^H *m (G *m vv x *m S) = N *m S by rewrite mulmxA.
have e3 : (S *m (fr_u x)^H *m G)^H = G^H *m (fr_u x *m S) by rewrite !adjmxM adjmxK rdH.
have e2 : fr_vt x *m (G^H *m (fr_u x *m S)) = N^H *m S by rewrite /N !adjmxM !adjmxK !mulmxA.
rewrite e1 e3 e2 (mulmxA (fr_u x)) -mulmxBl over_times // (mulmxA G^H) (mulmxA (vv x)) -mulmxBl over_times //.
congr FrVector; apply/matrixP => i j.
have ent (A : 'M[F]_k) a b : (A *m S) a b = A a b * fr_s x ord0 b by rewrite /S /real_diag mul_mx_diag !mxE.
have adN a b : N^H a b = N b a by rewrite !mxE.
have {}hds : ds ord0 i = N i i by rewrite hds -mulmxA.
clear e1 e2 e3; move: hds (ent N) (ent N^H); rewrite {}/N in adN *; move: (_ *m (G *m vv x)) adN => N adN; move: (N *m S) (N^H *m S) => A B hds hA hB.
rewrite !mxE !hA !hB !adN hds.
have [<-|ne] := eqVneq i j; first by rewrite !subrr !(mulr0, mul0r) !add0r.
rewrite !addr0.
have gap : fr_s x ord0 j ^+ 2 - fr_s x ord0 i ^+ 2 != 0 :> R.
  rewrite subr_eq0 eqr_expn2 ?ltW //; apply: contra ne => /eqP /inj -> //.
move: gap; move: (fr_s x ord0 i) (fr_s x ord0 j) (N i j) (N j i) => a b p q gap.
have {gap} : (b ^+ 2 - a ^+ 2) * (1 / (b ^+ 2 - a ^+ 2)) = 1 :> R by rewrite mulrC divfK.
move: (1 / _) => r hr; rewrite -[RHS]mulr1 -hr.
have E (c d e g h : R) : h * (e * d - g * c) * d + c * h * (g * d - e * c) = e * ((d ^+ 2 - c ^+ 2) * h).
  by rewrite !expr2; mcring R.
exact: E.
Qed.
Theorem C79_gradient f x G du ds dvt : on x -> (forall i j, i != j -> fr_s x ord0 i <> fr_s x ord0 j) ->
  has_gradient f (fr_matrix x) G -> coordinate_gradient f x du ds dvt ->
  let grad := fr_gradient x (du, ds, dvt) in
  fr_valid x grad /\ (forall t, fr_valid x t -> fr_inner_product x grad t = dot G (fr_represented x t)) /\
  grad = fr_projection x (Dense G).
Proof.
move=> hx ne hG hc; have [-> [hds ->]] := coordinate_gradientE hG hc; rewrite gradient_projection //; last first.
  by move=> i j e; apply/eqP; apply: contraT => /ne /(_ e).
have hp := proj_valid G hx; split=> //; split=> // t ht.
rewrite -rep_inner //; have [_ [_ o]] := velocity_projects G hx.
have T : rank_velocity x (fr_represented x t) by apply/(C78_tangent_space _ hx).1; exists t.
by apply/eqP; rewrite eq_sym -subr_eq0 -innerBl; apply/eqP; apply: o.
Qed.
(** At two equal singular values the conversion divides by zero. *)
Theorem C79_gradient_refuted x i j : on x -> fr_gaps x i j = 0 <-> i <> j /\ fr_s x ord0 i = fr_s x ord0 j.
Proof.
move=> [_ [_ s0]]; rewrite mxE; have [->|ne] := eqVneq i j.
  by rewrite subrr add0r; split=> [/eqP|[]//]; rewrite oner_eq0.
rewrite addr0; split=> [/eqP|[_ ->]]; last by rewrite subrr.
by rewrite subr_eq0 eqr_expn2 ?ltW // => /eqP e; split=> //; apply/eqP.
Qed.

(** ** C79: the retraction *)
Section Retraction.
Variables (qr_m : 'M[F]_(m, k) -> 'M[F]_(m, k) * 'M[F]_k) (qr_n : 'M[F]_(n, k) -> 'M[F]_(n, k) * 'M[F]_k).
Variable svd : 'M[F]_(k + k) -> 'M[F]_(k + k) * 'rV[R]_(k + k) * 'M[F]_(k + k).
Hypotheses (qr_mP : forall A, valid_qr A (qr_m A)) (qr_nP : forall A, valid_qr A (qr_n A)).
Hypothesis svdP : forall A, valid_svd A (svd A) /\ decreasing (svd A).1.2.
Local Notation retraction := (fr_retraction qr_m qr_n svd).
Local Notation eps := (fr_spacing R).
(** the result with the rounding constant taken off its singular values again *)
Definition fr_best (y : point) : 'M[F]_(m, n) :=
  fr_u y *m diag_mx (\row_i (fr_s y ord0 i - eps) : 'rV[F]_k) *m fr_vt y.
Lemma low_rank (B : 'M[F]_(m, n)) : (\rank B <= k)%N -> exists (C : 'M[F]_(m, k)) (W : 'M[F]_(k, n)), orthonormal C /\ B = C *m W.
Proof.
move=> rk; pose C0 : 'M[F]_(m, k) := col_ebase B *m pid_mx (\rank B); pose W0 : 'M[F]_(k, n) := pid_mx (\rank B) *m row_ebase B.
have e : B = C0 *m W0.
  by rewrite /C0 /W0 mulmxA -(mulmxA (col_ebase B)) mul_pid_mx minnn (minn_idPr rk) mulmx_ebase.
have [E [O _]] := qr_mP C0.
by exists (qr_m C0).1, ((qr_m C0).2 *m W0); split=> //; rewrite mulmxA -E.
Qed.
Lemma eps_gt0 : 0 < eps. Proof. by rewrite invr_gt0 exprn_gt0 ?ltr0Sn. Qed.
Lemma retraction_facts x t : on x -> fr_valid x t ->
  let Z := fr_matrix x + fr_represented x t in let y := retraction x t in
  (forall B, (\rank B <= k)%N -> fnorm (Z - fr_best y) <= fnorm (Z - B)) /\
  decreasing (fr_s y) /\
  ((k <= \rank Z)%N -> on y /\ (forall i, eps < fr_s y ord0 i)).
Proof.
move=> hx ht; rewrite /fr_retraction.
have [Eu [Ou _]] := qr_mP (fr_Up t); have [Ev [Ov _]] := qr_nP (fr_Vp t).
case: (qr_m _) Eu Ou => Qu Ru /= Eu Ou; case: (qr_n _) Ev Ov => Qv Rv /= Ev Ov.
have := svdP (block_mx (np_diag (fr_s x) + fr_M t) Rv^T Ru 0).
case: (svd _) => [[Ut st] Vt] [V] /= sorted.
have {}V : valid_svd (core (fr_s x) (fr_M t) Ru Rv) (Ut, st, Vt) by rewrite /core -np_diagE -adjT.
have T : fr_matrix x + fr_represented x t = target (fr_u x) (vv x) (fr_s x) (fr_Up t) (fr_M t) (fr_Vp t).
  by rewrite matrixE repE.
have hB : fr_best (FrPoint (row_mx (fr_u x) Qu *m lsubmx Ut) (\row_i (lsubmx st ord0 i + eps)) (row_mx (fr_vt x)^T Qv *m lsubmx Vt^T)^T) =
  rU (fr_u x) Qu Ut *m real_diag F (rS st) *m (rV (vv x) Qv Vt)^H.
  rewrite /fr_best /= diagE; congr (_ *m _ *m _); first by congr (real_diag F _); apply/rowP => i; rewrite !mxE; apply: (@addrK R).
  by rewrite /rV /rgt !adjT.
rewrite hB T; split.
  move=> B /low_rank [C [W [oC ->]]].
  exact: (best (on_u hx) (on_v hx) (valid_u ht) (valid_v ht) Ou Ov Eu Ev V sorted).
split; first by move=> i j ij /=; rewrite !mxE ler_add2r; apply: sorted.
move=> rk; have P := st_pos (F := F) Eu Ev V sorted rk.
have OU := rU_orth (F := F) (on_u hx) (valid_u ht) Ou Eu Ev V sorted rk.
have OV := rV_orth (F := F) (on_v hx) (valid_v ht) Ov Eu Ev V sorted rk.
split; last by move=> i; rewrite mxE ltr_addr; apply: P.
split; first by rewrite adjT.
split; first by rewrite /= trmxK adjT (_ : row_mx _ Qv *m lsubmx Vt^T = rV (vv x) Qv Vt) // /rV /rgt !adjT.
by move=> i; rewrite mxE addr_gt0 ?eps_gt0 //; apply: P.
Qed.
Lemma best_distance y : on y -> fnorm (fr_matrix y - fr_best y) = eps * Num.sqrt k%:R.
Proof.
move=> hy; have ou := on_u hy; have ov := on_v hy.
have -> : fr_matrix y - fr_best y = fr_u y *m real_diag F (const_mx eps) *m fr_vt y.
  rewrite /fr_matrix /fr_best !diagE -mulmxBl -mulmxBr; congr (_ *m _ *m _).
  apply/matrixP => i j; rewrite !mxE; case: (i == j); rewrite ?mulr0n ?subrr // !mulr1n opprB addrC subrK //.
have hv : fr_vt y *m (fr_vt y)^H = 1%:M by have [_ [e _]] := hy; rewrite -adjT.
rewrite /fnorm -mulmxA inner_mull (mulmxA _ (fr_u y)) ou mul1mx inner_mulr -mulmxA hv mulmx1 inner_rd.
rewrite (eq_bigr (fun=> eps ^+ 2)) => [|i _]; last by rewrite mxE.
rewrite sumr_const card_ord -mulr_natr sqrtrM ?sqr_ge0 // sqrtr_sqr ger0_norm // ltW // eps_gt0 //.
Qed.
Theorem C79_retraction x t : on x -> fr_valid x t ->
  let Z := fr_matrix x + fr_represented x t in let y := retraction x t in
  (k <= \rank Z)%N ->
  on y /\ decreasing (fr_s y) /\
  (exists best : 'M[F]_(m, n), (\rank best <= k)%N /\ (forall B, (\rank B <= k)%N -> fnorm (Z - best) <= fnorm (Z - B)) /\
    fnorm (fr_matrix y - best) = eps * Num.sqrt k%:R).
Proof.
move=> hx ht Z y rk; have [b [d o]] := retraction_facts hx ht; have [oy _] := o rk.
split=> //; split=> //; exists (fr_best y); split; last by split; [exact: b | exact: best_distance].
by rewrite /fr_best -mulmxA; apply: leq_trans (mxrankM_maxl _ _) (rank_leq_col _).
Qed.
Lemma norm_parts x t : fnorm (fr_Up t) <= fr_norm x t /\ fnorm (fr_M t) <= fr_norm x t /\ fnorm (fr_Vp t) <= fr_norm x t.
Proof.
rewrite /fr_norm /fr_inner_product !tensordotE /fnorm.
have [a b] := (inner_ge0 (fr_Up t), inner_ge0 (fr_M t)); have c := inner_ge0 (fr_Vp t).
by split; [|split]; apply: ler_wsqrtr; rewrite ?ler_addr ?ler_addl -?addrA ?ler_addl ?addr_ge0 // addrCA ler_addl addr_ge0.
Qed.
Theorem C79_first_order x : on x -> exists C r : R, 0 <= C /\ 0 < r /\
  forall t, fr_valid x t -> fr_norm x t <= r ->
    on (retraction x t) /\ decreasing (fr_s (retraction x t)) /\
    fnorm (fr_matrix (retraction x t) - (fr_matrix x + fr_represented x t)) <= C * fr_norm x t ^+ 2 + eps * Num.sqrt k%:R.
Proof.
move=> hx; have [_ [_ s0]] := hx; have [a a0 ha] := lower_bound s0.
pose D := fnorm (real_diag F (\row_i (fr_s x ord0 i)^-1)); have D0 : 0 <= D := fnorm_ge0 _.
exists (2 * D), (a / 2); split; first by rewrite mulr_ge0 ?ler0n.
split; first by rewrite divr_gt0 ?ltr0Sn.
move=> t ht nt; have [nU [nM nV]] := norm_parts x t.
have T : fr_matrix x + fr_represented x t = target (fr_u x) (vv x) (fr_s x) (fr_Up t) (fr_M t) (fr_Vp t).
  by rewrite matrixE repE.
have rk : (k <= \rank (fr_matrix x + fr_represented x t)%R)%N.
  rewrite T; apply: (rank_near (on_u hx) (on_v hx) (valid_u ht) (valid_v ht)).
  have ha2 : a / 2 < a by rewrite ltr_pdivr_mulr ?ltr0Sn // mulr_natr mulr2n ltr_addl.
  by apply: (unit_near a0 ha); apply: le_lt_trans nM _; apply: le_lt_trans nt _.

have [b [d /(_ rk) [oy _]]] := retraction_facts hx ht; split=> //; split=> //.
have -> : fr_matrix (retraction x t) - (fr_matrix x + fr_represented x t) =
  (fr_matrix (retraction x t) - fr_best (retraction x t)) - ((fr_matrix x + fr_represented x t) - fr_best (retraction x t)).
  by rewrite opprB addrA subrK.
apply: le_trans (fnormD _ _) _; rewrite fnormN addrC; apply: ler_add; last by rewrite best_distance.
have [C [W h]] := second_order (vv x) (fr_Up t) (fr_M t) (fr_Vp t) (on_u hx) (fun i => lt0r_neq0 (s0 i)).
have rW : (\rank (C *m W) <= k)%N by apply: leq_trans (mxrankM_maxl _ _) (rank_leq_col _).
apply: le_trans (b _ rW) _; rewrite T; apply: le_trans h _; rewrite -/D.
have nn : 0 <= fr_norm x t by apply: sqrtr_ge0.
apply: (@le_trans _ _ ((fr_norm x t + fr_norm x t) * D * fr_norm x t)).
  rewrite ler_pmul ?fnorm_ge0 ?mulr_ge0 ?addr_ge0 ?fnorm_ge0 // ler_wpmul2r // ler_add //.
by rewrite le_eqVlt; apply/orP; left; apply/eqP; rewrite expr2 (_ : 2 = 1 + 1 :> R) //; mcring R.
Qed.
(** The zero vector does not give the point back. *)
Theorem C79_zero_refuted x : on x -> (0 < k)%N ->
  fnorm (fr_matrix (retraction x (fr_zero_vector x)) - fr_matrix x) = eps * Num.sqrt k%:R /\
  0 < eps * Num.sqrt k%:R /\
  fr_matrix (retraction x (fr_zero_vector x)) <> fr_matrix x.
Proof.
move=> hx k0; have [_ [_ [_ [vz ez]]]] := C78_metric hx.
have P : 0 < eps * Num.sqrt k%:R by rewrite mulr_gt0 ?eps_gt0 // sqrtr_gt0 ltr0n.
have [_ [_ s0]] := hx; have [a a0 ha] := lower_bound s0.
have [b [_ o]] := retraction_facts hx vz; move: b o; rewrite ez addr0 => b o.
have T : fr_matrix x = target (fr_u x) (vv x) (fr_s x) 0 0 0.
  by rewrite /target /emb mulmx0 !mul0mx adjmx0 mulmx0 !addr0 matrixE.
have rk : (k <= \rank (fr_matrix x))%N.
  rewrite T; apply: (rank_near (on_u hx) (on_v hx)); rewrite ?mulmx0 //.
  by apply: (unit_near a0 ha); rewrite fnorm_0.
have [oy _] := o rk.
have rX : (\rank (fr_matrix x) <= k)%N by rewrite /fr_matrix -mulmxA; apply: leq_trans (mxrankM_maxl _ _) (rank_leq_col _).
have := b _ rX; rewrite subrr fnorm_0 => h.
have E : fr_best (retraction x (fr_zero_vector x)) = fr_matrix x.
  by apply/eqP; rewrite eq_sym -subr_eq0; apply/eqP/fnorm_0P; apply/eqP; rewrite eq_le h fnorm_ge0.
have N : fnorm (fr_matrix (retraction x (fr_zero_vector x)) - fr_matrix x) = eps * Num.sqrt k%:R.
  by rewrite -(best_distance oy) E.
by split=> //; split=> // e; move: N; rewrite e subrr fnorm_0 => N; rewrite -N ltxx in P.
Qed.

(** ** C80 *)
Lemma sort_downP (s : 'rV[R]_k) : decreasing (sort_down s) /\ exists p : 'S_k, forall i, sort_down s ord0 i = s ord0 (p i).
Proof.
set L := [seq s ord0 j | j <- enum 'I_k]; have sL : size (sort <=%O L) = k by rewrite size_sort size_map size_enum_ord.
split=> [i j ij|].
  rewrite !mxE !nth_rev ?sL //; apply: (sorted_leq_nth le_trans lexx 0 (sort_le_sorted L)).
  - by rewrite inE sL ltn_subrL (leq_trans _ (ltn_ord i)).
  - by rewrite inE sL ltn_subrL (leq_trans _ (ltn_ord i)).
  - exact: leq_sub2l.
have P : perm_eq (rev (sort <=%O L)) [tuple s ord0 i | i < k].
  by rewrite perm_rev perm_sort /L /= enumT.
have /tuple_permP [p E] := P; exists p => i; rewrite mxE -/L E.
by rewrite -tnth_nth !tnth_mktuple.
Qed.
Theorem C80_fixed_rank x draw_u (draw_s : 'rV[R]_k) draw_v draw : on x -> (forall i, 0 < draw_s ord0 i) ->
  let y := fr_random_point qr_m qr_n draw_u draw_s draw_v in
  on y /\ decreasing (fr_s y) /\ (exists p : 'S_k, forall i, fr_s y ord0 i = draw_s ord0 (p i)) /\
  (fr_to_tangent_space x draw <> fr_zero_vector x ->
    fr_valid x (fr_random_tangent_vector x draw) /\ fr_norm x (fr_random_tangent_vector x draw) = 1).
Proof.
move=> hx d0 y; have [D [p E]] := sort_downP draw_s.
split; [|split=> //; split; first by exists p].
  split; [|split=> [|i]]; last by rewrite /= E.
    by rewrite adjT /=; have [[_ [O _]] _] := qr_positive qr_mP (draw_u ord0); rewrite ffunE.
  by rewrite /= trmxK adjT; have [[_ [O _]] _] := qr_positive qr_nP (draw_v ord0); rewrite ffunE.
have [V _] := C78_to_tangent_space draw hx; rewrite /fr_random_tangent_vector /=; move: (fr_to_tangent_space x draw) V => t V t0.
have [met [nrm [lin [Vz rz]]]] := C78_metric hx.
have Vr : fr_valid x (fr_div t (fr_norm x t)).
  by have [a b] := V; split; rewrite /= -scalemxAr ?a ?b scaler0.
split=> //; rewrite nrm //; have [_ [_ [_ [_ ->]]]] := lin (fr_norm x t) t t.
have n0 : fr_norm x t != 0.
  apply/eqP => e; apply: t0; apply: (proj2 (C78_tangent_space 0 hx)) => //; rewrite rz.
  by apply: fnorm_0P; rewrite -nrm.
have := fnormZ (F := F) (fr_norm x t)^-1 (fr_represented x t); rewrite -nrm // => e; apply: etrans e _.
by rewrite ger0_norm ?mulVf // invr_ge0 sqrtr_ge0.
Qed.
End Retraction.
End FixedRank.

(** ** The hypotheses can be met *)
Example fixed_rank_library m n k : (k <= m)%N -> (k <= n)%N ->
  exists (qr_m : 'M[RF]_(m, k) -> 'M[RF]_(m, k) * 'M[RF]_k) (qr_n : 'M[RF]_(n, k) -> 'M[RF]_(n, k) * 'M[RF]_k)
    (svd : 'M[RF]_(k + k) -> 'M[RF]_(k + k) * 'rV[RR]_(k + k) * 'M[RF]_(k + k)),
  (forall A, valid_qr A (qr_m A)) /\ (forall A, valid_qr A (qr_n A)) /\
  forall A, valid_svd A (svd A) /\ decreasing (svd A).1.2.
Proof.
move=> km kn; have [qm Hm] := qr_function RF km; have [qn Hn] := qr_function RF kn.
have H (A : 'M[RF]_(k + k)) (_ : True) : exists usv : 'M[RF]_(k + k) * 'rV[RR]_(k + k) * 'M[RF]_(k + k), valid_svd A usv /\ decreasing usv.1.2.
  have [usv V] := svd_exists (@real_has_eigenvectors RR) A (leqnn _).
  by have [w W D] := svd_sorted V; exists w.
have [f Hf] := choice_on (0, 0, 0) H.
by exists qm, qn, f; split=> //; split=> // A; apply: Hf.
Qed.
Definition fr_example : fr_point RR 3 2 2 := FrPoint (\matrix_(i, j) (if i == j :> nat then 1 else 0)) (\row_j (2 - j%:R)) 1%:M.
Example fr_example_on : on_fixed_rank fr_example /\ (forall i j, i != j -> fr_s fr_example ord0 i <> fr_s fr_example ord0 j).
Proof.
split; [split; [|split]|].
- apply/matrixP => i j; rewrite !mxE !big_ord_recl big_ord0 !mxE /=.
  by case: i => [[|[|i]]] // hi; case: j => [[|[|j]]] // hj; rewrite /= ?(mulr0, mul0r, mulr1, addr0, add0r).
- by rewrite /= trmx1 mulmx1.
- by move=> i; rewrite mxE subr_gt0 ltr_nat.
- move=> i j ne; rewrite !mxE => /eqP; rewrite (inj_eq (addrI _)) (inj_eq (@oppr_inj _)) eqr_nat => /eqP e.
  by case/eqP: ne; apply: val_inj.
Qed.
(** a tangent vector there, and a factored ambient vector with a middle factor that is not symmetric *)
Example fr_example_vector : exists2 t : fr_vector RR 3 2 2, fr_valid fr_example t & fr_represented fr_example t <> 0.
Proof.
exists (FrVector 0 1%:M 0); first by split; rewrite /= mulmx0.
rewrite /fr_represented /= mulmx1 mulmx1 !mul0mx trmx0 mulmx0 !addr0 => /matrixP /(_ ord0 ord0); rewrite !mxE /=.
by move/eqP; rewrite oner_eq0.
Qed.
(** the squared Frobenius distance to a matrix has both kinds of gradient *)
Example fr_example_gradient (A : 'M[RF]_(3, 2)) : let f (X : 'M[RF]_(3, 2)) := inner (X - A) (X - A) in
  let G := (fr_matrix fr_example - A) + (fr_matrix fr_example - A) in
  has_gradient f (fr_matrix fr_example) G /\ exists du ds dvt, coordinate_gradient f fr_example du ds dvt.
Proof.
move=> f G; have H : has_gradient f (fr_matrix fr_example) G; last by split=> //; apply: coordinate_gradient_exists H.
move=> c v c0 D; have I := @inner_ips RR RF 3 2.
have E := derives_sub I D (derives_const I A); rewrite subr0 in E.
have := derives_dot I E E; rewrite c0 => h.
have -> : inner G v = inner v (fr_matrix fr_example - A) + inner (fr_matrix fr_example - A) v.
  by rewrite /G innerDl [inner v _]innerC.
exact: h.
Qed.
(** The answer for a factored vector can be wrong. *)
Theorem C78_projection_refuted : exists (x : fr_point RR 2 2 1) (U : 'M[RF]_2) (C : 'M[RF]_2) (V : 'M[RF]_2),
  on_fixed_rank x /\ ~ projects_to (@inner RR RF 2 2) (rank_velocity x) (fr_dense (Factored U C V)) (fr_represented x (fr_projection x (Factored U C V))).
Proof.
pose e : 'M[RF]_(2, 1) := delta_mx ord0 ord0; pose x : fr_point RR 2 2 1 := FrPoint e (const_mx 1) e^T.
pose C : 'M[RF]_2 := delta_mx ord0 (lift ord0 ord0).
have ee : e^T *m e = 1%:M.
  by rewrite trmx_delta mul_delta_mx; apply/matrixP => i j; rewrite !ord1 !mxE.
have hx : on_fixed_rank x by split=> //; split=> [|i]; rewrite /= ?trmxK // mxE ltr01.
exists x, 1%:M, C, 1%:M; split=> //; rewrite C78_projection_tuple //; set w := 1%:M *m _ *m _ *m _.
have e1 : 1%:M *m C *m 1%:M^T = C by rewrite mul1mx trmx1 mulmx1.
have e2 : fr_dense (Factored 1%:M C 1%:M) = C := e1.
rewrite e1 e2 => P.
have Q := velocity_projects C hx; have [_ [_ [lin _]]] := C78_metric hx.
move: P; set W := FrVector _ _ _; rewrite (proj1 (lin 0 _ _)) => P.
have wE : w = - delta_mx (lift ord0 ord0) ord0.
  rewrite /w mul1mx trmx1 mulmx1 [fr_u x]/= /e /C mulmxBl trmx_delta mul_delta_mx_0 // mul_delta_mx sub0r //.
have VW : fr_valid x W.
  split; first by rewrite [fr_Up W]/= mulmx0.
  by rewrite [fr_Vp W]/= [fr_vt x]/= wE /e trmx_delta mulmxN mul_delta_mx_0 ?oppr0.
have TW : rank_velocity x (fr_represented x W) by apply/(C78_tangent_space _ hx).1; exists W.
have [_ [_ /(_ _ TW) oP]] := P; have [_ [_ /(_ _ TW) oQ]] := Q.
have : inner (fr_represented x W) (fr_represented x W) = 0.
  by move: oP; rewrite opprD addrA innerBl oQ sub0r => /eqP; rewrite oppr_eq0 => /eqP.
move/inner_eq0 => /matrixP /(_ ord0 (lift ord0 ord0)); rewrite /fr_represented /= mulmx0 !mul0mx !add0r wE.
have -> : (- delta_mx (lift ord0 ord0) ord0 : 'M[RF]_(2, 1))^T = - delta_mx ord0 (lift ord0 ord0) by apply/matrixP => i j; rewrite !mxE andbC.
rewrite mulmxN /e mul_delta_mx !mxE /= => /eqP; rewrite oppr_eq0 oner_eq0 //.
Qed.
