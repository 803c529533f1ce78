(** Properties C76 and C77 (and C61, C80 for these manifolds) of src/pymanopt/manifolds/psd.py *)
From Coq Require Import Reals Lra ClassicalEpsilon.
From mathcomp Require Import all_ssreflect all_algebra.
From Coq Require Import Ring Field.
From Verif Require Import Rstruct MCRing Mat_Base Geometry_Spec Linalg_Spec Calculus Components Multi_Model Multi_Proofs.
From Verif Require Import Linalg_Exist Stiefel_Proofs Expm PosDef_Proofs Sphere_Model Sphere_Proofs Sphere_Props Oblique_Model Oblique_Props.
From Verif Require Import Psd_Model Psd_Proofs.
Set Implicit Arguments.
Unset Strict Implicit.
Unset Printing Implicit Defensive.
Import GRing.Theory Num.Theory Order.TTheory.
Local Open Scope ring_scope.
Delimit Scope R_scope with Re.
Local Notation "A ^H" := (adjmx A) (at level 8, format "A ^H") : ring_scope.

(** ** Specification: a point stands for the matrix [x x^H].  Vertical vectors are those along which this matrix does not
    change, horizontal ones are orthogonal to them. *)
Section Spec.
Variables (R : rcfType) (F : starField R) (n k : nat).
Local Notation array := 'M[F]_(n, k).
Implicit Types x y v w : array.
Definition full_rank x : Prop := \rank x = k.
Definition same_matrix x y : Prop := x *m x^H = y *m y^H.
Definition vertical x w : Prop := w *m x^H + x *m w^H = 0.
Definition psd_horizontal x v : Prop := forall w, vertical x w -> inner v w = 0.
(** [g] is the (Euclidean) gradient of [f] at [x]: along every curve through [x] with velocity [v], the derivative of [f]
    is the inner product of [g] and [v]. *)
Definition has_gradient (f : array -> R) x (g : array) : Prop :=
  forall c v, c 0 = x -> derives (@rscale R F n k) (@inner R F n k) c v ->
    derives (@real_scale R) (@real_dot R) (fun t => f (c t)) (inner g v).
End Spec.
(** SciPy's [solve_continuous_lyapunov]: for a positive definite matrix [A] the equation has one solution *)
Definition solves_lyapunov (R : rcfType) (F : starField R) k (lyapunov : 'M[F]_k -> 'M[F]_k -> 'M[F]_k) : Prop :=
  forall A Q, posdef A -> A *m lyapunov A Q + lyapunov A Q *m A^H = Q.

Section PSD.
Variables (R : rcfType) (F : starField R) (n k : nat).
Local Notation array := 'M[F]_(n, k).
Local Notation scale := (@rscale R F n k).
Local Notation dot := (@inner R F n k).
Local Notation I := (@inner_ips R F n k).
Local Notation on := (@full_rank R F n k).
Local Notation horizontal := (@psd_horizontal R F n k).
Implicit Types x y v w g : array.
Add Ring R_ring : (mc_ring R).

Lemma onE x : on x <-> full x. Proof. exact: full_gram. Qed.
Lemma horizontalE x v : on x -> horizontal x v <-> hor x v.
Proof. by move=> /onE fx; split=> [h|/(horP v fx)//]; apply/(horP v fx). Qed.
Lemma psd_innerE x v w : psd_inner_product x v w = dot v w.
Proof. by rewrite /psd_inner_product raddf_sum; apply: eq_bigr => r _; rewrite raddf_sum. Qed.
Lemma psd_normE x v : psd_norm x v = fnorm v.
Proof. by rewrite /psd_norm /fnorm inner_entries. Qed.
Lemma horizontal_subspace x : real_subspace scale (horizontal x).
Proof.
split; first by move=> w _; rewrite inner0l.
split; first by move=> u v hu hv w hw; rewrite innerDl hu // hv // addr0.
by move=> a v hv w hw; rewrite innerZl hv // mulr0.
Qed.
Lemma horizontalN x v : horizontal x v -> horizontal x (- v).
Proof. by move=> h w hw; rewrite innerNl h // oppr0. Qed.

Section Lyapunov.
Variable lyapunov : 'M[F]_k -> 'M[F]_k -> 'M[F]_k.
Hypothesis lyapunovP : solves_lyapunov lyapunov.
Lemma psd_projE x v : psd_projection lyapunov x v = qproj lyapunov x v. Proof. by []. Qed.
Lemma psd_projects x v : on x -> projects_to dot (horizontal x) v (psd_projection lyapunov x v).
Proof.
move=> hx; have fx := (onE x).1 hx; have [T [E O]] := qproj_projects lyapunovP v fx.
split; first exact/(horizontalE _ hx).
by split=> [/(horizontalE _ hx)/E //|t /(horizontalE _ hx)/O].
Qed.
Theorem C76_projection x v : on x ->
  projects_to dot (horizontal x) v (psd_projection lyapunov x v) /\
  nearest_in dot (horizontal x) v (psd_projection lyapunov x v) /\
  vertical x (v - psd_projection lyapunov x v) /\
  psd_to_tangent_space lyapunov x v = psd_projection lyapunov x v /\
  (forall y, on y -> projects_to dot (horizontal y) v (psd_transport lyapunov x y v)) /\
  horizontal x (psd_zero_vector x) /\
  (** changing the representative moves the result along *)
  (forall q : 'M[F]_k, orthonormal q ->
    on (x *m q) /\ psd_projection lyapunov (x *m q) (v *m q) = psd_projection lyapunov x v *m q).
Proof.
move=> hx; have fx := (onE x).1 hx; have P := psd_projects v hx; split=> //.
split; first exact: (projects_to_nearest I (horizontal_subspace x) (@horizontalN x) P).
split; first exact: (qproj_ver lyapunovP v fx).
split=> //; split; first by move=> y hy; apply: psd_projects.
split; first by case: (horizontal_subspace x).
move=> q oq; split; first by apply/onE; apply: full_right => //; apply: orthonormal_unit.
exact: qproj_right.
Qed.
Theorem C61_psd x g h v : on x -> horizontal x v ->
  horizontal x (psd_hessian lyapunov x g h v) /\
  (forall h' v', horizontal x v' -> dot h v' = dot h' v ->
    psd_inner_product x (psd_hessian lyapunov x g h v) v' = psd_inner_product x (psd_hessian lyapunov x g h' v') v) /\
  (forall c e : R -> array, c 0 = x -> derives scale dot c v -> e 0 = g -> derives scale dot e h ->
    exists2 w, derives scale dot (fun t => psd_gradient (c t) (e t)) w & psd_hessian lyapunov x g h v = psd_projection lyapunov x w).
Proof.
move=> hx hv; have [T [_ O]] := psd_projects h hx; split=> //; split.
  move=> h' v' hv' S; have [_ [_ O']] := psd_projects h' hx.
  rewrite !psd_innerE /psd_hessian; have /eqP := O v' hv'; have /eqP := O' v hv.
  by rewrite !innerBl !subr_eq0 => /eqP <- /eqP <-.
by move=> c e c0 Dc e0 De; exists h.
Qed.
Theorem C80_psd x draw : on x -> psd_projection lyapunov x draw != 0 ->
  horizontal x (psd_random_tangent_vector lyapunov x draw) /\ psd_norm x (psd_random_tangent_vector lyapunov x draw) = 1.
Proof.
move=> hx p0; have [T _] := psd_projects draw hx; have [_ [_ Z]] := horizontal_subspace x.
split; first exact: Z.
rewrite psd_normE fnormZ psd_normE ger0_norm ?invr_ge0 ?fnorm_ge0 // mulVf // fnorm_eq0 //.
Qed.
End Lyapunov.

Theorem C76_metric x : on x ->
  inner_product_on scale (horizontal x) (psd_inner_product x) /\
  (forall v, psd_norm x v = Num.sqrt (psd_inner_product x v v)) /\
  (forall v, horizontal x v <-> (x^H *m v)^H = x^H *m v) /\
  (forall v, (exists2 s : 'M[F]_k, s^H = - s & v = x *m s) <-> vertical x v).
Proof.
move=> hx; split.
  split; first by move=> a b _ _; rewrite !psd_innerE; apply: (dotC I).
  split; first by move=> a b c _ _ _; rewrite !psd_innerE; apply: (dotDl I).
  split; first by move=> a b c _ _; rewrite !psd_innerE; apply: (dotZl I).
  by move=> u _; rewrite psd_innerE; apply: (dot_gt0 I).
split; first by move=> v; rewrite psd_normE psd_innerE.
split; first by move=> v; apply: horizontalE.
move=> v; split=> [[s hs ->]|]; first exact: ver_skew.
by move/onE: hx => fx; apply: verP.
Qed.
(** The exponential map follows straight lines: these start with the given velocity, are horizontal with constant speed
    and do not accelerate. *)
Theorem C76_exp x v : on x -> horizontal x v ->
  psd_exp x (psd_zero_vector x) = x /\ first_order dot (horizontal x) x (psd_exp x) /\
  psd_retraction x v = psd_exp x v /\
  (forall t : R, derives scale dot (fun s => psd_exp x (scale (t + s) v)) v /\
    (on (psd_exp x (scale t v)) -> horizontal (psd_exp x (scale t v)) v)) /\
  (posdef (x^H *m (x + v)) -> on (psd_exp x v)).
Proof.
move=> hx hv; have hv' := (horizontalE v hx).1 hv; split; first by rewrite /psd_exp addr0.
split.
  split; first by rewrite /psd_exp addr0.
  move=> e e0; exists 1; first exact: ltr01.
  by move=> w _ _; rewrite /psd_exp subrr (norm0 I) mulr_ge0 ?(norm_ge0 dot) // ltW.
split=> //; split; last by move=> P; apply/onE; apply: full_line.
move=> t; split.
  by apply: derives_ext (derives_line I (x + scale t v) v) => s; rewrite /psd_exp (ipsZDl I) addrA.
move=> ht; apply/(horizontalE _ ht); rewrite /hor /psd_exp adjmxD adjmxZreal mulmxDl adjmxD -!scalemxAl adjmxZreal.
by rewrite [(x^H *m v)^H]hv' [(v^H *m v)^H]adjmxM adjmxK.
Qed.

Section SVD.
Variable svd : 'M[F]_k -> 'M[F]_k * 'rV[R]_k * 'M[F]_k.
Hypothesis svdP : forall M, valid_svd M (svd M).
Lemma psd_logE x y : psd_log svd x y = qlog svd x y.
Proof. by rewrite /psd_log /qlog /align mulmxA. Qed.
Lemma psd_distE x y : psd_dist svd x y = fnorm (qlog svd x y).
Proof. by rewrite /psd_dist psd_normE psd_logE. Qed.
Theorem C76_log x y v : on x -> on y -> horizontal x v ->
  horizontal x (psd_log svd x y) /\
  same_matrix (psd_exp x (psd_log svd x y)) y /\
  psd_dist svd x y = psd_norm x (psd_log svd x y) /\
  (posdef (x^H *m (x + v)) -> psd_log svd x (psd_exp x v) = v /\ psd_dist svd x (psd_exp x v) = psd_norm x v).
Proof.
move=> hx hy hv; have hv' := (horizontalE v hx).1 hv.
split; first by apply/(horizontalE _ hx); rewrite psd_logE; apply: qlog_hor.
split.
  rewrite /same_matrix /psd_exp psd_logE /qlog addrC subrK; exact: same_of_right (align_orth svdP x y).
split=> // P; rewrite psd_distE psd_normE psd_logE /psd_exp; by rewrite (qlog_line svdP hv' P).
Qed.
(** The distance is the least one between representatives. *)
Theorem C76_dist_minimal x y :
  (exists2 q : 'M[F]_k, orthonormal q & psd_dist svd x y = fnorm (x - y *m q)) /\
  (forall q : 'M[F]_k, orthonormal q -> psd_dist svd x y <= fnorm (x - y *m q)).
Proof.
split; first by exists (align svd x y); [apply: align_orth|rewrite psd_distE /qlog -fnormN opprB].
by move=> q oq; rewrite psd_distE -[X in _ <= X]fnormN opprB; apply: align_best.
Qed.
Theorem C76_dist x y z : on x -> on y -> on z ->
  0 <= psd_dist svd x y /\
  (psd_dist svd x y = 0 <-> same_matrix x y) /\
  psd_dist svd x y = psd_dist svd y x /\
  psd_dist svd x z <= psd_dist svd x y + psd_dist svd y z /\
  (forall x' y', on x' -> on y' -> same_matrix x x' -> same_matrix y y' -> psd_dist svd x' y' = psd_dist svd x y).
Proof.
move=> hx hy hz; have fx := (onE x).1 hx; have fy := (onE y).1 hy.
have S (a b : array) : psd_dist svd a b = psd_dist svd b a by rewrite !psd_distE; apply: qdist_sym.
have T (a b c : array) : psd_dist svd a c <= psd_dist svd a b + psd_dist svd b c by rewrite !psd_distE; apply: qdist_triangle.
have Z (a b : array) : on a -> on b -> psd_dist svd a b = 0 <-> same_matrix a b.
  by move=> /onE fa /onE fb; rewrite psd_distE; apply: qdist_eq0.
split; first by rewrite psd_distE fnorm_ge0.
split; first exact: Z.
split=> //; split=> //.
have L (a b a' b' : array) : on a -> on b -> on a' -> on b' -> same_matrix a a' -> same_matrix b b' -> psd_dist svd a' b' <= psd_dist svd a b.
  move=> ha hb ha' hb' Sa Sb; apply: le_trans (T _ a _) _.
  have -> : psd_dist svd a' a = 0 by apply/Z.
  rewrite add0r; apply: le_trans (T _ b _) _; have -> : psd_dist svd b b' = 0 by apply/Z.
  by rewrite addr0.
by move=> x' y' hx' hy' Sx Sy; apply/eqP; rewrite eq_le !L.
Qed.
End SVD.
(** The distance never depends on which singular vectors the library returns, the logarithm not if [y^H x] is invertible. *)
Theorem C76_library_independent svd svd' x y : (forall M, valid_svd M (svd M)) -> (forall M, valid_svd M (svd' M)) ->
  psd_dist svd x y = psd_dist svd' x y /\ (y^H *m x \in unitmx -> psd_log svd x y = psd_log svd' x y).
Proof.
move=> P P'; split.
  have L s s' : (forall M, valid_svd M (s M)) -> (forall M, valid_svd M (s' M)) -> psd_dist s x y <= psd_dist s' x y.
    by move=> Q Q'; rewrite !psd_distE; apply: align_best => //; apply: align_orth.
  by apply/eqP; rewrite eq_le !L.
move=> U; rewrite !psd_logE /qlog; have [O [C E]] := align_spec P' x y.
by rewrite (align_unique P U O E).
Qed.
End PSD.

(** The Euclidean gradient of a function of the represented matrix is already the Riemannian gradient. *)
Section Gradient.
Variables (F : starField RR) (n k : nat).
Local Notation array := 'M[F]_(n, k).
Local Notation dot := (@inner RR F n k).
Theorem C76_gradient (f : array -> RR) (x g : array) : complete_field F -> full_rank x ->
  (forall a b, same_matrix a b -> f a = f b) -> has_gradient f x g ->
  represents_gradient dot (psd_horizontal x) (psd_inner_product x) g (psd_gradient x g).
Proof.
move=> CF hx inv G; split; last by move=> t _; rewrite psd_innerE.
move=> w vw; have [s hs ->] := verP ((onE x).1 hx) vw.
pose E t : 'M[F]_k := epsilon (inhabits 0) (is_expm (sf_real t *: s)).
have EP t : is_expm (sf_real t *: s) (E t) := epsilon_spec (inhabits 0) _ (expm_exists CF _).
have hE t : orthonormal (E t) by apply: (expm_unitary _ (EP t)); rewrite adjmxZreal hs scalerN.
have D := derives_mul (derives_const (@inner_ips RR F n k) x) (expm_derives0 EP).
rewrite mul0mx add0r in D.
have D1 := G (fun t => x *m E t) _ _ D.
have D2 : derives (@real_scale RR) (@real_dot RR) (fun t => f (x *m E t)) 0.
  apply: derives_ext (derives_const (@real_ips RR) (f x)) => t; apply: inv.
  by rewrite /same_matrix; symmetry; apply: same_of_right.
apply: (derives_unique (@real_ips RR) (D1 _) D2).
by rewrite (expm_curve0 EP) mulmx1.
Qed.
End Gradient.

(** ** C77: Elliptope *)
Section EllSpec.
Variables n k : nat.
Local Notation array := 'M[RF]_(n, k).
Definition unit_rows (x : array) : Prop := forall i, \sum_j x i j ^+ 2 = 1.
Definition rows_tangent (x v : array) : Prop := forall i, \sum_j x i j * v i j = 0.
Definition on_elliptope (x : array) : Prop := unit_rows x /\ full_rank x.
(** tangent to the set of matrices with unit rows, and horizontal *)
Definition el_horizontal (x v : array) : Prop := rows_tangent x v /\ psd_horizontal x v.
End EllSpec.
Section Elliptope.
Variables n k : nat.
Local Notation array := 'M[RF]_(n, k).
Local Notation scale := (@rscale RR RF n k).
Local Notation dot := (@inner RR RF n k).
Local Notation I := (@inner_ips RR RF n k).
Local Notation on := (@on_elliptope n k).
Implicit Types x y v w g h : array.
Add Ring RR_ring2 : (mc_ring RR).
Lemma adj_tr m q (A : 'M[RF]_(m, q)) : A^H = A^T.
Proof. by apply/matrixP => i j; rewrite !mxE. Qed.
Lemma inner_tr m q (A B : 'M[RF]_(m, q)) : inner A^T B^T = inner A B.
Proof. by rewrite -!adj_tr inner_adj. Qed.
Lemma unit_rowsE x : unit_rows x <-> unit_columns x^T.
Proof. by split=> H i; have := H i; under eq_bigr do rewrite ?mxE; under [X in _ -> X = _]eq_bigr do rewrite ?mxE. Qed.
Lemma rows_tangentE x v : rows_tangent x v <-> columns_tangent x^T v^T.
Proof. by split=> H i; have := H i; under eq_bigr do rewrite ?mxE; under [X in _ -> X = _]eq_bigr do rewrite ?mxE. Qed.
Lemma project_rowsE x v : el_project_rows x v = (ob_projection x^T v^T)^T.
Proof. by apply/matrixP => i j; rewrite !mxE; congr (_ - _ * _); apply: eq_bigr => l _; rewrite !mxE. Qed.
Lemma normalize_rowsE x : el_normalize_rows x = (ob_normalize_columns x^T)^T.
Proof. by apply/matrixP => i j; rewrite !mxE; congr (_ / Num.sqrt _); apply: eq_bigr => l _; rewrite !mxE. Qed.
Lemma el_innerE x v w : el_inner_product x v w = dot v w. Proof. by []. Qed.
Lemma rows_projects x v : unit_rows x -> projects_to dot (rows_tangent x) v (el_project_rows x v).
Proof.
move=> /unit_rowsE hx; have [T [E O]] := ob_projects v^T hx; rewrite project_rowsE.
split; first by apply/rows_tangentE; rewrite trmxK.
split; first by move=> /rows_tangentE/E ->; rewrite trmxK.
have e : (v - (ob_projection x^T v^T)^T)^T = v^T - ob_projection x^T v^T by rewrite [LHS]linearB /= trmxK.
by move=> t /rows_tangentE/O; rewrite -[dot _ _]inner_tr e.
Qed.
Lemma rows_subspace x : real_subspace scale (rows_tangent x).
Proof.
have [T0 [TD TZ]] := tangent_ob_subspace x^T.
split; first by apply/rows_tangentE; rewrite trmx0.
split; first by move=> u v /rows_tangentE hu /rows_tangentE hv; apply/rows_tangentE; rewrite linearD /=; apply: TD.
by move=> a v /rows_tangentE hv; apply/rows_tangentE; rewrite /rscale linearZ /=; apply: TZ.
Qed.
Lemma rowsN x v : rows_tangent x v -> rows_tangent x (- v).
Proof.
have [_ [_ TZ]] := rows_subspace x; move=> /(TZ (-1)).
by rewrite (ipsNZ I) (ipsZ1 I).
Qed.
Lemma vertical_rows x w : on x -> vertical x w -> rows_tangent x w.
Proof.
move=> [_ /onE fx] /(verP fx)[s hs ->] i.
have e : (x *m s *m x^H) i i = 0.
  have E : (x *m s *m x^H)^H = - (x *m s *m x^H) by rewrite !adjmxM adjmxK hs mulNmx mulmxN mulmxA.
  have := congr1 (fun M : 'M[RF]_n => M i i) E; rewrite adj_tr !mxE => /eqP.
  by rewrite -addr_eq0 -mulr2n mulrn_eq0 /= => /eqP.
rewrite mxE in e; rewrite -[RHS]e; apply: eq_bigr => j _; by rewrite adj_tr [x^T _ _]mxE mulrC.
Qed.
Theorem C77_gradient x g : unit_rows x ->
  inner_product_on scale (rows_tangent x) (el_inner_product x) /\
  (forall v, el_norm x v = Num.sqrt (el_inner_product x v v)) /\
  represents_gradient dot (rows_tangent x) (el_inner_product x) g (el_gradient x g) /\
  (** for a function of the represented matrix the gradient is horizontal *)
  (on x -> (forall w, vertical x w -> dot g w = 0) -> el_horizontal x (el_gradient x g)).
Proof.
move=> hx; have P := rows_projects g hx; split.
  split; first by move=> a b _ _; apply: (dotC I).
  split; first by move=> a b c _ _ _; apply: (dotDl I).
  split; first by move=> a b c _ _; apply: (dotZl I).
  by move=> u _; apply: (dot_gt0 I).
split=> //; split; first exact: (projection_represents I P).
move=> ox inv; have [T [_ O]] := P; split=> // w vw.
have := O w (vertical_rows ox vw); rewrite innerBl inv // sub0r => /eqP; rewrite oppr_eq0 => /eqP //.
Qed.
Theorem C77_invariant_gradient (f : array -> RR) x g : on x -> (forall a b, same_matrix a b -> f a = f b) ->
  has_gradient f x g -> el_horizontal x (el_gradient x g).
Proof.
move=> hx inv G; have [T _] := C76_gradient real_complete (proj2 hx) inv G.
by have [_ [_ [_ K]]] := C77_gradient g (proj1 hx); apply: K.
Qed.
Theorem C77_retraction x v : unit_rows x -> rows_tangent x v ->
  unit_rows (el_retraction x v) /\ el_retraction x (el_zero_vector x) = x /\
  first_order dot (rows_tangent x) x (el_retraction x).
Proof.
move=> /unit_rowsE hx /rows_tangentE hv; have [U [R0 FO]] := C65_retraction hx hv.
have RE w : el_retraction x w = (ob_retraction x^T w^T)^T by rewrite /el_retraction normalize_rowsE linearD.
have Z : el_retraction x 0 = x by rewrite RE trmx0 R0 trmxK.
split; first by apply/unit_rowsE; rewrite RE trmxK.
split=> //; split=> // e e0; have [d d0 H] := FO e e0; exists d => // w /rows_tangentE hw.
have N (u : array) : norm_of (@inner RR RF k n) u^T = norm_of dot u by rewrite /norm_of inner_tr.
rewrite -(N w) => wd; apply: le_trans (H _ hw wd).
have -> : ob_retraction x^T w^T - (x^T + w^T) = (el_retraction x w - (x + w))^T.
  by rewrite RE; apply/matrixP => i j; rewrite !mxE.
by rewrite N.
Qed.
Lemma lyapunov_half (A O P Q S : 'M[RF]_k) : posdef A -> A *m O + O *m A = Q -> A *m P + P *m A = S -> Q^H - Q = S + S ->
  P = half RF *: - (O - O^H).
Proof.
move=> pA EO EP E; have [hA _] := pA; apply/eqP; rewrite -subr_eq0; apply/eqP; apply: (lyapunov_unique pA).
have EO2 : A *m O^H + O^H *m A = Q^H by rewrite -EO adjmxD !adjmxM [A^H]hA addrC.
rewrite mulmxBr mulmxBl -scalemxAr -scalemxAl mulmxN mulNmx mulmxBr mulmxBl.
have -> : A *m P - half RF *: - (A *m O - A *m O^H) + (P *m A - half RF *: - (O *m A - O^H *m A)) =
  (A *m P + P *m A) - half RF *: ((A *m O^H + O^H *m A) - (A *m O + O *m A)).
  rewrite addrACA -opprD -scalerDr; congr (_ - _ *: _).
  by move: (A *m O) (A *m O^H) (O *m A) (O^H *m A) => a b c d; vring (@inner_ips RR RF k k) RR.
by rewrite EP EO EO2 E scale_half2 subrr.
Qed.
Section Lyapunov.
Variable lyapunov : 'M[RF]_k -> 'M[RF]_k -> 'M[RF]_k.
Hypothesis lyapunovP : solves_lyapunov lyapunov.
(** The horizontal projection exists, but the method computes something else: instead of removing the vertical part of
    the row-wise projection, it adds it once more. *)
Lemma horizontal_exists x v : on x -> let r := el_project_rows x v in
  projects_to dot (el_horizontal x) v (psd_projection lyapunov x r).
Proof.
move=> hx r; have [hr fr] := hx; have [T [E O]] := rows_projects v hr.
have [TP [EP OP]] := psd_projects lyapunovP r fr.
have V : vertical x (r - psd_projection lyapunov x r) by have [_ [_ []]] := C76_projection lyapunovP r fr.
have TR : rows_tangent x (psd_projection lyapunov x r).
  have -> : psd_projection lyapunov x r = r + - (r - psd_projection lyapunov x r) by rewrite opprB addrC subrK.
  by have [_ [TD _]] := rows_subspace x; apply: TD => //; apply: rowsN; apply: vertical_rows.
split; first by [].
split; first by move=> [Tv Hv]; have rv : r = v := E Tv; rewrite EP rv.
move=> t [Tt Ht]; have -> : v - psd_projection lyapunov x r = (v - r) + (r - psd_projection lyapunov x r) by rewrite addrA subrK.
by rewrite innerDl (O t Tt) (OP t Ht) addr0.
Qed.
Lemma el_projectionE x v : on x -> let r := el_project_rows x v in
  el_projection lyapunov x v = r + (r - psd_projection lyapunov x r).
Proof.
move=> hx r; have [hr fr] := hx; have fx := (onE x).1 fr.
rewrite /el_projection -/r /psd_projection -!adj_tr.
set A := x^H *m x; set Q := - (x^H *m r - v^H *m x).
set O := lyapunov A Q; set P := lyapunov A (x^H *m r - r^H *m x).
have -> : r - (r - x *m P) = x *m P by rewrite opprB addrC subrK.
congr (_ + _).
have EO : A *m O + O *m A = Q by apply: lyap_eq.
have EP : A *m P + P *m A = x^H *m r - r^H *m x by apply: lyap_eq.
suff -> : P = half RF *: - (O - O^H) by rewrite -scalemxAr mulmxN scalerN.
apply: (lyapunov_half fx EO EP); rewrite /Q adjmxN adjmxB !adjmxM !adjmxK.
have D : x^H *m (v - r) = (v - r)^H *m x.
  have -> : v - r = diag_mx (row_dots x v)^T *m x.
    rewrite /r /el_project_rows opprB addrC subrK; apply/matrixP => i j; rewrite mul_diag_mx !mxE mulrC //.
  by rewrite adjmxM (_ : (diag_mx (row_dots x v)^T)^H = diag_mx (row_dots x v)^T) ?mulmxA // adj_tr tr_diag_mx.
move: D; rewrite adjmxB mulmxBr mulmxBl => /eqP; rewrite subr_eq => /eqP ->.
by move: (x^H *m r) (r^H *m x) (v^H *m x) => a b c; vring (@inner_ips RR RF k k) RR.
Qed.
Theorem C77_projection_exact x v w : on x -> projects_to dot (el_horizontal x) v w ->
  el_projection lyapunov x v = el_project_rows x v + (el_project_rows x v - w) /\
  rows_tangent x (el_projection lyapunov x v) /\
  el_to_tangent_space lyapunov x v = el_projection lyapunov x v /\
  (forall t, el_horizontal x t -> el_inner_product x (el_projection lyapunov x v) t = el_inner_product x v t).
Proof.
move=> hx P; have [hr fr] := hx; have H := horizontal_exists v hx; have [T [_ O]] := rows_projects v hr.
have SB u u' : el_horizontal x u -> el_horizontal x u' -> el_horizontal x (u - u').
  move=> [a b] [c d]; split; first by have [_ [TD _]] := rows_subspace x; apply: TD => //; apply: rowsN.
  by have [_ [TD _]] := horizontal_subspace x; apply: TD => //; apply: horizontalN.
have W : w = psd_projection lyapunov x (el_project_rows x v) := projects_to_unique I SB P H.
have E : el_projection lyapunov x v = el_project_rows x v + (el_project_rows x v - w) by rewrite W; apply: el_projectionE.
split=> //; have [[Tw Hw] [_ Ow]] := P.
split; first by rewrite E; have [_ [TD _]] := rows_subspace x; apply: (TD) => //; apply: (TD) => //; apply: rowsN.
split=> // t Ht; have [Tt _] := Ht.
rewrite !el_innerE E innerDl innerBl; have /eqP := O t Tt; have /eqP := Ow t Ht; rewrite !innerBl !subr_eq0 => /eqP <- /eqP <-.
by rewrite subrr addr0.
Qed.
(** So the result is horizontal only if nothing had to be removed, and repeating the projection moves it further away. *)
Theorem C77_projection_refuted x v : on x -> ~ psd_horizontal x (el_project_rows x v) ->
  ~ el_horizontal x (el_projection lyapunov x v) /\
  ~ projects_to dot (el_horizontal x) v (el_projection lyapunov x v) /\
  el_projection lyapunov x (el_projection lyapunov x v) <> el_projection lyapunov x v.
Proof.
move=> hx N; have [hr fr] := hx; have P := horizontal_exists v hx; set r := el_project_rows x v in N P *.
set w := psd_projection lyapunov x r in P; have [[Tw Hw] _] := P.
have E := el_projectionE v hx; rewrite -/r -/w in E; set p := el_projection lyapunov x v in E *.
have NH : ~ psd_horizontal x p.
  move=> Hp; apply: N; have [_ [HD HZ]] := horizontal_subspace x.
  have -> : r = scale 2%:R^-1 (p + w) by rewrite E addrA subrK /rscale -[X in _ = sf_real _ *: X]/(r + r) -half_real scale_half2.
  by apply: HZ; apply: HD.
split; first by move=> [].
split; first by move=> [[]].
have [_ [Tp _]] := C77_projection_exact hx P; rewrite -/p in Tp.
have rp : el_project_rows x p = p by have [_ [Ep _]] := rows_projects p hr; apply: Ep.
move=> F; have := el_projectionE p hx; rewrite rp F => /eqP; rewrite -subr_eq0 opprD addrA subrr add0r oppr_eq0 subr_eq0 => /eqP e.
by apply: NH; rewrite e; case: (psd_projects lyapunovP p fr).
Qed.
Lemma el_horizontalE x v : on x -> el_horizontal x (el_projection lyapunov x v) <-> psd_horizontal x (el_project_rows x v).
Proof.
move=> hx; have [hr fr] := hx; have E := el_projectionE v hx.
have [Tp [Ep _]] := psd_projects lyapunovP (el_project_rows x v) fr.
split; last first.
  move=> H; have e : psd_projection lyapunov x (el_project_rows x v) = el_project_rows x v by apply: Ep.
  rewrite /= in E; rewrite E e subrr addr0; split=> //; by case: (rows_projects v hr).
move=> [_ Hp]; have [_ [HD HZ]] := horizontal_subspace x.
have -> : el_project_rows x v = scale 2%:R^-1 (el_projection lyapunov x v + psd_projection lyapunov x (el_project_rows x v)).
  by rewrite E addrA subrK /rscale -half_real scale_half2.
by apply: HZ; apply: HD.
Qed.
Definition el_slope x g h v : array := h - scale_rows v (row_dots g x) - scale_rows x (row_dots v g + row_dots x h).
Lemma rowdots_col (a b : array) i : row_dots a b i ord0 = inner (col i a^T) (col i b^T).
Proof. by rewrite mxE /inner; apply: eq_bigr => j _; rewrite big_ord1 !mxE. Qed.
Lemma scale_rows_col (a : array) (c : 'cV[RF]_n) i : col i (scale_rows a c)^T = (c i ord0) *: col i a^T :> 'cV[RF]_k.
Proof. by apply/colP => j; rewrite !mxE mulrC. Qed.
Lemma el_gradient_derives c e x g h v : c 0 = x -> derives scale dot c v -> e 0 = g -> derives scale dot e h ->
  derives scale dot (fun t => el_gradient (c t) (e t)) (el_slope x g h v).
Proof.
move=> c0 Dc e0 De.
have Dc1 := derives_adj Dc; have De1 := derives_adj De.
have D : derives (@rscale RR RF k n) (@inner RR RF k n) (fun t => (el_gradient (c t) (e t))^H) (el_slope x g h v)^H.
  apply: (derives_comp (@inner_ips RR RF k 1) (@colB k n) (@colZ k n) (@coldot k n)) => i.
  have Dc' := comp_derives (@inner_ips RR RF k 1) (@colB k n) (@colZ k n) (@coldot k n) i Dc1; have De' := comp_derives (@inner_ips RR RF k 1) (@colB k n) (@colZ k n) (@coldot k n) i De1.
  have D := derives_sub (@inner_ips RR RF k 1) De' (derives_scale (@inner_ips RR RF k 1) (derives_dot (@inner_ips RR RF k 1) Dc' De') Dc').
  have -> : col i (el_slope x g h v)^H =
    col i h^H - ((inner (col i v^H) (col i g^H) + inner (col i x^H) (col i h^H)) *: col i x^H + inner (col i x^H) (col i g^H) *: col i v^H).
    rewrite !adj_tr; apply/colP => j; rewrite !mxE -!rowdots_col.
    have -> : \sum_j (g i j * x i j) = row_dots x g i ord0 by rewrite mxE; apply: eq_bigr => l _; rewrite mulrC.
    have -> : \sum_j (v i j * g i j) = row_dots v g i ord0 by rewrite mxE.
    have -> : \sum_j (x i j * h i j) = row_dots x h i ord0 by rewrite mxE.
    by rewrite opprD addrA [v i j * _]mulrC [x i j * _]mulrC addrAC.
  move: D; rewrite c0 e0; apply: derives_ext => t.
  by rewrite !adj_tr; apply/colP => j; rewrite !mxE -rowdots_col mxE mulrC.
by have := derives_adj D; rewrite adjmxK; apply: derives_ext => t; rewrite adjmxK.
Qed.
(** The Hessian is this map applied to the derivative of the gradient: its inner products with horizontal vectors are right
    (in particular it is symmetric on them), but it is horizontal only if nothing had to be removed. *)
Theorem C61_elliptope x g h v : on x -> el_horizontal x v ->
  (forall c e : RR -> array, c 0 = x -> derives scale dot c v -> e 0 = g -> derives scale dot e h ->
    exists2 w, derives scale dot (fun t => el_gradient (c t) (e t)) w &
      [/\ el_hessian lyapunov x g h v = el_projection lyapunov x w,
      (forall t, el_horizontal x t -> el_inner_product x (el_hessian lyapunov x g h v) t = el_inner_product x w t) &
      (el_horizontal x (el_hessian lyapunov x g h v) <-> psd_horizontal x (el_project_rows x w))]) /\
  (forall h' v', el_horizontal x v' -> dot h v' = dot h' v ->
    el_inner_product x (el_hessian lyapunov x g h v) v' = el_inner_product x (el_hessian lyapunov x g h' v') v).
Proof.
move=> hx hv.
have PE w t : el_horizontal x t -> el_inner_product x (el_projection lyapunov x w) t = el_inner_product x w t.
  by move=> Ht; have [_ [_ [_ K]]] := C77_projection_exact hx (horizontal_exists w hx); apply: K.
split.
  move=> c e c0 Dc e0 De; exists (el_slope x g h v); first exact: el_gradient_derives.
  split=> //; first by move=> t Ht; apply: PE.
  exact: el_horizontalE.
move=> h' v' hv' S.
have Q h1 v1 t : rows_tangent x t -> dot (el_slope x g h1 v1) t = dot h1 t - \sum_i row_dots g x i ord0 * row_dots v1 t i ord0.
  move=> Ht; rewrite /el_slope !innerBl.
  have -> : dot (scale_rows x (row_dots v1 g + row_dots x h1)) t = 0.
    rewrite /inner big1 // => i _; transitivity ((row_dots v1 g + row_dots x h1) i ord0 * \sum_j x i j * t i j); last by rewrite Ht mulr0.
    by rewrite mulr_sumr; apply: eq_bigr => j _; rewrite mulrA [_ * x i j]mulrC /scale_rows mxE.
  rewrite subr0; congr (_ - _); apply: eq_bigr => i _; rewrite [row_dots v1 t i ord0]mxE mulr_sumr; apply: eq_bigr => j _.
  by rewrite mulrA [_ * v1 i j]mulrC /scale_rows mxE.
have [Tv _] := hv; have [Tv' _] := hv'.
have L h1 v1 t : el_horizontal x t -> el_inner_product x (el_hessian lyapunov x g h1 v1) t =
    dot h1 t - \sum_i row_dots g x i ord0 * row_dots v1 t i ord0.
  by move=> Ht; rewrite -Q; [exact: PE | case: Ht].
apply: etrans (L h v v' hv') _; apply: etrans (esym (L h' v' v hv)).
rewrite [dot h v']S; congr (_ - _); apply: eq_bigr => i _; congr (_ * _); by rewrite !rowdots_col innerC.
Qed.
Theorem C80_elliptope x draw : on x ->
  ((forall i, row i draw != 0) -> unit_rows (el_random_point draw)) /\
  (el_projection lyapunov x (el_random_point draw) != 0 ->
    rows_tangent x (el_random_tangent_vector lyapunov x draw) /\ el_norm x (el_random_tangent_vector lyapunov x draw) = 1).
Proof.
move=> hx; split.
  move=> H; apply/unit_rowsE; rewrite /el_random_point normalize_rowsE trmxK.
  have [hr _] := hx; have [K _] := C80_oblique draw^T ((unit_rowsE x).1 hr); apply: K => j.
  apply: contra (H j) => /eqP E; apply/eqP/rowP => l; have := congr1 (fun M : 'cV_k => M l 0) E; by rewrite !mxE.
move=> p0; have [_ [T _]] := C77_projection_exact hx (horizontal_exists (el_random_point draw) hx).
split; first by have [_ [_ TZ]] := rows_subspace x; apply: (TZ _ _ T).
rewrite /el_random_tangent_vector; set p := el_projection _ _ _ in p0 *.
have -> : el_norm x ((el_norm x p)^-1 *: p) = fnorm (sf_real (el_norm x p)^-1 *: p) by [].
rewrite fnormZ ger0_norm ?invr_ge0 ?sqrtr_ge0 //.
by rewrite (_ : el_norm x p = fnorm p) // mulVf // fnorm_eq0.
Qed.
End Lyapunov.
End Elliptope.

(** ** The hypotheses are met *)
Section Instances.
Variable F : starField RR.
Hypothesis EV : has_eigenvectors F.
Lemma lyapunov_exists k (A Q : 'M[F]_k) : posdef A -> exists X, A *m X + X *m A^H = Q.
Proof.
move=> PA; have [hA _] := PA; have [[w v] V] := eigh_exists EV hA; have [/= Ov E] := V.
have w0 i := posdef_eig_gt0 PA V i; rewrite /= in w0.
pose Y : 'M[F]_k := \matrix_(i, j) ((v^H *m Q *m v) i j / sf_real (w 0 i + w 0 j)).
have Ov' : v *m v^H = 1%:M by apply: mulmx1C.
have YE : real_diag F w *m Y + Y *m real_diag F w = v^H *m Q *m v.
  apply/matrixP => i j; rewrite mxE mul_diag_mx mul_mx_diag.
  set M := v^H *m Q *m v in Y *; rewrite !mxE.
  have nz : sf_real (w 0 i + w 0 j) != 0 :> F by rewrite fmorph_eq0 gt_eqF // addr_gt0.
  by rewrite [_ / _ * _]mulrC -mulrDl -rmorphD /= mulrCA divff // mulr1.
exists (v *m Y *m v^H); rewrite [A^H]hA E.
rewrite -!mulmxA (mulmxA v^H v) Ov mul1mx (mulmxA v^H v _) Ov mul1mx.
rewrite !mulmxA -mulmxDl -!mulmxA -mulmxDr YE.
by rewrite !mulmxA Ov' mul1mx -!mulmxA Ov' mulmx1.
Qed.
Lemma psd_library n : exists (lyapunov : 'M[F]_n -> 'M[F]_n -> 'M[F]_n) (svd : 'M[F]_n -> 'M[F]_n * 'rV[RR]_n * 'M[F]_n),
  solves_lyapunov lyapunov /\ (forall A, valid_svd A (svd A)).
Proof.
have [svd svdP] := svd_function EV (leqnn n).
exists (fun A Q => epsilon (inhabits 0) (fun X => A *m X + X *m A^H = Q)), svd; split=> // A Q PA.
exact: (epsilon_spec (inhabits 0) (fun X => A *m X + X *m A^H = Q) (lyapunov_exists Q PA)).
Qed.
Definition psd_example : 'M[F]_2 := \matrix_(i, j) (if (j <= i)%N then 1 else 0).
Local Notation L := psd_example.
Lemma psd_example_unit : L \in unitmx.
Proof.
rewrite unitmxE (_ : \det L = 1) ?unitr1 //.
by rewrite (expand_det_row _ ord0) !big_ord_recl big_ord0 /cofactor !mxE /= !det_mx11 !mxE /= ?mulr1 ?mul1r ?mulr0 ?mul0r ?addr0 ?expr0.
Qed.
(** a point that is not orthogonal, a horizontal vector with the line inside the manifold, a vertical one, another point *)
Lemma psd_instance : exists x y v w : 'M[F]_2,
  full_rank x /\ full_rank y /\ ~ same_matrix x y /\ y^H *m x \in unitmx /\
  psd_horizontal x v /\ v != 0 /\ posdef (x^H *m (x + v)) /\ vertical x w /\ w != 0 /\
  has_gradient (fun a : 'M[F]_2 => inner a a) x (x + x).
Proof.
have UL := psd_example_unit.
have fL : full_rank L by apply: mxrank_unit.
pose J : 'M[F]_2 := \matrix_(i, j) (if i == j then 0 else if (i < j)%N then 1 else -1).
have JH : J^H = - J.
  apply/matrixP => i j; rewrite !mxE; case: i => -[|[|]] // ?; case: j => -[|[|]] // ?;
    by rewrite /= ?rmorph0 ?rmorphN ?rmorph1 ?oppr0 ?opprK.
have L0 : L != 0 by apply/eqP => /matrixP/(_ ord0 ord0)/eqP; rewrite !mxE /= oner_eq0.
exists L, 1%:M, L, (L *m J).
split=> //; split; first by rewrite /full_rank mxrank1.
split.
  rewrite /same_matrix adjmx1 mulmx1 => /matrixP/(_ ord0 (lift ord0 ord0))/eqP.
  by rewrite !mxE !big_ord_recl big_ord0 !mxE /= rmorph1 mulr1 mul0r !addr0 oner_eq0.
split; first by rewrite adjmx1 mul1mx.
have hL : psd_horizontal L L by apply/horizontalE => //; rewrite /hor adjmxM adjmxK.
split=> //; split=> //; split.
  by rewrite mulmxDr; apply: posdefD; exact: ((onE L).1 fL).
split; first by rewrite /vertical adjmxM JH mulNmx mulmxN mulmxA subrr.
split.
  apply: contra L0 => /eqP E; apply/eqP.
  have JJ : J *m J = - 1%:M.
    apply/matrixP => i j; rewrite !mxE !big_ord_recl big_ord0 !mxE; case: i => -[|[|]] // ?; case: j => -[|[|]] // ?;
      by rewrite /= ?mul0r ?mulr0 ?mul1r ?mulr1 ?addr0 ?add0r ?oppr0.
  by rewrite -[L]mulmx1 -[1%:M]opprK -JJ mulmxN mulmxA E mul0mx oppr0.
move=> c v c0 D; have := derives_dot (@inner_ips RR F 2 2) D D.
by rewrite c0 innerDl [inner v _]innerC.
Qed.
End Instances.
Definition psd_real_instance := psd_instance RF.
Lemma elliptope_instance : exists x v w : 'M[RF]_2, on_elliptope x /\ el_horizontal x v /\ v != 0 /\
  vertical x w /\ ~ psd_horizontal x (el_project_rows x w) /\ (forall i, row i w != 0).
Proof.
pose J : 'M[RF]_2 := \matrix_(i, j) (if i == j then 0 else if (i < j)%N then 1 else -1).
pose K : 'M[RF]_2 := \matrix_(i, j) (if i == j then 0 else 1).
have hx : on_elliptope (1%:M : 'M[RF]_2).
  split; last by rewrite /full_rank mxrank1.
  by move=> i; case: i => -[|[|]] // ?; rewrite !big_ord_recl big_ord0 !mxE /= ?expr0n ?expr1n /= ?addr0 ?add0r.
have VJ : vertical 1%:M J.
  rewrite /vertical adjmx1 mulmx1 mul1mx; apply/matrixP => i j; rewrite !mxE.
  case: i => -[|[|]] // ?; case: j => -[|[|]] // ?; rewrite /= ?rmorph0 ?rmorphN ?rmorph1 ?addr0 ?subrr ?addNr //.
have RJ : rows_tangent 1%:M J := vertical_rows hx VJ.
exists 1%:M, K, J; split=> //; split.
  split; first by move=> i; case: i => -[|[|]] // ?; rewrite !big_ord_recl big_ord0 !mxE /= ?mulr0 ?mul0r ?addr0.
  apply/horizontalE; first by case: hx.
  by rewrite /hor adjmx1 mul1mx; apply/matrixP => i j; rewrite !mxE eq_sym; case: eqP => _; rewrite ?rmorph0 ?rmorph1.
split; first by apply/eqP => /matrixP/(_ ord0 (lift ord0 ord0))/eqP; rewrite !mxE /= oner_eq0.
split=> //; split.
  have -> : el_project_rows 1%:M J = J by have [_ [E _]] := rows_projects J (proj1 hx); apply: E.
  move=> /(_ J VJ)/eqP; rewrite (dot_eq0 (@inner_ips RR RF 2 2)) => /eqP/matrixP/(_ ord0 (lift ord0 ord0))/eqP; by rewrite !mxE /= oner_eq0.
move=> i; apply/eqP => /rowP; case: i => -[|[|]] // ?; [move/(_ (lift ord0 ord0))|move/(_ ord0)] => /eqP; rewrite !mxE /= ?oppr_eq0 oner_eq0 //.
Qed.
