(** Properties C68 and C88 (and C61, C80 for these manifolds) of src/pymanopt/manifolds/grassmann.py *)
From Coq Require Import Reals.
From mathcomp Require Import all_ssreflect all_algebra.
From Coq Require Import Ring Field ClassicalEpsilon.
From Verif Require Import Rstruct MCRing Mat_Base Geometry_Spec Linalg_Spec Calculus Components Multi_Model Multi_Proofs Euclidean_Model Euclidean_Props.
From Verif Require Import Sphere_Model Sphere_Proofs Stiefel_Model Stiefel_Proofs Expm Linalg_Exist Stack_Proofs Grassmann_Model Grassmann_Proofs Grassmann_Log.
Set Implicit Arguments.
Unset Strict Implicit.
Unset Printing Implicit Defensive.
Import GRing.Theory Num.Theory Order.TTheory.
Local Open Scope ring_scope.

(** ** Specification.  A point is represented by a stack of matrices with orthonormal columns; two stacks represent
    the same point when corresponding matrices differ by a unitary factor on the right (they have the same column
    spaces).  Tangent vectors are represented by horizontal vectors, those orthogonal to the directions in which the
    column spaces do not change. *)
Section Spec.
Variables (R : rcfType) (F : starField R) (k n p : nat).
Local Notation array := (stack F k n p).
Definition on_grassmann (x : array) : Prop := forall i, orthonormal (x i).
Definition same_subspaces (x y : array) : Prop :=
  forall i, exists2 Q : 'M[F]_p, Q *m Q^H = 1%:M & y i = x i *m Q.
Definition grassmann_horizontal (x v : array) : Prop := forall i, (x i)^H *m v i = 0.
End Spec.
(** The definition of horizontal vectors is the usual one: orthogonality to the velocities [x A], [A] skew-Hermitian,
    and tangency to the matrices with orthonormal columns. *)
Lemma horizontal_spec (R : rcfType) (F : starField R) n p (x v : 'M[F]_(n, p)) : orthonormal x ->
  (x^H *m v = 0 <-> (x^H *m v + v^H *m x = 0 /\ forall A : 'M[F]_p, A^H = - A -> inner (x *m A) v = 0)).
Proof.
move=> O; split=> [H|[T H]].
  split; first exact: horizontal_tangent.
  by move=> A _; rewrite inner_mull H inner0r.
have K : (x^H *m v)^H = - (x^H *m v) by apply/st_tangentE.
by apply: inner_eq0; rewrite -inner_mull; apply: H.
Qed.

Section Grassmann.
Variables (R : rcfType) (F : starField R) (k n p : nat).
Local Notation array := (stack F k n p).
Local Notation scale := (@sscale R F k n p).
Local Notation dot := (@sinner R F k n p).
Local Notation J := (@sinner_ips R F k n p).
Implicit Types x y v w g h : array.

Lemma gr_projE i x v : gr_projection x v i = gr_proj (x i) (v i).
Proof. by rewrite /gr_projection /gr_proj stackB !stack_mul stack_hconj. Qed.
Lemma gr_hessE i x g h v : gr_hessian x g h v i = gr_hess (x i) (g i) (h i) (v i).
Proof. by rewrite /gr_hessian /gr_hess stackB gr_projE !stack_mul stack_hconj. Qed.
Lemma gr_innerE x a b : gr_inner_product x a b = dot a b.
Proof.
rewrite /gr_inner_product /sinner raddf_sum; apply: eq_bigr => i _; rewrite raddf_sum; apply: eq_bigr => r _.
by rewrite raddf_sum.
Qed.
Lemma grassmann_subspace x : real_subspace scale (grassmann_horizontal x).
Proof. exact: (stack_subspace (fun i => horizontal_subspace (x i))). Qed.
Lemma grassmann_projects x v : on_grassmann x -> projects_to dot (grassmann_horizontal x) v (gr_projection x v).
Proof.
move=> O; apply: (projects_to_stack (T := fun i => horizontal (x i))) => i; rewrite gr_projE.
exact: gr_projects.
Qed.
Lemma horizontal_opp x v : grassmann_horizontal x v -> grassmann_horizontal x (- v).
Proof. by move=> H i; rewrite stackN mulmxN H oppr0. Qed.

(** ** C68 *)
Theorem C68_projection x v : on_grassmann x ->
  projects_to dot (grassmann_horizontal x) v (gr_projection x v) /\
  nearest_in dot (grassmann_horizontal x) v (gr_projection x v) /\
  gr_to_tangent_space x v = gr_projection x v /\
  (forall y, on_grassmann y -> projects_to dot (grassmann_horizontal y) v (gr_transport x y v)).
Proof.
move=> hx; have P := grassmann_projects v hx; split; first exact: P.
split; first exact: (projects_to_nearest J (grassmann_subspace x) (@horizontal_opp x) P).
by split; last by move=> y hy; exact: grassmann_projects.
Qed.
Theorem C68_gradient x g : on_grassmann x ->
  inner_product_on scale (grassmann_horizontal x) (gr_inner_product x) /\
  (forall u, gr_norm x u = Num.sqrt (gr_inner_product x u u)) /\
  grassmann_horizontal x (gr_zero_vector x) /\
  represents_gradient dot (grassmann_horizontal x) (gr_inner_product x) g (gr_gradient x g).
Proof.
move=> hx.
have [i1 [i2 [i3 i4]]] := @stack_ip R F k n p (grassmann_horizontal x).
split.
  split; first by move=> a b ha hb; rewrite !gr_innerE; apply: i1.
  split; first by move=> a b c ha hb hc; rewrite !gr_innerE; apply: i2.
  split; first by move=> a b c hb hc; rewrite !gr_innerE; apply: i3.
  by move=> u hu u0; rewrite gr_innerE; apply: i4.
split; first by move=> u; rewrite gr_innerE.
split; first by case: (grassmann_subspace x).
have [T H] := projection_represents J (grassmann_projects g hx).
by split; [exact: T|move=> t ht; rewrite gr_innerE; exact: H].
Qed.
Section Retraction.
Variable svd : 'M[F]_(n, p) -> 'M[F]_(n, p) * 'rV[R]_p * 'M[F]_p.
Hypothesis svdP : forall A, valid_svd A (svd A).
Theorem C68_retraction x v : on_grassmann x -> grassmann_horizontal x v ->
  on_grassmann (gr_retraction svd x v) /\
  gr_retraction svd x (gr_zero_vector x) = x /\
  (forall i, exists2 M : 'M[F]_p, M \in unitmx & x i + v i = gr_retraction svd x v i *m M) /\
  (forall i, fnorm (gr_retraction svd x v i - (x i + v i)) <= fnorm (v i) ^+ 2) /\
  first_order dot (grassmann_horizontal x) x (gr_retraction svd x).
Proof.
move=> hx hv.
have V' (A : 'M[F]_(n, p)) : valid_svd A ((svd A).1.1, (svd A).1.2, (svd A).2) by have := svdP A; case: (svd A) => [[]].
have RE w i : gr_retraction svd x w i = (svd (x i + w i)).1.1 *m (svd (x i + w i)).2.
  by rewrite /gr_retraction stack_mul !ffunE.
have B w : grassmann_horizontal x w -> forall i, fnorm (gr_retraction svd x w i - (x i + w i)) <= 1 * fnorm (w i) ^+ 2.
  by move=> hw i; rewrite RE; apply: (polar_bound (hx i) (horizontal_tangent (hw i)) (V' _)).
split; first by move=> i; rewrite RE; apply: (polar_orthonormal (V' _)).
split.
  apply/ffunP => i; have := B 0 (proj1 (grassmann_subspace x)) i.
  rewrite stack0 addr0 /fnorm inner0l sqrtr0 expr0n mulr0 -/(fnorm _) => H.
  by apply/eqP; rewrite -subr_eq0 -fnorm_eq0 eq_le H fnorm_ge0.
split.
  move=> i; have P := polarE (V' (x i + v i)).
  exists (eigfun id ((svd (x i + v i)).1.2, (svd (x i + v i)).2^H)); last by rewrite RE -P.
  have := st_rank (hx i) (horizontal_tangent (hv i)); rewrite {1}P => rk.
  rewrite -row_free_unit /row_free eqn_leq rank_leq_row /= -[X in (X <= _)%N]rk.
  exact: mxrankM_maxr.
split; first by move=> i; have := B v hv i; rewrite mul1r.
apply: (stack_first_order (C := 1) (r := 1)); rewrite ?ler01 ?ltr01 //.
  by case: (grassmann_subspace x).
by move=> i w hw _; apply: B.
Qed.
End Retraction.

(** ** C61 *)
(** [dot g (x A) = 0] for skew-Hermitian [A]: the cost does not change when the representative does. *)
Theorem C61_grassmann x g h v : on_grassmann x -> grassmann_horizontal x v ->
  grassmann_horizontal x (gr_hessian x g h v) /\
  ((forall A : stack F k p p, (forall i, (A i)^H = - A i) -> dot g (smul x A) = 0) ->
   forall h' v', grassmann_horizontal x v' -> dot h v' = dot h' v ->
    gr_inner_product x (gr_hessian x g h v) v' = gr_inner_product x (gr_hessian x g h' v') v) /\
  (forall c e : R -> array, c 0 = x -> derives scale dot c v -> e 0 = g -> derives scale dot e h ->
    exists2 w, derives scale dot (fun t => gr_gradient (c t) (e t)) w & gr_hessian x g h v = gr_projection x w).
Proof.
move=> hx hv; split; first by move=> i; rewrite gr_hessE; apply: gr_hess_horizontal.
split.
  move=> inv h' v' hv' E.
  have herm i : ((x i)^H *m g i)^H = (x i)^H *m g i.
    have D : hskew ((x i)^H *m g i) = 0.
      apply: inner_eq0; set A := hskew _.
      pose S : stack F k p p := [ffun j => if j == i then A else 0].
      have := inv S; rewrite /sinner (bigD1 i) //= big1 ?addr0 => [|j ji]; last first.
        by rewrite stack_mul ffunE (negbTE ji) mulmx0 inner0r.
      rewrite stack_mul ffunE eqxx innerC inner_mull innerC => H.
      rewrite -[X in X = 0](_ : inner ((x i)^H *m g i) A = _); last first.
        rewrite -[in LHS](hsym_skew ((x i)^H *m g i)) innerDl inner_herm_skew ?add0r //; first exact: hsym_herm.
        exact: hskew_skew.
      apply: H => j; rewrite ffunE; case: eqP => _; first exact: hskew_skew.
      by rewrite adjmx0 oppr0.
    by rewrite -[in LHS](hsym_skew ((x i)^H *m g i)) -[RHS](hsym_skew ((x i)^H *m g i)) D !addr0 hsym_herm.
  have P (a b u : array) : grassmann_horizontal x u ->
    gr_inner_product x (gr_hessian x g b a) u = dot b u - \sum_i inner (a i *m ((x i)^H *m g i)) (u i).
    by move=> hu; rewrite gr_innerE /sinner -sumrB; apply: eq_bigr => i _; rewrite gr_hessE gr_hess_inner.
  rewrite P // P // E.
  have -> : \sum_i inner (v i *m ((x i)^H *m g i)) (v' i) = \sum_i inner (v' i *m ((x i)^H *m g i)) (v i).
    by apply: eq_bigr => i _; rewrite inner_mulr herm innerC.
  by [].
move=> c e c0 Dc e0 De.
have K (i : 'I_k) : exists w : 'M[F]_(n, p), derives (@rscale R F n p) (@inner R F n p) (fun t => gr_proj (c t i) (e t i)) w /\
    gr_hess (x i) (g i) (h i) (v i) = gr_proj (x i) w.
  have [w D E] := gr_hess_derives (h := h i) (g := g i) (hx i) (hv i) (c := fun t => c t i) (e := fun t => e t i)
    (congr1 (fun z : array => z i) c0) (derives_stack i Dc) (congr1 (fun z : array => z i) e0) (derives_stack i De).
  by exists w.
have [w Hw] := fin_all_exists K; exists [ffun i => w i].
  apply: stack_derives => i; rewrite ffunE.
  by apply: derives_ext (proj1 (Hw i)) => t; rewrite gr_projE.
by apply/ffunP => i; rewrite gr_hessE gr_projE ffunE; case: (Hw i).
Qed.

(** ** C80 *)
Section QR.
Variable qr : 'M[F]_(n, p) -> 'M[F]_(n, p) * 'M[F]_p.
Hypothesis qrP : forall A, valid_qr A (qr A).
Lemma multiqr_positive (A : 'M[F]_(n, p)) : let q := qr_normalise (leqnn p) (qr A).1 (qr A).2 in
  valid_qr A q /\ forall i, exists2 a : R, 0 <= a & q.2 i i = sf_real a.
Proof.
split; first exact: (qr_normalise_valid (leqnn p) (qrP A)).
move=> i; have [a a0] := qr_normalise_diag (leqnn p) (qr A).1 (qr A).2 i.
by rewrite (_ : widen_ord (leqnn p) i = i); [exists a|apply: val_inj].
Qed.
Lemma multiqr_orthonormal (A : array) i : orthonormal ((multiqr_tall qr A).1 i).
Proof. by rewrite ffunE; have [[_ [O _]] _] := multiqr_positive (A i). Qed.
Lemma multiqr_id (A : array) i : orthonormal (A i) -> (multiqr_tall qr A).1 i = A i.
Proof.
move=> O; rewrite ffunE; have [[E [OQ U]] P] := multiqr_positive (A i).
have T0 : st_tangent (A i) 0 by case: (st_subspace (A i)).
have E0 : A i + 0 = (qr_normalise (leqnn p) (qr (A i)).1 (qr (A i)).2).1 *m (qr_normalise (leqnn p) (qr (A i)).1 (qr (A i)).2).2.
  by rewrite addr0; exact: E.
have := qr_bound O T0 E0 OQ U P; rewrite /fnorm inner0l sqrtr0 expr0n mulr0 addr0 -/(fnorm _) => H.
by apply/eqP; rewrite -subr_eq0 -fnorm_eq0 eq_le H fnorm_ge0.
Qed.
Theorem C80_grassmann x draw : on_grassmann x ->
  on_grassmann (gr_random_point qr draw) /\
  (gr_projection x draw != 0 ->
    grassmann_horizontal x (gr_random_tangent_vector x draw) /\ gr_norm x (gr_random_tangent_vector x draw) = 1).
Proof.
move=> hx; split; first by move=> i; apply: multiqr_orthonormal.
move=> H; rewrite /gr_random_tangent_vector; have [T _] := grassmann_projects draw hx.
split; last exact: unit_np_div.
by rewrite np_divE; case: (grassmann_subspace x) => _ [_]; apply.
Qed.
End QR.
End Grassmann.

(** ** Exponential, logarithm and distance *)
Section Exp.
Variables (F : starField RR) (k n p : nat).
Local Notation array := (stack F k n p).
Local Notation scale := (@sscale RR F k n p).
Local Notation dot := (@sinner RR F k n p).
Variable qr : 'M[F]_(n, p) -> 'M[F]_(n, p) * 'M[F]_p.
Variable svd : 'M[F]_(n, p) -> 'M[F]_(n, p) * 'rV[RR]_p * 'M[F]_p.
Variable svdp : 'M[F]_p -> 'M[F]_p * 'rV[RR]_p * 'M[F]_p.
Hypothesis qrP : forall A, valid_qr A (qr A).
Hypothesis svdP : forall A, valid_svd A (svd A).
Hypothesis svdpP : forall A, valid_svd A (svdp A).
Implicit Types x y v w : array.
Lemma scale_columnsE m f (A : stack F k m p) s i : scale_columns f A s i = A i *m real_diag F (map_mx f (s i)).
Proof. by apply/matrixP => r c; rewrite ffunE mul_mx_diag !mxE. Qed.
Lemma gr_expE x v i : on_grassmann x -> grassmann_horizontal x v -> gr_exp svd qr x v i = grexp (x i) (svd (v i)).
Proof.
move=> hx hv; set Y := (smul (smul x (scale_columns cos (multihconj [ffun i => (svd (v i)).2]) (fun i => (svd (v i)).1.2))) [ffun i => (svd (v i)).2]
  + smul (scale_columns sin [ffun i => (svd (v i)).1.1] (fun i => (svd (v i)).1.2)) [ffun i => (svd (v i)).2]).
have E : Y i = grexp (x i) (svd (v i)).
  rewrite /Y stackD !stack_mul !scale_columnsE stack_hconj !ffunE /grexp /pair /eigfun /svdfun /righteig /= adjmxK.
  by rewrite !mulmxA.
rewrite -[gr_exp _ _ _ _]/((multiqr_tall qr Y).1) multiqr_id // E.
by apply: (pair_orthonormal (hx i) (hv i) (svdP _) sin00) => z; apply: cos2sin2.
Qed.
Lemma gr_logE x y i : gr_log svd x y i = grlog (svd (grlogB (x i) (y i))).
Proof.
rewrite /gr_log stack_mul scale_columnsE /grlog /svdfun.
set a := multihconj _ i; have -> : a = grlogB (x i) (y i) by rewrite /a stack_hconj ffunE stackB !stack_mul !stack_hconj.
by rewrite !ffunE.
Qed.
Lemma gr_distE x y : gr_dist svdp x y ^+ 2 = \sum_i gdist2 (svdp ((x i)^H *m y i)).
Proof.
rewrite /gr_dist sqr_sqrtr; last by apply: sumr_ge0 => i _; apply: sumr_ge0 => c _; apply: sqr_ge0.
by apply: eq_bigr => i _; rewrite stack_mul stack_hconj.
Qed.
Lemma gr_dist_ge0 x y : 0 <= gr_dist svdp x y. Proof. exact: sqrtr_ge0. Qed.
Lemma gdist2_ge0 (w : 'M[F]_p * 'rV[RR]_p * 'M[F]_p) : 0 <= gdist2 w. Proof. by apply: sumr_ge0 => i _; apply: sqr_ge0. Qed.
Lemma gr_dist_eq x y x' y' : (forall i, gdist2 (svdp ((x i)^H *m y i)) = gdist2 (svdp ((x' i)^H *m y' i))) ->
  gr_dist svdp x y = gr_dist svdp x' y'.
Proof.
move=> H; apply/eqP; rewrite -(@eqr_expn2 _ 2) ?gr_dist_ge0 // !gr_distE; apply/eqP; apply: eq_bigr => i _; exact: H.
Qed.

(** Exponential, with any singular value decompositions and QR factorisations *)
Theorem C68_exp x v : on_grassmann x -> grassmann_horizontal x v ->
  on_grassmann (gr_exp svd qr x v) /\ gr_exp svd qr x (gr_zero_vector x) = x /\
  ((forall i c, (svd (v i)).1.2 ord0 c <= PI / 2%:R) -> gr_dist svdp x (gr_exp svd qr x v) = gr_norm x v).
Proof.
move=> hx hv; split.
  move=> i; rewrite gr_expE //; apply: (pair_orthonormal (hx i) (hv i) (svdP _) sin00) => z; exact: cos2sin2.
split.
  have h0 : grassmann_horizontal x (gr_zero_vector x) by case: (grassmann_subspace x).
  apply/ffunP => i; rewrite gr_expE // (@grexp_curve _ _ _ (x i) (v i) (svd (v i)) _ 0) //; first exact: grcurve0 (svdP _).
  by rewrite /rscale rmorph0 scale0r /gr_zero_vector stack0; apply: svdP.
move=> B; apply/eqP; rewrite -(@eqr_expn2 _ 2) ?gr_dist_ge0 ?sqrtr_ge0 // gr_distE.
rewrite /gr_norm np_normE (norm_sqr (@sinner_ips RR F k n p)) /sinner; apply/eqP; apply: eq_bigr => i _.
by rewrite gr_expE //; apply: (gdist2_exp (hx i) (hv i) (svdP (v i)) (B i) (svdpP _)).
Qed.
(** Logarithm: if no direction of one subspace is orthogonal to the other, [log] leads to the other subspace and is
    as long as the distance. *)
Theorem C68_log x y : on_grassmann x -> on_grassmann y -> (forall i, (y i)^H *m x i \in unitmx) ->
  grassmann_horizontal x (gr_log svd x y) /\
  same_subspaces y (gr_exp svd qr x (gr_log svd x y)) /\
  gr_norm x (gr_log svd x y) = gr_dist svdp x y.
Proof.
move=> hx hy U.
have H : grassmann_horizontal x (gr_log svd x y).
  by move=> i; rewrite gr_logE; apply: (grlog_horizontal (hx i) (U i) (svdP _)).
split; first exact: H.
split.
  move=> i; rewrite gr_expE //.
  apply: (grexp_log_span (hx i) (hy i) (U i) (svdP _)); rewrite -gr_logE; exact: svdP.
apply/eqP; rewrite -(@eqr_expn2 _ 2) ?gr_dist_ge0 ?sqrtr_ge0 // gr_distE.
rewrite /gr_norm np_normE (norm_sqr (@sinner_ips RR F k n p)) /sinner; apply/eqP; apply: eq_bigr => i _.
by rewrite gr_logE (grlog_norm (hx i) (hy i) (U i) (svdP _) (svdpP _)).
Qed.
(** Distance: between subspaces, not representatives *)
Theorem C68_dist x y : on_grassmann x -> on_grassmann y ->
  (forall x' y', same_subspaces x x' -> same_subspaces y y' -> gr_dist svdp x' y' = gr_dist svdp x y) /\
  0 <= gr_dist svdp x y /\ gr_dist svdp x y = gr_dist svdp y x /\
  (gr_dist svdp x y = 0 <-> same_subspaces x y).
Proof.
move=> hx hy; split.
  move=> x' y' Sx Sy; apply: gr_dist_eq => i; have [P PP Ex] := Sx i; have [Q QQ Ey] := Sy i.
  rewrite Ex Ey (gdist2_right QQ (svdpP ((x i *m P)^H *m y i))) //.
  exact: (gdist2_left PP (svdpP ((x i)^H *m y i))).
split; first exact: gr_dist_ge0.
split; first by apply: gr_dist_eq => i; apply: (gdist2_sym (svdpP _) (svdpP _)).
split.
  move=> D i; apply/(gdist2_eq0 (hx i) (hy i) (svdpP _)).
  have : gr_dist svdp x y ^+ 2 = 0 by rewrite D expr0n.
  rewrite gr_distE => /eqP; rewrite psumr_eq0 => [/allP /(_ i (mem_index_enum _)) /eqP //|j _].
  exact: gdist2_ge0.
move=> S; apply/eqP; rewrite -(@sqrf_eq0 RR) gr_distE big1 // => i _.
exact/(gdist2_eq0 (hx i) (hy i) (svdpP _)).
Qed.

(** ** C88: the curves [t -> exp(x, t v)] are geodesics *)
Theorem C88_geodesic x v : on_grassmann x -> grassmann_horizontal x v ->
  exists velocity : RR -> array,
    velocity 0 = v /\
    (forall t, derives scale dot (fun s => gr_exp svd qr x (scale (t + s) v)) (velocity t)) /\
    (forall t, grassmann_horizontal (gr_exp svd qr x (scale t v)) (velocity t)) /\
    (forall t, gr_norm (gr_exp svd qr x (scale t v)) (velocity t) = gr_norm x v) /\
    (forall t, exists2 a, derives scale dot (fun s => velocity (t + s)) a &
       forall w, grassmann_horizontal (gr_exp svd qr x (scale t v)) w -> gr_inner_product x a w = 0).
Proof.
move=> hx hv.
have hs t : grassmann_horizontal x (scale t v) by case: (grassmann_subspace x) => _ [_]; apply.
have C t i : gr_exp svd qr x (scale t v) i = grcurve (x i) (svd (v i)) t.
  by rewrite gr_expE //; apply: (grexp_curve _ (svdP (v i))); rewrite stackZ; apply: svdP.
exists (fun t => [ffun i => grvel (x i) (svd (v i)) t]); split.
  by apply/ffunP => i; rewrite ffunE (grvel0 _ (svdP _)).
split.
  move=> t; apply: stack_derives => i; rewrite ffunE.
  by apply: derives_ext (grcurve_velocity (x i) (svd (v i)) t) => s; rewrite C.
split.
  by move=> t i; rewrite C ffunE; apply: (grvel_horizontal (hx i) (hv i) (svdP _)).
split.
  move=> t; congr Num.sqrt; rewrite -!/(sinner _ _) /sinner; apply: eq_bigr => i _; rewrite ffunE.
  exact: (grvel_norm (hx i) (hv i) (svdP _)).
move=> t; exists [ffun i => - (grcurve (x i) (svd (v i)) t *m ((v i)^H *m v i))].
  apply: stack_derives => i; rewrite ffunE.
  by apply: derives_ext (grcurve_acceleration (x i) (svdP (v i)) t) => s; rewrite ffunE.
move=> w hw; rewrite gr_innerE /sinner big1 // => i _; rewrite ffunE innerNl inner_mull -C hw inner0r oppr0 //.
Qed.
End Exp.

(** *** The hypotheses above are met, for real and for complex matrices *)
Lemma grassmann_library (F : starField RR) (n p : nat) : has_eigenvectors F -> (p <= n)%N ->
  (exists qr : 'M[F]_(n, p) -> 'M[F]_(n, p) * 'M[F]_p, forall A, valid_qr A (qr A)) /\
  (exists svd : 'M[F]_(n, p) -> 'M[F]_(n, p) * 'rV[RR]_p * 'M[F]_p, forall A, valid_svd A (svd A)) /\
  (exists svdp : 'M[F]_p -> 'M[F]_p * 'rV[RR]_p * 'M[F]_p, forall A, valid_svd A (svdp A)).
Proof.
move=> EV pn; split; first exact: qr_function.
by split; apply: svd_function.
Qed.
Section Instance.
Variables (F : starField RR).
Let X : 'M[F]_(3, 2) := \matrix_(i, j) (i == j :> nat)%:R.
Let V : 'M[F]_(3, 2) := \matrix_(i, j) ((i == 2 :> nat)%N && (j == 0 :> nat)%N)%:R.
Lemma grassmann_point : has_eigenvectors F -> exists (x v : stack F 2 3 2) (qr : 'M[F]_(3, 2) -> 'M[F]_(3, 2) * 'M[F]_2)
    (svd : 'M[F]_(3, 2) -> 'M[F]_(3, 2) * 'rV[RR]_2 * 'M[F]_2) (svdp : 'M[F]_2 -> 'M[F]_2 * 'rV[RR]_2 * 'M[F]_2),
  (forall A, valid_qr A (qr A)) /\ (forall A, valid_svd A (svd A)) /\ (forall A, valid_svd A (svdp A)) /\
  on_grassmann x /\ grassmann_horizontal x v /\ v != 0 /\
  (forall i, (gr_exp svd qr x 0 i)^H *m x i \in unitmx).
Proof.
move=> EV.
have conj01 (b : bool) : sf_conj (b%:R : F) = b%:R by case: b; rewrite ?rmorph1 ?rmorph0.
have OX : X^H *m X = 1%:M.
  apply/matrixP => i j; rewrite !mxE !big_ord_recl big_ord0 !mxE !conj01 /=.
  by case: i => -[|[|]] // ?; case: j => -[|[|]] // ?; rewrite /= ?mulr0 ?mul0r ?mulr1 ?addr0 ?add0r.
have XV : X^H *m V = 0.
  apply/matrixP => i j; rewrite !mxE !big_ord_recl big_ord0 !mxE !conj01 /=.
  by case: i => -[|[|]] // ?; case: j => -[|[|]] // ?; rewrite /= ?mulr0 ?mul0r ?mulr1 ?addr0 ?add0r.
have V0 : V != 0.
  by apply/eqP => /matrixP /(_ (inord 2) 0) /eqP; rewrite !mxE !inordK //= oner_eq0.
have [[qr qrP] [[svd svdP] [svdp svdpP]]] := @grassmann_library F 3 2 EV isT.
have hx : on_grassmann ([ffun _ => X] : stack F 2 3 2) by move=> i; rewrite ffunE.
have hv : grassmann_horizontal ([ffun _ => X] : stack F 2 3 2) [ffun _ => V] by move=> i; rewrite !ffunE.
exists [ffun _ => X], [ffun _ => V], qr, svd, svdp; split; first exact: qrP.
split; first exact: svdP.
split; first exact: svdpP.
split; first exact: hx.
split; first exact: hv.
split.
  apply: contra V0 => /eqP H; apply/eqP.
  by have := congr1 (fun f : stack F 2 3 2 => f ord0) H; rewrite !ffunE.
move=> i; have [_ [E _]] := C68_exp qrP svdP svdpP hx hv.
have E0 : (0 : stack F 2 3 2) = gr_zero_vector [ffun _ => X] by [].
by rewrite E0 E (hx i) unitmx1.
Qed.
End Instance.
Example grassmann_instance (F := RF) : exists (x v : stack F 2 3 2) (qr : 'M[F]_(3, 2) -> 'M[F]_(3, 2) * 'M[F]_2)
    (svd : 'M[F]_(3, 2) -> 'M[F]_(3, 2) * 'rV[RR]_2 * 'M[F]_2) (svdp : 'M[F]_2 -> 'M[F]_2 * 'rV[RR]_2 * 'M[F]_2),
  (forall A, valid_qr A (qr A)) /\ (forall A, valid_svd A (svd A)) /\ (forall A, valid_svd A (svdp A)) /\
  on_grassmann x /\ grassmann_horizontal x v /\ v != 0 /\
  (forall i, (gr_exp svd qr x 0 i)^H *m x i \in unitmx).
Proof. exact (@grassmann_point RF (@real_has_eigenvectors RR)). Qed.
Example complex_grassmann_instance (F := complex_star R_rcfType) : exists (x v : stack F 2 3 2) (qr : 'M[F]_(3, 2) -> 'M[F]_(3, 2) * 'M[F]_2)
    (svd : 'M[F]_(3, 2) -> 'M[F]_(3, 2) * 'rV[RR]_2 * 'M[F]_2) (svdp : 'M[F]_2 -> 'M[F]_2 * 'rV[RR]_2 * 'M[F]_2),
  (forall A, valid_qr A (qr A)) /\ (forall A, valid_svd A (svd A)) /\ (forall A, valid_svd A (svdp A)) /\
  on_grassmann x /\ grassmann_horizontal x v /\ v != 0 /\
  (forall i, (gr_exp svd qr x 0 i)^H *m x i \in unitmx).
Proof. exact (@grassmann_point (complex_star RR) (@complex_has_eigenvectors RR)). Qed.
