(** Property C65 (and C61, C80 for this manifold) of src/pymanopt/manifolds/oblique.py *)
From Coq Require Import Reals Lra.
From mathcomp Require Import all_ssreflect all_algebra.
From Coq Require Import Ring Field.
From Verif Require Import Rstruct MCRing Mat_Base Geometry_Spec Calculus Components Sphere_Model Sphere_Proofs Sphere_Props.
From Verif Require Import Oblique_Model.
Set Implicit Arguments.
Unset Strict Implicit.
Unset Printing Implicit Defensive.
Import GRing.Theory Num.Theory Order.TTheory.
Local Open Scope ring_scope.
Delimit Scope R_scope with Re.

(** ** Specification: every column is on the sphere; a vector is tangent if every column is tangent. *)
Section Spec.
Variables (m n : nat).
Local Notation array := 'M[RF]_(m, n).
Definition unit_columns (x : array) : Prop := forall j, \sum_i x i j ^+ 2 = 1.
Definition columns_tangent (x v : array) : Prop := forall j, \sum_i x i j * v i j = 0.
End Spec.

Section Oblique.
Variables (m n : nat).
Local Notation array := 'M[RF]_(m, n).
Local Notation scale := (@rscale RR RF m n).
Local Notation dot := (@inner RR RF m n).
Local Notation J := (@inner_ips RR RF m n).
Local Notation I := (@inner_ips RR RF m 1).
Implicit Types x y v w : array.
Add Ring RR_ring : (mc_ring RR).

Lemma colB j (u v : array) : col j (u - v) = col j u - col j v.
Proof. by apply/colP => i; rewrite !mxE. Qed.
Lemma colD j (u v : array) : col j (u + v) = col j u + col j v.
Proof. by apply/colP => i; rewrite !mxE. Qed.
Lemma colZ j a (u : array) : col j (scale a u) = @rscale RR RF m 1 a (col j u).
Proof. by apply/colP => i; rewrite !mxE. Qed.
Lemma coldot (u v : array) : dot u v = \sum_j inner (col j u) (col j v).
Proof.
rewrite /inner exchange_big; apply: eq_bigr => j _; apply: eq_bigr => i _.
by rewrite big_ord1 !mxE.
Qed.
Lemma col_inj (u v : array) : (forall j, col j u = col j v) -> u = v.
Proof. exact: (comp_inj J coldot). Qed.
Lemma unit_columnsE x : unit_columns x <-> forall j, on_sphere (col j x).
Proof.
have E j : \sum_i x i j ^+ 2 = \sum_i \sum_(k < 1) col j x i k ^+ 2.
  by apply: eq_bigr => i _; rewrite big_ord1 mxE.
by split=> H j; have := H j; rewrite /on_sphere E.
Qed.
Lemma columns_tangentE x v : columns_tangent x v <-> forall j, sphere_tangent (col j x) (col j v).
Proof.
have E j : \sum_i x i j * v i j = \sum_i \sum_(k < 1) col j x i k * col j v i k.
  by apply: eq_bigr => i _; rewrite big_ord1 !mxE.
by split=> H j; have := H j; rewrite /sphere_tangent E.
Qed.
Lemma col_dots j x v : column_dots x v 0 j = inner (col j x) (col j v).
Proof. by rewrite mxE; apply: eq_bigr => i _; rewrite big_ord1 !mxE. Qed.
Lemma col_norm j v : Num.sqrt (\sum_i (v i j ^+ 2)) = np_fnorm (col j v).
Proof. by congr Num.sqrt; apply: eq_bigr => i _; rewrite big_ord1 !mxE. Qed.

(** ** Column by column the operations are those of the sphere *)
Lemma col_projection j x v : col j (ob_projection x v) = sp_projection (col j x) (col j v).
Proof. by apply/colP => i; rewrite !mxE -/(column_dots x v 0 j); have := col_dots j x v; rewrite mxE => ->; rewrite mulrC. Qed.
Lemma col_exp j x v : col j (ob_exp x v) = sp_exp (col j x) (col j v).
Proof. by apply/colP => i; rewrite /sp_exp /sp_norm -col_norm !mxE mulrC [X in _ + X]mulrC. Qed.
Lemma col_normalize j x : col j (ob_normalize_columns x) = sp_normalize (col j x).
Proof. by apply/colP => i; rewrite /sp_normalize -col_norm !mxE mulrC. Qed.
Lemma col_retraction j x v : col j (ob_retraction x v) = sp_retraction (col j x) (col j v).
Proof. by rewrite col_normalize colD. Qed.
Lemma col_pair_mean j x y : col j (ob_pair_mean x y) = sp_pair_mean (col j x) (col j y).
Proof. by rewrite col_normalize colD. Qed.
Lemma col_log j x y : unit_columns x -> unit_columns y ->
  col j (ob_log x y) = sp_log (@sp_projection m 1) (col j x) (col j y).
Proof.
move=> /unit_columnsE hx /unit_columnsE hy.
rewrite /ob_log /sp_log distE // -colB -col_projection /sp_norm -col_norm -col_dots.
by apply/colP => i; rewrite !mxE mulrC.
Qed.
Lemma ob_distE x y : unit_columns x -> unit_columns y -> ob_dist x y = l2 (fun j => sp_dist (col j x) (col j y)).
Proof.
move=> /unit_columnsE hx /unit_columnsE hy; rewrite /ob_dist /np_fnorm big_ord1; congr Num.sqrt.
apply: eq_bigr => j _; rewrite mxE distE // mxE -/(column_dots x y 0 j) col_dots.
have [_ /RlePx] := dot_unit I ((on_sphereE _).1 (hx j)) ((on_sphereE _).1 (hy j)).
by case: ltP => // H1 H2; rewrite (_ : inner _ _ = 1) //; apply/eqP; rewrite eq_le H2 ltW.
Qed.
Theorem C65_columns x y v : unit_columns x -> unit_columns y -> forall j,
  col j (ob_projection x v) = sp_projection (col j x) (col j v) /\
  col j (ob_exp x v) = sp_exp (col j x) (col j v) /\
  col j (ob_retraction x v) = sp_retraction (col j x) (col j v) /\
  col j (ob_pair_mean x y) = sp_pair_mean (col j x) (col j y) /\
  col j (ob_log x y) = sp_log (@sp_projection m 1) (col j x) (col j y) /\
  col j (ob_random_point v) = sp_random_point (col j v) /\
  ob_dist x y ^+ 2 = \sum_i sp_dist (col i x) (col i y) ^+ 2.
Proof.
move=> hx hy j; rewrite col_projection col_exp col_retraction col_pair_mean col_log // col_normalize ob_distE //.
by rewrite l2_sqr.
Qed.

(** ** The projection is the orthogonal projection, the gradient is represented. *)
Lemma tangent_ob_subspace x : real_subspace scale (columns_tangent x).
Proof.
have := subspace_comp colB colZ (fun j => tangent_subspace (col j x)) => -[T0 [TD TZ]].
split; first by apply/columns_tangentE.
split; first by move=> u v /columns_tangentE hu /columns_tangentE hv; apply/columns_tangentE; apply: TD.
by move=> a u /columns_tangentE hu; apply/columns_tangentE; apply: TZ.
Qed.
Lemma ob_projects x v : unit_columns x -> projects_to dot (columns_tangent x) v (ob_projection x v).
Proof.
move=> /unit_columnsE hx.
have [T [E O]] : projects_to dot (fun u => forall j, sphere_tangent (col j x) (col j u)) v (ob_projection x v).
  apply: (projects_to_comp (dot := @inner RR RF m 1) J colB coldot (T := fun j => sphere_tangent (col j x))) => j.
  by rewrite col_projection; case: (C57_projection (col j v) (hx j)).
split; first exact/columns_tangentE.
by split=> [/columns_tangentE/E|t /columns_tangentE /O].
Qed.
Theorem C65_projection x v : unit_columns x ->
  projects_to dot (columns_tangent x) v (ob_projection x v) /\
  nearest_in dot (columns_tangent x) v (ob_projection x v) /\
  ob_to_tangent_space x v = ob_projection x v /\
  inner_product_on scale (columns_tangent x) (ob_inner_product x) /\
  (forall u, ob_norm x u = Num.sqrt (ob_inner_product x u u)) /\
  represents_gradient dot (columns_tangent x) (ob_inner_product x) v (ob_gradient x v) /\
  (forall y, unit_columns y -> projects_to dot (columns_tangent y) v (ob_transport x y v)).
Proof.
move=> hx; have P := ob_projects v hx; split=> //; split.
  apply: (projects_to_nearest J (tangent_ob_subspace x) _ P) => u /columns_tangentE hu.
  by apply/columns_tangentE => j; rewrite -[- u]sub0r colB (_ : col j 0 = 0) ?sub0r; [exact: tangentN|apply/colP => i; rewrite !mxE].
split=> //; split.
  split; first by move=> a b _ _; apply: (dotC J).
  split; first by move=> a b c _ _ _; apply: (dotDl J).
  split; first by move=> a b c _ _; apply: (dotZl J).
  by move=> u _; apply: (dot_gt0 J).
split; first by move=> u; rewrite /ob_norm np_fnormE.
split; first exact: (projection_represents J (T := columns_tangent x) P).
by move=> y hy; apply: ob_projects.
Qed.

(** ** Retraction and exponential map *)
Theorem C65_retraction x v : unit_columns x -> columns_tangent x v ->
  unit_columns (ob_retraction x v) /\ first_order dot (columns_tangent x) x (ob_retraction x).
Proof.
move=> /unit_columnsE hx /columns_tangentE hv; split.
  by apply/unit_columnsE => j; rewrite col_retraction; case: (C58_retraction (hx j) (hv j)).
apply: (first_order_comp I J colB coldot (C := 1) (r := 1)); try exact: ler01; try exact: ltr01.
  by case: (tangent_ob_subspace x).
move=> j w /columns_tangentE hw _; rewrite col_retraction /sp_retraction normalizeE.
exact: (unormalize_quadratic I ((on_sphereE _).1 (hx j)) ((sphere_tangentE _ _).1 (hw j))).
Qed.
Theorem C65_exp x v : unit_columns x -> columns_tangent x v ->
  unit_columns (ob_exp x v) /\ first_order dot (columns_tangent x) x (ob_exp x) /\
  ob_exp x (ob_zero_vector x) = x /\
  ((forall j, np_fnorm (col j v) <= PI) -> ob_dist x (ob_exp x v) = ob_norm x v).
Proof.
move=> hx' hv'; have /unit_columnsE hx := hx'; have /columns_tangentE hv := hv'.
have U : unit_columns (ob_exp x v).
  by apply/unit_columnsE => j; rewrite col_exp; case: (C58_exp (hx j) (hv j)).
split=> //; split.
  apply: (first_order_comp I J colB coldot (C := 1) (r := 1)); try exact: ler01; try exact: ltr01.
    by case: (tangent_ob_subspace x).
  by move=> j w _ w1; rewrite col_exp expE; apply: (uexp_quadratic I ((on_sphereE _).1 (hx j))).
split.
  apply: col_inj => j; rewrite col_exp (_ : col j (ob_zero_vector x) = sp_zero_vector (col j x)); last by apply/colP => i; rewrite !mxE.
  by case: (C58_exp (hx j) (hv j)) => _ [_ []].
move=> H; rewrite ob_distE // /ob_norm np_fnormE (normW_l2 I coldot); congr Num.sqrt; apply: eq_bigr => j _.
rewrite col_exp; case: (C58_exp (hx j) (hv j)) => _ [_ [_ E]].
by rewrite E ?/sp_norm ?H // np_fnormE.
Qed.
Theorem C65_geodesic x v : unit_columns x -> columns_tangent x v ->
  exists velocity : RR -> array,
    velocity 0 = v /\
    (forall t, derives scale dot (fun h => ob_exp x (scale (t + h) v)) (velocity t)) /\
    (forall t j, np_fnorm (col j (velocity t)) = np_fnorm (col j v)) /\
    (* the acceleration is orthogonal to all tangent vectors at the current point *)
    (forall t, exists2 a, derives scale dot (fun h => velocity (t + h)) a &
       forall w, columns_tangent (ob_exp x (scale t v)) w -> ob_inner_product x a w = 0).
Proof.
move=> /unit_columnsE hx /columns_tangentE hv.
pose vel t : array := \matrix_(i, j) uvel (@rscale RR RF m 1) (@inner RR RF m 1) (col j x) (col j v) t i 0.
exists vel.
have CV t j : col j (vel t) = uvel (@rscale RR RF m 1) (@inner RR RF m 1) (col j x) (col j v) t by apply/colP => i; rewrite !mxE.
split; first by apply: col_inj => j; rewrite CV (uvel0 I).
split.
  move=> t; apply: (derives_comp I colB colZ coldot) => j; rewrite CV.
  by apply: (derives_ext _ (uexp_velocity I (col j x) (col j v) t)) => h; rewrite col_exp colZ expE.
split.
  by move=> t j; rewrite CV !np_fnormE /norm_of (uvel_norm I _ ((on_sphereE _).1 (hx j)) ((sphere_tangentE _ _).1 (hv j))).
move=> t; exists (\matrix_(i, j) (- (norm_of (@inner RR RF m 1) (col j v) ^+ 2) * ob_exp x (scale t v) i j)).
  apply: (derives_comp I colB colZ coldot) => j.
  have -> : col j (\matrix_(i, j) (- (norm_of (@inner RR RF m 1) (col j v) ^+ 2) * ob_exp x (scale t v) i j)) =
    @rscale RR RF m 1 (- norm_of (@inner RR RF m 1) (col j v) ^+ 2) (uexp (@rscale RR RF m 1) (@inner RR RF m 1) (col j x) (@rscale RR RF m 1 t (col j v))).
    by rewrite -expE -colZ -col_exp; apply/colP => i; rewrite !mxE.
  by apply: (derives_ext _ (uexp_acceleration I (col j x) (col j v) t)) => h; rewrite CV.
move=> w Hw; rewrite /ob_inner_product exchange_big big1 // => j _.
transitivity (- norm_of (@inner RR RF m 1) (col j v) ^+ 2 * \sum_i ob_exp x (scale t v) i j * w i j); last by rewrite Hw mulr0.
by rewrite mulr_sumr; apply: eq_bigr => i _; rewrite mxE mulrA.
Qed.

(** ** Distance, mean, logarithm *)
Theorem C65_metric : metric_on (@unit_columns m n) (@ob_dist m n).
Proof.
have [M0 [M1 [M2 M3]]] := metric_comp J coldot (proj1 (C59_metric m 1)).
split; first by move=> x y hx hy; rewrite ob_distE //; apply: M0; apply/unit_columnsE.
split; first by move=> x y hx hy; rewrite ob_distE //; apply: M1; apply/unit_columnsE.
split; first by move=> x y hx hy; rewrite !ob_distE //; apply: M2; apply/unit_columnsE.
by move=> x y z hx hy hz; rewrite !ob_distE //; apply: M3; apply/unit_columnsE.
Qed.
Theorem C65_pair_mean x y : unit_columns x -> unit_columns y -> (forall j, col j x != - col j y) ->
  unit_columns (ob_pair_mean x y) /\ ob_dist x (ob_pair_mean x y) = ob_dist x y / 2%:R /\
  ob_dist y (ob_pair_mean x y) = ob_dist x y / 2%:R.
Proof.
move=> hx' hy' N; have /unit_columnsE hx := hx'; have /unit_columnsE hy := hy'.
have U : unit_columns (ob_pair_mean x y).
  by apply/unit_columnsE => j; rewrite col_pair_mean; case: (C59_pair_mean (hx j) (hy j) (N j)).
have h0 : 0 <= 2%:R^-1 :> RR by rewrite invr_ge0 ler0n.
split=> //; rewrite !ob_distE // mulrC -l2Z //; split; congr Num.sqrt; apply: eq_bigr => j _; rewrite col_pair_mean;
  by have [_ [E1 E2]] := C59_pair_mean (hx j) (hy j) (N j); rewrite ?E1 ?E2 mulrC.
Qed.
Theorem C65_log x y : unit_columns x -> unit_columns y ->
  columns_tangent x (ob_log x y) /\
  (forall j, let d := sp_dist (col j x) (col j y) in
     np_fnorm (col j (ob_exp x (ob_log x y)) - col j y) <= float_eps * (d - sin d) / (sin d + float_eps)) /\
  (ob_exp x (ob_log x y) = y <-> x = y).
Proof.
move=> hx' hy'; have /unit_columnsE hx := hx'; have /unit_columnsE hy := hy'.
split; first by apply/columns_tangentE => j; rewrite col_log //; case: (C60_log_almost_inverts_exp (hx j) (hy j)).
split; first by move=> j; cbv zeta; rewrite col_exp col_log //; case: (C60_log_almost_inverts_exp (hx j) (hy j)) => _ [].
split=> H; apply: col_inj => j; [apply/(C60_exact_inversion_refuted (hx j) (hy j)) | rewrite col_exp col_log //; apply/(C60_exact_inversion_refuted (hx j) (hy j))]; last by rewrite H.
by rewrite -col_log // -col_exp H.
Qed.

(** ** C61 *)
Lemma col_hessian j x g h v : unit_columns x ->
  col j (ob_hessian x g h v) = sp_hessian (@sp_projection m 1) (col j x) (col j g) (col j h) (col j v).
Proof.
move=> /unit_columnsE hx; rewrite /ob_hessian colB col_projection /sp_hessian /sp_weingarten; congr (_ + _).
have -> : sp_inner_product (col j x) (col j x) (col j g - sp_projection (col j x) (col j g)) = inner (col j x) (col j g).
  by rewrite sp_innerE (dotBr I) (uproj_tangent I _ ((on_sphereE _).1 (hx j))) subr0.
by rewrite -col_dots; apply/colP => i; rewrite !mxE mulNr [in RHS]mulrC.
Qed.
Theorem C61_oblique x g h v : unit_columns x -> columns_tangent x v ->
  columns_tangent x (ob_hessian x g h v) /\
  (forall h' v', columns_tangent x v' -> dot h v' = dot h' v ->
    ob_inner_product x (ob_hessian x g h v) v' = ob_inner_product x (ob_hessian x g h' v') v) /\
  (forall c e : RR -> array, c 0 = x -> derives scale dot c v -> e 0 = g -> derives scale dot e h ->
    exists2 w, derives scale dot (fun t => ob_gradient (c t) (e t)) w & ob_hessian x g h v = ob_projection x w).
Proof.
move=> hx' hv'; have /unit_columnsE hx := hx'; have /columns_tangentE hv := hv'.
split.
  by apply/columns_tangentE => j; rewrite col_hessian //; case: (C61_sphere (col j g) (col j h) (hx j) (hv j)).
split.
  move=> h' v' /columns_tangentE hv'' S.
  have P k u : (forall j, sphere_tangent (col j x) (col j u)) -> forall u', (forall j, sphere_tangent (col j x) (col j u')) ->
    ob_inner_product x (ob_hessian x g k u) u' = dot k u' - \sum_j inner (col j x) (col j g) * inner (col j u) (col j u').
    move=> hu u' hu'; rewrite -[LHS]/(dot _ _) !coldot -sumrB; apply: eq_bigr => j _.
    rewrite /ob_hessian colB col_projection projE /uproj !(dotBl I) (dotZl I) ((sphere_tangentE _ _).1 (hu' j)) mulr0 subr0.
    congr (_ - _); rewrite -(col_dots j x g) -(dotZl I); congr (inner _ _).
    by apply/colP => i; rewrite !mxE mulrC.
  rewrite !P // S; congr (_ - _); apply: eq_bigr => j _; congr (_ * _); exact: innerC.
move=> c e c0 Dc e0 De.
pose w : array := \matrix_(i, j) (col j h - ((inner (col j v) (col j g) + inner (col j x) (col j h)) *: col j x + inner (col j x) (col j g) *: col j v)) i 0.
have CW j : col j w = col j h - ((inner (col j v) (col j g) + inner (col j x) (col j h)) *: col j x + inner (col j x) (col j g) *: col j v).
  by apply/colP => i; rewrite !mxE.
have DW j : derives (@rscale RR RF m 1) (@inner RR RF m 1) (fun t => col j (ob_gradient (c t) (e t))) (col j w).
  have Dc' := comp_derives I colB colZ coldot j Dc; have De' := comp_derives I colB colZ coldot j De.
  have D := derives_sub I De' (derives_scale I (derives_dot I Dc' De') Dc').
  by rewrite CW; move: D; rewrite c0 e0; apply: derives_ext => t; rewrite /ob_gradient col_projection.
exists w; first exact: (derives_comp I colB colZ coldot).
apply: col_inj => j; rewrite col_hessian // col_projection.
have [_ [_ K]] := C61_sphere (col j g) (col j h) (hx j) (hv j).
have [w' Dw' ->] := K (fun t => col j (c t)) (fun t => col j (e t)) (congr1 (col j) c0) (comp_derives I colB colZ coldot j Dc) (congr1 (col j) e0) (comp_derives I colB colZ coldot j De).
congr (sp_projection _ _); apply: (derives_unique I Dw').
by apply: derives_ext (DW j) => t; rewrite /ob_gradient col_projection.
Qed.

(** ** C80 *)
Theorem C80_oblique x draw : unit_columns x ->
  ((forall j, col j draw != 0) -> unit_columns (ob_random_point draw)) /\
  (ob_projection x draw != 0 ->
    columns_tangent x (ob_random_tangent_vector x draw) /\ ob_norm x (ob_random_tangent_vector x draw) = 1).
Proof.
move=> hx; split.
  move=> H; apply/unit_columnsE => j; rewrite col_normalize; apply/on_sphereE.
  by rewrite normalizeE (unormalize_unit I).
move=> H; have -> : ob_random_tangent_vector x draw = sp_normalize (ob_projection x draw).
  by apply/matrixP => i j; rewrite /sp_normalize !mxE mulrC.
split; last by rewrite /ob_norm np_fnormE normalizeE (norm_unit (unormalize_unit J H)).
have [T _] := ob_projects draw hx; have [_ [_ Z]] := tangent_ob_subspace x.
exact: (Z _ _ T).
Qed.
End Oblique.

(** ** The hypotheses are met *)
Example oblique_instance : let x : 'M[RF]_2 := 1%:M in
  let v : 'M[RF]_2 := \matrix_(i, j) (if i == j then 0 else 1) in
  let y : 'M[RF]_2 := \matrix_(i, j) (if i == j then 0 else 1) in
  unit_columns x /\ columns_tangent x v /\ v != 0 /\ unit_columns y /\ (forall j, col j x != - col j y) /\ x != y.
Proof.
move=> x v y.
have N (a b : 'M[RF]_2) i j : a i j <> b i j -> a != b by move=> H; apply/eqP => E; apply: H; rewrite E.
split; first by move=> j; rewrite !big_ord_recl big_ord0 !mxE; case: j => -[|[|j]] // hj; rewrite /=; Rify; ring.
split; first by move=> j; rewrite !big_ord_recl big_ord0 !mxE; case: j => -[|[|j]] // hj; rewrite /=; Rify; ring.
split; first by apply: (N _ _ 0 1); rewrite !mxE /=; Rify; lra.
split; first by move=> j; rewrite !big_ord_recl big_ord0 !mxE; case: j => -[|[|j]] // hj; rewrite /=; Rify; ring.
split; last by apply: (N _ _ 0 0); rewrite !mxE /=; Rify; lra.
move=> j; apply/eqP => /colP/(_ j); rewrite !mxE eqxx /= mulr1n oppr0 => /eqP; by rewrite oner_eq0.
Qed.
