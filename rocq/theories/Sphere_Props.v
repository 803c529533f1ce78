(** Properties C57-C60, C62 (and C61, C80 for these manifolds) of src/pymanopt/manifolds/sphere.py *)
From Coq Require Import Reals Lra.
From mathcomp Require Import all_ssreflect all_algebra.
From Coq Require Import Ring Field.
From Verif Require Import Rstruct MCRing Mat_Base Geometry_Spec Linalg_Spec Calculus Sphere_Model Sphere_Proofs.
Set Implicit Arguments.
Unset Strict Implicit.
Unset Printing Implicit Defensive.
Import GRing.Theory Num.Theory Order.TTheory.
Local Open Scope ring_scope.
Delimit Scope R_scope with Re.

(** ** Specification: arrays with sum of squares one; a vector is tangent if it is orthogonal to the point. *)
Section Spec.
Variables (m n : nat).
Local Notation array := 'M[RF]_(m, n).
Definition on_sphere (x : array) : Prop := \sum_i \sum_j x i j ^+ 2 = 1.
Definition sphere_tangent (x v : array) : Prop := \sum_i \sum_j x i j * v i j = 0.
End Spec.

Section Sphere.
Variables (m n : nat).
Local Notation array := 'M[RF]_(m, n).
Local Notation scale := (@rscale RR RF m n).
Local Notation dot := (@inner RR RF m n).
Local Notation I := (@inner_ips RR RF m n).
Local Notation proj := (@sp_projection m n).
Add Ring RR_ring : (mc_ring RR).
Implicit Types x y v w : array.

Lemma sp_innerE x a b : sp_inner_product x a b = dot a b. Proof. by []. Qed.
Lemma np_fnormE x : np_fnorm x = norm_of dot x.
Proof. by congr Num.sqrt; apply: eq_bigr => i _; apply: eq_bigr => j _; rewrite expr2. Qed.
Lemma on_sphereE x : on_sphere x <-> dot x x = 1.
Proof.
rewrite /on_sphere; have -> : dot x x = \sum_i \sum_j x i j ^+ 2; last by [].
by apply: eq_bigr => i _; apply: eq_bigr => j _; rewrite expr2.
Qed.
Lemma sphere_tangentE x v : sphere_tangent x v <-> dot x v = 0. Proof. by []. Qed.
Lemma rscaleE (a : RR) x : a *: x = scale a x. Proof. by []. Qed.
Lemma projE x v : proj x v = uproj scale dot x v. Proof. by []. Qed.
Lemma expE x v : sp_exp x v = uexp scale dot x v.
Proof. by rewrite /sp_exp /sp_norm np_fnormE. Qed.
Lemma normalizeE v : sp_normalize v = unormalize scale dot v.
Proof. by rewrite /sp_normalize np_fnormE. Qed.
Lemma distE x y : on_sphere x -> on_sphere y -> sp_dist x y = acos (dot x y).
Proof. by move=> /on_sphereE hx /on_sphereE hy; rewrite /sp_dist sp_innerE clamp1_id //; apply: (dot_unit I). Qed.
Lemma float_eps_gt0 : 0 < float_eps. Proof. by rewrite invr_gt0 exprn_gt0 // ltr0n. Qed.
Lemma logE x y : on_sphere x -> on_sphere y -> sp_log proj x y = ulog scale dot float_eps x y.
Proof. by move=> hx hy; rewrite /sp_log /sp_norm np_fnormE distE. Qed.
Lemma tangent_subspace x : real_subspace scale (sphere_tangent x).
Proof.
split; first by apply/sphere_tangentE; rewrite (dot0r I).
split; first by move=> u v /sphere_tangentE hu /sphere_tangentE hv; apply/sphere_tangentE; rewrite (dotDr I) hu hv addr0.
by move=> a v /sphere_tangentE hv; apply/sphere_tangentE; rewrite (dotZr I) hv mulr0.
Qed.
Lemma tangentN x v : sphere_tangent x v -> sphere_tangent x (- v).
Proof. by move=> /sphere_tangentE hv; apply/sphere_tangentE; rewrite (dotNr I) hv oppr0. Qed.

(** ** C57 *)
Theorem C57_projection x v : on_sphere x ->
  projects_to dot (sphere_tangent x) v (proj x v) /\ nearest_in dot (sphere_tangent x) v (proj x v) /\
  sp_to_tangent_space x v = proj x v /\
  (forall y, on_sphere y -> projects_to dot (sphere_tangent y) v (sp_transport proj x y v)).
Proof.
have P z : on_sphere z -> projects_to dot (sphere_tangent z) v (proj z v).
  move=> /on_sphereE hz; split; first by apply/sphere_tangentE; apply: (uproj_tangent I).
  split; first by move=> /sphere_tangentE hv; rewrite projE /uproj hv; vring (@inner_ips RR RF m n) RR.
  by move=> t /sphere_tangentE ht; rewrite projE /uproj opprB addrC subrK (dotZl I) ht mulr0.
move=> hx; split; first exact: P.
split; last by split=> // y hy; apply: P.
by apply: (projects_to_nearest I (tangent_subspace x) (@tangentN x)); apply: P.
Qed.
(** The gradient conversion returns the tangent vector that represents the differential; the metric is an inner
    product. *)
Theorem C57_gradient x g : on_sphere x ->
  inner_product_on scale (sphere_tangent x) (sp_inner_product x) /\
  (forall v, sp_norm x v = Num.sqrt (sp_inner_product x v v)) /\
  represents_gradient dot (sphere_tangent x) (sp_inner_product x) g (sp_gradient proj x g).
Proof.
move=> hx; have [P _] := C57_projection g hx; split.
  split; first by move=> u v _ _; apply: (dotC I).
  split; first by move=> u v w _ _ _; apply: (dotDl I).
  split; first by move=> a u v _ _; apply: (dotZl I).
  by move=> u _; apply: (dot_gt0 I).
split; first by move=> v; rewrite sp_innerE /sp_norm np_fnormE.
exact: (projection_represents I (T := sphere_tangent x) P).
Qed.

(** ** C58 *)
Theorem C58_retraction x v : on_sphere x -> sphere_tangent x v ->
  on_sphere (sp_retraction x v) /\ first_order dot (sphere_tangent x) x (sp_retraction x).
Proof.
move=> /on_sphereE hx /sphere_tangentE hv; split.
  by apply/on_sphereE; rewrite /sp_retraction normalizeE (unormalize_unit I) // (add_tangent_neq0 I).
apply: (first_order_quadratic I (C := 1) (r := 1)); try exact: ler01; try exact: ltr01.
  by case: (tangent_subspace x).
by move=> w /sphere_tangentE hw _; rewrite /sp_retraction normalizeE; apply: (unormalize_quadratic I).
Qed.
Theorem C58_exp x v : on_sphere x -> sphere_tangent x v ->
  on_sphere (sp_exp x v) /\ first_order dot (sphere_tangent x) x (sp_exp x) /\
  sp_exp x (sp_zero_vector x) = x /\
  (sp_norm x v <= PI -> sp_dist x (sp_exp x v) = sp_norm x v).
Proof.
move=> hx' hv'; have hx := (on_sphereE x).1 hx'; have hv := (sphere_tangentE x v).1 hv'.
have E : on_sphere (sp_exp x v) by apply/on_sphereE; rewrite expE (uexp_unit I).
split=> //; split.
  apply: (first_order_quadratic I (C := 1) (r := 1)); try exact: ler01; try exact: ltr01.
    by case: (tangent_subspace x).
  by move=> w _ w1; rewrite expE; apply: (uexp_quadratic I).
split; first by rewrite expE (uexp0 I).
by move=> /RlePx; rewrite /sp_norm np_fnormE distE // expE => H; apply: (uexp_angle I).
Qed.
(** The curve [t |-> exp(x, t v)] is a geodesic: its speed is constant and its acceleration is a multiple of the
    position, hence orthogonal to the sphere; at time [0] it has velocity [v]. *)
Theorem C58_geodesic x v : on_sphere x -> sphere_tangent x v ->
  exists velocity : RR -> array,
    velocity 0 = v /\
    (forall t, derives scale dot (fun h => sp_exp x (scale (t + h) v)) (velocity t)) /\
    (forall t, sp_norm x (velocity t) = sp_norm x v) /\
    (forall t, derives scale dot (fun h => velocity (t + h)) (scale (- (sp_norm x v ^+ 2)) (sp_exp x (scale t v)))).
Proof.
move=> /on_sphereE hx /sphere_tangentE hv; exists (uvel scale dot x v); split; first exact: (uvel0 I).
split.
  by move=> t; apply: (derives_ext _ (uexp_velocity I x v t)) => h; rewrite expE.
split; first by move=> t; rewrite /sp_norm !np_fnormE /norm_of (uvel_norm I).
move=> t; rewrite /sp_norm np_fnormE expE; exact: (uexp_acceleration I).
Qed.

(** ** C59 *)
Theorem C59_metric :
  metric_on (@on_sphere m n) (@sp_dist m n) /\
  (forall x y, on_sphere x -> on_sphere y -> 0 <= sp_dist x y <= PI /\ cos (sp_dist x y) = sp_inner_product x x y).
Proof.
have B (x y : array) : 0 <= sp_dist x y <= PI.
  by have [H1 H2] := acos_bound (clamp1 (dot x y)); apply/andP; split; apply/RlePx.
split; last first.
  move=> x y hx hy; split; first exact: B.
  by rewrite distE // (cos_angle I) //; apply/on_sphereE.
split; first by move=> x y _ _; case/andP: (B x y).
split; first by move=> x y hx hy; rewrite distE //; apply: (angle_eq0 I); apply/on_sphereE.
split; first by move=> x y hx hy; rewrite !distE // (dotC I).
by move=> x y z hx hy hz; rewrite !distE //; apply/RlePx; apply: (angle_triangle I); apply/on_sphereE.
Qed.
(** The pair mean of two points that are not antipodal is the midpoint. *)
Theorem C59_pair_mean x y : on_sphere x -> on_sphere y -> x != - y ->
  on_sphere (sp_pair_mean x y) /\
  sp_dist x (sp_pair_mean x y) = sp_dist x y / 2%:R /\ sp_dist y (sp_pair_mean x y) = sp_dist x y / 2%:R.
Proof.
move=> hx hy; rewrite -addr_eq0 => N.
have U : on_sphere (sp_pair_mean x y) by apply/on_sphereE; rewrite /sp_pair_mean normalizeE (unormalize_unit I).
have hx' := (on_sphereE x).1 hx; have hy' := (on_sphereE y).1 hy.
split=> //; split; rewrite !distE // /sp_pair_mean normalizeE.
  by rewrite (pair_mean_angle I) // RdivE.
by rewrite addrC (pair_mean_angle I) // ?(dotC I y x) ?RdivE // addrC.
Qed.

(** ** C60 *)
Theorem C60_log_almost_inverts_exp x y : on_sphere x -> on_sphere y -> let d := sp_dist x y in
  sphere_tangent x (sp_log proj x y) /\
  sp_norm x (sp_exp x (sp_log proj x y) - y) <= float_eps * (d - sin d) / (sin d + float_eps) /\
  d - sp_norm x (sp_log proj x y) = float_eps * (d - sin d) / (sin d + float_eps).
Proof.
move=> hx hy d; have hx' := (on_sphereE x).1 hx; have hy' := (on_sphereE y).1 hy.
split; first by apply/sphere_tangentE; rewrite logE // (ulog_tangent I).
rewrite expE logE // /sp_norm !np_fnormE /d distE //; split.
  by apply/RlePx; rewrite RinvE; apply: (uexp_ulog I hx' hy' float_eps_gt0).
by rewrite RinvE; apply: (ulog_defect I hx' hy' float_eps_gt0).
Qed.
(** Exact inversion fails at every pair of different points. *)
Theorem C60_exact_inversion_refuted x y : on_sphere x -> on_sphere y ->
  sp_exp x (sp_log proj x y) = y <-> x = y.
Proof.
move=> hx hy; have hx' := (on_sphereE x).1 hx; have hy' := (on_sphereE y).1 hy.
rewrite expE logE //; split; first exact: (uexp_ulog_exact I hx' hy' float_eps_gt0).
by move=> <-; rewrite (ulog_self I) // (uexp0 I).
Qed.

(** ** C61: the Hessian conversion *)
Theorem C61_sphere x g h v : on_sphere x -> sphere_tangent x v ->
  (* tangent *)
  sphere_tangent x (sp_hessian proj x g h v) /\
  (* symmetric when the Euclidean Hessian is *)
  (forall h' v', sphere_tangent x v' -> dot h v' = dot h' v ->
    sp_inner_product x (sp_hessian proj x g h v) v' = sp_inner_product x (sp_hessian proj x g h' v') v) /\
  (* the projected derivative of the gradient field along every curve with velocity [v], where the Euclidean
     gradient field has derivative [h] along the curve *)
  (forall c e : RR -> array, c 0 = x -> derives scale dot c v -> e 0 = g -> derives scale dot e h ->
    exists2 w, derives scale dot (fun t => sp_gradient proj (c t) (e t)) w & sp_hessian proj x g h v = proj x w).
Proof.
move=> /on_sphereE hx /sphere_tangentE hv.
have HE u k : dot x u = 0 -> sp_hessian proj x g k u = uproj scale dot x k - scale (dot x g) u.
  move=> hu; rewrite /sp_hessian /sp_weingarten sp_innerE !projE rscaleE.
  have -> : dot x (g - uproj scale dot x g) = dot x g by rewrite (dotBr I) (uproj_tangent I) // subr0.
  by vring (@inner_ips RR RF m n) RR.
split; first by apply/sphere_tangentE; rewrite HE // (dotBr I) (uproj_tangent I) // (dotZr I) hv mulr0 subrr.
split.
  move=> h' v' /sphere_tangentE hv' S; rewrite !sp_innerE !HE // /uproj !(dotBl I) !(dotZl I) hv hv' S (dotC I v' v).
  by rewrite !mulr0.
move=> c e c0 Dc e0 De.
exists (h - (scale (dot v g + dot x h) x + scale (dot x g) v)).
  have D := derives_sub I De (derives_scale I (derives_dot I Dc De) Dc).
  by move: D; rewrite c0 e0.
rewrite HE // projE /uproj (dotBr I) (dotDr I) !(dotZr I) hx hv (dotC I v g).
apply: (dot_inj I) => w; rewrite ?(dotDl I, dotBl I, dotNl I, dotZl I); mcring RR.
Qed.

(** ** C80: random points and tangent vectors, for every draw that can be normalised *)
Theorem C80_sphere x draw : on_sphere x ->
  (draw != 0 -> on_sphere (sp_random_point draw)) /\
  (draw != dot x draw *: x ->
    sphere_tangent x (sp_random_tangent_vector proj x draw) /\ sp_norm x (sp_random_tangent_vector proj x draw) = 1).
Proof.
move=> /on_sphereE hx; split; first by move=> H; apply/on_sphereE; rewrite /sp_random_point normalizeE (unormalize_unit I).
rewrite -subr_eq0 => H; split.
  by apply/sphere_tangentE; rewrite /sp_random_tangent_vector normalizeE (dotZr I) (uproj_tangent I) // mulr0.
by rewrite /sp_norm np_fnormE /sp_random_tangent_vector normalizeE (norm_unit (unormalize_unit I H)).
Qed.
End Sphere.

(** ** C62: the intersection of the sphere with a subspace *)
Section Subspace.
Variables (n : nat).
Local Notation vec := 'cV[RF]_n.
Local Notation scale := (@rscale RR RF n 1).
Local Notation dot := (@inner RR RF n 1).
Local Notation I := (@inner_ips RR RF n 1).
Add Ring RR_ring2 : (mc_ring RR).
Implicit Types x y v w : vec.

Lemma adjmx_real m k (A : 'M[RF]_(m, k)) : A^H = A^T.
Proof. by apply/matrixP => i j; rewrite !mxE. Qed.

(** an orthogonal projector, and the subspace it fixes *)
Definition orthogonal_projector (P : 'M[RF]_n) : Prop := P^T = P /\ P *m P = P.
Variable P : 'M[RF]_n.
Hypothesis HP : orthogonal_projector P.
Local Notation proj := (ss_projection P).
(** the points, and the tangent vectors at a point *)
Definition ss_point x : Prop := on_sphere x /\ P *m x = x.
Definition ss_tangent x v : Prop := sphere_tangent x v /\ P *m v = v.

Lemma dotP (u v : vec) : dot (P *m u) v = dot u (P *m v).
Proof. by rewrite inner_mull adjmx_real HP.1. Qed.
Lemma mulPP (u : vec) : P *m (P *m u) = P *m u. Proof. by rewrite mulmxA HP.2. Qed.
Lemma mulPZ a (u : vec) : P *m scale a u = scale a (P *m u). Proof. by rewrite /rscale -scalemxAr. Qed.
Lemma ss_projE x v : P *m x = x -> proj x v = P *m v - scale (dot x v) x.
Proof. by move=> hx; rewrite /ss_projection projE /uproj mulmxBr mulPZ hx. Qed.
Lemma ss_proj_in x v : P *m proj x v = proj x v. Proof. exact: mulPP. Qed.
Lemma ss_subspace x : real_subspace scale (ss_tangent x).
Proof.
have [T0 [TD TZ]] := tangent_subspace x.
split; first by split=> //; rewrite mulmx0.
split; first by move=> u v [hu pu] [hv pv]; split; [exact: TD|rewrite mulmxDr pu pv].
by move=> a v [hv pv]; split; [exact: TZ|rewrite mulPZ pv].
Qed.
Lemma ss_projects x v : ss_point x -> projects_to dot (ss_tangent x) v (proj x v).
Proof.
move=> [/on_sphereE hx px]; split.
  split; last exact: ss_proj_in.
  by apply/sphere_tangentE; rewrite ss_projE // (dotBr I) -dotP px (dotZr I) hx mulr1 subrr.
split; first by move=> [/sphere_tangentE hv pv]; rewrite ss_projE // pv hv; vring (@inner_ips RR RF n 1) RR.
move=> t [/sphere_tangentE ht pt]; rewrite ss_projE // (dotBl I) (dotBl I) (dotZl I) ht mulr0 subr0 dotP pt; exact: subrr.
Qed.
(** The projection is the orthogonal projection on the tangent space, the gradient conversion and the transport
    follow. *)
Theorem C62_projection x v : ss_point x ->
  projects_to dot (ss_tangent x) v (proj x v) /\ nearest_in dot (ss_tangent x) v (proj x v) /\
  represents_gradient dot (ss_tangent x) (sp_inner_product x) v (sp_gradient proj x v) /\
  (forall y, ss_point y -> projects_to dot (ss_tangent y) v (sp_transport proj x y v)).
Proof.
move=> hx; have Pr := ss_projects v hx; split=> //; split.
  apply: (projects_to_nearest I (ss_subspace x) _ Pr) => u [hu pu].
  by split; [exact: tangentN|rewrite mulmxN pu].
split; first exact: (projection_represents I (T := ss_tangent x) Pr).
by move=> y hy; apply: ss_projects.
Qed.
(** Retraction, exponential map, logarithm and pair mean stay in the subspace and on the sphere, and are those of
    the sphere. *)
Theorem C62_closed x y v : ss_point x -> ss_point y -> ss_tangent x v ->
  ss_point (sp_retraction x v) /\ ss_point (sp_exp x v) /\ (x != - y -> ss_point (sp_pair_mean x y)) /\
  ss_tangent x (sp_log proj x y) /\ sp_log proj x y = sp_log (@sp_projection n 1) x y.
Proof.
move=> [hx px] [hy py] [hv pv].
have N (u : vec) : P *m u = u -> P *m sp_normalize u = sp_normalize u by move=> pu; rewrite /sp_normalize -scalemxAr pu.
split; first by split; [case: (C58_retraction hx hv)|rewrite /sp_retraction N // mulmxDr px pv].
split; first by split; [case: (C58_exp hx hv)|rewrite /sp_exp mulmxDr -!scalemxAr px pv].
split.
  by move=> xy; split; [case: (C59_pair_mean hx hy xy)|rewrite /sp_pair_mean N // mulmxDr px py].
have E : sp_log proj x y = sp_log (@sp_projection n 1) x y.
  rewrite /sp_log; have -> : proj x (y - x) = sp_projection x (y - x) => //.
  by rewrite ss_projE // mulmxBr px py.
split=> //; split; last by rewrite /sp_log -scalemxAr ss_proj_in.
by rewrite E; case: (C60_log_almost_inverts_exp hx hy).
Qed.
(** Random points and tangent vectors, for all draws that can be normalised. *)
Theorem C62_random x draw : ss_point x ->
  (P *m draw != 0 -> ss_point (ss_random_point P draw)) /\
  (proj x draw != 0 -> ss_tangent x (ss_random_tangent_vector P x draw) /\ sp_norm x (ss_random_tangent_vector P x draw) = 1).
Proof.
move=> hx.
have NZ (u : vec) : u != 0 -> sp_normalize u != 0.
  move=> u0; rewrite normalizeE; apply/eqP => H; have := unormalize_unit I u0.
  by rewrite H (dot0l I) => /eqP; rewrite eq_sym oner_eq0.
have N (u : vec) : P *m u = u -> P *m sp_normalize u = sp_normalize u by move=> pu; rewrite /sp_normalize -scalemxAr pu.
split.
  move=> H; rewrite /ss_random_point /sp_random_point.
  have E : P *m sp_normalize draw = (np_fnorm draw)^-1 *: (P *m draw) by rewrite -scalemxAr.
  have D : np_fnorm draw != 0 by rewrite np_fnormE (norm_eq0 I); apply: contra_neq H => ->; rewrite mulmx0.
  split; last by rewrite N // mulPP.
  by apply/on_sphereE; rewrite normalizeE (unormalize_unit I) // E scaler_eq0 invr_eq0 negb_or D.
move=> H; rewrite /ss_random_tangent_vector /sp_random_tangent_vector.
have E : P *m sp_normalize (proj x draw) = sp_normalize (proj x draw) by rewrite N // ss_proj_in.
rewrite E; split.
  split; last by rewrite !N // ss_proj_in.
  have [[/sphere_tangentE T _] _] := ss_projects draw hx.
  by apply/sphere_tangentE; rewrite !normalizeE !(dotZr I) T !mulr0.
by rewrite /sp_norm np_fnormE [X in norm_of _ X]normalizeE (norm_unit (unormalize_unit I (NZ _ H))).
Qed.
(** The Hessian conversion. *)
Theorem C61_sphere_subspace x g h v : ss_point x -> ss_tangent x v ->
  ss_tangent x (sp_hessian proj x g h v) /\
  (forall h' v', ss_tangent x v' -> dot h v' = dot h' v ->
    sp_inner_product x (sp_hessian proj x g h v) v' = sp_inner_product x (sp_hessian proj x g h' v') v) /\
  (forall c e : RR -> vec, c 0 = x -> derives scale dot c v -> e 0 = g -> derives scale dot e h ->
    (forall t, ss_point (c t)) ->
    exists2 w, derives scale dot (fun t => sp_gradient proj (c t) (e t)) w & sp_hessian proj x g h v = proj x w).
Proof.
move=> [/on_sphereE hx px] [/sphere_tangentE hv pv].
have HE u k : dot x u = 0 -> sp_hessian proj x g k u = P *m k - scale (dot x k) x - scale (dot x g) u.
  move=> hu; rewrite /sp_hessian /sp_weingarten sp_innerE !ss_projE // rscaleE.
  have -> : dot x (g - (P *m g - scale (dot x g) x)) = dot x g.
    by rewrite !(dotBr I) -dotP px (dotZr I) hx mulr1 subrr subr0.
  by vring (@inner_ips RR RF n 1) RR.
split.
  split; last by rewrite HE // !mulmxBr mulPP !mulPZ px pv.
  by apply/sphere_tangentE; rewrite HE // !(dotBr I) -dotP px !(dotZr I) hx hv mulr0 mulr1 subrr subr0.
split.
  move=> h' v' [/sphere_tangentE hv' pv'] S; rewrite !sp_innerE !HE // !(dotBl I) !(dotZl I) hv hv' !dotP pv pv' S (dotC I v' v).
  by rewrite !mulr0.
move=> c e c0 Dc e0 De cS.
exists (P *m h - (scale (dot v g + dot x h) x + scale (dot x g) v)).
  have D1 : derives scale dot (fun t => P *m e t) (P *m h).
    by have := derives_mul (derives_const (@inner_ips RR RF n n) P) De; rewrite mul0mx add0r.
  have D := derives_sub I D1 (derives_scale I (derives_dot I Dc De) Dc).
  move: D; rewrite c0 e0; apply: derives_ext => t; rewrite /sp_gradient ss_projE //.
  by case: (cS t).
rewrite HE // ss_projE // mulmxBr mulmxDr !mulPZ mulPP px pv (dotBr I) (dotDr I) !(dotZr I) hx hv (dotC I v g) -dotP px.
apply: (dot_inj I) => w; rewrite ?(dotDl I, dotBl I, dotNl I, dotZl I); mcring RR.
Qed.
(** [to_tangent_space] is the projection of the sphere: it leaves the subspace for every vector outside the
    subspace. *)
Theorem C62_to_tangent_space_refuted x v : ss_point x ->
  ss_tangent x (sp_to_tangent_space x v) <-> P *m v = v.
Proof.
move=> [hx px]; have [[T _] _] := C57_projection v hx; split.
  move=> [_]; rewrite /sp_to_tangent_space projE /uproj mulmxBr mulPZ px => /eqP.
  by rewrite -subr_eq0 opprB addrA subrK subr_eq0 => /eqP.
by move=> pv; split=> //; rewrite /sp_to_tangent_space projE /uproj mulmxBr mulPZ px pv.
Qed.
End Subspace.

(** The projectors of the constructors.  With independent columns they are the orthogonal projectors on the span
    and on its orthogonal complement, whatever valid factorisation the library returns. *)
Section Constructor.
Variables (n r : nat) (A : 'M[RF]_(n, r)) (q : 'M[RF]_(n, r)) (rr : 'M[RF]_r).
Hypothesis QR : valid_qr A (q, rr).
Theorem C62_projectors : orthogonal_projector (ss_projector q) /\ orthogonal_projector (ss_complement_projector q).
Proof.
have [_ [O _]] := QR; rewrite /orthonormal /= adjmx_real in O.
have S : (q *m q^T)^T = q *m q^T by rewrite trmx_mul trmxK.
have M : q *m q^T *m (q *m q^T) = q *m q^T by rewrite mulmxA -(mulmxA q) O mulmx1.
split; split; rewrite /ss_projector /ss_complement_projector //.
  by rewrite linearB /= trmx1 S.
by rewrite mulmxBl mul1mx mulmxBr mulmx1 M subrr subr0.
Qed.
Theorem C62_span (u : 'cV[RF]_n) : \rank A = r -> ss_projector q *m u = u <-> exists z, u = A *m z.
Proof.
have [E [O _]] := QR; rewrite /orthonormal /= adjmx_real in O; rewrite /= in E.
move=> rA; have U : rr \in unitmx.
  by rewrite -row_full_unit /row_full eqn_leq rank_leq_row -{1}rA E mxrankM_maxr.
split; last by move=> [z ->]; rewrite /ss_projector E !mulmxA -(mulmxA q) O mulmx1.
move=> H; exists (invmx rr *m (q^T *m u)).
by rewrite E !mulmxA -(mulmxA q) mulmxV // mulmx1 -[LHS]H.
Qed.
Theorem C62_complement (u : 'cV[RF]_n) : \rank A = r -> ss_complement_projector q *m u = u <-> A^T *m u = 0.
Proof.
have [E [O _]] := QR; rewrite /orthonormal /= adjmx_real in O; rewrite /= in E.
move=> rA; have U : rr \in unitmx.
  by rewrite -row_full_unit /row_full eqn_leq rank_leq_row -{1}rA E mxrankM_maxr.
rewrite /ss_complement_projector mulmxBl mul1mx E trmx_mul -!mulmxA; split.
  move/eqP; rewrite -subr_eq0 addrC addKr oppr_eq0 => /eqP H.
  have {}H : q^T *m (q *m (q^T *m u)) = 0 by rewrite H mulmx0.
  by move: H; rewrite mulmxA O mul1mx => ->; rewrite mulmx0.
move=> H; have {}H : q^T *m u = 0.
  have U' : rr^T \in unitmx by rewrite unitmx_tr.
  by rewrite -[LHS](mulKmx U') H mulmx0.
by rewrite H mulmx0 subr0.
Qed.
(** With dependent columns the manifold is not the intersection with the span: every factorisation with
    orthonormal first factor gives a larger subspace. *)
Theorem C62_dependent_columns_refuted : (\rank A < r)%N ->
  exists u : 'cV[RF]_n, ss_projector q *m u = u /\ ~ exists z, u = A *m z.
Proof.
have [E [O _]] := QR; rewrite /orthonormal /= adjmx_real in O; rewrite /= in E.
move=> rA.
have Q : \rank q^T = r.
  apply/eqP; rewrite eqn_leq rank_leq_row /= -{1}(mxrank1 RF r) -O -mxrank_tr trmx_mul trmxK.
  by rewrite mxrank_tr -[\rank q]mxrank_tr; apply: mxrankM_maxl.
have N : ~~ (q^T <= A^T)%MS by apply/negP => /mxrankS; rewrite Q mxrank_tr leqNgt rA.
have {}N : exists i, ~~ (row i q^T <= A^T)%MS.
  apply/existsP; apply: contraR N; rewrite negb_exists => /forallP H.
  by apply/row_subP => i; have := H i; rewrite negbK.
have [i Hi] := N; exists (col i q); split.
  by rewrite /ss_projector colE !mulmxA -(mulmxA q) O mulmx1.
move=> [z Hz]; case/negP: Hi; rewrite -tr_col Hz trmx_mul; exact: submxMl.
Qed.
End Constructor.

(** ** The hypotheses are met *)
Section Instance.
Definition x0 : 'rV[RF]_2 := \row_j (if j == 0 then 3%:R / 5%:R else 4%:R / 5%:R).
Definition y0 : 'rV[RF]_2 := \row_j (if j == 0 then 1 else 0).
Definition v0 : 'rV[RF]_2 := \row_j (if j == 0 then 4%:R else - 3%:R).
Example sphere_instance :
  on_sphere x0 /\ on_sphere y0 /\ x0 != - y0 /\ x0 != y0 /\ sphere_tangent x0 v0 /\ v0 != 0 /\
  y0 != inner x0 y0 *: x0.
Proof.
have N (a b : 'rV[RF]_2) j : a 0 j <> b 0 j -> a != b by move=> H; apply/eqP => E; apply: H; rewrite E.
split; first by rewrite /on_sphere big_ord1 !big_ord_recl big_ord0 !mxE /=; Rify; field.
split; first by rewrite /on_sphere big_ord1 !big_ord_recl big_ord0 !mxE /=; Rify; field.
split; first by apply: (N _ _ 0); rewrite !mxE /=; Rify; lra.
split; first by apply: (N _ _ 0); rewrite !mxE /=; Rify; lra.
split; first by rewrite /sphere_tangent big_ord1 !big_ord_recl big_ord0 !mxE /=; Rify; field.
split; first by apply: (N _ _ 0); rewrite !mxE /=; Rify; lra.
by apply: (N _ _ 0); rewrite /inner big_ord1 !big_ord_recl big_ord0 !mxE /=; Rify; lra.
Qed.
(** the plane spanned by the first two axes in three dimensions *)
Definition A0 : 'M[RF]_(3, 2) := \matrix_(i, j) (i == j :> nat)%:R.
Definition x1 : 'cV[RF]_3 := \col_i (if i == 0%N :> nat then 3%:R / 5%:R else if i == 1%N :> nat then 4%:R / 5%:R else 0).
Definition v1 : 'cV[RF]_3 := \col_i (if i == 0%N :> nat then 4%:R else if i == 1%N :> nat then - 3%:R else 0).
Definition w1 : 'cV[RF]_3 := \col_i (if i == 2%N :> nat then 1 else 0).
Example subspace_instance :
  valid_qr A0 (A0, 1%:M) /\ \rank A0 = 2%N /\
  ss_point (ss_projector A0) x1 /\ ss_tangent (ss_projector A0) x1 v1 /\ ss_projector A0 *m w1 != w1.
Proof.
have O : A0^T *m A0 = 1%:M.
  by apply/matrixP => i j; rewrite !mxE !big_ord_recl big_ord0 !mxE; case: i => -[|[|i]] // hi; case: j => -[|[|j]] // hj;
     rewrite /=; Rify; ring.
have H0 (u : 'cV[RF]_3) : ss_projector A0 *m u = \col_i (if (i < 2)%N then u i 0 else 0).
  apply/matrixP => i j; rewrite /ss_projector ord1 !mxE !big_ord_recl big_ord0 !mxE !big_ord_recl !big_ord0 !mxE /=.
  by case: i => -[|[|[|i]]] // hi; rewrite /= ?(mul0r, mul1r, mulr0, mulr1, add0r, addr0) //; congr (u _ _); apply: val_inj.
split; first by split; rewrite ?mulmx1 //; split; [rewrite /orthonormal adjmx_real|move=> i j H; rewrite mxE /=; case: eqP H => // ->; rewrite ltnn].
split.
  apply/eqP; rewrite eqn_leq rank_leq_col /= -{1}(mxrank1 RF 2) -O; exact: mxrankM_maxr.
split.
  split; first by rewrite /on_sphere !big_ord_recl !big_ord0 !mxE /=; Rify; field.
  rewrite H0; apply/matrixP => i j; rewrite !mxE; by case: i => -[|[|[|i]]].
split.
  split; first by rewrite /sphere_tangent !big_ord_recl !big_ord0 !mxE /=; Rify; field.
  rewrite H0; apply/matrixP => i j; rewrite !mxE; by case: i => -[|[|[|i]]].
apply/eqP; rewrite H0 => /matrixP/(_ 2%:R 0); rewrite !mxE /= => /eqP; by rewrite eq_sym oner_eq0.
Qed.
(** two equal columns: the identity is a valid first factor *)
Definition A2 : 'M[RF]_2 := \matrix_(i, j) (i == 0)%:R.
Example dependent_instance : valid_qr A2 (1%:M, A2) /\ (\rank A2 < 2)%N.
Proof.
split; first by split; [rewrite mul1mx|split; [rewrite /orthonormal /= adjmx1 mul1mx|move=> i j /=; rewrite mxE; case: i => -[]]].
have -> : A2 = (\col_i (i == 0)%:R) *m (\row_j 1 : 'rV[RF]_2).
  by apply/matrixP => i j; rewrite !mxE big_ord1 !mxE mulr1.
by apply: leq_ltn_trans (mxrankM_maxl _ _) _; apply: leq_ltn_trans (rank_leq_col _) _.
Qed.
End Instance.
