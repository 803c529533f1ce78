(** C116: quadratic costs (least squares) on Euclidean spaces: steepest descent finds the solution, at a linear rate. *)
From Coq Require Import Reals ZArith List Lra FunctionalExtensionality.
From mathcomp Require Import all_ssreflect all_algebra.
From Coq Require Import Ring Field.
From Verif Require Import Rstruct MCRing Mat_Base Geometry_Spec Linalg_Spec Calculus Components Num_Model Num_Spec Num_Instances
  LineSearch_Model Optimizer_Model Sphere_Model Euclidean_Model Euclidean_Props Stiefel_Proofs Stack_Proofs Multi_Model Symmetry_Model
  Isometry_Model Examples_Model Examples_Props Convergence_Props AdaptiveRate_Props LinearRate_Props.
Set Implicit Arguments.
Unset Strict Implicit.
Unset Printing Implicit Defensive.
Import GRing.Theory Num.Theory Order.TTheory.
Local Open Scope ring_scope.
Delimit Scope R_scope with Re.

(** ** Quadratic functions on an inner product space *)
Section Quadratic.
Variables (V : zmodType) (scale : RR -> V -> V) (dot : V -> V -> RR).
(** [A] is linear, self-adjoint, and its spectrum lies between [mu] and [L] *)
Definition spectrum_within (mu L : RR) (A : V -> V) :=
  (forall u v, A (u + v) = A u + A v) /\ (forall a u, A (scale a u) = scale a (A u)) /\
  (forall u v, dot (A u) v = dot u (A v)) /\
  (forall v, mu * dot v v <= dot (A v) v <= L * dot v v).
Definition quadratic (A : V -> V) (b : V) (c : RR) (x : V) : RR := dot (A x) x / 2%:R - dot b x + c.

Hypothesis I : inner_product_on scale everywhere dot.
Variables (mu L : RR) (A : V -> V) (b : V) (c : RR).
Hypothesis H : spectrum_within mu L A.
Add Ring RR_ring : (mc_ring RR).
Lemma quad_expand x v : quadratic A b c (x + v) = quadratic A b c x + dot (A x - b) v + dot (A v) v / 2%:R.
Proof.
case: H => hD [_ [hS _]]; rewrite /quadratic hD (dotBl I) !(dotDl I) !(dotDr I).
have -> : dot (A v) x = dot (A x) v by rewrite hS (dotC I).
by move: (dot (A x) x) (dot (A x) v) (dot (A v) v) (dot b x) (dot b v) => p q r s t; Rify; field.
Qed.
Lemma quad_step x t : quadratic A b c (x + scale t (- (A x - b))) =
  quadratic A b c x - t * dot (A x - b) (A x - b) + t ^+ 2 / 2%:R * dot (A (A x - b)) (A x - b).
Proof.
case: (H) => hD [hZ [hS _]]; rewrite quad_expand; set g := A x - b.
have -> : scale t (- g) = scale (- t) g by vring I RR.
rewrite hZ !(dotZr I) (dotZl I); move: (dot g g) (dot (A g) g) => p q; Rify; field.
Qed.
Lemma quad_gap x xs : A xs = b -> quadratic A b c x = quadratic A b c xs + dot (A (x - xs)) (x - xs) / 2%:R.
Proof. by move=> e; rewrite -{1}(subrK xs x) addrC quad_expand e subrr (dot0l I) addr0. Qed.
Lemma grad_gap x xs : A xs = b -> A x - b = A (x - xs).
Proof. by case: H => hD _ e; rewrite -{1}(subrK xs x) hD e addrK. Qed.
Lemma quad_dominated v : 0 < mu -> mu * dot (A v) v <= dot (A v) (A v).
Proof.
case: H => _ [_ [_ hb]] m0; have /andP[h1 _] := hb v; have C := cauchy_schwarz_sqr I (A v) v.
have g0 : 0 <= dot (A v) (A v) by exact: (dot_ge0 I).
have v0 : 0 <= dot v v by exact: (dot_ge0 I).
move: (dot (A v) v) (dot (A v) (A v)) (dot v v) h1 C g0 v0 => a g w h1 C g0 v0.
have a0 : 0 <= a by apply: le_trans h1; rewrite mulr_ge0 // ltW.
have [a1|a1] := ltP 0 a; last first.
  have -> : a = 0 by apply/eqP; rewrite eq_le a1 a0.
  by rewrite mulr0.
rewrite -(ler_pmul2r a1).
have h2 : mu * a * a <= g * (mu * w).
  have -> : mu * a * a = mu * a ^+ 2 by rewrite expr2 mulrA.
  have -> : g * (mu * w) = mu * (g * w) by rewrite mulrCA.
  by rewrite ler_pmul2l.
by apply: le_trans h2 _; rewrite ler_wpmul2l.
Qed.
End Quadratic.

Section Euclidean.
Variables (F : starField RR) (k m n : nat) (dimension : Z).
Local Notation array := (stack F k m n).
Local Notation M := (@euclidean_mfd F k m n dimension).
Local Notation scale := (@sscale RR F k m n).
Local Notation dot := (@sinner RR F k m n).
Local Notation I := (@sinner_ips RR F k m n).
Variables (mu L : RR) (A : array -> array) (b : array) (c : RR) (xs : array).
(** the problem: cost, Euclidean gradient and Hessian, as a user supplies them *)
Definition quadratic_problem := euclidean_problem dimension (quadratic dot A b c) (fun x => A x - b) (fun _ u => A u).
Local Notation prob := quadratic_problem.
Hypotheses (HA : spectrum_within scale dot mu L A) (Hmu : 0 < mu) (Hs : A xs = b).
Lemma qnormE x : (m_norm M x (p_grad prob x) : RR) ^+ 2 = dot (A x - b) (A x - b).
Proof. by rewrite /= /eu_gradient /eu_norm np_normE (norm_sqr I). Qed.
Lemma q_downhill : smooth_downhill M prob L.
Proof.
move=> x t t0.
have E : (p_cost prob (m_retr M x (t_scale M t (t_neg M (p_grad prob x)))) : RR) =
  quadratic dot A b c (x + scale t (- (A x - b))) by [].
have := qnormE x; move: (m_norm M x (p_grad prob x)) => nn EN.
rewrite E (quad_step I b c HA) -EN; have [_ [_ [_ /(_ (A x - b))/andP[_ h]]]] := HA; rewrite -EN in h.
change (p_cost prob x) with (quadratic dot A b c x).
move: (quadratic dot A b c x) (dot (A (A x - b)) (A x - b)) h => q d; clear E EN => h.
Rify_in h; Rify; have t2 : (0 <= t ^ 2 * / 2)%Re by nra.
by have := Rmult_le_compat_l _ _ _ t2 h; lra.
Qed.
Lemma q_gap x : (p_cost prob x : RR) - p_cost prob xs = dot (A (x - xs)) (x - xs) / 2%:R.
Proof. by rewrite /= (quad_gap I c HA x Hs) addrC addKr. Qed.
Lemma q_dominated : gradient_dominated M prob mu (p_cost prob xs).
Proof.
move=> x; have h := quad_dominated I HA (x - xs) Hmu; have E := qnormE x.
rewrite (grad_gap HA x Hs) in E; rewrite -E in h; have G := q_gap x.
move: (m_norm M x (p_grad prob x)) (p_cost prob x) (p_cost prob xs) (dot (A (x - xs)) (x - xs)) h G => nn q q' d h G.
by clear E; Rify_in h; Rify_in G; nra.
Qed.
Lemma q_far x : (mu / 2%:R * eu_dist x xs ^+ 2 <= (p_cost prob x : RR) - p_cost prob xs)%R.
Proof.
rewrite q_gap /eu_dist np_normE (norm_sqr I); have [_ [_ [_ /(_ (x - xs))/andP[h _]]]] := HA.
by rewrite mulrAC ler_pmul2r // invr_gt0 ltr0n.
Qed.
Lemma q_bound x : (p_cost prob xs <= p_cost prob x)%Re.
Proof.
have := q_far x; have : 0 <= mu / 2%:R * eu_dist x xs ^+ 2 by rewrite mulr_ge0 ?sqr_ge0 // divr_ge0 ?ler0n // ltW.
move: (mu / 2%:R * eu_dist x xs ^+ 2) (p_cost prob x) (p_cost prob xs) => d q q' h h'.
by Rify_in h; Rify_in h'; lra.
Qed.
Lemma q_neg (x : pt M) (v : tv M) : (m_norm M x (t_neg M v) : R) = m_norm M x v.
Proof. by rewrite /= /eu_norm !np_normE (normN I). Qed.
Lemma q_nonneg (x : pt M) (v : tv M) : (0 <= m_norm M x v)%Re.
Proof. by apply: elimT (RlePx _ _) _; rewrite /= /eu_norm np_normE (norm_ge0 dot). Qed.
End Euclidean.

(** ** C116 *)
(** What the gradient passed to the optimizer is: the derivative of the cost, in every direction. *)
Theorem C116_derivative (F : starField RR) k m n dimension (mu L c : RR) A (b x v : stack F k m n) (t : RR) :
  let prob := quadratic_problem dimension A b c in let scale := @sscale RR F k m n in let dot := @sinner RR F k m n in
  spectrum_within scale dot mu L A ->
  (p_cost prob (x + scale t v) : RR) = p_cost prob x + t * dot (p_grad prob x) v + t ^+ 2 / 2%:R * dot (A v) v.
Proof.
move=> prob scale dot HA; have I := @sinner_ips RR F k m n.
rewrite /= (quad_expand I b c HA) /eu_gradient (dotZr I); case: HA => _ [hZ _]; rewrite hZ (dotZl I) (dotZr I).
by rewrite expr2 -!mulrA; congr (_ + _); rewrite ![dot _ _ / _]mulrC.
Qed.
Print Assumptions C116_derivative.

(** With the default line searcher, the point returned after [k] iterations is within the distance of the solution [A^-1 b] that
    [mu / 2 * distance^2 <= max (e^2 / (2 mu)) ((1 - share)^k * (cost x0 - cost solution))] allows. *)
Theorem C116_backtracking (F : starField RR) k m n dimension (mu L c : RR) A (b solution x0 : stack F k m n)
  (contraction optimism sufficient initial : R) (max_contractions : Z) (sp : stop_params Rnum) (clock : nat -> R) r ls :
  let prob := quadratic_problem dimension A b c in let e := (min_gradient_norm sp : R) in
  let D := Rminus (p_cost prob x0) (p_cost prob solution) in
  let share := bt_share contraction sufficient initial L D mu in
  spectrum_within (@sscale RR F k m n) (@sinner RR F k m n) mu L A -> 0 < mu -> 0 < L -> A solution = b ->
  sensible contraction optimism sufficient initial max_contractions -> (0 < e)%Re ->
  enough_contractions contraction optimism sufficient initial max_contractions L e D ->
  sd_run prob (bt_searcher _ (@mkBt Rnum contraction optimism sufficient max_contractions initial)) sp clock None x0 = Ok (r, ls) ->
  (mu / 2 * eu_dist (r_point r) solution ^ 2 <= Rmax (e ^ 2 / (2 * mu)) ((1 - share) ^ Z.to_nat (r_iterations r) * D))%Re.
Proof.
move=> prob e D share HA Hmu HL Hs Hp He Hc E.
have h1 : smooth_downhill (euclidean_mfd F k m n dimension) prob L by exact: q_downhill HA.
have h2 : gradient_dominated (euclidean_mfd F k m n dimension) prob mu (p_cost prob solution) by exact: q_dominated HA Hmu Hs.
have h3 : forall x, (p_cost prob solution <= p_cost prob x)%Re by move=> x; exact: q_bound HA Hmu Hs x.
have := C115_backtracking _ _ _ _ _ _ _ _ _ _ _ _ _ _ _ (elimT (RltPx _ _) HL) Hp h1
  (@q_neg F k m n dimension) (@q_nonneg F k m n dimension) h3 (elimT (RltPx _ _) Hmu) h2 He Hc E.
move=> h; apply: Rle_trans h; have := q_far dimension c HA Hs (r_point r : stack F k m n).
move: (eu_dist (r_point r) solution) => d h; Rify_in h; exact: h.
Qed.
Print Assumptions C116_backtracking.
Theorem C116_adaptive (F : starField RR) k m n dimension (mu L c : RR) A (b solution x0 : stack F k m n)
  (contraction sufficient initial : R) (max_contractions : Z) (sp : stop_params Rnum) (clock : nat -> R) r ls :
  let prob := quadratic_problem dimension A b c in let e := (min_gradient_norm sp : R) in
  let D := Rminus (p_cost prob x0) (p_cost prob solution) in
  let share := ad_share contraction sufficient initial L D mu in
  spectrum_within (@sscale RR F k m n) (@sinner RR F k m n) mu L A -> 0 < mu -> 0 < L -> A solution = b ->
  ad_sensible contraction sufficient initial max_contractions -> (0 < e)%Re ->
  ad_enough contraction sufficient initial max_contractions L e D ->
  sd_run prob (ad_searcher _ (@mkAd Rnum contraction sufficient max_contractions initial)) sp clock None x0 = Ok (r, ls) ->
  (mu / 2 * eu_dist (r_point r) solution ^ 2 <= Rmax (e ^ 2 / (2 * mu)) ((1 - share) ^ Z.to_nat (r_iterations r) * D))%Re.
Proof.
move=> prob e D share HA Hmu HL Hs Hp He Hc E.
have h1 : smooth_downhill (euclidean_mfd F k m n dimension) prob L by exact: q_downhill HA.
have h2 : gradient_dominated (euclidean_mfd F k m n dimension) prob mu (p_cost prob solution) by exact: q_dominated HA Hmu Hs.
have h3 : forall x, (p_cost prob solution <= p_cost prob x)%Re by move=> x; exact: q_bound HA Hmu Hs x.
have := C115_adaptive _ _ _ _ _ _ _ _ _ _ _ _ _ _ (elimT (RltPx _ _) HL) Hp h1
  (@q_neg F k m n dimension) (@q_nonneg F k m n dimension) h3 (elimT (RltPx _ _) Hmu) h2 He Hc E.
move=> h; apply: Rle_trans h; have := q_far dimension c HA Hs (r_point r : stack F k m n).
move: (eu_dist (r_point r) solution) => d h; Rify_in h; exact: h.
Qed.
Print Assumptions C116_adaptive.

(** multiple_linear_regression.py lines 33-42 as a problem on [Euclidean(n)]: the solution of the normal equations is found. *)
Section Regression.
Variables (p n : nat) (dimension : Z) (samples : 'M[RF]_(p, n)) (targets : 'cV[RF]_p).
Local Notation array := (stack RF 1 n 1).
Definition regression_problem := euclidean_problem dimension (fun x : array => regression_cost samples targets (x ord0))
  (fun x => [ffun=> regression_gradient samples targets (x ord0)]) (fun x u => [ffun=> regression_hessian samples (x ord0) (u ord0)]).
Definition reg_op (x : array) : array := [ffun=> 2%:R *: samples^T *m samples *m x ord0].
Definition reg_rhs : array := [ffun=> 2%:R *: samples^T *m targets].
Lemma s1inner (x y : array) : sinner x y = inner (x ord0) (y ord0).
Proof. by rewrite /sinner big_ord1. Qed.
Lemma reg_op_inner (x y : array) : sinner (reg_op x) y = 2%:R * inner (samples *m x ord0) (samples *m y ord0).
Proof.
rewrite s1inner ffunE -!scalemxAl innerZF; congr (_ * _).
by rewrite -mulmxA inner_mulT trmxK.
Qed.
Lemma reg_cost_quadratic (x : array) : regression_cost samples targets (x ord0) =
  quadratic (@sinner RR RF 1 n 1) reg_op reg_rhs (fnorm targets ^+ 2) x.
Proof.
rewrite /quadratic reg_op_inner s1inner ffunE -scalemxAl innerZF (inner_mulT samples^T) trmxK /regression_cost.
have I := @inner_ips RR RF p 1; rewrite !(norm_sqr I) (dotBl I) !(dotBr I) (dotC I (samples *m _) targets).
move: (inner targets targets) (inner targets (samples *m x ord0)) (inner (samples *m x ord0) (samples *m x ord0)) => a b c.
by Rify; field.
Qed.
Lemma reg_gradient (x : array) : [ffun=> regression_gradient samples targets (x ord0)] = reg_op x - reg_rhs :> array.
Proof.
apply/ffunP => i; rewrite !ffunE /regression_gradient mulmxBr !scaleNr !mulNmx opprK addrC -!scalemxAl mulmxA.
by [].
Qed.
Lemma reg_problemE : regression_problem = quadratic_problem dimension reg_op reg_rhs (fnorm targets ^+ 2).
Proof.
rewrite /regression_problem /quadratic_problem; congr (euclidean_problem _ _ _ _).
- by apply: functional_extensionality => x; exact: reg_cost_quadratic.
- by apply: functional_extensionality => x; exact: reg_gradient.
Qed.
Theorem C116_regression (mu L : RR) (weights : 'cV[RF]_n) (x0 : array)
  (contraction optimism sufficient initial : R) (max_contractions : Z) (sp : stop_params Rnum) (clock : nat -> R) r ls :
  let e := (min_gradient_norm sp : R) in
  let D := Rminus (regression_cost samples targets (x0 ord0)) (regression_cost samples targets weights) in
  let share := bt_share contraction sufficient initial L D mu in
  (forall v : 'cV[RF]_n, mu * fnorm v ^+ 2 <= 2%:R * fnorm (samples *m v) ^+ 2 <= L * fnorm v ^+ 2) -> 0 < mu -> 0 < L ->
  samples^T *m (targets - samples *m weights) = 0 ->
  sensible contraction optimism sufficient initial max_contractions -> (0 < e)%Re ->
  enough_contractions contraction optimism sufficient initial max_contractions L e D ->
  sd_run regression_problem (bt_searcher _ (@mkBt Rnum contraction optimism sufficient max_contractions initial)) sp clock None x0
    = Ok (r, ls) ->
  (mu / 2 * fnorm ((r_point r : array) ord0 - weights) ^ 2 <=
    Rmax (e ^ 2 / (2 * mu)) ((1 - share) ^ Z.to_nat (r_iterations r) * D))%Re.
Proof.
rewrite reg_problemE => e D share Hb Hmu HL Hw Hp He Hc E.
have I := @inner_ips RR RF p 1; have In := @inner_ips RR RF n 1.
have HA : spectrum_within (@sscale RR RF 1 n 1) (@sinner RR RF 1 n 1) mu L reg_op.
  split; first by move=> u v; apply/ffunP => i; rewrite !ffunE mulmxDr.
  split; first by move=> a u; apply/ffunP => i; rewrite !ffunE -scalemxAr.
  split=> [u v|v]; last by rewrite reg_op_inner s1inner -(norm_sqr I) -(norm_sqr In); exact: Hb.
  by rewrite reg_op_inner (dotC (@sinner_ips RR RF 1 n 1)) reg_op_inner (dotC I).
pose w : array := [ffun=> weights].
have Hs : reg_op w = reg_rhs.
  apply/ffunP => i; rewrite !ffunE; apply/eqP; rewrite eq_sym -subr_eq0 -!scalemxAl -scalerBr -mulmxA -mulmxBr.
  by rewrite Hw scaler0.
have De : D = Rminus (p_cost (quadratic_problem dimension reg_op reg_rhs (fnorm targets ^+ 2)) x0)
   (p_cost (quadratic_problem dimension reg_op reg_rhs (fnorm targets ^+ 2)) w).
  by rewrite /= -!reg_cost_quadratic [w ord0]ffunE.
rewrite /share De in Hc *.
have := C116_backtracking HA Hmu HL Hs Hp He Hc E.
suff -> : eu_dist (r_point r) w = fnorm ((r_point r : array) ord0 - weights) by [].
by rewrite /eu_dist np_normE /norm_of s1inner !ffunE.
Qed.
End Regression.
Print Assumptions C116_regression.

(** Two matrices, the second weighted twice: the spectrum is {1, 2}. *)
Definition weighted m n (x : stack RF 2 m n) : stack RF 2 m n := [ffun i : 'I_2 => rscale (i.+1%:R : RR) (x i)].
Example C116_instance m n : spectrum_within (@sscale RR RF 2 m n) (@sinner RR RF 2 m n) 1 2%:R (@weighted m n) /\
  sensible (1 / 2)%Re 2%Re (1 / 10000)%Re 1%Re 25 /\ ad_sensible (1 / 2)%Re (1 / 2)%Re 1%Re 10.
Proof.
have I := @inner_ips RR RF m n.
split; last by split; [exact: C97_defaults|exact: (proj1 C114_instance)].
split; first by move=> u v; apply/ffunP => i; rewrite !ffunE /rscale scalerDr.
split; first by move=> a u; apply/ffunP => i; rewrite !ffunE /rscale !scalerA mulrC.
have dE (u : stack RF 2 m n) v (i : 'I_2) : inner (weighted u i) v = i.+1%:R * inner (u i) v.
  by rewrite ffunE (dotZl I).
split.
  by move=> u v; apply: eq_bigr => i _; rewrite dE (dotC I (u i) (weighted v i)) dE (dotC I (v i)).
move=> v; rewrite /sinner !mulr_sumr; apply/andP; split; apply: ler_sum => i _; rewrite dE ler_wpmul2r ?(dot_ge0 I) ?ler1n //.
by rewrite ler_nat ltn_ord.
Qed.
