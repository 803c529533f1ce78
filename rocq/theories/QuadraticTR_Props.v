(** C116 for trust regions: quadratic costs on Euclidean spaces, and the regression example with the optimizer it uses. *)
From Coq Require Import Reals ZArith List Lra.
From mathcomp Require Import all_ssreflect all_algebra.
From Coq Require Import Ring Field.
From Verif Require Import Rstruct MCRing Mat_Base Geometry_Spec Linalg_Spec Calculus Components Num_Model Num_Spec Num_Instances
  LineSearch_Model Optimizer_Model TrustRegions_Model TrustRegions_Spec TrustRegions_Instances TrustRegions_Proofs Sphere_Model Euclidean_Model Euclidean_Props Stiefel_Proofs
  Stack_Proofs Multi_Model Symmetry_Model Isometry_Model Examples_Model Examples_Props ConvergenceTR_Props Quadratic_Props.
Set Implicit Arguments.
Unset Strict Implicit.
Unset Printing Implicit Defensive.
Import GRing.Theory Num.Theory Order.TTheory.
Local Open Scope ring_scope.
Delimit Scope R_scope with Re.

Section Euclidean.
Variables (F : starField RR) (k m n : nat) (dimension : Z).
Local Notation array := (stack F k m n).
Local Notation M := (@euclidean_mfd F k m n dimension).
Local Notation scale := (@sscale RR F k m n).
Local Notation dot := (@sinner RR F k m n).
Local Notation I := (@sinner_ips RR F k m n).
Variables (mu L : RR) (A : array -> array) (b : array) (c : RR) (xs : array).
Local Notation prob := (quadratic_problem dimension A b c).
Hypotheses (HA : spectrum_within scale dot mu L A) (Hmu : 0 < mu) (HL : 0 < L) (Hs : A xs = b).
Local Notation T := (fun (_ : pt M) (_ : tv M) => True).
Lemma qipE (x : pt M) (u v : tv M) : ip x u v = dot u v.
Proof. exact: eu_innerE. Qed.
Lemma q_tangent (x : pt M) : tangent_space x (T x).
Proof.
split=> //.
- by move=> u v w _ _ _; rewrite !qipE; exact: (dotDl I).
- by move=> a u w _ _; rewrite !qipE; exact: (dotZl I).
- by move=> u w _ _; rewrite !qipE; exact: (dotNl I).
- by move=> w _; rewrite qipE; exact: (dot0l I).
- by move=> u v _ _; rewrite !qipE; exact: (dotC I).
- by move=> u _; apply: elimT (RlePx _ _) _; rewrite qipE; exact: (dot_ge0 I).
Qed.
Lemma q_symmetric (x : pt M) : symmetric_operator x (T x) (p_hess prob x).
Proof.
case: HA => hD [hZ [hS _]]; have Z0 : A 0 = 0 by apply: (@addrI _ (A 0)); rewrite -hD !addr0.
split.
- by [].
- exact: Z0.
- by move=> u v _ _; exact: hD.
- by move=> a u _; exact: hZ.
- by move=> u _; apply: (@addrI _ (A u)); rewrite -[LHS]hD /= !subrr.
- by move=> u v _ _; rewrite !qipE; exact: hS.
Qed.
Lemma q_norm (x : pt M) (v : tv M) : T x v -> (m_norm M x v : R) = sqrt (ip x v v).
Proof. by move=> _; rewrite qipE -RsqrtE. Qed.
Lemma q_curvature : bounded_curvature M prob T L.
Proof.
move=> x v _; rewrite !qipE /= /eu_hessian (dotC I); case: HA => _ [_ [_ /(_ v)/andP[h1 h2]]].
have v0 := dot_ge0 I v; have h0 : 0 <= dot (A v) v by apply: le_trans h1; rewrite mulr_ge0 // ltW.
move: (dot (A v) v) (dot v v) h0 h2 => a w h0 h2; Rify_in h0; Rify_in h2.
by rewrite Rabs_pos_eq.
Qed.
Lemma q_steps radius : smooth_steps M prob T L radius.
Proof.
move=> x v _ _; rewrite !qipE.
have E : (p_cost prob (m_retr M x v) : RR) = quadratic dot A b c (x + v) by [].
rewrite E (quad_expand I b c HA); case: HA => _ [_ [_ /(_ v)/andP[_ h]]].
change (p_cost prob x) with (quadratic dot A b c x); change (p_grad prob x) with (A x - b).
move: (quadratic dot A b c x) (dot (A x - b) v) (dot (A v) v) (dot v v) h => q r s w h.
by Rify_in h; Rify; lra.
Qed.
Lemma q_near (x : pt M) : mu * eu_dist x xs <= m_norm M x (p_grad prob x).
Proof.
have := quad_dominated I HA (x - xs) Hmu; case: (HA) => _ [_ [_ /(_ (x - xs))/andP[h _]]] h'.
rewrite /= /eu_gradient /eu_projection (grad_gap HA x Hs) /eu_norm /eu_dist !np_normE.
have m0 := ltW Hmu; rewrite -[X in X * _](ger0_norm m0) -(normZ I) -ler_sqr ?nnegrE ?(norm_ge0 dot) // !(norm_sqr I).
rewrite (dotZl I) (dotZr I); apply: le_trans h'; by rewrite ler_pmul2l.
Qed.
End Euclidean.

(** With [A'] accepted and [B'] rejected iterations as in C98, trust regions return a point within [e / mu] of the
    solution, and the run does return if the inner iterations do not have to go on after reaching a solution. *)
Theorem C116_trust_regions (F : starField RR) k m n dimension (mu L c : RR) A (b solution x0 : stack F k m n)
  (tp : tr_params Rnum) (sp : stop_params Rnum) (clock : nat -> R) mininner maxinner (Delta_bar Delta0 : R) draws sf (A' B' : nat) :
  let prob := quadratic_problem dimension A b c in let e := (min_gradient_norm sp : R) in
  let bound := (p_cost prob solution : R) in
  let progress := actual_progress (tr_rho_prime tp) (tr_rho_reg tp) (Rmax (Rabs (p_cost prob x0)) (Rabs bound)) L L e Delta0 in
  spectrum_within (@sscale RR F k m n) (@sinner RR F k m n) mu L A -> 0 < mu -> 0 < L -> A solution = b ->
  tr_use_rand tp = false -> (0 < Delta0 <= Delta_bar)%Re -> (0 < e)%Re -> (0 < tr_rho_prime tp < 1 / 4)%Re -> (0 <= tr_rho_reg tp)%Re ->
  (0 < progress)%Re -> (e <= eu_norm x0 (A x0 - b)%R)%Re ->
  (p_cost prob x0 - bound < INR (S A') * progress)%Re -> (2 ^ A' * Delta0 < 4 ^ S B' * smallest_radius L L e Delta0)%Re ->
  Z.lt (Z.of_nat (A' + B')) (max_iterations sp) -> (forall i, (clock i < clock 0%nat + max_time sp)%Re) ->
  Z.le 0 (max_cost_evaluations sp) ->
  (forall r tr, tr_run prob tp sp clock x0 mininner maxinner (Some Delta_bar) (Some Delta0) draws sf = Ok (r, tr) ->
    (mu * eu_dist (r_point r) solution < e)%Re /\ Z.le (r_iterations r) (Z.of_nat (A' + B'))) /\
  (Z.le mininner 0 -> Z.lt 0 (match maxinner with None => dimension | Some j => j end) -> (0 <= tr_kappa tp)%Re ->
    exists r tr, tr_run prob tp sp clock x0 mininner maxinner (Some Delta_bar) (Some Delta0) draws sf = Ok (r, tr)).
Proof.
move=> prob e bound progress HA Hmu HL Hs Hr HD He Hrho Hreg Hprog Hx HA' HB' Hmax Hclock Hce.
have L0 := elimT (RltPx _ _) HL.
have hb : forall x, (bound <= p_cost prob x)%Re by move=> x; exact: q_bound HA Hmu Hs x.
set M := euclidean_mfd F k m n dimension; pose T := fun (_ : pt M) (_ : tv M) => True.
have k1 : forall x, symmetric_operator x (T x) (p_hess prob x) by move=> x; exact: q_symmetric HA x.
have k2 : bounded_curvature M prob T L by exact: q_curvature HA Hmu.
have k3 : smooth_steps M prob T L Delta_bar by exact: q_steps HA _.
have [S S'] := C98_success M prob tp sp clock T L L bound x0 mininner maxinner Delta_bar Delta0 draws sf A' B'
  (@q_tangent F k m n dimension) k1 (fun _ => I) (@q_norm F k m n dimension) (fun _ _ => erefl) Hr (Rlt_le _ _ L0) L0 k2 k3 hb HD He
  Hrho Hreg Hprog Hx HA' HB' Hmax Hclock Hce.
split; last exact: S'.
move=> r tr E; have [_ [h1 h2]] := S r tr E; split=> //.
have : mu * (eu_dist (r_point r : stack F k m n) solution : RR) <= (m_norm M (r_point r) (p_grad prob (r_point r)) : RR).
  by exact: q_near HA Hmu Hs _.
move: (eu_dist (r_point r) solution) => d h; Rify_in h; exact: Rle_lt_trans h h1.
Qed.

(** multiple_linear_regression.py lines 33-42 and 66-85: with the optimizer of the example, the weights returned are within [e / mu]
    of a solution of the normal equations. *)
Theorem C116_regression_trust_regions p n dimension (samples : 'M[RF]_(p, n)) (targets : 'cV[RF]_p) (mu L : RR) (weights : 'cV[RF]_n)
  (x0 : stack RF 1 n 1) (tp : tr_params Rnum) (sp : stop_params Rnum) (clock : nat -> R) mininner maxinner (Delta_bar Delta0 : R) draws sf
  (A' B' : nat) :
  let prob := regression_problem dimension samples targets in let e := (min_gradient_norm sp : R) in
  let start := (regression_cost samples targets (x0 ord0) : R) in let best := (regression_cost samples targets weights : R) in
  let progress := actual_progress (tr_rho_prime tp) (tr_rho_reg tp) (Rmax (Rabs start) (Rabs best)) L L e Delta0 in
  (forall v : 'cV[RF]_n, mu * fnorm v ^+ 2 <= 2%:R * fnorm (samples *m v) ^+ 2 <= L * fnorm v ^+ 2) -> 0 < mu -> 0 < L ->
  samples^T *m (targets - samples *m weights) = 0 ->
  tr_use_rand tp = false -> (0 < Delta0 <= Delta_bar)%Re -> (0 < e)%Re -> (0 < tr_rho_prime tp < 1 / 4)%Re -> (0 <= tr_rho_reg tp)%Re ->
  (0 < progress)%Re -> (e <= fnorm (regression_gradient samples targets (x0 ord0)))%Re ->
  (start - best < INR (S A') * progress)%Re -> (2 ^ A' * Delta0 < 4 ^ S B' * smallest_radius L L e Delta0)%Re ->
  Z.lt (Z.of_nat (A' + B')) (max_iterations sp) -> (forall i, (clock i < clock 0%nat + max_time sp)%Re) ->
  Z.le 0 (max_cost_evaluations sp) ->
  (forall r tr, tr_run prob tp sp clock x0 mininner maxinner (Some Delta_bar) (Some Delta0) draws sf = Ok (r, tr) ->
    (mu * fnorm ((r_point r : stack RF 1 n 1) ord0 - weights) < e)%Re /\ Z.le (r_iterations r) (Z.of_nat (A' + B'))) /\
  (Z.le mininner 0 -> Z.lt 0 (match maxinner with None => dimension | Some j => j end) -> (0 <= tr_kappa tp)%Re ->
    exists r tr, tr_run prob tp sp clock x0 mininner maxinner (Some Delta_bar) (Some Delta0) draws sf = Ok (r, tr)).
Proof.
move=> prob e start best progress Hb Hmu HL Hw Hr HD He Hrho Hreg Hprog Hx HA' HB' Hmax Hclock Hce.
have J := @inner_ips RR RF p 1; have In := @inner_ips RR RF n 1.
pose A := reg_op samples; pose b := reg_rhs samples targets.
have HA : spectrum_within (@sscale RR RF 1 n 1) (@sinner RR RF 1 n 1) mu L A.
  split; first by move=> u v; apply/ffunP => i; rewrite !ffunE mulmxDr.
  split; first by move=> a u; apply/ffunP => i; rewrite !ffunE -scalemxAr.
  split=> [u v|v]; last by rewrite reg_op_inner s1inner -(norm_sqr J) -(norm_sqr In); exact: Hb.
  by rewrite reg_op_inner (dotC (@sinner_ips RR RF 1 n 1)) reg_op_inner (dotC J).
pose w : stack RF 1 n 1 := [ffun=> weights].
have Hs : A w = b.
  apply/ffunP => i; rewrite !ffunE; apply/eqP; rewrite eq_sym -subr_eq0 -!scalemxAl -scalerBr -mulmxA -mulmxBr.
  by rewrite Hw scaler0.
pose q := quadratic_problem dimension A b (fnorm targets ^+ 2).
have Ep : prob = q by exact: reg_problemE.
have s0 : start = p_cost q x0 :> R by rewrite -Ep.
have s1 : best = p_cost q w :> R by rewrite -Ep /= [w ord0]ffunE.
have sx : (e <= eu_norm x0 (A x0 - b)%R)%Re.
  rewrite -reg_gradient /eu_norm np_normE /norm_of s1inner !ffunE; exact: Hx.
have dE (x : stack RF 1 n 1) : eu_dist x w = fnorm (x ord0 - weights) by rewrite /eu_dist np_normE /norm_of s1inner !ffunE.
rewrite /progress s0 s1 in Hprog HA'; rewrite Ep.
have [h1 h2] := C116_trust_regions mininner maxinner draws sf HA Hmu HL Hs Hr HD He Hrho Hreg Hprog sx HA' HB' Hmax Hclock Hce.
by split=> // r tr E; have := h1 r tr E; rewrite dE.
Qed.

(** Every weight measured twice: [mu = L = 4], and the solution is the mean of both measurements. *)
Example C116_regression_instance n (t1 t2 : 'cV[RF]_n) :
  let samples := col_mx (1%:M : 'M[RF]_n) 1%:M in
  (forall v : 'cV[RF]_n, 4%:R * fnorm v ^+ 2 <= 2%:R * fnorm (samples *m v) ^+ 2 <= 4%:R * fnorm v ^+ 2) /\
  samples^T *m (col_mx t1 t2 - samples *m (2%:R^-1 *: (t1 + t2))) = 0.
Proof.
move=> samples; have tE : samples^T = row_mx 1%:M 1%:M by rewrite tr_col_mx trmx1.
have SE (v : 'cV[RF]_n) : samples^T *m (samples *m v) = 2%:R *: v.
  by rewrite tE mul_col_mx mul_row_col !mul1mx -mulr2n scaler_nat.
split=> [v|].
  rewrite !(norm_sqr (@inner_ips RR RF n 1)) !(norm_sqr (@inner_ips RR RF (n + n) 1)) inner_mulT SE innerZFr.
  by rewrite mulrA -natrM lexx.
rewrite mulmxBr SE tE mul_row_col !mul1mx scalerA mulfV ?scale1r ?subrr //.
by rewrite pnatr_eq0.
Qed.

(** The hypotheses are met by the cost [(|x_0|^2 + 2 |x_1|^2) / 2] on two scalars, with [mu = 1], [L = 2], the default
    parameters, start (1, 1), region size 1/8 and [min_gradient_norm = 1/1000]. *)
Definition ones : stack RF 2 1 1 := [ffun=> 1%:M].
Example C116_trust_regions_instance dimension :
  let prob := quadratic_problem dimension (@weighted 1 1) 0 0 in let tp := tr_default Rnum false in let e := (1 / 1000)%Re in
  spectrum_within (@sscale RR RF 2 1 1) (@sinner RR RF 2 1 1) 1 2%:R (@weighted 1 1) /\ @weighted 1 1 0 = 0 /\
  (0 < tr_rho_prime tp < 1 / 4)%Re /\ (0 <= tr_rho_reg tp)%Re /\
  (0 < actual_progress (tr_rho_prime tp) (tr_rho_reg tp) (Rmax (Rabs (p_cost prob ones)) (Rabs (p_cost prob 0%R))) 2 2 e (1 / 8))%Re /\
  (e <= eu_norm ones (weighted ones - 0)%R)%Re.
Proof.
move=> prob tp e; have [HA _] := C116_instance 1 1.
have I := @sinner_ips RR RF 2 1 1; have J := @inner_ips RR RF 1 1.
split=> //.
have W0 : @weighted 1 1 0 = 0 by apply/ffunP => i; rewrite !ffunE /rscale scaler0.
split=> //.
have HL : lit (N := Rnum) 1 10 = (1 / 10)%Re by rewrite (Rlit 1 10); lra.
split; first by rewrite /= HL; lra.
split; first by rewrite /=; lra.
have u1 : inner (1%:M : 'M[RF]_1) 1%:M = 1 :> RR by rewrite /inner !big_ord1 !mxE /= mulr1.
have wE (i : 'I_2) : weighted ones i = rscale (i.+1%:R : RR) 1%:M by rewrite !ffunE.
have c1 : sinner (weighted ones) ones = 3%:R :> RR.
  by rewrite /sinner !big_ord_recl big_ord0 !wE !ffunE !(dotZl J) u1 /= !mulr1 addr0 -natrD.
have c2 : sinner (weighted ones) (weighted ones) = 5%:R :> RR.
  by rewrite /sinner !big_ord_recl big_ord0 !wE !(dotZl J) !(dotZr J) u1 /= !mulr1 addr0 -natrM -natrD.
have p1 : p_cost prob ones = (3 / 2)%Re :> R.
  have -> : p_cost prob ones = (quadratic (@sinner RR RF 2 1 1) (@weighted 1 1) 0 0 ones : R) by [].
  by rewrite /quadratic c1 (dot0l I) subr0 addr0; Rify; lra.
have p0 : p_cost prob (0 : stack RF 2 1 1) = 0%Re :> R.
  have -> : p_cost prob 0%R = (quadratic (@sinner RR RF 2 1 1) (@weighted 1 1) 0 0 0 : R) by [].
  by rewrite /quadratic W0 (dot0l I) mul0r subr0 addr0.
split.
  change (tr_rho_prime tp) with (lit (N := Rnum) 1 10); change (tr_rho_reg tp) with 1000%Re; rewrite HL p1 p0.
  rewrite /actual_progress /predicted_progress /smallest_radius /e.
  rewrite Rabs_R0 (Rabs_right (3 / 2)); last lra. rewrite (Rmax_left (3 / 2) 0); last lra. rewrite (Rmax_right 1 (3 / 2)); last lra.
  rewrite (Rmin_right (1 / 8)); last lra. rewrite Rmin_left; lra.
rewrite subr0 /eu_norm np_normE; apply/RlePx.
have e0 : (0 : RR) <= e by Rify; rewrite /e; lra.
rewrite -ler_sqr ?nnegrE ?(norm_ge0 (@sinner RR RF 2 1 1)) // (norm_sqr I) c2 expr2 /e; Rify; lra.
Qed.
Print Assumptions C116_trust_regions.
Print Assumptions C116_regression_trust_regions.
Print Assumptions C116_trust_regions_instance.
