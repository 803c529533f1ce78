(** C100: the optimizers on the sphere find eigenvectors of symmetric matrices (examples/dominant_eigenvector.py). *)
From Coq Require Import Reals ZArith Lra Lia List.
From mathcomp Require Import all_ssreflect all_algebra.
From Coq Require Import Ring Field.
From Verif Require Import Rstruct MCRing Mat_Base Geometry_Spec Linalg_Spec Linalg_Exist Calculus Sphere_Model Sphere_Proofs Sphere_Props
  Num_Model Num_Instances LineSearch_Model Optimizer_Model TrustRegions_Model TrustRegions_Spec Eigenvector_Model Eigenvector_Proofs ConvergenceTR_Props
  Num_Proofs LineSearch_Proofs Convergence_Props Optimizer_Props Stiefel_Proofs Multi_Proofs Expm Spectral TrustRegions_Instances TrustRegions_Proofs.
Set Implicit Arguments.
Unset Strict Implicit.
Unset Printing Implicit Defensive.
Import GRing.Theory Num.Theory Order.TTheory.
Local Open Scope ring_scope.
Delimit Scope R_scope with Re.
Delimit Scope Z_scope with ZZ.

(** * The specification *)
(** [x] is a unit vector which [A] changes, up to an error below [d], by the factor [rho]; and [rho] is that close to an
    eigenvalue of [A]. *)
Definition near_eigenvector n (A : 'M[RF]_n) (d rho : R) (x : 'cV[RF]_n) : Prop :=
  \sum_i x i ord0 ^+ 2 = 1 /\ (fnorm (A *m x - (rho : RR) *: x) < d)%Re /\
  exists (lam : RR) (w : 'cV[RF]_n), w != 0 /\ A *m w = lam *: w /\ (Rabs (lam - rho) <= d)%Re.
(** the Rayleigh quotient of a unit vector *)
Definition rayleigh n (A : 'M[RF]_n) (x : 'cV[RF]_n) : RR := \sum_i \sum_j x i ord0 * A i j * x j ord0.
Lemma rayleighE n (A : 'M[RF]_n) x : rayleigh A x = form A x.
Proof.
rewrite /form -mulmxA mxE; apply: eq_bigr => i _; rewrite !mxE big_distrr /=; apply: eq_bigr => j _.
by rewrite mulrA.
Qed.

Lemma near_of_slope n (A : 'M[RF]_n) (x : sphere_point n) (e : R) : A^T = A ->
  (m_norm (sphere_mfd n) x (p_grad (eigen_problem A) x) < e)%Re ->
  near_eigenvector A (e / 2)%Re (rayleigh A (sval x)) (sval x).
Proof.
move=> sym; rewrite norm_residual rayleighE => H; split; [|split].
- by rewrite -[RHS](unitE x) dotE; apply: eq_bigr => i _; rewrite expr2.
- lra.
- have K : fnorm (A *m sval x - form A (sval x) *: sval x) <= (e / 2)%Re by apply/RlePx; lra.
  have [lam [w [w0 [E N]]]] := eigen_near sym (unitE x) K.
  by exists lam, w; split; [|split] => //; move/RlePx: N; rewrite RabsE.
Qed.

(** The trust-region optimizer: with [a] a bound of the Rayleigh quotients, [A] accepted and [B] rejected iterations are
    enough. *)
Theorem C100_trust_regions : forall (n : nat) (mat : 'M[RF]_n) (a : R) (x0 : sphere_point n) (tp : tr_params Rnum)
  (sp : stop_params Rnum) (clock : nat -> R) mininner maxinner (Delta_bar Delta0 : R) draws sf (A B : nat),
  let e := (min_gradient_norm sp : R) in let prob := eigen_problem mat in
  let progress := actual_progress (tr_rho_prime tp) (tr_rho_reg tp)
    (Rmax (Rabs (rayleigh mat (sval x0))) a) (6 * a)%Re (4 * a)%Re e Delta0 in
  mat^T = mat -> (0 < a)%Re -> (forall x : 'cV[RF]_n, \sum_i x i ord0 ^+ 2 = 1 -> (Rabs (rayleigh mat x) <= a)%Re) ->
  tr_use_rand tp = false -> (0 < Delta0 <= Delta_bar)%Re -> (0 < e)%Re -> (0 < tr_rho_prime tp < 1 / 4)%Re ->
  (0 <= tr_rho_reg tp)%Re -> (0 < progress)%Re ->
  (e / 2 <= fnorm (mat *m sval x0 - rayleigh mat (sval x0) *: sval x0))%Re ->
  (a - rayleigh mat (sval x0) < INR (S A) * progress)%Re ->
  (2 ^ A * Delta0 < 4 ^ S B * smallest_radius (6 * a) (4 * a) e Delta0)%Re ->
  (Z.of_nat (A + B) < max_iterations sp)%ZZ ->
  (forall k, (clock k < clock 0%nat + max_time sp)%Re) -> (0 <= max_cost_evaluations sp)%ZZ ->
  (forall r tr, tr_run prob tp sp clock x0 mininner maxinner (Some Delta_bar) (Some Delta0) draws sf = Ok (r, tr) ->
    near_eigenvector mat (e / 2)%Re (rayleigh mat (sval (r_point r))) (sval (r_point r)) /\
    (rayleigh mat (sval x0) <= rayleigh mat (sval (r_point r)))%Re) /\
  ((mininner <= 0)%ZZ -> (0 < match maxinner with None => Z.of_nat n - 1 | Some m => m end)%ZZ -> (0 <= tr_kappa tp)%Re ->
    exists r tr, tr_run prob tp sp clock x0 mininner maxinner (Some Delta_bar) (Some Delta0) draws sf = Ok (r, tr)).
Proof.
move=> n mat a x0 tp sp clock mi ma bar D0 draws sf A B e prob progress sym a0 Ha Hr HD He Hrho Hreg Hpro Hx HA HB Hmax Hclock Hce.
have FB : form_bound mat a by apply: form_bound_unit => x hx; rewrite -rayleighE; apply: Ha.
have cE (x : sphere_point n) : p_cost prob x = (- rayleigh mat (sval x))%Re by rewrite rayleighE.
have EF : Rmax (Rabs (p_cost prob x0)) (Rabs (- a)) = Rmax (Rabs (rayleigh mat (sval x0))) a.
  by rewrite cE !Rabs_Ropp (Rabs_pos_eq a) //; lra.
have S := @C98_success (sphere_mfd n) prob tp sp clock (@tangent_at n) (6 * a)%Re (4 * a)%Re (- a)%Re x0 mi ma bar D0 draws sf A B
  (@sphere_tangent_space n) (hess_symmetric sym) (@grad_tangent n mat) (@m_normE n) (fun _ _ => erefl) Hr ltac:(lra) ltac:(lra)
  (curvature FB) (@smooth n mat sym a FB bar) (lower FB) HD He Hrho Hreg.
have Rt := @C98_rate (sphere_mfd n) prob tp sp clock (@tangent_at n) (6 * a)%Re (4 * a)%Re (- a)%Re x0 mi ma bar D0 draws sf.
rewrite EF in S Rt.
have Hx' : (e <= m_norm (sphere_mfd n) x0 (p_grad prob x0))%Re.
  by rewrite norm_residual -rayleighE; lra.
have [S1 S2] := S Hpro Hx' ltac:(rewrite cE; rewrite -/e -/progress; simpl in *; lra) HB Hmax Hclock Hce.
split=> [r tr E|].
  have [_ [N _]] := S1 r tr E; split; first exact: near_of_slope.
  have [R1 _] := Rt r tr (@sphere_tangent_space n) (hess_symmetric sym) (@grad_tangent n mat) (@m_normE n) (fun _ _ => erefl) Hr
    ltac:(lra) ltac:(lra) (curvature FB) (@smooth n mat sym a FB bar) (lower FB) HD He Hrho Hreg Hpro Hx' E.
  have P := pos_INR (accepted tr); rewrite -/e -/progress !cE in R1; have Q := Rmult_le_pos _ _ P (Rlt_le _ _ Hpro).
  move: (rayleigh mat _) (rayleigh mat _) R1 => p q R1; simpl in p, q; lra.
by move=> m0 m1 k0; apply: S2 => //; case: (ma) m1.
Qed.
Print Assumptions C100_trust_regions.

(** Steepest descent, the optimizer of the example: the run visits a unit vector [y] close to an eigenvector, stops for that reason
    and returns a vector whose Rayleigh quotient is at least that of [y]; [y] is the point the last search started from. *)
Theorem C100_steepest_descent : forall (n : nat) (mat : 'M[RF]_n) (a : R) (x0 : sphere_point n)
  (contraction optimism sufficient initial : R) (max_contractions : Z) (sp : stop_params Rnum) (clock : nat -> R) r ls,
  let e := (min_gradient_norm sp : R) in let prob := eigen_problem mat in
  let searcher := bt_searcher (sphere_mfd n) (@mkBt Rnum contraction optimism sufficient max_contractions initial) in
  let left := (a - rayleigh mat (sval x0))%Re in let L := (6 * a)%Re in
  mat^T = mat -> (0 < a)%Re -> (forall x : 'cV[RF]_n, \sum_i x i ord0 ^+ 2 = 1 -> (Rabs (rayleigh mat x) <= a)%Re) ->
  sensible contraction optimism sufficient initial max_contractions -> (0 < e)%Re ->
  enough_contractions contraction optimism sufficient initial max_contractions L e left ->
  (left < IZR (max_iterations sp - 1) * progress contraction sufficient initial L e)%Re ->
  (min_step_size sp <= shortest contraction optimism sufficient initial L e left)%Re ->
  (forall k, (clock k < clock 0%nat + max_time sp)%Re) -> (0 <= max_cost_evaluations sp)%ZZ ->
  sd_run prob searcher sp clock None x0 = Ok (r, ls) ->
  (exists it t, r_stopping_criterion r = MinGradNorm it t) /\
  exists y : sphere_point n, List.In y (r_calls r) /\
    near_eigenvector mat (e / 2)%Re (rayleigh mat (sval y)) (sval y) /\
    (rayleigh mat (sval y) <= rayleigh mat (sval (r_point r)))%Re.
Proof.
move=> n mat a x0 co op su ini mc sp clock r ls e prob searcher left L sym a0 Ha Hs He Hcon Hmax Hstep Hclock Hce E.
have FB : form_bound mat a by apply: form_bound_unit => x hx; rewrite -rayleighE; apply: Ha.
have cE (x : sphere_point n) : p_cost prob x = (- rayleigh mat (sval x))%Re by rewrite rayleighE.
have lE : (p_cost prob x0 - - a)%Re = left by rewrite cE /left; move: (rayleigh _ _) => p; simpl in p; ring.
have ne (x : sphere_point n) v : m_norm (sphere_mfd n) x (t_neg (sphere_mfd n) v) = m_norm (sphere_mfd n) x v.
  by rewrite /= /sp_norm !np_fnormE !norm_of_inner /fnorm innerNl innerNr opprK.
have [S1 [nn [S2 S3]]] : (exists it t, r_stopping_criterion r = MinGradNorm it t) /\ (exists nn, r_gradient_norm r = Some nn /\ (nn < e)%Re).
  apply: (@C97_success (sphere_mfd n) prob co op su ini mc L sp clock x0 (- a)%Re r ls ltac:(rewrite /L; lra) Hs
    (@downhill n mat sym a FB) ne (lower FB) He _ _ _ Hclock Hce E); rewrite lE //.
split=> //; have [_ [_ [y [ls1 [step [calls [Iy [Es [_ G]]]]]]]]] := C08_steepest_descent_result _ _ _ _ _ _ _ _ _ _ E.
exists y; split=> //; split.
  apply: near_of_slope => //; have := etrans (esym G) S2 => -[H]; exact: (eq_ind _ (fun z => (z < e)%Re) S3 _ (esym H)).
have [[-> _]|K] := bt_no_worse _ _ _ _ _ _ _ _ _ _ _ _ Es; first exact: Rle_refl.
by move/Rltb_false: K; rewrite !cE; move: (rayleigh _ _) (rayleigh _ _) => p q; simpl in p, q; lra.
Qed.
Print Assumptions C100_steepest_descent.

(** If the run does not return at all, the line searcher divided by zero at an exact eigenvector. *)
Theorem C100_steepest_descent_failure : forall (n : nat) (mat : 'M[RF]_n) (x0 : sphere_point n) (p : @bt_params Rnum)
  (sp : stop_params Rnum) (clock : nat -> R) ex,
  mat^T = mat -> (verbosity sp < 2)%ZZ ->
  sd_run (eigen_problem mat) (bt_searcher (sphere_mfd n) p) sp clock None x0 = Raise ex ->
  ex = ZeroDivisionError /\ exists x : sphere_point n, mat *m sval x = rayleigh mat (sval x) *: sval x /\
    (rayleigh mat (sval x0) <= rayleigh mat (sval x))%Re.
Proof.
move=> n mat x0 p sp clock ex sym V E.
have ne (x : sphere_point n) v : m_norm (sphere_mfd n) x (t_neg (sphere_mfd n) v) = m_norm (sphere_mfd n) x v.
  by rewrite /= /sp_norm !np_fnormE !norm_of_inner /fnorm innerNl innerNr opprK.
have [-> [x [Z C]]] := @C97_no_other_failure (sphere_mfd n) (eigen_problem mat) p sp clock x0 ex ne V E; split=> //; exists x; split.
  move: Z; rewrite norm_residual -rayleighE => Z; apply/eqP; rewrite -subr_eq0 -fnorm_eq0; apply/eqP.
  by move: (fnorm _) Z => f; simpl in f => Z; Rify_expr; lra.
have cE (y : sphere_point n) : p_cost (eigen_problem mat) y = (- rayleigh mat (sval y))%Re by rewrite rayleighE.
by move: C; rewrite !cE; move: (rayleigh _ _) (rayleigh _ _) => q q'; simpl in q, q'; lra.
Qed.
Print Assumptions C100_steepest_descent_failure.

(** Every matrix has such a bound [a]. *)
Theorem C100_bound : forall (n : nat) (mat : 'M[RF]_n) (x : 'cV[RF]_n), \sum_i x i ord0 ^+ 2 = 1 ->
  (Rabs (rayleigh mat x) <= fnorm mat)%Re.
Proof.
move=> n mat x hx; rewrite rayleighE; have := form_bound_fnorm mat x.
have -> : inner x x = 1 by rewrite dotE -hx; apply: eq_bigr => i _; rewrite expr2.
by rewrite (_ : (_ * 1)%Re = fnorm mat) //; apply: Rmult_1_r.
Qed.

(** The hypotheses are met by the matrix [diag(2, 1)] with [a = 2], the start (3/5, 4/5), the default parameters of both optimizers,
    region sizes 1 and 1/8 and [min_gradient_norm = 1/1000]. *)
Definition mat21 : 'M[RF]_2 := diag_mx (\row_i (if i == ord0 then 2%:R else 1)).
Lemma x34_unit : \sum_(i < 2) \sum_(j < 1) (\col_i (if i == ord0 then (3 / 5)%Re else (4 / 5)%Re) : 'cV[RF]_2) i j ^+ 2 = 1 :> RR.
Proof.
rewrite !(big_ord_recl, big_ord0) !mxE /= !addr0 !expr2; Rify_expr; field.
Qed.
Definition x34 : sphere_point 2 := exist _ _ x34_unit.
Lemma rayleigh21 (x : 'cV[RF]_2) : rayleigh mat21 x = (2 * (x ord0 ord0 * x ord0 ord0) + x (lift ord0 ord0) ord0 * x (lift ord0 ord0) ord0)%Re.
Proof.
rewrite /rayleigh !(big_ord_recl, big_ord0) !mxE /= !addr0 !mulr1n !mulr0n; move: (x _ _) (x _ _) => p q.
by Rify_expr; ring.
Qed.
Example C100_instance : let e := (1 / 1000)%Re in let tp := tr_default Rnum false in
  mat21^T = mat21 /\ (forall x : 'cV[RF]_2, \sum_i x i ord0 ^+ 2 = 1 -> (Rabs (rayleigh mat21 x) <= 2)%Re) /\
  (e / 2 <= fnorm (mat21 *m sval x34 - rayleigh mat21 (sval x34) *: sval x34))%Re /\
  (0 < actual_progress (tr_rho_prime tp) (tr_rho_reg tp) (Rmax (Rabs (rayleigh mat21 (sval x34))) 2) (6 * 2) (4 * 2) e (1 / 8))%Re /\
  tr_use_rand tp = false /\ (0 < tr_rho_prime tp < 1 / 4)%Re /\ (0 <= tr_rho_reg tp)%Re /\
  sensible (1 / 2) 2 (1 / 10000) 1 25 /\
  enough_contractions (1 / 2) 2 (1 / 10000) 1 25 (6 * 2) e (2 - rayleigh mat21 (sval x34))%Re.
Proof.
move=> e tp; have R0 : rayleigh mat21 (sval x34) = (34 / 25)%Re :> R.
  by rewrite rayleigh21 /= !mxE /=; field.
have HL : lit (N := Rnum) 1 10 = (1 / 10)%Re by rewrite Rlit; lra.
split; first exact: tr_diag_mx.
split.
  move=> x; rewrite rayleigh21 !(big_ord_recl, big_ord0) addr0 !expr2; move: (x _ _) (x _ _) => p q; Rify_expr => H.
  by apply: Rabs_le; simpl in p, q; nra.
split.
  rewrite R0 -[X in (X <= _)%Re]sqrt_square; last by rewrite /e; lra.
  have -> : fnorm (mat21 *m sval x34 - ((34 / 25)%Re : RR) *: sval x34) = sqrt ((12 / 25) * (12 / 25))%Re.
    rewrite /fnorm RsqrtE dotE !(big_ord_recl, big_ord0) addr0 mul_diag_mx !mxE /=; congr sqrt; Rify_expr; field.
  by apply: sqrt_le_1_alt; rewrite /e; lra.
split.
  rewrite R0 /tp (_ : tr_rho_prime (tr_default Rnum false) = lit 1 10) // (_ : tr_rho_reg (tr_default Rnum false) = 1000%Re) // HL.
  rewrite /actual_progress /predicted_progress /smallest_radius (Rabs_pos_eq (34 / 25)); last lra.
  rewrite (Rmax_right (34 / 25) 2); last lra. rewrite (Rmax_right 1 2); last lra.
  rewrite (Rmin_right (1 / 8)); last by rewrite /e; lra. rewrite Rmin_left /e; lra.
split; first by []. split; first by rewrite /tp (_ : tr_rho_prime (tr_default Rnum false) = lit 1 10) // HL; lra.
split; first by rewrite /tp (_ : tr_rho_reg (tr_default Rnum false) = 1000%Re) //; lra.
split; first exact: C97_defaults.
by rewrite R0 /enough_contractions /safe_step /e; split; rewrite (_ : Z.to_nat 25 = 25%nat) // /=; lra.
Qed.
