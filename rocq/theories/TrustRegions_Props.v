(** Properties of trust regions: C15, C16, C18-C28, C35 (trust regions), C82. *)
From Coq Require Import ZArith List Bool Reals Lra SpecFloat.
From Verif Require Import Num_Model Num_Spec Num_Instances LineSearch_Model Optimizer_Model Optimizer_Spec
  TrustRegions_Model TrustRegions_Spec TrustRegions_Proofs TrustRegions_Proofs2 TrustRegions_Proofs3
  TrustRegions_Proofs4 TrustRegions_Proofs5 TrustRegions_Proofs6 TrustRegions_Instances Euclid1.
Import ListNotations.

(** ** C06 *)
Theorem C06_trust_regions_reason : forall (N : NumOps) (M : Mfd N) (prob : OptProblem M) tp sp clock
  x0 mininner maxinner Delta_bar Delta0 draws sf r tr,
  tr_run prob tp sp clock x0 mininner maxinner Delta_bar Delta0 draws sf = Ok (r, tr) ->
  exists tick,
    first_criterion (criterion_met sp (clock (S tick)) (clock 0) (r_iterations r)
      (r_gradient_norm r) None (-1)) (reason_criterion (r_stopping_criterion r)) /\
    reason_data (r_stopping_criterion r) (r_iterations r) (nsub N (clock tick) (clock 0)).
Proof. exact (@tr_run_reason). Qed.
Print Assumptions C06_trust_regions_reason.

(** ** C15 *)
Theorem C15_trust_regions_terminates : forall (N : NumOps), OrderLaws N -> forall (M : Mfd N) (prob : OptProblem M)
  tp sp clock x0 mininner maxinner Delta_bar Delta0 draws sf,
  tr_use_rand tp = false -> m_typical_dist M <> Raise OutOfFuel ->
  tr_run prob tp sp clock x0 mininner maxinner Delta_bar Delta0 draws sf <> Raise OutOfFuel /\
  forall r tr, tr_run prob tp sp clock x0 mininner maxinner Delta_bar Delta0 draws sf = Ok (r, tr) ->
  (1 <= r_iterations r <= Z.max 1 (max_iterations sp))%Z.
Proof. exact (fun N L M prob tp sp clock x0 mi ma bar d0 draws sf H1 H2 =>
  conj (tr_run_fuel prob tp sp clock L x0 mi ma bar d0 draws sf H1 H2)
       (fun r tr => tr_run_iterations prob tp sp clock x0 mi ma bar d0 draws sf r tr)). Qed.
Print Assumptions C15_trust_regions_terminates.
(** With or without use_rand, for positive radii (exact arithmetic, absolutely homogeneous norm)
    the run has one outcome, which is reached with any large enough allowance for the scaling
    loop: a run cannot go on for ever. *)
Theorem C15_trust_regions_random_terminates : forall (M : Mfd Rnum) (prob : OptProblem M)
  tp sp clock x0 mininner maxinner (Delta_bar Delta0 : option R) draws,
  (forall x (a : R) v, (0 <= a)%R -> m_norm M x (t_scale M a v) = (a * m_norm M x v)%R) ->
  match Delta_bar with
  | Some d => (0 < d)%R
  | None => match m_typical_dist M with
            | Ok d => (0 < d)%R
            | Raise NotImplementedError => (0 < m_dim M)%Z
            | Raise e => e <> OutOfFuel
            end
  end ->
  match Delta0 with Some d => (0 < d)%R | None => True end ->
  exists enough outcome, outcome <> Raise OutOfFuel /\
    (forall sf, enough <= sf ->
      tr_run prob tp sp clock x0 mininner maxinner Delta_bar Delta0 draws sf = outcome) /\
    (forall r tr, outcome = Ok (r, tr) -> (1 <= r_iterations r <= Z.max 1 (max_iterations sp))%Z).
Proof.
  intros M prob tp sp clock x0 mi ma bar d0 draws Hn Hb Hd.
  destruct (tr_run_rand_fuel prob tp sp clock Rnum_laws Hn x0 mi ma bar d0 draws Hb Hd) as (B & o & Ho & HB).
  exists B, o. split; [exact Ho|]. split; [exact HB|]. intros r tr E.
  apply (tr_run_iterations prob tp sp clock x0 mi ma bar d0 draws B r tr). rewrite HB; auto.
Qed.
Print Assumptions C15_trust_regions_random_terminates.
(** The hypotheses are met by the real line with the default radii. *)
Example C15_random_instance : forall (prob : OptProblem (E1 Rnum)) sp clock x0 mininner maxinner draws,
  exists enough outcome, outcome <> Raise OutOfFuel /\
    (forall sf, enough <= sf ->
      tr_run prob (tr_default Rnum true) sp clock x0 mininner maxinner None None draws sf = outcome) /\
    (forall r tr, outcome = Ok (r, tr) -> (1 <= r_iterations r <= Z.max 1 (max_iterations sp))%Z).
Proof.
  intros. apply C15_trust_regions_random_terminates; [|simpl|exact I].
  - intros x a v Ha. simpl. replace (a * v * (a * v))%R with (a * a * (v * v))%R by ring.
    rewrite sqrt_mult_alt by (apply Rmult_le_pos; assumption). rewrite sqrt_square by assumption. reflexivity.
  - rewrite sqrt_1. apply Rlt_0_1.
Qed.
(** A negative Delta0 is accepted by [run] and makes it run for ever. *)
Theorem C15_trust_regions_refuted : forall (M : Mfd Rnum) (prob : OptProblem M)
  tp sp clock x0 mininner maxinner (Delta_bar Delta0 : R) draws,
  tr_use_rand tp = true -> (Delta0 < 0)%R -> (forall v, (0 <= m_norm M x0 v)%R) ->
  forall sf, tr_run prob tp sp clock x0 mininner maxinner (Some Delta_bar) (Some Delta0) draws sf = Raise OutOfFuel.
Proof. exact (fun M prob => @tr_run_negative_radius M prob). Qed.
Print Assumptions C15_trust_regions_refuted.

(** With use_rand a draw is scaled until it fits: this ends for a positive radius (exact
    arithmetic, absolutely homogeneous norm) ... *)
Theorem C15_trust_regions_shrinking_ends : forall (M : Mfd Rnum) x (draw : tv M) (Delta : R), (0 < Delta)%R ->
  (forall (a : R) v, (0 <= a)%R -> m_norm M x (t_scale M a v) = (a * m_norm M x v)%R) ->
  exists fuel, forall f, fuel <= f -> exists eta,
    tr_shrink f x draw Delta = Ok eta /\ (m_norm M x eta <= Delta)%R.
Proof. exact shrink_ends. Qed.
Print Assumptions C15_trust_regions_shrinking_ends.
(** ... and never ends for a negative one (Delta0 < 0 is accepted by [run]). *)
Theorem C15_trust_regions_negative_radius_hangs : forall (M : Mfd Rnum) x (draw : tv M) (Delta : R), (Delta < 0)%R ->
  (forall v, (0 <= m_norm M x v)%R) ->
  forall fuel, tr_shrink fuel x draw Delta = Raise OutOfFuel.
Proof. exact shrink_never. Qed.
Print Assumptions C15_trust_regions_negative_radius_hangs.

(** ** C16: trust regions never adds log entries *)
Theorem C16_trust_regions_log_is_empty : forall (N : NumOps) (M : Mfd N) (prob : OptProblem M) tp sp clock
  x0 mininner maxinner Delta_bar Delta0 draws sf r tr,
  tr_run prob tp sp clock x0 mininner maxinner Delta_bar Delta0 draws sf = Ok (r, tr) ->
  (1 <= r_iterations r)%Z /\ r_log r = (if (1 <=? log_verbosity sp)%Z then Some [] else None).
Proof. exact (fun N M prob tp sp clock x0 mi ma bar d0 draws sf r tr H =>
  conj (proj1 (tr_run_iterations prob tp sp clock x0 mi ma bar d0 draws sf r tr H))
       (tr_run_log prob tp sp clock x0 mi ma bar d0 draws sf r tr H)). Qed.
Print Assumptions C16_trust_regions_log_is_empty.
Corollary C16_trust_regions_refuted : forall (N : NumOps) (M : Mfd N) (prob : OptProblem M) tp sp clock
  x0 mininner maxinner Delta_bar Delta0 draws sf r tr es,
  tr_run prob tp sp clock x0 mininner maxinner Delta_bar Delta0 draws sf = Ok (r, tr) ->
  r_log r = Some es -> Z.of_nat (length es) <> r_iterations r.
Proof. exact (@tr_log_incomplete). Qed.
Print Assumptions C16_trust_regions_refuted.

(** ** C18: trust regions does not report a number of cost evaluations *)
Theorem C18_trust_regions_count_missing : forall (N : NumOps) (M : Mfd N) (prob : OptProblem M) tp sp clock
  x0 mininner maxinner Delta_bar Delta0 draws sf r tr,
  tr_run prob tp sp clock x0 mininner maxinner Delta_bar Delta0 draws sf = Ok (r, tr) ->
  r_cost_evaluations r = None /\ r_calls r = x0 :: map t_x_prop tr /\
  Z.of_nat (length (r_calls r)) = (r_iterations r + 1)%Z.
Proof. exact (@tr_run_calls). Qed.
Print Assumptions C18_trust_regions_count_missing.

(** ** C19 *)
Theorem C19_radius_bounds : forall (M : Mfd Rnum) (prob : OptProblem M) tp sp clock
  x0 mininner maxinner Delta_bar Delta0 draws sf r tr,
  tr_run prob tp sp clock x0 mininner maxinner (Some Delta_bar) (Some Delta0) draws sf = Ok (r, tr) ->
  (0 < Delta0 <= Delta_bar)%R ->
  Forall (fun it : tr_iter M => (0 < t_Delta it <= Delta_bar)%R /\ (0 < t_Delta_new it <= Delta_bar)%R) tr.
Proof. exact (@tr_run_radius_bounds). Qed.
Print Assumptions C19_radius_bounds.
Theorem C19_radius_bounds_default : forall (M : Mfd Rnum) (prob : OptProblem M) tp sp clock
  x0 mininner maxinner draws sf r tr Delta_bar,
  m_typical_dist M = Ok Delta_bar -> (0 < Delta_bar)%R ->
  tr_run prob tp sp clock x0 mininner maxinner None None draws sf = Ok (r, tr) ->
  Forall (fun it : tr_iter M => (0 < t_Delta it <= Delta_bar)%R /\ (0 < t_Delta_new it <= Delta_bar)%R) tr.
Proof. exact (@tr_run_radius_bounds_default). Qed.
Print Assumptions C19_radius_bounds_default.
(** Any number system: the three possible changes; the radius only grows after a step that reached the
    boundary with ratio above 3/4; consecutive iterations hand the radius over. *)
Theorem C19_radius_changes : forall (N : NumOps) (M : Mfd N) (prob : OptProblem M) tp sp clock
  x0 mininner maxinner Delta_bar Delta0 draws sf r tr,
  tr_run prob tp sp clock x0 mininner maxinner (Some Delta_bar) (Some Delta0) draws sf = Ok (r, tr) ->
  (exists Delta', linked prob x0 Delta0 tr (r_point r) Delta') /\
  Forall (fun it : tr_iter M =>
    ndiv N (t_Delta it) (n_of_Z N 4) = Ok (t_Delta_new it) \/
    (t_Delta_new it = pymin (nmul N (n_of_Z N 2) (t_Delta it)) Delta_bar /\
     ratio_exceeds (tr_rho_reg tp) (lit 3 4) it /\
     (t_stop it = NEGATIVE_CURVATURE \/ t_stop it = EXCEEDED_TR)) \/
    t_Delta_new it = t_Delta it) tr.
Proof. exact (@tr_run_radius_changes). Qed.
Print Assumptions C19_radius_changes.

(** ** C20 *)
Theorem C20_acceptance : forall (N : NumOps), OrderLaws N -> forall (M : Mfd N) (prob : OptProblem M) tp sp clock
  x0 mininner maxinner Delta_bar Delta0 draws sf r tr,
  tr_run prob tp sp clock x0 mininner maxinner Delta_bar Delta0 draws sf = Ok (r, tr) ->
  (* the iterations are chained by [linked]: point, cost and gradient change exactly on acceptance *)
  (exists start Delta', linked prob x0 start tr (r_point r) Delta') /\
  Forall (fun it : tr_iter M =>
    (t_accepted it = true <->
     nle N (n_of_Z N 0) (nadd N (predicted_decrease it) (shift (tr_rho_reg tp) it)) = true /\
     ratio_exceeds (tr_rho_reg tp) (tr_rho_prime tp) it) /\
    (nlt N (tr_rho_prime tp) (lit 1 4) = true -> t_accepted it = false ->
     ndiv N (t_Delta it) (n_of_Z N 4) = Ok (t_Delta_new it))) tr.
Proof. exact (fun N L M prob tp sp clock => tr_run_acceptance prob tp sp clock L). Qed.
Print Assumptions C20_acceptance.
Corollary C20_binary64 : forall powf (M : Mfd (f64 powf)) (prob : OptProblem M) tp sp clock
  x0 mininner maxinner Delta_bar Delta0 draws sf r tr,
  tr_run prob tp sp clock x0 mininner maxinner Delta_bar Delta0 draws sf = Ok (r, tr) ->
  (exists start Delta', linked prob x0 start tr (r_point r) Delta') /\
  Forall (fun it : tr_iter M =>
    (t_accepted it = true <->
     nle (f64 powf) (n_of_Z (f64 powf) 0) (nadd (f64 powf) (predicted_decrease it) (shift (tr_rho_reg tp) it)) = true /\
     ratio_exceeds (tr_rho_reg tp) (tr_rho_prime tp) it) /\
    (nlt (f64 powf) (tr_rho_prime tp) (lit 1 4) = true -> t_accepted it = false ->
     ndiv (f64 powf) (t_Delta it) (n_of_Z (f64 powf) 4) = Ok (t_Delta_new it))) tr.
Proof. exact (fun powf M prob tp sp clock => tr_run_acceptance prob tp sp clock (f64_laws powf)). Qed.
Print Assumptions C20_binary64.

(** ** C21 *)
Theorem C21_bounded_increase : forall (M : Mfd Rnum) (prob : OptProblem M) tp sp clock
  x0 mininner maxinner Delta_bar Delta0 draws sf r tr,
  tr_run prob tp sp clock x0 mininner maxinner Delta_bar Delta0 draws sf = Ok (r, tr) ->
  (0 <= tr_rho_prime tp)%R ->
  Forall (fun it : tr_iter M => t_accepted it = true ->
    (t_fx_prop it < t_fx it + Rmax 1 (Rabs (t_fx it)) / 4503599627370496 * tr_rho_reg tp)%R) tr.
Proof. exact (@tr_run_bounded_increase). Qed.
Print Assumptions C21_bounded_increase.
(** Over a whole run: at most the sum of the terms; without regularisation the cost never increases. *)
Theorem C21_monotone_without_regularisation : forall (M : Mfd Rnum) (prob : OptProblem M) tp sp clock
  x0 mininner maxinner Delta_bar Delta0 draws sf r tr,
  tr_run prob tp sp clock x0 mininner maxinner Delta_bar Delta0 draws sf = Ok (r, tr) ->
  (0 <= tr_rho_prime tp)%R -> tr_rho_reg tp = 0%R ->
  (r_cost r <= p_cost prob x0)%R /\
  Forall (fun it : tr_iter M => t_accepted it = true -> (t_fx_prop it < t_fx it)%R) tr.
Proof. exact (@tr_run_monotone). Qed.
Print Assumptions C21_monotone_without_regularisation.
Theorem C21_total_increase : forall (M : Mfd Rnum) (prob : OptProblem M) tp sp clock
  x0 mininner maxinner Delta_bar Delta0 draws sf r tr,
  tr_run prob tp sp clock x0 mininner maxinner Delta_bar Delta0 draws sf = Ok (r, tr) ->
  (0 <= tr_rho_prime tp)%R -> (0 <= tr_rho_reg tp)%R ->
  (r_cost r <= p_cost prob x0 + fold_right (fun (it : tr_iter M) acc =>
     Rmax 1 (Rabs (t_fx it)) / 4503599627370496 * tr_rho_reg tp + acc) 0 tr)%R.
Proof. exact (@tr_run_total). Qed.
Print Assumptions C21_total_increase.
(** With the default regularisation the cost can increase: 2^-60 (x^4 - x) from 0 with radius 2. *)
Theorem C21_plain_monotonicity_refuted : exists rt,
  tr_run (badly_scaled F) (tr_default F false) (stop_default F 1000) (still F) (n_of_Z F 0) 1 None
    (Some (n_of_Z F 16)) None (fun _ _ => n_of_Z F 0) 0 = Ok rt /\
  nlt F (p_cost (badly_scaled F) (n_of_Z F 0)) (r_cost (fst rt)) = true.
Proof. apply ok_and_exists. vm_compute. reflexivity. Qed.
Print Assumptions C21_plain_monotonicity_refuted.

(** ** C22 *)
Theorem C22_result : forall (N : NumOps) (M : Mfd N) (prob : OptProblem M) tp sp clock
  x0 mininner maxinner Delta_bar Delta0 draws sf r tr,
  tr_run prob tp sp clock x0 mininner maxinner Delta_bar Delta0 draws sf = Ok (r, tr) ->
  r_cost r = p_cost prob (r_point r) /\
  r_gradient_norm r = Some (m_norm M (r_point r) (p_grad prob (r_point r))) /\
  (1 <= r_iterations r <= Z.max 1 (max_iterations sp))%Z /\ Z.of_nat (length tr) = r_iterations r.
Proof. exact (@tr_run_result). Qed.
Print Assumptions C22_result.
(** A successful run: x^2 from 3/2. *)
Example C22_instance : exists rt,
  tr_run (square F) (tr_default F false) (stop_default F 1000) (still F) (lit 3 2) 1 None
    None None (fun _ _ => n_of_Z F 0) 0 = Ok rt /\
  ((2 <=? r_iterations (fst rt))%Z && nlt F (r_cost (fst rt)) (lit 1 1000000) &&
   existsb (fun it => t_accepted it) (snd rt)) = true.
Proof. apply ok_and_exists. vm_compute. reflexivity. Qed.

(** ** C23-C25: the inner solver from zero, exact arithmetic *)
Theorem C23_step_in_region : forall (M : Mfd Rnum) (prob : OptProblem M) tp x g T B Delta mininner maxinner eta Heta j stop,
  tangent_space x T -> symmetric_operator x T (p_hess prob x) -> preconditioner_form x T (p_prec prob x) B ->
  T g -> tr_use_rand tp = false ->
  tcg prob tp x g (m_zero M x) Delta mininner maxinner = Ok (eta, Heta, j, stop) ->
  T eta /\ (B eta eta <= Delta * Delta)%R.
Proof. exact (@tcg_in_region). Qed.
Print Assumptions C23_step_in_region.
(** Without preconditioner this is the norm of the manifold. *)
Corollary C23_no_preconditioner : forall (M : Mfd Rnum) (prob : OptProblem M) tp x g T Delta mininner maxinner eta Heta j stop,
  tangent_space x T -> symmetric_operator x T (p_hess prob x) ->
  (forall v, p_prec prob x v = v) ->
  T g -> (0 <= Delta)%R -> tr_use_rand tp = false ->
  tcg prob tp x g (m_zero M x) Delta mininner maxinner = Ok (eta, Heta, j, stop) ->
  (sqrt (ip x eta eta) <= Delta)%R.
Proof. exact (@tcg_in_region_id). Qed.
Print Assumptions C23_no_preconditioner.

Theorem C24_model_decrease : forall (M : Mfd Rnum) (prob : OptProblem M) tp x g T B Delta mininner maxinner eta Heta j stop,
  tangent_space x T -> symmetric_operator x T (p_hess prob x) -> preconditioner_form x T (p_prec prob x) B ->
  T g -> tr_use_rand tp = false ->
  tcg prob tp x g (m_zero M x) Delta mininner maxinner = Ok (eta, Heta, j, stop) ->
  let q := quadratic x g (p_hess prob x) in
  Heta = p_hess prob x eta /\ (q eta <= 0)%R /\ ((0 < Delta)%R -> (0 < ip x g g)%R -> (q eta < 0)%R) /\
  (* at least as good as every step along the preconditioned gradient inside the region *)
  (forall t, (0 <= t)%R -> (t * t * B (p_prec prob x g) (p_prec prob x g) <= Delta * Delta)%R ->
     (q eta <= q (t_scale M (- t) (p_prec prob x g)))%R).
Proof. exact (@tcg_decreases). Qed.
Print Assumptions C24_model_decrease.

Theorem C25_iterations_and_reason : forall (M : Mfd Rnum) (prob : OptProblem M) tp x g T B Delta mininner maxinner eta Heta j stop,
  tangent_space x T -> symmetric_operator x T (p_hess prob x) -> preconditioner_form x T (p_prec prob x) B ->
  T g -> tr_use_rand tp = false ->
  tcg prob tp x g (m_zero M x) Delta mininner maxinner = Ok (eta, Heta, j, stop) ->
  (0 <= j < maxinner)%Z /\
  reason_agrees x T g (p_hess prob x) B (tr_kappa tp) (tr_theta tp) Delta mininner maxinner j eta stop.
Proof. exact (@tcg_reason). Qed.
Print Assumptions C25_iterations_and_reason.
(** Any number system and start: the number of iterations, and the failure for maxinner <= 0. *)
Theorem C25_iterations : forall (N : NumOps) (M : Mfd N) (prob : OptProblem M) tp x g eta0 Delta mininner maxinner eta Heta j stop,
  tcg prob tp x g eta0 Delta mininner maxinner = Ok (eta, Heta, j, stop) -> (0 <= j < maxinner)%Z.
Proof. exact (@tcg_iterations). Qed.
Print Assumptions C25_iterations.
Theorem C25_zero_dimension_fails : forall (N : NumOps) (M : Mfd N) (prob : OptProblem M) tp sp clock x0 mininner Delta_bar Delta0 draws sf,
  (m_dim M <= 0)%Z -> tr_use_rand tp = false ->
  tr_run prob tp sp clock x0 mininner None (Some Delta_bar) (Some Delta0) draws sf = Raise UnboundLocalError.
Proof. exact (@tr_run_dim0). Qed.
Print Assumptions C25_zero_dimension_fails.

(** The hypotheses are met, e.g. by a saddle in the plane; the inner solver finds
    negative curvature. *)
Example C23_C24_C25_instance :
  let x : pt (E2 Rnum) := (1, 2)%R in
  tangent_space (M := E2 Rnum) x (fun _ => True) /\
  symmetric_operator (M := E2 Rnum) x (fun _ => True) (p_hess (quad2 Rnum 1 0 (-1)) x) /\
  preconditioner_form (M := E2 Rnum) x (fun _ => True) (p_prec (quad2 Rnum 1 0 (-1)) x) (ip (M := E2 Rnum) x) /\
  (0 < ip (M := E2 Rnum) x (p_grad (quad2 Rnum 1 0 (-1)) x) (p_grad (quad2 Rnum 1 0 (-1)) x))%R /\
  exists eta Heta j stop,
  tcg (quad2 Rnum 1 0 (-1)) (tr_default Rnum false) x (p_grad (quad2 Rnum 1 0 (-1)) x) (m_zero (E2 Rnum) x) 1%R 1 2
    = Ok (eta, Heta, j, stop).
Proof. exact saddle_instance. Qed.

(** ** Runs: every step of a run without use_rand stays in the region and decreases the model *)
Theorem C24_in_runs : forall (M : Mfd Rnum) (prob : OptProblem M) tp sp clock T B
  x0 mininner maxinner Delta_bar Delta0 draws sf r tr,
  (forall x, tangent_space x (T x)) -> (forall x, symmetric_operator x (T x) (p_hess prob x)) ->
  (forall x, preconditioner_form x (T x) (p_prec prob x) (B x)) -> (forall x, T x (p_grad prob x)) ->
  tr_use_rand tp = false -> (0 < Delta0 <= Delta_bar)%R ->
  tr_run prob tp sp clock x0 mininner maxinner (Some Delta_bar) (Some Delta0) draws sf = Ok (r, tr) ->
  Forall (fun it : tr_iter M =>
    let x := t_x it in
    let q := quadratic x (p_grad prob x) (p_hess prob x) in
    (B x (t_eta it) (t_eta it) <= t_Delta it * t_Delta it)%R /\
    predicted_decrease it = (- q (t_eta it))%R /\ (0 <= predicted_decrease it)%R /\
    ((0 < ip x (p_grad prob x) (p_grad prob x))%R -> (0 < predicted_decrease it)%R) /\
    (t_accepted it = true -> (tr_rho_prime tp * (predicted_decrease it + shift (tr_rho_reg tp) it)
                              < t_fx it - t_fx_prop it + shift (tr_rho_reg tp) it)%R)) tr.
Proof. exact (@tr_run_steps). Qed.
Print Assumptions C24_in_runs.

(** ** C26 *)
(** 1/2 |x|^2 in the plane at (1/16, 0): the inner solver of a default run returns NaN. *)
Theorem C26_refuted : exists o,
  tcg (quad2 F 1 0 1) (tr_default F false) ((lit 1 16, n_of_Z F 0) : pt (E2 F))
    (p_grad (quad2 F 1 0 1) (lit 1 16, n_of_Z F 0)) (m_zero (E2 F) (lit 1 16, n_of_Z F 0)) (lit 1 8) 1 2 = Ok o /\
  (let '(eta, _, _, _) := o in sf_eqb (fst eta) S754_nan && sf_eqb (snd eta) S754_nan) = true.
Proof. apply ok_and_exists. vm_compute. reflexivity. Qed.
Print Assumptions C26_refuted.
(** The cause, in general: if the residual is zero after the first step, and more steps
    are demanded, the next boundary step divides zero by zero. *)
Theorem C26_cause : forall powf (M : Mfd (f64 powf)) (prob : OptProblem M) tp x g Delta n0 mininner j (s : tcg_state M) o,
  (exists b, c_d_Pd s = S754_zero b) -> (exists b, m_inner M x (c_delta s) (p_hess prob x (c_delta s)) = S754_zero b) ->
  (exists b, c_e_Pd s = S754_zero b) ->
  f64_is_finite (nsub (f64 powf) (nmul (f64 powf) Delta Delta) (c_e_Pe s)) = true ->
  tcg_body prob tp x g Delta n0 mininner j s = Ok o ->
  exists Heta, o = Stop (t_add M (c_eta s) (t_scale M (S754_nan : f64 powf) (c_delta s)), Heta, NEGATIVE_CURVATURE).
Proof. exact nan_step. Qed.
Print Assumptions C26_cause.

(** ** C82: a NaN step is harmless: trust regions never moves to a point with NaN cost *)
Theorem C82_no_nan_cost : forall powf (M : Mfd (f64 powf)) (prob : OptProblem M) tp sp clock
  x0 mininner maxinner Delta_bar Delta0 draws sf r tr,
  tr_run prob tp sp clock x0 mininner maxinner Delta_bar Delta0 draws sf = Ok (r, tr) ->
  nisnan (f64 powf) (p_cost prob x0) = false -> nisnan (f64 powf) (r_cost r) = false.
Proof. exact tr_run_no_nan. Qed.
Print Assumptions C82_no_nan_cost.
(** E.g. started exactly at the minimiser, where the inner solver returns NaN. *)
Example C82_instance : exists rt,
  tr_run (square F) (tr_default F false) (stop_default F 1000) (still F) (n_of_Z F 0) 1 None
    None None (fun _ _ => n_of_Z F 0) 0 = Ok rt /\
  (sf_eqb (r_cost (fst rt)) (n_of_Z F 0) && existsb (fun it : tr_iter (E1 F) => sf_eqb (t_fx_prop it) S754_nan) (snd rt)) = true.
Proof. apply ok_and_exists. vm_compute. reflexivity. Qed.

(** ** C27 *)
Theorem C27_refuted : exists eta Heta j st,
  tcg (quad2 Rnum 7 3 3) (tr_default Rnum true) ((0, 0)%R : pt (E2 Rnum)) ((4, 0)%R : tv (E2 Rnum))
    ((-1, 0)%R : tv (E2 Rnum)) 1%R 1 2 = Ok (eta, Heta, j, st) /\
  ip (M := E2 Rnum) (0, 0)%R ((-1, 0)%R : tv (E2 Rnum)) ((-1, 0)%R : tv (E2 Rnum)) = (1 * 1)%R /\
  ip (M := E2 Rnum) (0, 0)%R eta eta = 2%R.
Proof. exact leaves_statement. Qed.
Print Assumptions C27_refuted.

(** ** C28 *)
Theorem C28_not_worse_than_cauchy : forall (M : Mfd Rnum) (prob : OptProblem M) tp sp clock T
  x0 mininner maxinner Delta_bar Delta0 draws sf r tr,
  (forall x, tangent_space x (T x)) -> (forall x, symmetric_operator x (T x) (p_hess prob x)) ->
  (forall x, T x (p_grad prob x)) -> (forall k x, T x (draws k x)) ->
  (forall x v, T x v -> m_norm M x v = sqrt (ip x v v)) ->
  tr_use_rand tp = true -> (0 < Delta0 <= Delta_bar)%R ->
  tr_run prob tp sp clock x0 mininner maxinner (Some Delta_bar) (Some Delta0) draws sf = Ok (r, tr) ->
  Forall (fun it : tr_iter M =>
    let x := t_x it in let g := p_grad prob x in let q := quadratic x g (p_hess prob x) in
    t_Heta it = p_hess prob x (t_eta it) /\
    (* the step is as good as every step along the negative gradient inside the region,
       in particular as the Cauchy step *)
    (forall t, (0 <= t)%R -> (t * sqrt (ip x g g) <= t_Delta it)%R ->
      (q (t_eta it) <= q (t_scale M (- t) g))%R)) tr.
Proof. exact (@tr_run_cauchy). Qed.
Print Assumptions C28_not_worse_than_cauchy.

(** ** C35: the budget of cost evaluations is ignored *)
Theorem C35_trust_regions_ignores_budget : forall (N : NumOps) (M : Mfd N) (prob : OptProblem M) tp sp clock
  x0 mininner maxinner Delta_bar Delta0 draws sf budget,
  (0 <= budget)%Z -> (0 <= max_cost_evaluations sp)%Z ->
  tr_run prob tp (with_budget sp budget) clock x0 mininner maxinner Delta_bar Delta0 draws sf =
  tr_run prob tp sp clock x0 mininner maxinner Delta_bar Delta0 draws sf.
Proof. exact (fun N M prob tp sp clock x0 mi ma bar D0 draws sf budget H1 H2 =>
  tr_run_budget prob sp clock budget H1 H2 tp x0 mi ma bar D0 draws sf). Qed.
Print Assumptions C35_trust_regions_ignores_budget.
Theorem C35_steepest_descent_ignores_budget : forall (N : NumOps) (M : Mfd N) (prob : OptProblem M) LS sp clock ls0 x0 budget,
  (0 <= budget)%Z -> (0 <= max_cost_evaluations sp)%Z ->
  sd_run prob LS (with_budget sp budget) clock ls0 x0 = sd_run prob LS sp clock ls0 x0.
Proof. exact (fun N M prob LS sp clock ls0 x0 budget H1 H2 =>
  sd_run_budget prob sp clock budget H1 H2 LS ls0 x0). Qed.
Print Assumptions C35_steepest_descent_ignores_budget.
Theorem C35_conjugate_gradient_ignores_budget : forall (N : NumOps) (M : Mfd N) (prob : OptProblem M) LS sp clock rule orth ls0 x0 budget,
  (0 <= budget)%Z -> (0 <= max_cost_evaluations sp)%Z ->
  cg_run prob LS (with_budget sp budget) clock rule orth ls0 x0 = cg_run prob LS sp clock rule orth ls0 x0.
Proof. exact (fun N M prob LS sp clock rule orth ls0 x0 budget H1 H2 =>
  cg_run_budget prob sp clock budget H1 H2 LS rule orth ls0 x0). Qed.
Print Assumptions C35_conjugate_gradient_ignores_budget.
