(** Vocabulary for the trust-region properties. *)
From Coq Require Import ZArith List Bool Reals SpecFloat.
From Verif Require Import Num_Model Num_Instances LineSearch_Model Optimizer_Model TrustRegions_Model.
Import ListNotations.
Local Open Scope R_scope.

(** * Tangent spaces as inner product spaces (exact arithmetic) *)
Section Tangent.
Variables (M : Mfd Rnum) (x : pt M).
Definition ip (u v : tv M) : R := m_inner M x u v.

(** [T] holds for the tangent vectors at [x]: a real vector space with inner product [ip],
    on which [to_tangent_space] is the identity. *)
Record tangent_space (T : tv M -> Prop) : Prop := {
  T_zero : T (m_zero M x);
  T_add : forall u v, T u -> T v -> T (t_add M u v);
  T_scale : forall (a : R) u, T u -> T (t_scale M a u);
  T_neg : forall u, T u -> T (t_neg M u);
  ip_add : forall u v w, T u -> T v -> T w -> ip (t_add M u v) w = ip u w + ip v w;
  ip_scale : forall (a : R) u w, T u -> T w -> ip (t_scale M a u) w = a * ip u w;
  ip_neg : forall u w, T u -> T w -> ip (t_neg M u) w = - ip u w;
  ip_zero : forall w, T w -> ip (m_zero M x) w = 0;
  ip_sym : forall u v, T u -> T v -> ip u v = ip v u;
  ip_pos : forall u, T u -> 0 <= ip u u;
  tangent_fixed : forall u, T u -> m_to_tangent M x u = u }.

(** A linear operator on [T], symmetric for the inner product; it may be indefinite. *)
Record symmetric_operator (T : tv M -> Prop) (H : tv M -> tv M) : Prop := {
  H_T : forall u, T u -> T (H u);
  H_zero : H (m_zero M x) = m_zero M x;
  H_add : forall u v, T u -> T v -> H (t_add M u v) = t_add M (H u) (H v);
  H_scale : forall (a : R) u, T u -> H (t_scale M a u) = t_scale M a (H u);
  H_neg : forall u, T u -> H (t_neg M u) = t_neg M (H u);
  H_sym : forall u v, T u -> T v -> ip (H u) v = ip u (H v) }.

(** A positive definite preconditioner [P] with the symmetric bilinear form [B] of its inverse:
    [B u v] is the inner product of [P^-1 u] and [v]. *)
Record preconditioner_form (T : tv M -> Prop) (P : tv M -> tv M) (B : tv M -> tv M -> R) : Prop := {
  P_T : forall u, T u -> T (P u);
  P_pos : forall u, T u -> 0 <= ip (P u) u;
  P_def : forall u, T u -> 0 < ip u u -> 0 < ip (P u) u;
  B_sym : forall u v, T u -> T v -> B u v = B v u;
  B_add : forall u v w, T u -> T v -> T w -> B (t_add M u v) w = B u w + B v w;
  B_scale : forall (a : R) u w, T u -> T w -> B (t_scale M a u) w = a * B u w;
  B_neg : forall u w, T u -> T w -> B (t_neg M u) w = - B u w;
  B_zero : forall w, T w -> B (m_zero M x) w = 0;
  B_inverse : forall u v, T u -> T v -> B (P u) v = ip u v }.

(** The quadratic model with gradient [g] and Hessian [H]. *)
Definition quadratic (g : tv M) (H : tv M -> tv M) (eta : tv M) : R :=
  ip g eta + / 2 * ip eta (H eta).
(** The norm of the gradient of the model at [eta]. *)
Definition model_gradient_norm (g : tv M) (H : tv M -> tv M) (eta : tv M) : R :=
  sqrt (ip (t_add M g (H eta)) (t_add M g (H eta))).

(** What the inner solver's reason says about the step [eta] found in iteration [j]. *)
Definition reason_agrees (T : tv M -> Prop) (g : tv M) (H : tv M -> tv M) (B : tv M -> tv M -> R)
  (kappa theta Delta : R) (mininner maxinner j : Z) (eta : tv M) (r : tcg_stop) : Prop :=
  let n0 := sqrt (ip g g) in
  let target := n0 * Rmin (Rpow_np n0 theta) kappa in
  match r with
  | NEGATIVE_CURVATURE => B eta eta = Delta * Delta /\ exists d, T d /\ ip d (H d) <= 0
  | EXCEEDED_TR => B eta eta = Delta * Delta
  | REACHED_TARGET_LINEAR =>
      model_gradient_norm g H eta <= target /\ kappa < Rpow_np n0 theta /\ (mininner <= j)%Z
  | REACHED_TARGET_SUPERLINEAR =>
      model_gradient_norm g H eta <= target /\ Rpow_np n0 theta <= kappa /\ (mininner <= j)%Z
  | MAX_INNER_ITER => j = (maxinner - 1)%Z
  | MODEL_INCREASED => model_gradient_norm g H eta = 0
  end.
End Tangent.
Arguments ip {M} x u v.
Arguments tangent_space {M} x T.
Arguments symmetric_operator {M} x T H.
Arguments preconditioner_form {M} x T P B.
Arguments quadratic {M} x g H eta.
Arguments model_gradient_norm {M} x g H eta.
Arguments reason_agrees {M} x T g H B kappa theta Delta mininner maxinner j eta r.
Arguments T_zero {M x T} _.
Arguments T_add {M x T} _.
Arguments T_scale {M x T} _.
Arguments T_neg {M x T} _.
Arguments ip_add {M x T} _.
Arguments ip_scale {M x T} _.
Arguments ip_neg {M x T} _.
Arguments ip_zero {M x T} _.
Arguments ip_sym {M x T} _.
Arguments ip_pos {M x T} _.
Arguments tangent_fixed {M x T} _.
Arguments H_T {M x T H} _.
Arguments H_zero {M x T H} _.
Arguments H_add {M x T H} _.
Arguments H_scale {M x T H} _.
Arguments H_neg {M x T H} _.
Arguments H_sym {M x T H} _.
Arguments P_T {M x T P B} _.
Arguments P_pos {M x T P B} _.
Arguments P_def {M x T P B} _.
Arguments B_sym {M x T P B} _.
Arguments B_add {M x T P B} _.
Arguments B_scale {M x T P B} _.
Arguments B_neg {M x T P B} _.
Arguments B_zero {M x T P B} _.
Arguments B_inverse {M x T P B} _.

(** * Runs of the outer loop *)
Section Trace.
Context {N : NumOps} {M : Mfd N} (prob : OptProblem M).
Local Open Scope num_scope.

(** The iterations [tr] lead from [x] with radius [Delta] to [y] with radius [Delta'] and are chained: each
    starts with the cost and the gradient of the current point, proposes the
    retraction of its step, and hands over either the proposal or the same point. *)
Inductive linked : pt M -> N -> list (tr_iter M) -> pt M -> N -> Prop :=
  | linked_nil x Delta : linked x Delta [] x Delta
  | linked_cons it rest y Delta' :
      t_fx it = p_cost prob (t_x it) ->
      t_gradient it = p_grad prob (t_x it) ->
      t_x_prop it = m_retr M (t_x it) (t_eta it) ->
      t_fx_prop it = p_cost prob (t_x_prop it) ->
      linked (if t_accepted it then t_x_prop it else t_x it) (t_Delta_new it) rest y Delta' ->
      linked (t_x it) (t_Delta it) (it :: rest) y Delta'.

(** The regularised predicted and actual decrease of an iteration. *)
Definition predicted_decrease (it : tr_iter M) : N :=
  - m_inner M (t_x it) (t_gradient it) (t_eta it)
  - lit 1 2 * m_inner M (t_x it) (t_eta it) (t_Heta it).
Definition shift (reg : N) (it : tr_iter M) : N :=
  pymax #1 (nabs N (t_fx it)) * lit 1 4503599627370496 * reg.
(** actual / predicted decrease, both shifted, exceeds [c] *)
Definition ratio_exceeds (reg c : N) (it : tr_iter M) : Prop :=
  exists q, ndiv N (t_fx it - t_fx_prop it + shift reg it) (predicted_decrease it + shift reg it) = Ok q
            /\ (c <? q) = true.
End Trace.

(** The same stopping parameters with another budget of cost evaluations. *)
Definition with_budget {N : NumOps} (p : stop_params N) (budget : Z) : stop_params N :=
  mkStop (max_time p) (max_iterations p) (min_gradient_norm p) (min_step_size p) budget
    (verbosity p) (log_verbosity p).

(** A binary64 number that is neither NaN nor infinite. *)
Definition f64_is_finite (x : spec_float) : bool :=
  match x with S754_zero _ | S754_finite _ _ _ => true | _ => false end.
