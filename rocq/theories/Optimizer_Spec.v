(** Vocabulary for the optimizer properties. *)
From Coq Require Import ZArith List Bool Sorted.
From Verif Require Import Num_Model LineSearch_Model Optimizer_Model.
Import ListNotations.

(** The two line searchers pymanopt provides, with any parameters. *)
Definition builtin_searcher {N : NumOps} {M : Mfd N} (LS : LineSearcher M) : Prop :=
  (exists p, LS = bt_searcher M p) \/ (exists p, LS = ad_searcher M p).

(** Each number is at least every later one. *)
Definition nonincreasing {N : NumOps} (l : list N) : Prop :=
  StronglySorted (fun a b => nle N b a = true) l.

(** The five stopping criteria, in the order in which they are documented. *)
Inductive criterion := CTime | CIterations | CGradient | CStep | CEvaluations.
Definition criteria := [CTime; CIterations; CGradient; CStep; CEvaluations].

Definition criterion_met {N : NumOps} (p : stop_params N) (now start : N)
  (iteration : Z) (gradient_norm step_size : option N) (evals : Z) (c : criterion) : Prop :=
  match c with
  | CTime => nle N (nadd N start (max_time p)) now = true
  | CIterations => (iteration >= max_iterations p)%Z
  | CGradient => exists g, gradient_norm = Some g /\ nlt N g (min_gradient_norm p) = true
  | CStep => exists s, step_size = Some s /\ nlt N s (min_step_size p) = true
  | CEvaluations => (evals >= max_cost_evaluations p)%Z
  end.

Definition reason_criterion {N} (r : stop_reason N) : criterion :=
  match r with
  | MaxTime _ => CTime | MaxIterations _ => CIterations | MinGradNorm _ _ => CGradient
  | MinStepSize _ _ => CStep | MaxCostEvals _ => CEvaluations
  end.

(** [c] is the first element of [criteria] satisfying [P]. *)
Definition first_criterion (P : criterion -> Prop) (c : criterion) : Prop :=
  P c /\ exists before after, criteria = before ++ c :: after /\ Forall (fun c' => ~ P c') before.

(** The iteration number and elapsed time quoted in a reason are the right ones. *)
Definition reason_data {N} (r : stop_reason N) (iteration : Z) (elapsed : N) : Prop :=
  match r with
  | MaxTime i => i = iteration
  | MaxIterations t | MaxCostEvals t => t = elapsed
  | MinGradNorm i t | MinStepSize i t => i = iteration /\ t = elapsed
  end.

(** A complete and correct log: entry number [i] (from 0) is numbered [i+1] and holds
    a point with its cost and gradient norm; the first point is [x0]. *)
Definition faithful_log {N : NumOps} {M : Mfd N} (prob : OptProblem M) (x0 : pt M)
  (es : list (log_entry N (pt M))) : Prop :=
  (exists e es', es = e :: es' /\ l_point e = x0) /\
  forall i e, nth_error es i = Some e ->
    l_iteration e = (Z.of_nat i + 1)%Z /\
    l_cost e = p_cost prob (l_point e) /\
    l_gradient_norm e = m_norm M (l_point e) (p_grad prob (l_point e)).

(** A line searcher that also records the arguments [(x, d, f0, df0)] it is
    called with (most recent first). *)
Definition recording {N : NumOps} {M : Mfd N} (LS : LineSearcher M) : LineSearcher M :=
  {| ls_state := ls_state LS * list (pt M * tv M * N * N);
     ls_search := fun st f x d f0 df0 =>
       let* (ls, sy, calls) := ls_search LS (fst st) f x d f0 df0 in
       Ok ((ls, (x, d, f0, df0) :: snd st), sy, calls) |}.

(** A sequence of earlier runs on one optimizer object: each with its own runner (problem, clock,
    ...), initial point and reuse flag. *)
Fixpoint after_runs {N : NumOps} {M : Mfd N} {LS : LineSearcher M}
  (runs : list ((ls_state LS -> pt M -> res (result N (pt M) * ls_state LS)) * pt M * bool))
  (o : opt_obj LS) : opt_obj LS :=
  match runs with
  | [] => o
  | (runner, x0, reuse) :: rest => after_runs rest (fst (obj_run LS runner o x0 reuse))
  end.

(** * The conjugate gradient recurrence *)
Section Recurrence.
Context {N : NumOps} {M : Mfd N}.
Variables (prob : OptProblem M) (rule : beta_args M -> res N) (orth_value : N).
Local Notation g x := (p_grad prob x).
Local Notation Pg x := (p_prec prob x (p_grad prob x)).

(** What the rules receive after a step from [x] along [d] to [x']. *)
Definition step_data (x : pt M) (d : tv M) (x' : pt M) : beta_args M :=
  mkBeta x x' (g x) (g x') (Pg x') (m_inner M x' (g x') (Pg x')) (Pg x) (m_inner M x (g x) (Pg x))
    (m_norm M x (g x)) (m_transp M x x' (g x)) (m_transp M x x' d).

(** The conjugate direction [c] at [x'], after a step from [x] along [d]: the negative preconditioned
    gradient if successive gradients are far from orthogonal, and otherwise that plus beta times the
    transported previous direction. *)
Inductive conjugate (x : pt M) (d : tv M) (x' : pt M) : tv M -> Prop :=
  | CgFar q : ip_div M (m_inner M x' (m_transp M x x' (g x)) (Pg x')) (m_inner M x' (g x') (Pg x')) = Ok q ->
      nle N orth_value (nabs N q) = true -> conjugate x d x' (t_neg M (Pg x'))
  | CgBeta q beta : ip_div M (m_inner M x' (m_transp M x x' (g x)) (Pg x')) (m_inner M x' (g x') (Pg x')) = Ok q ->
      nle N orth_value (nabs N q) = false -> rule (step_data x d x') = Ok beta ->
      conjugate x d x' (t_add M (t_neg M (Pg x')) (t_scale M beta (m_transp M x x' d))).

(** The direction searched at [x'] if the conjugate direction is [c]: restarts unless it is a descent
    direction. *)
Definition or_restart (x' : pt M) (c : tv M) : tv M :=
  if nle N (n_of_Z N 0) (m_inner M x' (g x') c) then t_neg M (Pg x') else c.
End Recurrence.
