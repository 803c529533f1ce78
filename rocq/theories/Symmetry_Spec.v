(** C103, C104: symmetries of a manifold, moved problems and moved runs. *)
From Coq Require Import ZArith List Bool.
From Verif Require Import Num_Model LineSearch_Model Optimizer_Model TrustRegions_Model NelderMead_Model ParticleSwarm_Model Equivariance_Spec.
Import ListNotations.

Section Symmetry.
Context {N : NumOps} (M : Mfd N).
(** [on x]: the array [x] represents a point; [tangent x u]: [u] represents a tangent vector at [x];
    [move]: a map of points; [push]: the corresponding map of tangent vectors. *)
Variables (on : pt M -> Prop) (tangent : pt M -> tv M -> Prop) (move : pt M -> pt M) (push : tv M -> tv M).

(** Every operation commutes with the maps. *)
Record symmetry : Prop := mkSymmetry {
  sy_inner : forall x u v, on x -> m_inner M (move x) (push u) (push v) = m_inner M x u v;
  sy_norm : forall x u, on x -> m_norm M (move x) (push u) = m_norm M x u;
  sy_retr : forall x u, on x -> tangent x u -> on (m_retr M x u) /\ m_retr M (move x) (push u) = move (m_retr M x u);
  sy_transp : forall x z u, on x -> on z -> tangent x u ->
    tangent z (m_transp M x z u) /\ m_transp M (move x) (move z) (push u) = push (m_transp M x z u);
  sy_to_tangent : forall x u, on x -> tangent x u ->
    tangent x (m_to_tangent M x u) /\ m_to_tangent M (move x) (push u) = push (m_to_tangent M x u);
  sy_zero : forall x, on x -> tangent x (m_zero M x) /\ m_zero M (move x) = push (m_zero M x);
  sy_neg : forall x u, on x -> tangent x u -> tangent x (t_neg M u) /\ t_neg M (push u) = push (t_neg M u);
  sy_add : forall x u v, on x -> tangent x u -> tangent x v -> tangent x (t_add M u v) /\ t_add M (push u) (push v) = push (t_add M u v);
  sy_sub : forall x u v, on x -> tangent x u -> tangent x v -> tangent x (t_sub M u v) /\ t_sub M (push u) (push v) = push (t_sub M u v);
  sy_scale : forall x a u, on x -> tangent x u -> tangent x (t_scale M a u) /\ t_scale M a (push u) = push (t_scale M a u) }.
Definition log_symmetry : Prop := forall x y, on x -> on y ->
  tangent x (m_log M x y) /\ m_log M (move x) (move y) = push (m_log M x y).
Record mean_symmetry : Prop := mkMeanSymmetry {
  sy_dist : forall x y, on x -> on y -> m_dist M (move x) (move y) = m_dist M x y;
  sy_mean : forall x y, on x -> on y -> on (m_pair_mean M x y) /\ m_pair_mean M (move x) (move y) = move (m_pair_mean M x y) }.

(** [p'] is the problem [p] moved along. *)
Record moved_problem (p p' : OptProblem M) : Prop := mkMovedProblem {
  mp_cost : forall x, on x -> p_cost p' (move x) = p_cost p x;
  mp_grad : forall x, on x -> tangent x (p_grad p x) /\ p_grad p' (move x) = push (p_grad p x);
  mp_hess : forall x u, on x -> tangent x u -> tangent x (p_hess p x u) /\ p_hess p' (move x) (push u) = push (p_hess p x u);
  mp_prec : forall x u, on x -> tangent x u -> tangent x (p_prec p x u) /\ p_prec p' (move x) (push u) = push (p_prec p x u) }.

(** The second outcome is the first one moved along: the same exception, or the same numbers everywhere (costs, norms, step sizes,
    times, evaluations, iterations, stopping reason), and every point of the result, of the log and of the calls of the cost
    function a point of the manifold, moved. *)
Definition moved_point (x y : pt M) : Prop := on x /\ y = move x.
Definition moved_vector (x y : pt M) (u v : tv M) : Prop := tangent x u /\ v = push u.
Definition moved_outcome {T} (r r' : res (result N (pt M) * T)) : Prop :=
  same_outcome (fun o o' => same_result M M moved_point (fst o) (fst o') /\ snd o = snd o') r r'.

(** Steepest descent and conjugate gradients with either line searcher and any beta rule, and trust regions. *)
Definition runs_move : Prop := forall p p' x (sp : stop_params N) clock, moved_problem p p' -> on x ->
  (forall bp s, moved_outcome (sd_run p (bt_searcher M bp) sp clock s x) (sd_run p' (bt_searcher M bp) sp clock s (move x))) /\
  (forall ap s, moved_outcome (sd_run p (ad_searcher M ap) sp clock s x) (sd_run p' (ad_searcher M ap) sp clock s (move x))) /\
  (forall bp s rule orth_value, moved_outcome (cg_run p (bt_searcher M bp) sp clock (beta_update rule) orth_value s x)
    (cg_run p' (bt_searcher M bp) sp clock (beta_update rule) orth_value s (move x))) /\
  (forall ap s rule orth_value, moved_outcome (cg_run p (ad_searcher M ap) sp clock (beta_update rule) orth_value s x)
    (cg_run p' (ad_searcher M ap) sp clock (beta_update rule) orth_value s (move x))) /\
  (forall tp mininner maxinner Delta_bar Delta0 draws draws' fuel,
    (forall k x, on x -> tangent x (draws k x) /\ draws' k (move x) = push (draws k x)) ->
    same_outcome (fun o o' => same_result M M moved_point (fst o) (fst o') /\ Forall2 (same_iter M M moved_point moved_vector) (snd o) (snd o'))
      (tr_run p tp sp clock x mininner maxinner Delta_bar Delta0 draws fuel)
      (tr_run p' tp sp clock (move x) mininner maxinner Delta_bar Delta0 draws' fuel)).
(** Particle swarm. *)
Definition swarm_moves : Prop := forall cost cost' (base : stop_params N) clock uniform rtv rtv' (o : ps_obj N) st st',
  (forall x, on x -> cost' (move x) = cost x) ->
  (forall k x, on x -> tangent x (rtv k x) /\ rtv' k (move x) = push (rtv k x)) ->
  same_ps_start M M moved_point st st' ->
  let r := ps_run cost base clock uniform rtv o st in let r' := ps_run cost' base clock uniform rtv' o st' in
  fst (fst r) = fst (fst r') /\
  same_outcome (fun a b => same_result M M moved_point (fst a) (fst b) /\ Forall2 (same_swarm M M moved_point) (snd a) (snd b))
    (snd (fst r)) (snd (fst r')) /\
  same_list M M moved_point (snd r) (snd r').
(** Nelder-Mead. *)
Definition simplex_moves : Prop := forall cost cost' (base sp : stop_params N) clock clock_k argsort bp start start' (o : nm_obj N) st st',
  (forall x, on x -> cost' (move x) = cost x) -> (forall k, moved_point (start k) (start' k)) -> same_nm_start M M moved_point st st' ->
  let centroid k := compute_centroid (bt_searcher M bp) None sp (clock_k k) (start k) in
  let centroid' k := compute_centroid (bt_searcher M bp) None sp (clock_k k) (start' k) in
  fst (nm_run cost base clock argsort centroid o st) = fst (nm_run cost' base clock argsort centroid' o st') /\
  same_outcome (fun a b => same_result M M moved_point (fst a) (fst b) /\ Forall2 (same_simplex M M moved_point) (snd a) (snd b))
    (snd (nm_run cost base clock argsort centroid o st)) (snd (nm_run cost' base clock argsort centroid' o st')).
End Symmetry.
