(** C102: when two manifolds are the same geometry in two descriptions, and two problems the same problem.

    [same_point x y] says that [y] describes in the second manifold the point described by [x] in the first;
    [same_vector x y u v] says the same of tangent vectors at these points.  The relations need not be functions,
    and may demand that [x] is a point of the manifold and [u] a tangent vector at [x]. *)
From Coq Require Import ZArith List Bool.
From Verif Require Import Num_Model LineSearch_Model Optimizer_Model TrustRegions_Model NelderMead_Model ParticleSwarm_Model.
Import ListNotations.

Section Same.
Context {N : NumOps} (M M' : Mfd N).
Variables (same_point : pt M -> pt M' -> Prop) (same_vector : pt M -> pt M' -> tv M -> tv M' -> Prop).

(** The operations used by the gradient methods are the same operations. *)
Record same_steps : Prop := mkSameSteps {
  ss_dim : m_dim M = m_dim M';
  ss_typical : m_typical_dist M = m_typical_dist M';
  ss_py : m_ip_py M = m_ip_py M';
  ss_inner : forall x y u u' v v', same_point x y -> same_vector x y u u' -> same_vector x y v v' ->
    m_inner M x u v = m_inner M' y u' v';
  ss_norm : forall x y u u', same_point x y -> same_vector x y u u' -> m_norm M x u = m_norm M' y u';
  ss_retr : forall x y u u', same_point x y -> same_vector x y u u' -> same_point (m_retr M x u) (m_retr M' y u');
  ss_transp : forall x y z w u u', same_point x y -> same_point z w -> same_vector x y u u' ->
    same_vector z w (m_transp M x z u) (m_transp M' y w u');
  ss_to_tangent : forall x y u u', same_point x y -> same_vector x y u u' ->
    same_vector x y (m_to_tangent M x u) (m_to_tangent M' y u');
  ss_zero : forall x y, same_point x y -> same_vector x y (m_zero M x) (m_zero M' y);
  ss_neg : forall x y u u', same_point x y -> same_vector x y u u' -> same_vector x y (t_neg M u) (t_neg M' u');
  ss_add : forall x y u u' v v', same_point x y -> same_vector x y u u' -> same_vector x y v v' ->
    same_vector x y (t_add M u v) (t_add M' u' v');
  ss_sub : forall x y u u' v v', same_point x y -> same_vector x y u u' -> same_vector x y v v' ->
    same_vector x y (t_sub M u v) (t_sub M' u' v');
  ss_scale : forall x y a u u', same_point x y -> same_vector x y u u' ->
    same_vector x y (t_scale M a u) (t_scale M' a u') }.

(** The further operations used by the derivative-free methods: the logarithm, and, for Nelder-Mead, distances and midpoints. *)
Definition same_logs : Prop := forall x y z w, same_point x y -> same_point z w ->
  same_vector x y (m_log M x z) (m_log M' y w).
Record same_means : Prop := mkSameMeans {
  sl_dist : forall x y z w, same_point x y -> same_point z w -> m_dist M x z = m_dist M' y w;
  sl_mean : forall x y z w, same_point x y -> same_point z w -> same_point (m_pair_mean M x z) (m_pair_mean M' y w) }.

(** The cost functions agree, and so do the gradients, Hessians and preconditioners. *)
Record same_problem (p : OptProblem M) (p' : OptProblem M') : Prop := mkSameProblem {
  sp_cost : forall x y, same_point x y -> p_cost p x = p_cost p' y;
  sp_grad : forall x y, same_point x y -> same_vector x y (p_grad p x) (p_grad p' y);
  sp_hess : forall x y u u', same_point x y -> same_vector x y u u' -> same_vector x y (p_hess p x u) (p_hess p' y u');
  sp_prec : forall x y u u', same_point x y -> same_vector x y u u' -> same_vector x y (p_prec p x u) (p_prec p' y u') }.

(** Two runs end the same way: both raise the same exception, or both return, with the same numbers, the same
    stopping reason, the same points in the result and in the log, and the same cost evaluations. *)
Definition same_outcome {A B} (R : A -> B -> Prop) (r : res A) (r' : res B) : Prop :=
  match r, r' with Ok a, Ok b => R a b | Raise e, Raise e' => e = e' | _, _ => False end.
Definition same_entry (e : log_entry N (pt M)) (e' : log_entry N (pt M')) : Prop :=
  l_time e = l_time e' /\ l_iteration e = l_iteration e' /\ same_point (l_point e) (l_point e') /\
  l_cost e = l_cost e' /\ l_gradient_norm e = l_gradient_norm e'.
Definition same_log (l : option (list (log_entry N (pt M)))) (l' : option (list (log_entry N (pt M')))) : Prop :=
  match l, l' with Some l, Some l' => Forall2 same_entry l l' | None, None => True | _, _ => False end.
Definition same_result (r : result N (pt M)) (r' : result N (pt M')) : Prop :=
  same_point (r_point r) (r_point r') /\ r_cost r = r_cost r' /\ r_iterations r = r_iterations r' /\
  r_stopping_criterion r = r_stopping_criterion r' /\ r_time r = r_time r' /\
  r_cost_evaluations r = r_cost_evaluations r' /\ r_step_size r = r_step_size r' /\ r_gradient_norm r = r_gradient_norm r' /\
  same_log (r_log r) (r_log r') /\ Forall2 same_point (r_calls r) (r_calls r').

(** Line searchers that behave the same from the same state. *)
Definition same_searcher (L : LineSearcher M) (L' : LineSearcher M') (same_state : ls_state L -> ls_state L' -> Prop) : Prop :=
  forall s s' f f' x y d d' f0 df0, same_state s s' -> (forall x y, same_point x y -> f x = f' y) ->
    same_point x y -> same_vector x y d d' ->
    same_outcome (fun o o' => same_state (fst (fst o)) (fst (fst o')) /\ fst (snd (fst o)) = fst (snd (fst o')) /\
                              same_point (snd (snd (fst o))) (snd (snd (fst o'))) /\ Forall2 same_point (snd o) (snd o'))
      (ls_search L s f x d f0 df0) (ls_search L' s' f' y d' f0 df0).

(** One iteration of trust regions, see [tr_iter]. *)
Definition same_iter (t : tr_iter M) (t' : tr_iter M') : Prop :=
  same_point (t_x t) (t_x t') /\ t_fx t = t_fx t' /\
  same_vector (t_x t) (t_x t') (t_gradient t) (t_gradient t') /\ t_Delta t = t_Delta t' /\
  same_vector (t_x t) (t_x t') (t_eta t) (t_eta t') /\ same_vector (t_x t) (t_x t') (t_Heta t) (t_Heta t') /\
  t_numit t = t_numit t' /\ t_stop t = t_stop t' /\ same_point (t_x_prop t) (t_x_prop t') /\
  t_fx_prop t = t_fx_prop t' /\ t_rho_shift t = t_rho_shift t' /\ t_rhoden t = t_rhoden t' /\
  t_rho t = t_rho t' /\ t_accepted t = t_accepted t' /\ t_Delta_new t = t_Delta_new t'.

Definition same_nm_start (s : nm_start M) (s' : nm_start M') : Prop :=
  match s, s' with
  | NmRandom l, NmRandom l' | NmSequence l, NmSequence l' => Forall2 same_point l l'
  | NmOther, NmOther => True
  | _, _ => False
  end.
Definition same_simplex (s : list (pt M) * list N) (s' : list (pt M') * list N) : Prop :=
  Forall2 same_point (fst s) (fst s') /\ snd s = snd s'.

Definition same_ps_start (s : ps_start M) (s' : ps_start M') : Prop :=
  match s, s' with
  | PsRandom d, PsRandom d' => forall k, same_point (d k) (d' k)
  | PsList l, PsList l' | PsTuple l, PsTuple l' => Forall2 same_point l l'
  | PsOther, PsOther => True
  | _, _ => False
  end.
Definition same_swarm (s : swarm M) (s' : swarm M') : Prop :=
  Forall2 same_point (sw_x s) (sw_x s') /\ Forall2 same_point (sw_y s) (sw_y s') /\ sw_fy s = sw_fy s' /\
  same_point (sw_xbest s) (sw_xbest s') /\ sw_fbest s = sw_fbest s' /\ Forall2 same_point (sw_calls s) (sw_calls s').
Definition same_list (l : option (list (pt M))) (l' : option (list (pt M'))) : Prop :=
  match l, l' with Some l, Some l' => Forall2 same_point l l' | None, None => True | _, _ => False end.
End Same.
