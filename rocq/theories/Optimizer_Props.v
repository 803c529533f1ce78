(** Properties C06-C18 and C81: stopping test, steepest descent, conjugate gradient. *)
From Coq Require Import ZArith List Bool SpecFloat Reals Lra.
From Verif Require Import Num_Model Num_Spec Num_Instances LineSearch_Model LineSearch_Spec
  Optimizer_Model Optimizer_Spec Optimizer_Proofs Optimizer_Proofs2 Optimizer_Proofs3 Optimizer_Proofs4 Euclid1.
Import ListNotations.

(** ** C06 *)
Theorem C06_stopping_test_exact : forall (N : NumOps) (p : stop_params N) clock tick start it gn ss ev,
  let met := criterion_met p (clock (S tick)) start it gn ss ev in
  match check_stopping p clock tick start it gn ss ev with
  | None => forall c, ~ met c
  | Some r => first_criterion met (reason_criterion r) /\
              reason_data r it (nsub N (clock tick) start)
  end.
Proof. exact (@check_stopping_cases). Qed.
Print Assumptions C06_stopping_test_exact.
(** A run reports the first criterion that its own reported data satisfy. *)
Theorem C06_steepest_descent_reason : forall (N : NumOps) (M : Mfd N) (prob : OptProblem M) LS sp clock ls0 x0 r ls,
  sd_run prob LS sp clock ls0 x0 = Ok (r, ls) ->
  exists tick,
    first_criterion (criterion_met sp (clock (S tick)) (clock 0) (r_iterations r)
      (r_gradient_norm r) (r_step_size r) (-1)) (reason_criterion (r_stopping_criterion r)) /\
    reason_data (r_stopping_criterion r) (r_iterations r) (nsub N (clock tick) (clock 0)).
Proof. exact (@sd_run_reason). Qed.
Print Assumptions C06_steepest_descent_reason.
Theorem C06_conjugate_gradient_reason : forall (N : NumOps) (M : Mfd N) (prob : OptProblem M) LS sp clock rule orth ls0 x0 r ls,
  cg_run prob LS sp clock rule orth ls0 x0 = Ok (r, ls) ->
  exists tick,
    first_criterion (criterion_met sp (clock (S tick)) (clock 0) (r_iterations r)
      (r_gradient_norm r) (r_step_size r) (-1)) (reason_criterion (r_stopping_criterion r)) /\
    reason_data (r_stopping_criterion r) (r_iterations r) (nsub N (clock tick) (clock 0)).
Proof. exact (@cg_run_reason). Qed.
Print Assumptions C06_conjugate_gradient_reason.
Example C06_instance :
  match check_stopping (stop_default F 100) (still F) 5 (n_of_Z F 0) 7 (Some (lit 1 10000000)) (Some (n_of_Z F 0)) (-1)
  with Some (MinGradNorm 7 _) => true | _ => false end = true.
Proof. vm_compute. reflexivity. Qed.

(** ** C07 *)
(** For every number system in which the comparisons obey IEEE rules: the initial cost, the logged costs and the
    final cost form a non-increasing sequence, if no evaluated cost is NaN. *)
Theorem C07_steepest_descent_monotone : forall (N : NumOps) (L : OrderLaws N) (M : Mfd N) (prob : OptProblem M)
  LS sp clock ls0 x0 r ls,
  builtin_searcher LS ->
  sd_run prob LS sp clock ls0 x0 = Ok (r, ls) ->
  (forall p, In p (r_calls r) -> nisnan N (p_cost prob p) = false) ->
  nonincreasing (p_cost prob x0 ::
    map l_cost (match r_log r with Some es => es | None => [] end) ++ [r_cost r]).
Proof. exact (fun N L M prob LS sp clock ls0 x0 r ls HB =>
  sd_run_mono prob LS sp clock L (builtin_safe M LS HB) ls0 x0 r ls). Qed.
Print Assumptions C07_steepest_descent_monotone.
Corollary C07_binary64 : forall powf (M : Mfd (f64 powf)) (prob : OptProblem M) LS sp clock ls0 x0 r ls,
  builtin_searcher LS ->
  sd_run prob LS sp clock ls0 x0 = Ok (r, ls) ->
  (forall p, In p (r_calls r) -> nisnan (f64 powf) (p_cost prob p) = false) ->
  nonincreasing (N:=f64 powf) (p_cost prob x0 ::
    map l_cost (match r_log r with Some es => es | None => [] end) ++ [r_cost r]).
Proof. exact (fun powf => C07_steepest_descent_monotone (f64 powf) (f64_laws powf)). Qed.
Print Assumptions C07_binary64.
(** x^2 from 3/2: two iterations, no NaN. *)
Example C07_instance : exists rl,
  sd_run (square F) (bt_searcher (E1 F) bt_default) (stop_default F 2) (still F) None (lit 3 2) = Ok rl /\
  (forallb (fun p => negb (nisnan F (p_cost (square F) p))) (r_calls (fst rl)) &&
   Z.eqb (r_iterations (fst rl)) 2 && nlt F (r_cost (fst rl)) (p_cost (square F) (lit 3 2))) = true.
Proof. apply ok_and_exists. vm_compute. reflexivity. Qed.

(** ** C08 *)
(** Cost and iteration count are right ... *)
Theorem C08_steepest_descent_result : forall (N : NumOps) (M : Mfd N) (prob : OptProblem M) LS sp clock ls0 x0 r ls,
  sd_run prob LS sp clock ls0 x0 = Ok (r, ls) ->
  r_cost r = p_cost prob (r_point r) /\
  (1 <= r_iterations r <= Z.max 1 (max_iterations sp))%Z /\
  (* the gradient norm and the step size belong to the iterate [y] from which the last line search went to the point *)
  exists y ls1 step calls, In y (r_calls r) /\
    let gradient := p_grad prob y in let norm := m_norm M y gradient in
    ls_search LS ls1 (p_cost prob) y (t_neg M gradient) (p_cost prob y) (nneg N (nmul N norm norm)) =
      Ok (ls, (step, r_point r), calls) /\
    r_step_size r = Some step /\ r_gradient_norm r = Some norm.
Proof. exact (fun N M prob LS sp clock ls0 x0 r ls H =>
  let Q := sd_run_post prob LS sp clock ls0 x0 r ls H in
  conj (sq_cost _ _ _ _ Q) (conj (sq_it _ _ _ _ Q) (sd_run_norm prob LS sp clock ls0 x0 r ls H))). Qed.
Print Assumptions C08_steepest_descent_result.
(** ... but the reported gradient norm is not the one of the returned point. *)
Theorem C08_refuted : exists rl,
  sd_run (square F) (bt_searcher (E1 F) bt_default) (stop_default F 2) (still F) None (lit 3 2) = Ok rl /\
  match r_gradient_norm (fst rl) with
  | Some g => nlt F (m_norm (E1 F) (r_point (fst rl)) (p_grad (square F) (r_point (fst rl)))) g
  | None => false
  end = true.
Proof. apply ok_and_exists. vm_compute. reflexivity. Qed.
Print Assumptions C08_refuted.

(** ** C09 (the code violates the property) *)
(** binary64, any manifold: at a point where the direction has norm zero the first
    trial point is the retraction of an infinite multiple of the direction. *)
Theorem C09_infinite_first_step : forall powf (M : Mfd (f64 powf)) (f : pt M -> f64 powf) x d f0 df0 st sy calls s,
  m_norm M x d = S754_zero s ->
  bt_search M bt_default None f x d f0 df0 = Ok (st, sy, calls) ->
  hd_error calls = Some (m_retr M x (t_scale M (S754_infinity s) d)).
Proof. exact bt_zero_norm. Qed.
Print Assumptions C09_infinite_first_step.
(** Default steepest descent for x^2 started at its minimiser 0 returns NaN. *)
Theorem C09_refuted : exists rl,
  sd_run (square F) (bt_searcher (E1 F) bt_default) (stop_default F 1000) (still F) None (n_of_Z F 0) = Ok rl /\
  (sf_eqb (p_grad (square F) (n_of_Z F 0)) (n_of_Z F 0) &&
   sf_eqb (r_point (fst rl)) S754_nan && sf_eqb (r_cost (fst rl)) S754_nan) = true.
Proof. apply ok_and_exists. vm_compute. reflexivity. Qed.
Print Assumptions C09_refuted.
(** It is enough to reach the minimiser: started at 1.5 the run passes through 0 and returns NaN. *)
Theorem C09_refuted_later : exists rl,
  sd_run (square F) (bt_searcher (E1 F) bt_default) (stop_default F 1000) (still F) None (lit 3 2) = Ok rl /\
  (existsb (sf_eqb (n_of_Z F 0)) (r_calls (fst rl)) && sf_eqb (r_point (fst rl)) S754_nan) = true.
Proof. apply ok_and_exists. vm_compute. reflexivity. Qed.
Print Assumptions C09_refuted_later.

(** ** C10 *)
Theorem C10_conjugate_gradient_monotone : forall (N : NumOps) (L : OrderLaws N) (M : Mfd N) (prob : OptProblem M)
  LS sp clock rule orth ls0 x0 r ls,
  builtin_searcher LS ->
  cg_run prob LS sp clock rule orth ls0 x0 = Ok (r, ls) ->
  (forall p, In p (r_calls r) -> nisnan N (p_cost prob p) = false) ->
  nonincreasing (p_cost prob x0 ::
    map l_cost (match r_log r with Some es => es | None => [] end) ++ [r_cost r]).
Proof. exact (fun N L M prob LS sp clock rule orth ls0 x0 r ls HB =>
  cg_run_mono prob LS sp clock rule orth L (builtin_safe M LS HB) ls0 x0 r ls). Qed.
Print Assumptions C10_conjugate_gradient_monotone.
Corollary C10_binary64 : forall powf (M : Mfd (f64 powf)) (prob : OptProblem M) LS sp clock rule orth ls0 x0 r ls,
  builtin_searcher LS ->
  cg_run prob LS sp clock rule orth ls0 x0 = Ok (r, ls) ->
  (forall p, In p (r_calls r) -> nisnan (f64 powf) (p_cost prob p) = false) ->
  nonincreasing (N:=f64 powf) (p_cost prob x0 ::
    map l_cost (match r_log r with Some es => es | None => [] end) ++ [r_cost r]).
Proof. exact (fun powf => C10_conjugate_gradient_monotone (f64 powf) (f64_laws powf)). Qed.
Print Assumptions C10_binary64.
Example C10_instance : exists rl,
  cg_run (square F) (bt_searcher (E1 F) bt_default) (stop_default F 2) (still F)
    (beta_update HestenesStiefel) (lit 1 10) None (lit 3 2) = Ok rl /\
  (forallb (fun p => negb (nisnan F (p_cost (square F) p))) (r_calls (fst rl)) &&
   Z.eqb (r_iterations (fst rl)) 2 && nlt F (r_cost (fst rl)) (p_cost (square F) (lit 3 2))) = true.
Proof. apply ok_and_exists. vm_compute. reflexivity. Qed.

(** ** C11 *)
Theorem C11_conjugate_gradient_result : forall (N : NumOps) (M : Mfd N) (prob : OptProblem M) LS sp clock rule orth ls0 x0 r ls,
  cg_run prob LS sp clock rule orth ls0 x0 = Ok (r, ls) ->
  r_cost r = p_cost prob (r_point r) /\
  r_gradient_norm r = Some (m_norm M (r_point r) (p_grad prob (r_point r))) /\
  (1 <= r_iterations r <= Z.max 1 (max_iterations sp))%Z.
Proof. exact (fun N M prob LS sp clock rule orth ls0 x0 r ls H =>
  let Q := cg_run_post prob LS sp clock rule orth ls0 x0 r ls H in
  conj (cq_cost _ _ _ _ Q) (conj (cq_gn _ _ _ _ Q) (cq_it _ _ _ _ Q))). Qed.
Print Assumptions C11_conjugate_gradient_result.

(** ** C12 *)
(** Exact arithmetic; inner product odd in its second argument, preconditioner positive.
    Every call of the line search (recorded by a recording line searcher, any
    underlying searcher) is made with the cost at its point, the slope equal to the inner product of the gradient
    and the direction, and this slope negative unless <g, P g> = 0. *)
Theorem C12_descent_directions : forall (M : Mfd Rnum) (prob : OptProblem M) (LS : LineSearcher M) sp clock rule orth,
  (forall x u v, m_inner M x u (t_neg M v) = (- m_inner M x u v)%R) ->
  (forall x v, (0 <= m_inner M x v (p_prec prob x v))%R) ->
  forall ls0 x0 r ls,
  cg_run prob (recording LS) sp clock rule orth (ls0, []) x0 = Ok (r, ls) ->
  Forall (fun c => let '(x, d, f0, df0) := c in
    f0 = p_cost prob x /\ df0 = m_inner M x (p_grad prob x) d /\
    (df0 < 0 \/ m_inner M x (p_grad prob x) (p_prec prob x (p_grad prob x)) = 0)%R) (snd ls).
Proof. exact (@cg_good_calls). Qed.
Print Assumptions C12_descent_directions.
(** The hypotheses hold on the line for x^2. *)
Example C12_instance :
  (forall x u v, m_inner (E1 Rnum) x u (t_neg (E1 Rnum) v) = (- m_inner (E1 Rnum) x u v)%R) /\
  (forall x v, (0 <= m_inner (E1 Rnum) x v (p_prec (square Rnum) x v))%R).
Proof. split; simpl; intros; [ring|apply Rle_0_sqr]. Qed.

(** ** C13 *)
Theorem C13_nonnegative : forall (N : NumOps), OrderLaws N -> nlt N (n_of_Z N 1) (n_of_Z N 0) = false ->
  forall (M : Mfd N) r (a : beta_args M) b,
  In r [PolakRibiere; HestenesStiefel; LiuStorey] -> beta_update r a = Ok b ->
  nlt N b (n_of_Z N 0) = false.
Proof. exact (fun N L H M r a b Hin => beta_nonneg L M H r a b Hin). Qed.
Print Assumptions C13_nonnegative.
Theorem C13_hager_zhang_lower_bound : forall (N : NumOps), OrderLaws N -> forall (M : Mfd N) (a : beta_args M) b,
  beta_update HagerZhang a = Ok b ->
  exists eta, ndiv N (nneg N (n_of_Z N 1))
    (nmul N (m_norm M (b_newx a) (b_descent_direction a)) (pymin (lit 1 100) (b_gradient_norm a))) = Ok eta /\
    nlt N b eta = false.
Proof. exact (fun N L M => beta_hz_bound L M). Qed.
Print Assumptions C13_hager_zhang_lower_bound.
(** With orthogonal gradients, an exact line search and the usual slope the
    five rules agree (Liu-Storey reads the untransported gradient at the old point, so
    its slope condition is separate). *)
Theorem C13_rules_agree : forall (M : Mfd Rnum) (a : beta_args M),
  let ip := m_inner M (b_newx a) in
  (forall u v w, ip (t_sub M u v) w = ip u w - ip v w)%R ->
  (forall u v w, ip w (t_sub M u v) = ip w u - ip w v)%R ->
  (forall u v, ip u v = ip v u) ->
  b_newgradPnewgrad a = ip (b_newgrad a) (b_Pnewgrad a) ->
  (0 <= b_newgradPnewgrad a)%R -> (0 < b_gradPgrad a)%R ->
  ip (b_oldgrad a) (b_Pnewgrad a) = 0%R ->
  ip (b_newgrad a) (b_descent_direction a) = 0%R ->
  ip (b_oldgrad a) (b_descent_direction a) = (- b_gradPgrad a)%R ->
  m_inner M (b_x a) (b_grad a) (b_descent_direction a) = (- b_gradPgrad a)%R ->
  (0 < m_norm M (b_newx a) (b_descent_direction a))%R -> (0 < b_gradient_norm a)%R ->
  forall r, beta_update r a = Ok (b_newgradPnewgrad a / b_gradPgrad a)%R.
Proof. exact beta_agree. Qed.
Print Assumptions C13_rules_agree.
(** In the plane: old gradient (1,0), direction (-1,0), new gradient (0,2). *)
Example C13_instance : 
  let a := mkBeta (M:=E2 Rnum) (0,0)%R (0,0)%R (1,0)%R (0,2)%R (0,2)%R 4%R (1,0)%R 1%R 1%R (1,0)%R (-1,0)%R in
  forall r, beta_update r a = Ok (4 / 1)%R.
Proof.
  cbn zeta. apply (C13_rules_agree (E2 Rnum)); simpl; intros; try ring; try lra.
  replace (-1 * -1 + 0 * 0)%R with 1%R by ring. rewrite sqrt_1. lra.
Qed.

(** Directions built with the Hager-Zhang rule are sufficient descent directions with its constant
    7/8, whatever the line search did: for a linear, symmetric, positive semi-definite
    preconditioner [P] at the new point, with the old preconditioned gradient transported to [P] of the
    transported old gradient. *)
Theorem C13_hager_zhang_sufficient_descent : forall (M : Mfd Rnum) (a : beta_args M) (P : tv M -> tv M),
  let ip := m_inner M (b_newx a) in
  (forall w u v, ip w (t_add M u v) = ip w u + ip w v)%R ->
  (forall w u, ip w (t_neg M u) = - ip w u)%R ->
  (forall w u v, ip w (t_sub M u v) = ip w u - ip w v)%R ->
  (forall w (t : R) u, ip w (t_scale M t u) = t * ip w u)%R ->
  (forall u v, ip u v = ip v u) ->
  (forall u v, P (t_sub M u v) = t_sub M (P u) (P v)) ->
  (forall (t : R) u, P (t_scale M t u) = t_scale M t (P u)) ->
  (forall u v, ip u (P v) = ip v (P u)) -> (forall u, 0 <= ip u (P u))%R ->
  (0 <= m_norm M (b_newx a) (b_descent_direction a))%R -> (0 <= b_gradient_norm a)%R ->
  b_Pnewgrad a = P (b_newgrad a) ->
  m_transp M (b_x a) (b_newx a) (b_Pgrad a) = P (b_oldgrad a) ->
  forall b, beta_update HagerZhang a = Ok b ->
  (ip (b_newgrad a) (t_add M (t_neg M (b_Pnewgrad a)) (t_scale M b (b_descent_direction a)))
   <= - (7 / 8) * ip (b_newgrad a) (b_Pnewgrad a))%R.
Proof. exact hz_sufficient_descent. Qed.
Print Assumptions C13_hager_zhang_sufficient_descent.
(** In the plane: old gradient (1,0), direction (-1,0), new gradient (0,2). *)
Example C13_instance_sufficient_descent :
  let a := mkBeta (M:=E2 Rnum) (0,0)%R (0,0)%R (1,0)%R (0,2)%R (0,2)%R 4%R (1,0)%R 1%R 1%R (1,0)%R (-1,0)%R in
  exists b : R, beta_update HagerZhang a = Ok b /\
  (m_inner (E2 Rnum) (0,0) (0,2) (t_add (E2 Rnum) (t_neg (E2 Rnum) (0,2)) (t_scale (E2 Rnum) b (-1,0)))
     <= - (7 / 8) * m_inner (E2 Rnum) (0,0) (0,2) (0,2))%R.
Proof.
  intros a. exists (4 / 1)%R. split; [apply C13_instance|].
  apply (C13_hager_zhang_sufficient_descent (E2 Rnum) a (fun v => v)); simpl; intros; try ring; try lra;
    try reflexivity.
  - pose proof (Rle_0_sqr (fst u)). pose proof (Rle_0_sqr (snd u)). unfold Rsqr in *. lra.
  - apply sqrt_pos.
  - exact (C13_instance HagerZhang).
Qed.

(** ** C14 (the code violates the property) *)
Theorem C14_refuted :
  cg_run (square F) (ad_searcher (E1 F) ad_default) (stop_default F 1000) (still F)
    (beta_update HestenesStiefel) (lit 1 10) None (n_of_Z F 1) = Raise ZeroDivisionError.
Proof. apply raises_zero_division. vm_compute. reflexivity. Qed.
Print Assumptions C14_refuted.
(** In general, on a manifold with Python-float inner products, no successful run has passed through
    a point (other than the initial one) where <g, P g> is zero. *)
Theorem C14_only_nonzero_gradients : forall powf (M : Mfd (f64 powf)) (prob : OptProblem M) LS sp clock rule orth,
  m_ip_py M = true ->
  forall ls0 x0 r ls,
  cg_run prob LS sp clock rule orth ls0 x0 = Ok (r, ls) ->
  Forall (fun x => f64_is_zero (m_inner M x (p_grad prob x) (p_prec prob x (p_grad prob x))) = false)
    (tl (map l_point (match r_log r with Some es => es | None => [] end))) /\
  (r_iterations r = 1%Z \/
   f64_is_zero (m_inner M (r_point r) (p_grad prob (r_point r)) (p_prec prob (r_point r) (p_grad prob (r_point r)))) = false).
Proof. exact (@cg_run_nonzero). Qed.
Print Assumptions C14_only_nonzero_gradients.

(** ** C15 (first-order part; the other optimizers have their own files) *)
Theorem C15_steepest_descent_terminates : forall (N : NumOps), OrderLaws N -> forall (M : Mfd N) (prob : OptProblem M) LS sp clock ls0 x0,
  builtin_searcher LS ->
  sd_run prob LS sp clock ls0 x0 <> Raise OutOfFuel /\
  forall r ls, sd_run prob LS sp clock ls0 x0 = Ok (r, ls) ->
  (1 <= r_iterations r <= Z.max 1 (max_iterations sp))%Z.
Proof. exact (fun N L M prob LS sp clock ls0 x0 HB =>
  conj (sd_run_fuel prob LS sp clock ls0 x0 (builtin_fuel L M LS HB))
       (fun r ls H => sq_it _ _ _ _ (sd_run_post prob LS sp clock ls0 x0 r ls H))). Qed.
Print Assumptions C15_steepest_descent_terminates.
Theorem C15_conjugate_gradient_terminates : forall (N : NumOps), OrderLaws N -> forall (M : Mfd N) (prob : OptProblem M)
  LS sp clock rule orth ls0 x0,
  builtin_searcher LS ->
  cg_run prob LS sp clock (beta_update rule) orth ls0 x0 <> Raise OutOfFuel /\
  forall r ls, cg_run prob LS sp clock (beta_update rule) orth ls0 x0 = Ok (r, ls) ->
  (1 <= r_iterations r <= Z.max 1 (max_iterations sp))%Z.
Proof. exact (fun N L M prob LS sp clock rule orth ls0 x0 HB =>
  conj (cg_run_fuel prob LS sp clock (beta_update rule) orth ls0 x0 (builtin_fuel L M LS HB)
          (beta_fuel L M rule) (ip_div_fuel L M))
       (fun r ls H => cq_it _ _ _ _ (cg_run_post prob LS sp clock (beta_update rule) orth ls0 x0 r ls H))). Qed.
Print Assumptions C15_conjugate_gradient_terminates.

(** ** C16 (first-order part) *)
Theorem C16_steepest_descent_log : forall (N : NumOps) (M : Mfd N) (prob : OptProblem M) LS sp clock ls0 x0 r ls,
  sd_run prob LS sp clock ls0 x0 = Ok (r, ls) ->
  if (1 <=? log_verbosity sp)%Z
  then exists es, r_log r = Some es /\ Z.of_nat (length es) = r_iterations r /\ faithful_log prob x0 es
  else r_log r = None.
Proof. exact (@sd_log_faithful). Qed.
Print Assumptions C16_steepest_descent_log.
Theorem C16_conjugate_gradient_log : forall (N : NumOps) (M : Mfd N) (prob : OptProblem M) LS sp clock rule orth ls0 x0 r ls,
  cg_run prob LS sp clock rule orth ls0 x0 = Ok (r, ls) ->
  if (1 <=? log_verbosity sp)%Z
  then exists es, r_log r = Some es /\ Z.of_nat (length es) = r_iterations r /\ faithful_log prob x0 es
  else r_log r = None.
Proof. exact (@cg_log_faithful). Qed.
Print Assumptions C16_conjugate_gradient_log.

(** ** C17 (first-order part) *)
(** Whatever runs an optimizer object made before (any problems, initial points, reuse flags,
    exceptions), a run without reuse_line_searcher gives what a fresh object gives. *)
Theorem C17_runs_independent : forall (N : NumOps) (M : Mfd N) (LS : LineSearcher M) runs (o : opt_obj LS) runner x0,
  snd (obj_run LS runner (after_runs runs o) x0 false) = snd (obj_run LS runner o x0 false).
Proof. exact (@obj_run_history). Qed.
Print Assumptions C17_runs_independent.
(** With reuse it can differ: after a run that rejected its step the object no longer moves. *)
Example C17_reuse_matters :
  let LS := ad_searcher (E1 F) ad_default in
  let runner := sd_run (square F) LS (stop_default F 1) (still F) in
  let o : opt_obj LS := mkObj (LS:=LS) None None in
  (exists r1, snd (obj_run LS runner (after_runs [(runner, lit 1 1048576, false)] o) (n_of_Z F 1) true) = Ok r1 /\
     sf_eqb (r_point r1) (n_of_Z F 1) = true) /\
  (exists r2, snd (obj_run LS runner o (n_of_Z F 1) true) = Ok r2 /\ sf_eqb (r_point r2) (n_of_Z F 0) = true).
Proof. cbn zeta. split; apply ok_and_exists; vm_compute; reflexivity. Qed.

(** ** C18 (the code violates the property for the first-order optimizers) *)
Theorem C18_steepest_descent_count_always_wrong : forall (N : NumOps) (M : Mfd N) (prob : OptProblem M) LS sp clock ls0 x0 r ls,
  builtin_searcher LS ->
  sd_run prob LS sp clock ls0 x0 = Ok (r, ls) ->
  exists n, r_cost_evaluations r = Some n /\ n = r_iterations r /\
    (n < Z.of_nat (length (r_calls r)))%Z.
Proof. exact (@sd_count_wrong). Qed.
Print Assumptions C18_steepest_descent_count_always_wrong.
Theorem C18_conjugate_gradient_count_wrong : forall (N : NumOps) (M : Mfd N) (prob : OptProblem M) LS sp clock rule orth ls0 x0 r ls,
  builtin_searcher LS ->
  cg_run prob LS sp clock rule orth ls0 x0 = Ok (r, ls) -> (2 <= r_iterations r)%Z ->
  exists n, r_cost_evaluations r = Some n /\ n = r_iterations r /\
    (n < Z.of_nat (length (r_calls r)))%Z.
Proof. exact (@cg_count_wrong). Qed.
Print Assumptions C18_conjugate_gradient_count_wrong.

(** ** C81 *)
(** Steepest descent calls the line search once per iteration, along the negative
    gradient, with the cost at the iterate and minus the squared gradient norm as slope. *)
Theorem C81_steepest_descent_directions : forall (N : NumOps) (M : Mfd N) (prob : OptProblem M) (LS : LineSearcher M) sp clock ls0 x0 r ls,
  sd_run prob (recording LS) sp clock (ls0, []) x0 = Ok (r, ls) ->
  Forall (fun c => let '(x, d, f0, df0) := c in
    d = t_neg M (p_grad prob x) /\ f0 = p_cost prob x /\
    df0 = nneg N (nmul N (m_norm M x (p_grad prob x)) (m_norm M x (p_grad prob x)))) (snd ls) /\
  Z.of_nat (length (snd ls)) = r_iterations r.
Proof. exact (@sd_run_calls_args). Qed.
Print Assumptions C81_steepest_descent_directions.

(** ** C86 *)
(** The calls of the line search, in order: the first is made at the initial point along the negative
    preconditioned gradient; the next one is made at the point the previous one returned, along the conjugate
    direction, or along the negative preconditioned gradient if that is not a descent direction; there is one
    call per iteration but the last. *)
Theorem C86_conjugate_gradient_recurrence : forall (N : NumOps) (M : Mfd N) (prob : OptProblem M) (LS : LineSearcher M) sp clock rule orth ls0 x0 r ls,
  cg_run prob (recording LS) sp clock rule orth (ls0, []) x0 = Ok (r, ls) ->
  let searches := rev (snd ls) in
  r_iterations r = (Z.of_nat (length searches) + 1)%Z /\
  (forall x d f0 df0, hd_error searches = Some (x, d, f0, df0) -> x = x0 /\ d = t_neg M (p_prec prob x0 (p_grad prob x0))) /\
  forall k x d f0 df0 x' d' f0' df0',
    nth_error searches k = Some (x, d, f0, df0) -> nth_error searches (S k) = Some (x', d', f0', df0') ->
    (exists st st' step calls, ls_search LS st (p_cost prob) x d f0 df0 = Ok (st', (step, x'), calls)) /\
    exists c, conjugate prob rule orth x d x' c /\ d' = or_restart prob x' c.
Proof.
  intros N M prob LS sp clock rule orth ls0 x0 r ls H searches.
  destruct (cg_run_dirs prob LS sp clock rule orth x0 ls0 r ls H) as [C I]. split; [|split].
  - unfold searches. rewrite rev_length. exact I.
  - intros x d f0 df0 E. pose proof (chain_rev_hd prob LS rule orth x0 _ C) as K. fold searches in K.
    destruct searches as [|c t]; [discriminate|]. simpl in E. injection E as ->. auto.
  - intros k x d f0 df0 x' d' f0' df0' E1 E2.
    exact (chain_rev_nth prob LS rule orth x0 _ C k _ _ E1 E2).
Qed.
Print Assumptions C86_conjugate_gradient_recurrence.
(** The five rules, with exact inner products, are the quotients of the literature. *)
Theorem C86_beta_rules : forall (M : Mfd Rnum) (a : beta_args M),
  let ip := m_inner M (b_newx a) in
  let y := t_sub M (b_newgrad a) (b_oldgrad a) in
  let d := b_descent_direction a in
  let slope := (- m_inner M (b_x a) (b_grad a) d)%R in
  (b_gradPgrad a <> 0%R -> beta_update FletcherReeves a = Ok (b_newgradPnewgrad a / b_gradPgrad a)%R) /\
  (b_gradPgrad a <> 0%R -> beta_update PolakRibiere a = Ok (Rmax 0 (ip (b_Pnewgrad a) y / b_gradPgrad a))%R) /\
  (ip y d <> 0%R -> beta_update HestenesStiefel a = Ok (Rmax 0 (ip (b_Pnewgrad a) y / ip y d))%R) /\
  (ip y d = 0%R -> beta_update HestenesStiefel a = Ok 1%R) /\
  (slope <> 0%R -> beta_update LiuStorey a =
     Ok (Rmax 0 (Rmin (ip (b_Pnewgrad a) y / slope) (b_newgradPnewgrad a / slope)))%R) /\
  (ip y d <> 0%R -> (m_norm M (b_newx a) d * Rmin (1 / 100) (b_gradient_norm a) <> 0)%R ->
     beta_update HagerZhang a = Ok (Rmax
       ((ip y (b_Pnewgrad a) - 2 * ip y (t_sub M (b_Pnewgrad a) (m_transp M (b_x a) (b_newx a) (b_Pgrad a)))
           * ip d (b_newgrad a) / ip y d) / ip y d)
       (-1 / (m_norm M (b_newx a) d * Rmin (1 / 100) (b_gradient_norm a))))%R).
Proof.
  intros M a ip y d slope.
  assert (MAX : forall u v : R, pymax (N:=Rnum) u v = Rmax u v).
  { intros u v. unfold pymax. simpl. unfold Rltb, Rmax. destruct (Rlt_dec u v), (Rle_dec u v); lra. }
  assert (MIN : forall u v : R, pymin (N:=Rnum) u v = Rmin u v).
  { intros u v. unfold pymin. simpl. unfold Rltb, Rmin. destruct (Rlt_dec v u), (Rle_dec u v); lra. }
  assert (DIV : forall u v : R, v <> 0%R -> ip_div M u v = Ok (u / v)%R).
  { intros u v Hv. unfold ip_div. simpl. unfold Rdiv_res. destruct (Req_EM_T v 0); [contradiction|]. destruct (m_ip_py M); reflexivity. }
  repeat split; intros; cbn [beta_update].
  - apply DIV; auto.
  - unfold beta_polak_ribiere. rewrite DIV by auto. cbn [bind]. rewrite MAX. reflexivity.
  - unfold beta_hestenes_stiefel. rewrite DIV by auto. rewrite MAX. reflexivity.
  - unfold beta_hestenes_stiefel. unfold ip_div. simpl. unfold Rdiv_res, ip, y, d in *.
    destruct (Req_EM_T _ 0); [|contradiction]. destruct (m_ip_py M); reflexivity.
  - unfold beta_liu_storey. rewrite !DIV by auto. cbn [bind]. rewrite MAX, MIN. reflexivity.
  - unfold beta_hager_zhang. rewrite !DIV by auto. cbn [bind].
    rewrite DIV by auto. cbn [bind]. rewrite MIN.
    assert (LIT : lit (N:=Rnum) 1 100 = (1 / 100)%R).
    { unfold lit. simpl. unfold Rdiv_res. destruct (Req_EM_T 100 0); [lra|reflexivity]. }
    rewrite LIT. simpl ndiv. unfold Rdiv_res.
    match goal with |- context [Req_EM_T ?u 0] => destruct (Req_EM_T u 0) end.
    + exfalso. match goal with H : (_ * _ <> 0)%R |- _ => apply H end. rewrite <- e. reflexivity.
    + cbn [bind]. rewrite MAX. reflexivity.
Qed.
Print Assumptions C86_beta_rules.
(** A run for x^2 + 3 y^2 from (2, 1): the third search direction is not the negative gradient. *)
Definition bowl : OptProblem (E2 F) :=
  {| p_cost := fun x : pt (E2 F) => nadd F (nmul F (fst x) (fst x)) (nmul F (n_of_Z F 3) (nmul F (snd x) (snd x)));
     p_grad := fun x : pt (E2 F) => (nmul F (n_of_Z F 2) (fst x), nmul F (n_of_Z F 6) (snd x)) : tv (E2 F);
     p_hess := fun (x : pt (E2 F)) (v : tv (E2 F)) => (nmul F (n_of_Z F 2) (fst v), nmul F (n_of_Z F 6) (snd v)) : tv (E2 F);
     p_prec := fun _ v => v |}.
Example C86_instance : exists rl,
  cg_run bowl (recording (bt_searcher (E2 F) bt_default)) (stop_default F 4) (still F)
    (beta_update PolakRibiere) (n_of_Z F 10) (None, []) (n_of_Z F 2, n_of_Z F 1) = Ok rl /\
  (match rev (snd (snd rl)) with
   | [_; _; (x, d, _, _)] => negb (sf_eqb (fst d) (nneg F (fst (p_grad bowl x))))
   | _ => false
   end) = true.
Proof. apply ok_and_exists. vm_compute. reflexivity. Qed.
