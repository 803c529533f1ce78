(** The optimizer base class and the two first-order optimizers:
    src/pymanopt/optimizers/optimizer.py, steepest_descent.py,
    conjugate_gradient.py. *)
From Coq Require Import ZArith List Bool.
From Verif Require Import Num_Model LineSearch_Model.
Import ListNotations.
Local Open Scope num_scope.

Section Optimizer.
Context {N : NumOps}.

(** Stopping parameters: Optimizer.__init__, optimizer.py lines 41-59. *)
Record stop_params := mkStop {
  max_time : N; max_iterations : Z; min_gradient_norm : N; min_step_size : N;
  max_cost_evaluations : Z; verbosity : Z; log_verbosity : Z }.

(** Stopping reasons with the data interpolated in the message (the text itself is
    not modelled; [run_time] is not rounded to two digits). *)
Inductive stop_reason :=
  | MaxTime (iteration : Z)
  | MaxIterations (run_time : N)
  | MinGradNorm (iteration : Z) (run_time : N)
  | MinStepSize (iteration : Z) (run_time : N)
  | MaxCostEvals (run_time : N).

(** [x < threshold] where [None] is a value for which the comparison is false:
    the default argument [np.inf], or [np.nan]. *)
Definition opt_lt (x : option N) (threshold : N) : bool :=
  match x with Some x => x <? threshold | None => false end.

(** Optimizer._check_stopping_criterion, optimizer.py lines 86-121.
    [clock k] is the k-th reading of [time.time()]; this call consumes the readings
    [tick] and [tick+1]. *)
Definition check_stopping (p : stop_params) (clock : nat -> N) (tick : nat)
  (start_time : N) (iteration : Z) (gradient_norm step_size : option N)
  (cost_evaluations : Z) : option stop_reason :=
  let run_time := clock tick - start_time in                            (* 95 *)
  if clock (S tick) >=? start_time + max_time p then
    Some (MaxTime iteration)                                            (* 97 *)
  else if (max_iterations p <=? iteration)%Z then
    Some (MaxIterations run_time)                                       (* 101 *)
  else if opt_lt gradient_norm (min_gradient_norm p) then
    Some (MinGradNorm iteration run_time)                               (* 106 *)
  else if opt_lt step_size (min_step_size p) then
    Some (MinStepSize iteration run_time)                               (* 111 *)
  else if (max_cost_evaluations p <=? cost_evaluations)%Z then
    Some (MaxCostEvals run_time)                                        (* 116 *)
  else None.

(** One entry of the log, [_add_log_entry], optimizer.py lines 139-147. *)
Record log_entry (P : Type) := mkLog {
  l_time : N; l_iteration : Z; l_point : P; l_cost : N; l_gradient_norm : N }.

(** OptimizerResult, optimizer.py lines 9-20.  [r_calls] is not a field of the
    Python class: it records, in order, the points at which the optimizer
    called the cost function. *)
Record result (P : Type) := mkResult {
  r_point : P;
  r_cost : N;
  r_iterations : Z;
  r_stopping_criterion : stop_reason;
  r_time : N;
  r_cost_evaluations : option Z;
  r_step_size : option N;
  r_gradient_norm : option N;
  r_log : option (list (log_entry P));
  r_calls : list P }.

(** [_initialize_log] lines 123-137 and [_add_log_entry] lines 139-147 on
    [self._log["iterations"]].  An entry consumes one clock reading. *)
Definition log_init (P : Type) (p : stop_params) : option (list (log_entry P)) :=
  if (1 <=? log_verbosity p)%Z then Some [] else None.
Definition log_add {P} (p : stop_params) (l : option (list (log_entry P)))
  (e : log_entry P) : option (list (log_entry P)) :=
  if (log_verbosity p <=? 0)%Z then l
  else match l with Some es => Some (es ++ [e]) | None => None end.
Definition log_ticks (p : stop_params) : nat :=
  if (log_verbosity p <=? 0)%Z then 0 else 1.

(** [int(np.log10(self._max_iterations)) + 1], computed when verbosity >= 2
    (steepest_descent.py 69-70, conjugate_gradient.py 222-223, particle_swarm.py
    107-108): log10 of 0 is -inf and [int(-inf)] raises OverflowError, log10 of a
    negative number is NaN and [int(nan)] raises ValueError. *)
Definition format_length_check (p : stop_params) : res unit :=
  if (2 <=? verbosity p)%Z then
    if (max_iterations p =? 0)%Z then Raise OverflowError
    else if (max_iterations p <? 0)%Z then Raise ValueError
    else Ok tt
  else Ok tt.

(** Enough iterations for every loop that stops once
    [iteration >= max_iterations]. *)
Definition iter_fuel (p : stop_params) : nat := S (Z.to_nat (max_iterations p)).
End Optimizer.
Arguments stop_params : clear implicits.
Arguments stop_reason : clear implicits.
Arguments log_entry : clear implicits.
Arguments result : clear implicits.
Arguments mkLog {N P} _ _ _ _ _.
Arguments l_time {N P} _.
Arguments l_iteration {N P} _.
Arguments l_point {N P} _.
Arguments l_cost {N P} _.
Arguments l_gradient_norm {N P} _.
Arguments mkResult {N P} _ _ _ _ _ _ _ _ _ _.
Arguments r_point {N P} _.
Arguments r_cost {N P} _.
Arguments r_iterations {N P} _.
Arguments r_stopping_criterion {N P} _.
Arguments r_time {N P} _.
Arguments r_cost_evaluations {N P} _.
Arguments r_step_size {N P} _.
Arguments r_gradient_norm {N P} _.
Arguments r_log {N P} _.
Arguments r_calls {N P} _.

(** * Steepest descent: steepest_descent.py *)
Section SteepestDescent.
Context {N : NumOps} {M : Mfd N} (prob : OptProblem M) (LS : LineSearcher M)
        (sp : stop_params N) (clock : nat -> N).

Record sd_state := mkSd {
  sd_x : pt M; sd_ls : ls_state LS; sd_iteration : Z; sd_tick : nat;
  sd_log : option (list (log_entry N (pt M))); sd_calls : list (pt M) }.

(** One iteration of the [while True] loop, lines 91-127, and the construction of
    the result, lines 129-138.  [start_time] is the reading of line 89. *)
Definition sd_body (start_time : N) (s : sd_state)
  : res (step_out sd_state (result N (pt M) * ls_state LS)) :=
  let iteration := (sd_iteration s + 1)%Z in                            (* 92 *)
  let x := sd_x s in
  let cost := p_cost prob x in                                          (* 95 *)
  let grad := p_grad prob x in                                          (* 96 *)
  let gradient_norm := m_norm M x grad in                               (* 97 *)
  let log := log_add sp (sd_log s)
    (mkLog (clock (sd_tick s)) iteration x cost gradient_norm) in       (* 101-106 *)
  let tick := (sd_tick s + log_ticks sp)%nat in
  let desc_dir := t_neg M grad in                                       (* 109 *)
  let* (ls, (step_size, x'), ls_calls) :=
    ls_search LS (sd_ls s) (p_cost prob) x desc_dir cost
      (- (gradient_norm * gradient_norm)) in                            (* 112-114 *)
  let calls := sd_calls s ++ x :: ls_calls in
  match check_stopping sp clock tick start_time iteration
          (Some gradient_norm) (Some step_size) (-1) with               (* 116-121 *)
  | Some reason =>
      Ok (Stop (mkResult x' (p_cost prob x') iteration reason
                  (clock (tick + 2)%nat - start_time) (Some iteration)
                  (Some step_size) (Some gradient_norm) log (calls ++ [x']), ls))
  | None => Ok (Continue (mkSd x' ls iteration (tick + 2) log calls))
  end.

(** SteepestDescent.run from a given line-searcher state and initial point,
    lines 61-138.  Returns the result and the final line-searcher state. *)
Definition sd_run (ls0 : ls_state LS) (x0 : pt M)
  : res (result N (pt M) * ls_state LS) :=
  let* _ := format_length_check sp in                                   (* 69-70 *)
  let start_time := clock 0%nat in                                      (* 89 *)
  loop (sd_body start_time) (iter_fuel sp)
    (mkSd x0 ls0 0 1 (log_init (pt M) sp) []).
End SteepestDescent.
Arguments sd_x {N M LS} _.
Arguments sd_ls {N M LS} _.
Arguments sd_iteration {N M LS} _.
Arguments sd_tick {N M LS} _.
Arguments sd_log {N M LS} _.
Arguments sd_calls {N M LS} _.
Arguments mkSd {N M LS} _ _ _ _ _ _.

(** * Beta rules: conjugate_gradient.py lines 11-136 *)
Section CG.
Context {N : NumOps} {M : Mfd N}.

(** The keyword arguments of a beta rule (lines 12-25). *)
Record beta_args := mkBeta {
  b_x : pt M; b_newx : pt M; b_grad : tv M; b_newgrad : tv M; b_Pnewgrad : tv M;
  b_newgradPnewgrad : N; b_Pgrad : tv M; b_gradPgrad : N; b_gradient_norm : N;
  b_oldgrad : tv M; b_descent_direction : tv M }.

Inductive beta_rule :=
  FletcherReeves | PolakRibiere | HestenesStiefel | HagerZhang | LiuStorey.

Definition beta_fletcher_reeves (a : beta_args) : res N :=              (* 11-26 *)
  ip_div M (b_newgradPnewgrad a) (b_gradPgrad a).

Definition beta_polak_ribiere (a : beta_args) : res N :=                (* 29-45 *)
  let ip_diff := m_inner M (b_newx a) (b_Pnewgrad a)
                   (t_sub M (b_newgrad a) (b_oldgrad a)) in
  let* q := ip_div M ip_diff (b_gradPgrad a) in
  Ok (pymax #0 q).

Definition beta_hestenes_stiefel (a : beta_args) : res N :=             (* 48-72 *)
  let diff := t_sub M (b_newgrad a) (b_oldgrad a) in
  match ip_div M (m_inner M (b_newx a) (b_Pnewgrad a) diff)
                 (m_inner M (b_newx a) diff (b_descent_direction a)) with
  | Ok q => Ok (pymax #0 q)
  | Raise ZeroDivisionError => Ok #1
  | Raise e => Raise e
  end.

(** The last division has a NumPy operand ([manifold.norm] is a NumPy scalar). *)
Definition beta_hager_zhang (a : beta_args) : res N :=                  (* 75-104 *)
  let diff := t_sub M (b_newgrad a) (b_oldgrad a) in
  let Poldgrad := m_transp M (b_x a) (b_newx a) (b_Pgrad a) in
  let Pdiff := t_sub M (b_Pnewgrad a) Poldgrad in
  let denominator := m_inner M (b_newx a) diff (b_descent_direction a) in
  let numerator0 := m_inner M (b_newx a) diff (b_Pnewgrad a) in
  let* q := ip_div M (#2 * m_inner M (b_newx a) diff Pdiff
                        * m_inner M (b_newx a) (b_descent_direction a) (b_newgrad a))
                     denominator in
  let numerator := numerator0 - q in
  let* beta := ip_div M numerator denominator in
  let descent_direction_norm := m_norm M (b_newx a) (b_descent_direction a) in
  let* eta_HZ := ndiv N (- #1)
                   (descent_direction_norm * pymin (lit 1 100) (b_gradient_norm a)) in
  Ok (pymax beta eta_HZ).

Definition beta_liu_storey (a : beta_args) : res N :=                   (* 107-127 *)
  let diff := t_sub M (b_newgrad a) (b_oldgrad a) in
  let ip_diff := m_inner M (b_newx a) (b_Pnewgrad a) diff in
  let denominator := - m_inner M (b_x a) (b_grad a) (b_descent_direction a) in
  let* beta_ls := ip_div M ip_diff denominator in
  let* beta_cd := ip_div M (b_newgradPnewgrad a) denominator in
  Ok (pymax #0 (pymin beta_ls beta_cd)).

Definition beta_update (r : beta_rule) : beta_args -> res N :=          (* 130-136 *)
  match r with
  | FletcherReeves => beta_fletcher_reeves
  | PolakRibiere => beta_polak_ribiere
  | HestenesStiefel => beta_hestenes_stiefel
  | HagerZhang => beta_hager_zhang
  | LiuStorey => beta_liu_storey
  end.

(** * Conjugate gradient: ConjugateGradient.run, lines 186-363 *)
Variables (prob : OptProblem M) (LS : LineSearcher M) (sp : stop_params N)
          (clock : nat -> N) (rule : beta_args -> res N) (orth_value : N).

(** [cg_step_size = None] is the initial [np.nan] (line 256). *)
Record cg_state := mkCg {
  cg_x : pt M; cg_cost : N; cg_grad : tv M; cg_gradient_norm : N; cg_Pgrad : tv M;
  cg_gradPgrad : N; cg_dir : tv M; cg_step_size : option N; cg_ls : ls_state LS;
  cg_iteration : Z; cg_tick : nat; cg_log : option (list (log_entry N (pt M)));
  cg_calls : list (pt M) }.

(** The restart of lines 284-301: the direction and slope handed to the line
    search. *)
Definition cg_direction (s : cg_state) : tv M * N :=
  let df0 := m_inner M (cg_x s) (cg_grad s) (cg_dir s) in               (* 286 *)
  if df0 >=? #0 then (t_neg M (cg_Pgrad s), - cg_gradPgrad s)           (* 291-301 *)
  else (cg_dir s, df0).

(** One iteration, lines 259-352, and the result, lines 354-363. *)
Definition cg_body (start_time : N) (s : cg_state)
  : res (step_out cg_state (result N (pt M) * ls_state LS)) :=
  let iteration := (cg_iteration s + 1)%Z in                            (* 260 *)
  let x := cg_x s in
  let log := log_add sp (cg_log s)
    (mkLog (clock (cg_tick s)) iteration x (cg_cost s) (cg_gradient_norm s)) in (* 264 *)
  let tick := (cg_tick s + log_ticks sp)%nat in
  match check_stopping sp clock tick start_time iteration
          (Some (cg_gradient_norm s)) (cg_step_size s) (-1) with        (* 271-276 *)
  | Some reason =>
      Ok (Stop (mkResult x (cg_cost s) iteration reason
                  (clock (tick + 2)%nat - start_time) (Some iteration)
                  (cg_step_size s) (Some (cg_gradient_norm s)) log (cg_calls s),
                cg_ls s))
  | None =>
      let '(dir, df0) := cg_direction s in                              (* 286-301 *)
      let* (ls, (step_size, newx), ls_calls) :=
        ls_search LS (cg_ls s) (p_cost prob) x dir (cg_cost s) df0 in   (* 304 *)
      let newcost := p_cost prob newx in                                (* 309 *)
      let newgrad := p_grad prob newx in                                (* 310 *)
      let newgradient_norm := m_norm M newx newgrad in                  (* 311 *)
      let Pnewgrad := p_prec prob newx newgrad in                       (* 312 *)
      let newgradPnewgrad := m_inner M newx newgrad Pnewgrad in         (* 313 *)
      let oldgrad := m_transp M x newx (cg_grad s) in                   (* 316 *)
      let* orth_grads := ip_div M (m_inner M newx oldgrad Pnewgrad)
                           newgradPnewgrad in                           (* 317-320 *)
      let* newdir :=
        if nabs N orth_grads >=? orth_value then Ok (t_neg M Pnewgrad)  (* 321-323 *)
        else
          let dirt := m_transp M x newx dir in                          (* 327 *)
          let* beta := rule
            (mkBeta x newx (cg_grad s) newgrad Pnewgrad newgradPnewgrad
               (cg_Pgrad s) (cg_gradPgrad s) (cg_gradient_norm s) oldgrad dirt) in
          Ok (t_add M (t_neg M Pnewgrad) (t_scale M beta dirt)) in      (* 344 *)
      Ok (Continue (mkCg newx newcost newgrad newgradient_norm Pnewgrad
            newgradPnewgrad newdir (Some step_size) ls iteration (tick + 2) log
            (cg_calls s ++ ls_calls ++ [newx])))                        (* 347-352 *)
  end.

(** ConjugateGradient.run from a given line-searcher state and initial point,
    lines 214-363. *)
Definition cg_init (ls0 : ls_state LS) (x0 : pt M) : cg_state :=
  let cost := p_cost prob x0 in                                         (* 237 *)
  let grad := p_grad prob x0 in                                         (* 238 *)
  let Pgrad := p_prec prob x0 grad in                                   (* 240 *)
  mkCg x0 cost grad (m_norm M x0 grad) Pgrad (m_inner M x0 grad Pgrad)  (* 239, 241 *)
    (t_neg M Pgrad) None ls0 0 1 (log_init (pt M) sp) [x0].             (* 244-257 *)

Definition cg_run (ls0 : ls_state LS) (x0 : pt M)
  : res (result N (pt M) * ls_state LS) :=
  let* _ := format_length_check sp in                                   (* 222-223 *)
  loop (cg_body (clock 0%nat)) (iter_fuel sp) (cg_init ls0 x0).
End CG.
Arguments cg_x {N M LS} _.
Arguments cg_cost {N M LS} _.
Arguments cg_grad {N M LS} _.
Arguments cg_gradient_norm {N M LS} _.
Arguments cg_Pgrad {N M LS} _.
Arguments cg_gradPgrad {N M LS} _.
Arguments cg_dir {N M LS} _.
Arguments cg_step_size {N M LS} _.
Arguments cg_ls {N M LS} _.
Arguments cg_iteration {N M LS} _.
Arguments cg_tick {N M LS} _.
Arguments cg_log {N M LS} _.
Arguments cg_calls {N M LS} _.
Arguments cg_direction {N M LS} _.
Arguments mkCg {N M LS} _ _ _ _ _ _ _ _ _ _ _ _ _.
Arguments beta_args {N} M.

(** * Optimizer objects and sequences of runs *)
Section Objects.
Context {N : NumOps} {M : Mfd N} (LS : LineSearcher M).

(** SteepestDescent / ConjugateGradient objects: [self._line_searcher] (the
    template given to the constructor) and [self.line_searcher] (the one
    used by the last run); steepest_descent.py lines 26-30. *)
Record opt_obj := mkObj {
  o_template : ls_state LS; o_current : option (ls_state LS) }.

(** [run(problem, initial_point=x0, reuse_line_searcher=reuse)]: choose the searcher
    (lines 57-59), run, keep the mutated searcher.  [runner] is
    [sd_run]/[cg_run] for a problem.  If the run raises, the searcher may be left in an
    intermediate state; the model leaves the chosen one (only used for statements
    about runs that do not reuse it). *)
Definition obj_run (runner : ls_state LS -> pt M -> res (result N (pt M) * ls_state LS))
  (o : opt_obj) (x0 : pt M) (reuse : bool) : opt_obj * res (result N (pt M)) :=
  let ls0 := match reuse, o_current o with
             | true, Some c => c
             | _, _ => o_template o          (* deepcopy(self._line_searcher) *)
             end in
  match runner ls0 x0 with
  | Ok (r, ls) => (mkObj (o_template o) (Some ls), Ok r)
  | Raise e => (mkObj (o_template o) (Some ls0), Raise e)
  end.
End Objects.
Arguments opt_obj {N M} LS.
Arguments mkObj {N M LS} _ _.
Arguments o_template {N M LS} _.
Arguments o_current {N M LS} _.
