(** Line searches: src/pymanopt/optimizers/line_search.py. *)
From Coq Require Import ZArith List Bool.
From Verif Require Import Num_Model.
Import ListNotations.
Local Open Scope num_scope.

(** The problem data an optimizer sees: [problem.cost],
    [problem.riemannian_gradient], [problem.riemannian_hessian] and
    [problem.preconditioner] (src/pymanopt/core/problem.py lines 45-108, 239-285).
    Simplification: these are pure functions that do not raise. *)
Record OptProblem {N : NumOps} (M : Mfd N) := mkOptProblem {
  p_cost : pt M -> N;
  p_grad : pt M -> tv M;
  p_hess : pt M -> tv M -> tv M;
  p_prec : pt M -> tv M -> tv M }.
Arguments p_cost {N M} _ _.
Arguments p_grad {N M} _ _.
Arguments p_hess {N M} _ _ _.
Arguments p_prec {N M} _ _ _.

(** A line searcher object: a mutable state and a method
    [search(objective, manifold, x, d, f0, df0)] returning the new state,
    [(step_size, newx)] and the list of points where the objective was called. *)
Record LineSearcher {N : NumOps} (M : Mfd N) := mkLineSearcher {
  ls_state : Type;
  ls_search : ls_state -> (pt M -> N) -> pt M -> tv M -> N -> N ->
              res (ls_state * (N * pt M) * list (pt M)) }.
Arguments ls_state {N M} _.
Arguments ls_search {N M} _ _ _ _ _ _ _.

Section LineSearch.
Context {N : NumOps} (M : Mfd N).

(** The [while] loop shared by both searchers: lines 53-65 and 108-119.
    [alpha] is the current step, [newx]/[newf] the tried point and its cost,
    [count] is [step_count] / [cost_evaluations], [calls] the objective calls
    made so far, latest first.
    [contract a] is the contracted step; the two classes write the
    product in a different order. *)
Record ls_vars := mkLs {
  v_alpha : N; v_newx : pt M; v_newf : N; v_count : Z; v_calls : list (pt M) }.

Definition ls_while (contract : N -> N) (suff : N) (maxit : Z) (f : pt M -> N)
  (x : pt M) (d : tv M) (f0 df0 : N) (v : ls_vars) : res (step_out ls_vars ls_vars) :=
  if (v_newf v >? f0 + suff * v_alpha v * df0) && (v_count v <=? maxit)%Z then
    let alpha := contract (v_alpha v) in
    let newx := m_retr M x (t_scale M alpha d) in
    let newf := f newx in
    Ok (Continue (mkLs alpha newx newf (v_count v + 1)%Z (newx :: v_calls v)))
  else Ok (Stop v).

(** Number of [while] tests needed: the loop test includes
    [count <= max_iterations] and [count] starts at 1. *)
Definition ls_fuel (maxit : Z) : nat := S (Z.to_nat maxit).

(** BackTrackingLineSearcher.__init__, lines 4-18.  *)
Record bt_params := mkBt {
  bt_contraction : N; bt_optimism : N; bt_suff : N; bt_maxit : Z; bt_init : N }.

(** BackTrackingLineSearcher.search, lines 20-76.  The state is [_oldf0]. *)
Definition bt_search (p : bt_params) (oldf0 : option N) (f : pt M -> N)
  (x : pt M) (d : tv M) (f0 df0 : N) : res (option N * (N * pt M) * list (pt M)) :=
  let norm_d := m_norm M x d in                                        (* 36 *)
  let* alpha :=
    match oldf0 with                                                   (* 38 *)
    | Some old =>
        let* a := ndiv N (#2 * (f0 - old)) df0 in                      (* 40 *)
        Ok (a * bt_optimism p)                                         (* 42 *)
    | None => ndiv N (bt_init p) norm_d                                (* 44 *)
    end in
  let newx := m_retr M x (t_scale M alpha d) in                        (* 48 *)
  let newf := f newx in                                                (* 49 *)
  let* v := loop (ls_while (fun a => bt_contraction p * a) (bt_suff p) (bt_maxit p)
                    f x d f0 df0)
              (ls_fuel (bt_maxit p)) (mkLs alpha newx newf 1 [newx]) in (* 50-65 *)
  let '(alpha', newx') :=
    if v_newf v >? f0 then (#0, x) else (v_alpha v, v_newx v) in        (* 68-70 *)
  Ok (Some f0, (alpha' * norm_d, newx'), rev (v_calls v)).              (* 72-76 *)

(** AdaptiveLineSearcher.__init__, lines 82-93. *)
Record ad_params := mkAd {
  ad_contraction : N; ad_suff : N; ad_maxit : Z; ad_init : N }.

(** AdaptiveLineSearcher.search, lines 95-141.  The state is [_oldalpha]. *)
Definition ad_search (p : ad_params) (oldalpha : option N) (f : pt M -> N)
  (x : pt M) (d : tv M) (f0 df0 : N) : res (option N * (N * pt M) * list (pt M)) :=
  let norm_d := m_norm M x d in                                        (* 96 *)
  let* alpha :=
    match oldalpha with                                                (* 98 *)
    | Some a => Ok a                                                   (* 99 *)
    | None => ndiv N (ad_init p) norm_d                                (* 101 *)
    end in
  let newx := m_retr M x (t_scale M alpha d) in                        (* 104 *)
  let newf := f newx in                                                (* 105 *)
  let* v := loop (ls_while (fun a => a * ad_contraction p) (ad_suff p) (ad_maxit p)
                    f x d f0 df0)
              (ls_fuel (ad_maxit p)) (mkLs alpha newx newf 1 [newx]) in (* 106-119 *)
  let '(alpha', newx') :=
    if v_newf v >? f0 then (#0, x) else (v_alpha v, v_newx v) in        (* 121-123 *)
  let step_size := alpha' * norm_d in                                   (* 125 *)
  let oldalpha' := if (v_count v =? 2)%Z then alpha' else #2 * alpha' in (* 134-139 *)
  Ok (Some oldalpha', (step_size, newx'), rev (v_calls v)).             (* 141 *)

Definition bt_searcher (p : bt_params) : LineSearcher M :=
  {| ls_state := option N; ls_search := bt_search p |}.
Definition ad_searcher (p : ad_params) : LineSearcher M :=
  {| ls_state := option N; ls_search := ad_search p |}.

(** The constructors' default arguments, lines 6-10 and 84-87. *)
Definition bt_default : bt_params := mkBt (lit 1 2) #2 (lit 1 10000) 25 #1.
Definition ad_default : ad_params := mkAd (lit 1 2) (lit 1 2) 10 #1.

End LineSearch.
Arguments mkLs {N M} _ _ _ _ _.
Arguments v_alpha {N M} _.
Arguments v_newx {N M} _.
Arguments v_newf {N M} _.
Arguments v_count {N M} _.
Arguments v_calls {N M} _.
