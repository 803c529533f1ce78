(** Trust regions: src/pymanopt/optimizers/trust_regions.py. *)
From Coq Require Import ZArith List Bool.
From Verif Require Import Num_Model LineSearch_Model Optimizer_Model.
Import ListNotations.
Local Open Scope num_scope.

(** Reasons for leaving the inner solver, lines 62-78. *)
Inductive tcg_stop :=
  | NEGATIVE_CURVATURE | EXCEEDED_TR | REACHED_TARGET_LINEAR | REACHED_TARGET_SUPERLINEAR
  | MAX_INNER_ITER | MODEL_INCREASED.

(** TrustRegions.__init__, lines 80-105 (miniter is never read). *)
Record tr_params {N : NumOps} := mkTr {
  tr_kappa : N; tr_theta : N; tr_rho_prime : N; tr_use_rand : bool; tr_rho_reg : N }.
Arguments tr_params : clear implicits.

Section TR.
Context {N : NumOps} {M : Mfd N} (prob : OptProblem M) (tp : tr_params N).

(** * The inner solver: _truncated_conjugate_gradient, lines 441-619 *)

(** Python's [d != 0]: true for NaN. *)
Definition nonzero (d : N) : bool := negb ((d <=? #0) && (d >=? #0)).

(** Local variables at the start of an iteration of the loop. *)
Record tcg_state := mkTcg {
  c_eta : tv M; c_Heta : tv M; c_r : tv M; c_e_Pe : N; c_z_r : N; c_d_Pd : N;
  c_e_Pd : N; c_delta : tv M; c_model : N }.

(** [model_fun], lines 489-490. *)
Definition model_fun (x : pt M) (fgradx eta Heta : tv M) : N :=
  m_inner M x eta fgradx + lit 1 2 * m_inner M x eta Heta.

(** Lines 449-495. *)
Definition tcg_precondition (x : pt M) (r : tv M) : tv M :=
  if tr_use_rand tp then r else p_prec prob x r.                        (* 464-467, 597-600 *)
Definition tcg_init (x : pt M) (fgradx eta : tv M) : tcg_state * N :=
  let '(Heta, r, e_Pe) :=
    if tr_use_rand tp then
      let Heta := p_hess prob x eta in
      (Heta, t_add M fgradx Heta, m_inner M x eta eta)                  (* 455-457 *)
    else (m_zero M x, fgradx, #0) in                                    (* 450-452 *)
  let norm_r0 := nsqrt N (m_inner M x r r) in                           (* 459-461 *)
  let z := tcg_precondition x r in
  let z_r := m_inner M x z r in                                         (* 470 *)
  let delta := t_neg M z in                                             (* 474 *)
  let e_Pd := if tr_use_rand tp then m_inner M x eta delta else #0 in   (* 475-478 *)
  let model := if tr_use_rand tp then model_fun x fgradx eta Heta else #0 in (* 492-495 *)
  (mkTcg eta Heta r e_Pe z_r z_r e_Pd delta model, norm_r0).

(** One iteration of the loop, lines 503-617.  [j] is the loop variable.
    When [d_Hd] is zero [alpha] stays unassigned; the model gives it the value 0,
    which is never used since the next test leaves the loop. *)
Definition tcg_body (x : pt M) (fgradx : tv M) (Delta norm_r0 : N) (mininner : Z)
  (j : Z) (s : tcg_state) : res (step_out tcg_state (tv M * tv M * tcg_stop)) :=
  let Hdelta := p_hess prob x (c_delta s) in                            (* 503 *)
  let d_Hd := m_inner M x (c_delta s) Hdelta in                         (* 506 *)
  let* (alpha, e_Pe_new) :=
    if nonzero d_Hd then                                                (* 509 *)
      let* alpha := ip_div M (c_z_r s) d_Hd in                          (* 510 *)
      Ok (alpha, c_e_Pe s + #2 * alpha * c_e_Pd s + alpha * alpha * c_d_Pd s) (* 515 *)
    else Ok (#0, c_e_Pe s) in                                           (* 517 *)
  if (d_Hd <=? #0) || (e_Pe_new >=? Delta * Delta) then                 (* 521 *)
    let* tau := ndiv N
      (- c_e_Pd s + nsqrt N (c_e_Pd s * c_e_Pd s + c_d_Pd s * (Delta * Delta - c_e_Pe s)))
      (c_d_Pd s) in                                                     (* 526-528 *)
    Ok (Stop (t_add M (c_eta s) (t_scale M tau (c_delta s)),            (* 530 *)
              t_add M (c_Heta s) (t_scale M tau Hdelta),                (* 535 *)
              if d_Hd <=? #0 then NEGATIVE_CURVATURE else EXCEEDED_TR)) (* 545-549 *)
  else
    let new_eta := t_add M (c_eta s) (t_scale M alpha (c_delta s)) in   (* 553 *)
    let new_Heta := t_add M (c_Heta s) (t_scale M alpha Hdelta) in      (* 557 *)
    let new_model := model_fun x fgradx new_eta new_Heta in             (* 565 *)
    if new_model >=? c_model s then                                     (* 566 *)
      Ok (Stop (c_eta s, c_Heta s, MODEL_INCREASED))                    (* 567-568 *)
    else
      let r := t_add M (c_r s) (t_scale M alpha Hdelta) in              (* 575 *)
      let norm_r := nsqrt N (m_inner M x r r) in                        (* 578-579 *)
      if (mininner <=? j)%Z &&
         (norm_r <=? norm_r0 * pymin (npow N norm_r0 (tr_theta tp)) (tr_kappa tp)) then (* 586-588 *)
        Ok (Stop (new_eta, new_Heta,
                  if tr_kappa tp <? npow N norm_r0 (tr_theta tp)
                  then REACHED_TARGET_LINEAR else REACHED_TARGET_SUPERLINEAR)) (* 590-594 *)
      else
        let z := tcg_precondition x r in
        let z_r := m_inner M x z r in                                   (* 605 *)
        let* beta := ip_div M z_r (c_z_r s) in                          (* 608 *)
        let delta := m_to_tangent M x
          (t_add M (t_neg M z) (t_scale M beta (c_delta s))) in         (* 609, 613 *)
        let e_Pd := beta * (c_e_Pd s + alpha * c_d_Pd s) in             (* 616 *)
        let d_Pd := z_r + beta * beta * c_d_Pd s in                     (* 617 *)
        Ok (Continue (mkTcg new_eta new_Heta r e_Pe_new z_r d_Pd e_Pd delta new_model)).

(** [for j in range(int(maxinner))]: [n] iterations are left, the next has number [j].
    Returns [eta, Heta, j, stop_tCG], line 619. *)
Fixpoint tcg_loop (x : pt M) (fgradx : tv M) (Delta norm_r0 : N) (mininner : Z)
  (n : nat) (j : Z) (s : tcg_state) : res (tv M * tv M * Z * tcg_stop) :=
  match n with
  | O => Ok (c_eta s, c_Heta s, (j - 1)%Z, MAX_INNER_ITER)
  | S n' =>
      let* o := tcg_body x fgradx Delta norm_r0 mininner j s in
      match o with
      | Stop (eta, Heta, stop) => Ok (eta, Heta, j, stop)
      | Continue s' => tcg_loop x fgradx Delta norm_r0 mininner n' (j + 1)%Z s'
      end
  end.

(** The whole method.  If the loop body is never executed, [j] is unbound at
    line 619. *)
Definition tcg (x : pt M) (fgradx eta : tv M) (Delta : N) (mininner maxinner : Z)
  : res (tv M * tv M * Z * tcg_stop) :=
  let '(s, norm_r0) := tcg_init x fgradx eta in
  if (maxinner <=? 0)%Z then Raise UnboundLocalError
  else tcg_loop x fgradx Delta norm_r0 mininner (Z.to_nat maxinner) 0 s.

(** * The outer loop: TrustRegions.run, lines 107-439 *)
Variables (sp : stop_params N) (clock : nat -> N).

(** [np.spacing(1)], the distance from 1 to the next binary64 number: 2^-52. *)
Definition spacing1 : N := lit 1 4503599627370496.

(** Lines 183-187: a given random tangent vector is scaled down until it is in
    the trust region.  [fuel] bounds the [while] loop. *)
Definition tr_shrink (fuel : nat) (x : pt M) (draw : tv M) (Delta : N) : res (tv M) :=
  loop (fun eta =>
    if m_norm M x eta >? Delta then
      Ok (Continue (t_scale M (nsqrt N (nsqrt N spacing1)) eta))
    else Ok (Stop eta)) fuel (t_scale M (lit 1 1000000) draw).

(** Lines 204-239: the better of [eta] and the Cauchy step.  The third component
    is [used_cauchy]. *)
Definition tr_cauchy (x : pt M) (fx : N) (fgradx : tv M) (norm_grad Delta : N) (eta Heta : tv M)
  : res (tv M * tv M * bool) :=
  let Hg := p_hess prob x fgradx in                                     (* 213 *)
  let g_Hg := m_inner M x fgradx Hg in                                  (* 214 *)
  let* tau_c :=
    if g_Hg <=? #0 then Ok #1                                           (* 215-216 *)
    else let* q := ndiv N (norm_grad * norm_grad * norm_grad) (Delta * g_Hg) in
         Ok (pymin q #1) in                                             (* 218 *)
  let* c := ndiv N (- tau_c * Delta) norm_grad in
  let eta_c := t_scale M c fgradx in                                    (* 221 *)
  let Heta_c := t_scale M c Hg in                                       (* 222 *)
  let mdle := fx + m_inner M x fgradx eta + lit 1 2 * m_inner M x Heta eta in     (* 226-230 *)
  let mdlec := fx + m_inner M x fgradx eta_c + lit 1 2 * m_inner M x Heta_c eta_c in (* 231-235 *)
  if mdlec <? mdle then Ok (eta_c, Heta_c, true) else Ok (eta, Heta, false). (* 236-239 *)

(** What an outer iteration computed; a trace of these is returned next to the
    result (it is not part of the Python result). *)
Record tr_iter := mkTrIter {
  t_x : pt M; t_fx : N; t_gradient : tv M; t_Delta : N;   (* at the start of the iteration *)
  t_eta : tv M; t_Heta : tv M; t_numit : Z; t_stop : tcg_stop;
  t_x_prop : pt M; t_fx_prop : N;
  t_rho_shift : N;                      (* rho_reg, line 289 *)
  t_rhoden : N; t_rho : option N;       (* regularised; None is NaN *)
  t_accepted : bool; t_Delta_new : N }.

Record tr_state := mkTrState {
  s_x : pt M; s_fx : N; s_grad : tv M; s_norm_grad : N; s_Delta : N; s_iteration : Z;
  s_tick : nat; s_trace : list tr_iter }.

(** [rho < 1/4 or not model_decreased or isnan(rho)] etc. with [None] for NaN. *)
Definition rho_lt (rho : option N) (b : N) : bool :=
  match rho with Some r => r <? b | None => false end.
Definition rho_gt (rho : option N) (b : N) : bool :=
  match rho with Some r => r >? b | None => false end.
Definition rho_isnan (rho : option N) : bool :=
  match rho with Some r => nisnan N r | None => true end.

(** One iteration of the [while True] loop, lines 171-430, and the result 432-439.
    [draws k] is the tangent vector drawn in iteration [k].
    The counters of consecutive radius changes (160-161, 342-383) only drive messages and are
    left out. *)
Definition tr_body (mininner maxinner : Z) (Delta_bar : N) (draws : Z -> pt M -> tv M)
  (shrink_fuel : nat) (start_time : N) (s : tr_state)
  : res (step_out tr_state (result N (pt M) * list tr_iter)) :=
  let iteration := (s_iteration s + 1)%Z in                             (* 172 *)
  let x := s_x s in
  let fx := s_fx s in
  let fgradx := s_grad s in
  let Delta := s_Delta s in
  let* eta0 :=
    if tr_use_rand tp then tr_shrink shrink_fuel x (draws iteration x) Delta (* 184-187 *)
    else Ok (m_zero M x) in                                             (* 181 *)
  let* (eta, Heta, numit, stop_inner) :=
    tcg x fgradx eta0 Delta mininner maxinner in                        (* 190-200 *)
  let* (eta, Heta, used_cauchy) :=
    if tr_use_rand tp then tr_cauchy x fx fgradx (s_norm_grad s) Delta eta Heta
    else Ok (eta, Heta, false) in                                       (* 210-239 *)
  let x_prop := m_retr M x eta in                                       (* 248 *)
  let fx_prop := p_cost prob x_prop in                                  (* 251 *)
  let rhonum := fx - fx_prop in                                         (* 255 *)
  let rhoden := - m_inner M x fgradx eta - lit 1 2 * m_inner M x eta Heta in (* 256-258 *)
  let rho_reg := pymax #1 (nabs N fx) * spacing1 * tr_rho_reg tp in     (* 289 *)
  let rhonum := rhonum + rho_reg in
  let rhoden := rhoden + rho_reg in
  let model_decreased := rhoden >=? #0 in                               (* 315 *)
  let* rho := match ndiv N rhonum rhoden with                           (* 320-333 *)
              | Ok q => Ok (Some q)
              | Raise ZeroDivisionError => Ok None
              | Raise e => Raise e
              end in
  let* Delta_new :=
    if rho_lt rho (lit 1 4) || negb model_decreased || rho_isnan rho then (* 339 *)
      ndiv N Delta #4                                                   (* 341 *)
    else if rho_gt rho (lit 3 4) &&
            match stop_inner with NEGATIVE_CURVATURE | EXCEEDED_TR => true | _ => false end then
      Ok (pymin (#2 * Delta) Delta_bar)                                 (* 363-367 *)
    else Ok Delta in
  let accept := model_decreased && rho_gt rho (tr_rho_prime tp) in      (* 391 *)
  let x' := if accept then x_prop else x in                             (* 394 *)
  let fx' := if accept then fx_prop else fx in                          (* 395 *)
  let fgradx' := if accept then p_grad prob x_prop else fgradx in       (* 396 *)
  let norm_grad' := if accept then m_norm M x_prop (p_grad prob x_prop)
                    else s_norm_grad s in                               (* 397 *)
  let trace := s_trace s ++
    [mkTrIter x fx fgradx Delta eta Heta numit stop_inner x_prop fx_prop rho_reg rhoden rho accept Delta_new] in
  match check_stopping sp clock (s_tick s) start_time iteration
          (Some norm_grad') None (-1) with                              (* 420-424 *)
  | Some reason =>
      Ok (Stop (mkResult x' fx' iteration reason
                  (clock (s_tick s + 2)%nat - start_time) None None (Some norm_grad')
                  (log_init (pt M) sp)
                  (map t_x_prop trace), trace))
  | None => Ok (Continue (mkTrState x' fx' fgradx' norm_grad' Delta_new iteration
                            (s_tick s + 2) trace))
  end.

(** TrustRegions.run from a given initial point.  [r_calls] of the result: the
    initial point and the proposals.  The log is initialised (line 169) but never added to. *)
Definition tr_run (x0 : pt M) (mininner : Z) (maxinner : option Z) (Delta_bar Delta0 : option N)
  (draws : Z -> pt M -> tv M) (shrink_fuel : nat) : res (result N (pt M) * list tr_iter) :=
  let maxinner := match maxinner with None => m_dim M | Some m => m end in (* 119-120 *)
  let* Delta_bar :=
    match Delta_bar with                                                (* 125-129 *)
    | Some d => Ok d
    | None => match m_typical_dist M with
              | Ok d => Ok d
              | Raise NotImplementedError => Ok (nsqrt N (n_of_Z N (m_dim M)))
              | Raise e => Raise e
              end
    end in
  let* Delta0 := match Delta0 with Some d => Ok d | None => ndiv N Delta_bar #8 end in (* 130-131 *)
  let start_time := clock 0%nat in                                      (* 144 *)
  let fx := p_cost prob x0 in                                           (* 151 *)
  let fgradx := p_grad prob x0 in                                       (* 152 *)
  let norm_grad := m_norm M x0 fgradx in                                (* 153 *)
  let* (r, trace) := loop (tr_body mininner maxinner Delta_bar draws shrink_fuel start_time)
    (iter_fuel sp) (mkTrState x0 fx fgradx norm_grad Delta0 0 1 []) in
  Ok (mkResult (r_point r) (r_cost r) (r_iterations r) (r_stopping_criterion r) (r_time r)
        (r_cost_evaluations r) (r_step_size r) (r_gradient_norm r) (r_log r) (x0 :: r_calls r), trace).
End TR.
Arguments tr_iter {N} M.
Arguments tr_state {N} M.
Arguments tcg_state {N} M.
