(** C102: the optimizers see a manifold only through its geometry.  If two manifolds are the same geometry in two descriptions
    ([same_steps] etc., Equivariance_Spec.v), every optimizer makes the same steps on both: the same iterations, costs, stopping reason,
    exceptions and points.  For all number systems, binary64 included. *)
From Coq Require Import ZArith List Bool Reals Lra.
From Verif Require Import Num_Model Num_Instances LineSearch_Model Optimizer_Model TrustRegions_Model NelderMead_Model
  ParticleSwarm_Model TrustRegions_Proofs Equivariance_Spec Equivariance_Proofs.
Import ListNotations.

Section C102.
Context {N : NumOps} {M M' : Mfd N}.
Variables (same_point : pt M -> pt M' -> Prop) (same_vector : pt M -> pt M' -> tv M -> tv M' -> Prop).
Hypothesis G : same_steps M M' same_point same_vector.

(** Both line searchers qualify, with the remembered number as state. *)
Theorem C102_line_searchers bp ap :
  same_searcher M M' same_point same_vector (bt_searcher M bp) (bt_searcher M' bp) eq /\
  same_searcher M M' same_point same_vector (ad_searcher M ap) (ad_searcher M' ap) eq.
Proof. split; [apply same_bt_searcher|apply same_ad_searcher]; exact G. Qed.

Section Gradient.
Variables (p : OptProblem M) (p' : OptProblem M') (sp : stop_params N) (clock : nat -> N) (x : pt M) (y : pt M').
Hypotheses (P : same_problem M M' same_point same_vector p p') (Hx : same_point x y).

Section Searchers.
Variables (L : LineSearcher M) (L' : LineSearcher M') (same_state : ls_state L -> ls_state L' -> Prop)
  (s : ls_state L) (s' : ls_state L').
Hypotheses (HL : same_searcher M M' same_point same_vector L L' same_state) (Hs : same_state s s').
Theorem C102_steepest_descent :
  same_outcome (fun o o' => same_result M M' same_point (fst o) (fst o') /\ same_state (snd o) (snd o'))
    (sd_run p L sp clock s x) (sd_run p' L' sp clock s' y).
Proof. eapply same_sd_run; eassumption. Qed.
Theorem C102_conjugate_gradient rule orth_value : rule <> LiuStorey ->
  same_outcome (fun o o' => same_result M M' same_point (fst o) (fst o') /\ same_state (snd o) (snd o'))
    (cg_run p L sp clock (beta_update rule) orth_value s x) (cg_run p' L' sp clock (beta_update rule) orth_value s' y).
Proof. intros Hr; eapply same_cg_run; try eassumption. intros a a'; eapply same_beta; eassumption. Qed.
(** Liu-Storey needs more: an inner product at the old point of a vector there and one at the new point. *)
Theorem C102_liu_storey rule orth_value :
  (forall x y z w u u' v v', same_point x y -> same_point z w -> same_vector x y u u' -> same_vector z w v v' ->
    m_inner M x u v = m_inner M' y u' v') ->
  same_outcome (fun o o' => same_result M M' same_point (fst o) (fst o') /\ same_state (snd o) (snd o'))
    (cg_run p L sp clock (beta_update rule) orth_value s x) (cg_run p' L' sp clock (beta_update rule) orth_value s' y).
Proof. intros Hm; eapply same_cg_run; try eassumption. intros a a'; eapply same_beta_mixed; eassumption. Qed.
End Searchers.

Theorem C102_trust_regions tp mininner maxinner Delta_bar Delta0 draws draws' fuel :
  (forall k x y, same_point x y -> same_vector x y (draws k x) (draws' k y)) ->
  same_outcome (fun o o' => same_result M M' same_point (fst o) (fst o') /\ Forall2 (same_iter M M' same_point same_vector) (snd o) (snd o'))
    (tr_run p tp sp clock x mininner maxinner Delta_bar Delta0 draws fuel)
    (tr_run p' tp sp clock y mininner maxinner Delta_bar Delta0 draws' fuel).
Proof. intros Hd; eapply same_tr_run; eassumption. Qed.
End Gradient.

Section Free.
Variables (cost : pt M -> N) (cost' : pt M' -> N).
Hypotheses (Hcost : forall x y, same_point x y -> cost x = cost' y) (HL : same_logs M M' same_point same_vector).
(** Nelder-Mead, with the centroids computed by steepest descent from the points [start k]. *)
Theorem C102_nelder_mead (base sp : stop_params N) (clock : nat -> N) clock_k argsort bp start start' (o : nm_obj N) st st' :
  same_means M M' same_point -> (forall k, same_point (start k) (start' k)) -> same_nm_start M M' same_point st st' ->
  let centroid k := compute_centroid (bt_searcher M bp) None sp (clock_k k) (start k) in
  let centroid' k := compute_centroid (bt_searcher M' bp) None sp (clock_k k) (start' k) in
  fst (nm_run cost base clock argsort centroid o st) = fst (nm_run cost' base clock argsort centroid' o st') /\
  same_outcome (fun a b => same_result M M' same_point (fst a) (fst b) /\ Forall2 (same_simplex M M' same_point) (snd a) (snd b))
    (snd (nm_run cost base clock argsort centroid o st)) (snd (nm_run cost' base clock argsort centroid' o st')).
Proof.
  intros HM Hs Hst centroid centroid'. eapply same_nm_run; try eassumption.
  intros k l l' Hl; eapply same_centroid; try eassumption; [apply same_bt_searcher; assumption|reflexivity|apply Hs].
Qed.
Theorem C102_particle_swarm (base : stop_params N) clock uniform rtv rtv' (o : ps_obj N) st st' :
  (forall k x y, same_point x y -> same_vector x y (rtv k x) (rtv' k y)) -> same_ps_start M M' same_point st st' ->
  let r := ps_run cost base clock uniform rtv o st in let r' := ps_run cost' base clock uniform rtv' o st' in
  fst (fst r) = fst (fst r') /\
  same_outcome (fun a b => same_result M M' same_point (fst a) (fst b) /\ Forall2 (same_swarm M M' same_point) (snd a) (snd b))
    (snd (fst r)) (snd (fst r')) /\
  same_list M M' same_point (snd r) (snd r').
Proof. intros Hr Hst; eapply same_ps_run; eassumption. Qed.
End Free.
End C102.
Print Assumptions C102_conjugate_gradient. Print Assumptions C102_trust_regions. Print Assumptions C102_nelder_mead.
Print Assumptions C102_particle_swarm.

(** * The Liu-Storey rule depends on the description: the real line, with tangent vectors at [x] written in units of length [1 / s x]. *)
Section Line.
Local Open Scope R_scope.
Definition line (s : R -> R) : Mfd Rnum := @mkMfd Rnum R R 1 (Raise NotImplementedError)
  (fun x u v => (u / s x) * (v / s x)) false (fun x u => Rabs (u / s x))
  (fun x u => x + u / s x) (fun x u => x + u / s x) (fun x y => (y - x) * s x) (fun x y => Rabs (x - y))
  (fun x y u => u / s x * s y) (fun _ u => u) (fun _ => 0) (fun x y => (x + y) / 2)
  Ropp Rplus Rminus Rmult.
(** the cost [x^2], its gradient and Hessian *)
Definition line_problem (s : R -> R) : OptProblem (line s) :=
  mkOptProblem Rnum (line s) (fun x : R => x * x) (fun x => 2 * x * s x) (fun x u => 2 * u) (fun x u => u).
Definition line_vector (s s' : R -> R) (x y : R) (u u' : R) : Prop := u' = u / s x * s' y.

Lemma line_same s s' : (forall x, 0 < s x) -> (forall x, 0 < s' x) ->
  same_steps (line s) (line s') eq (line_vector s s') /\ same_logs (line s) (line s') eq (line_vector s s') /\
  same_means (line s) (line s') eq /\ same_problem (line s) (line s') eq (line_vector s s') (line_problem s) (line_problem s').
Proof.
  intros S S'. assert (Z : forall x, s x <> 0) by (intros x; specialize (S x); lra).
  assert (Z' : forall x, s' x <> 0) by (intros x; specialize (S' x); lra).
  assert (E : forall x u, u / s x * s' x / s' x = u / s x) by (intros; field; auto).
  unfold line_vector; split; [|split; [intros x y z w -> ->; simpl; field; auto|split]]; split; simpl; intros; subst; rewrite ?E; auto; try (field; auto).
Qed.

(** Two units: at the points below zero, lengths are counted in halves. *)
Definition halves (x : R) : R := if Rlt_dec x 0 then 2 else 1.
Definition ls_stop : stop_params Rnum := mkStop (N := Rnum) 1 3 0 0 1000 0 0.
Definition ls_search_params : ad_params (N := Rnum) := mkAd (N := Rnum) (1 / 2) (1 / 10000) 10 1.
Definition ls_run (s : R -> R) := cg_run (line_problem s) (ad_searcher (line s) ls_search_params) ls_stop (fun _ => 0)
  (beta_update LiuStorey) 1000000 None (2 / 3 : R).

Lemma ad_one s (f : R -> R) x d f0 df0 o alpha :
  (match o with Some a => Ok a | None => Rdiv_res 1 (Rabs (d / s x)) end) = Ok alpha ->
  f (x + alpha * d / s x) <= f0 + 1 / 10000 * alpha * df0 -> f (x + alpha * d / s x) <= f0 ->
  ad_search (line s) ls_search_params o f x d f0 df0 =
  Ok (Some (2 * alpha), (alpha * Rabs (d / s x), x + alpha * d / s x), [x + alpha * d / s x]).
Proof.
  intros Ha H1 H2. unfold ad_search.
  match goal with |- bind ?r _ = _ => assert (Er : r = Ok alpha) by (destruct o; exact Ha); rewrite Er end.
  cbn [bind]. change (ls_fuel (ad_maxit ls_search_params)) with 11%nat. cbn [loop]. unfold ls_while at 1. cbn [v_newf v_alpha v_count].
  change (nlt Rnum) with Rltb. rewrite (proj2 (Rltb_false _ _)) by exact H1. cbn [andb bind v_newf v_alpha v_newx v_count v_calls].
  change (nlt Rnum) with Rltb. rewrite (proj2 (Rltb_false _ _)) by exact H2. reflexivity.
Qed.
Lemma ad_two s (f : R -> R) x d f0 df0 alpha :
  f0 + 1 / 10000 * alpha * df0 < f (x + alpha * d / s x) ->
  f (x + alpha * (1 / 2) * d / s x) <= f0 + 1 / 10000 * (alpha * (1 / 2)) * df0 -> f (x + alpha * (1 / 2) * d / s x) <= f0 ->
  0 <= alpha -> exists st o c, 0 <= st /\ ad_search (line s) ls_search_params (Some alpha) f x d f0 df0 =
  Ok (o, (st, x + alpha * (1 / 2) * d / s x), c).
Proof.
  intros H1 H2 H3 H4. unfold ad_search. cbn [bind]. change (ls_fuel (ad_maxit ls_search_params)) with 11%nat. cbn [loop].
  unfold ls_while at 1. cbn [v_newf v_alpha v_count].
  change (nlt Rnum) with Rltb. rewrite (proj2 (Rltb_spec _ _)) by exact H1. cbn [andb].
  change (1 <=? ad_maxit ls_search_params)%Z with true. cbn [bind].
  unfold ls_while at 1. cbn [v_newf v_alpha v_count].
  change (nlt Rnum) with Rltb. rewrite (proj2 (Rltb_false _ _)) by exact H2. cbn [andb bind v_newf v_alpha v_newx v_count v_calls].
  change (nlt Rnum) with Rltb. rewrite (proj2 (Rltb_false _ _)) by exact H3.
  do 3 eexists; split; [|reflexivity]. apply Rmult_le_pos; [simpl; lra|apply Rabs_pos].
Qed.
Lemma cs_none t it gn st : (it < 3)%Z -> 0 <= gn -> match st with Some a => 0 <= a | None => True end ->
  check_stopping ls_stop (fun _ => 0) t 0 it (Some gn) st (-1) = None.
Proof.
  intros Hi Hg Hs. unfold check_stopping, opt_lt. cbn [max_time max_iterations min_gradient_norm min_step_size max_cost_evaluations ls_stop].
  change (nle Rnum) with Rleb. rewrite (proj2 (Rleb_false _ _)) by (simpl; lra). rewrite (proj2 (Z.leb_gt 3 it)) by exact Hi.
  change (nlt Rnum) with Rltb. rewrite (proj2 (Rltb_false _ _)) by exact Hg. destruct st; [rewrite (proj2 (Rltb_false _ _)) by exact Hs|]; reflexivity.
Qed.
Lemma cs_some t gn st : exists r, check_stopping ls_stop (fun _ => 0) t 0 3 (Some gn) st (-1) = Some r.
Proof.
  unfold check_stopping. destruct (nle _ _ _); [eexists; reflexivity|]. eexists; reflexivity.
Qed.
Lemma div_ok a b : b <> 0 -> Rdiv_res a b = Ok (a / b).
Proof. intros H; unfold Rdiv_res; destruct (Req_EM_T b 0); [contradiction|reflexivity]. Qed.

(** The first iteration: from 2/3 to -1/3, then the direction [2 (s - 1/2) / 3] for the unit [s] at the new point. *)
Lemma first_step s u : s (2 / 3) = 1 -> s (-1 / 3) = u -> 0 < u ->
  exists ss log calls tick, 0 <= ss /\
  cg_body (line_problem s) (ad_searcher (line s) ls_search_params) ls_stop (fun _ => 0) (beta_update LiuStorey) 1000000 0
    (cg_init (line_problem s) (ad_searcher (line s) ls_search_params) ls_stop None (2 / 3)) =
  Ok (Continue (mkCg (LS := ad_searcher (line s) ls_search_params) (-1 / 3) (1 / 9) (- (2 / 3) * u) (2 / 3) (- (2 / 3) * u) (4 / 9) (2 / 3 * u - 1 / 3)
    (Some ss) (Some (3 / 2)) 1 tick log calls)).
Proof.
  intros S0 S1 U. unfold cg_body, cg_init. cbn [cg_iteration cg_x cg_cost cg_grad cg_gradient_norm cg_Pgrad cg_gradPgrad cg_dir cg_step_size cg_ls cg_tick cg_log cg_calls].
  simpl p_grad. simpl p_prec. simpl m_norm. simpl m_inner. simpl t_neg. rewrite S0.
  rewrite cs_none; [|reflexivity|apply Rabs_pos|exact I].
  unfold cg_direction. cbn [cg_x cg_grad cg_dir cg_Pgrad cg_gradPgrad]. simpl m_inner. rewrite S0. change (nle Rnum) with Rleb.
  rewrite (proj2 (Rleb_false _ _)) by (simpl; lra).
  simpl ls_search. simpl p_cost.
  assert (A1 : Rabs (- (2 * (2 / 3) * 1) / s (2 / 3)) = 4 / 3).
  { rewrite S0. replace (- (2 * (2 / 3) * 1) / 1) with (- (4 / 3)) by field. rewrite Rabs_Ropp. apply Rabs_pos_eq; lra. }
  rewrite (ad_one s _ _ _ _ _ None (3 / 4)).
  2: { rewrite A1, div_ok by lra. f_equal; field. }
  2: { rewrite S0; lra. }
  2: { rewrite S0; lra. }
  assert (X1 : 2 / 3 + 3 / 4 * - (2 * (2 / 3) * 1) / s (2 / 3) = -1 / 3) by (rewrite S0; field). rewrite X1, A1.
  cbn [bind]. rewrite S1. simpl m_transp. unfold ip_div. simpl m_ip_py. change (ndiv Rnum) with Rdiv_res. rewrite S0, S1.
  rewrite div_ok by (replace (2 * (-1 / 3) * u / u) with (- (2 / 3)) by (field; lra); lra).
  cbn [bind]. change (nle Rnum) with Rleb. change (nabs Rnum) with Rabs.
  rewrite (proj2 (Rleb_false _ _)).
  2: { replace (_ / _) with (-2) by (field; lra). rewrite Rabs_left by lra. lra. }
  cbn [beta_update]. unfold beta_liu_storey, ip_div.
  cbn [b_newx b_Pnewgrad b_newgrad b_oldgrad b_x b_grad b_descent_direction b_newgradPnewgrad]. simpl m_inner. simpl m_ip_py. change (ndiv Rnum) with Rdiv_res. simpl t_sub. change (nneg Rnum) with Ropp.
  rewrite S0, S1.
  assert (D : - (2 * (2 / 3) * 1 / 1 * (- (2 * (2 / 3) * 1) / 1 * u / 1)) = 16 / 9 * u) by field. rewrite D.
  rewrite !div_ok by lra. cbn [bind].
  match goal with |- context [@pymin Rnum ?a ?b] => assert (B : @pymin Rnum a b = 1 / 4 / u :> R) end.
  { unfold pymin. change (nlt Rnum) with Rltb. rewrite (proj2 (Rltb_spec _ _)); [field; lra|].
    replace (2 * (-1 / 3) * u / u * ((2 * (-1 / 3) * u - 2 * (2 / 3) * 1 / 1 * u) / u) / (16 / 9 * u)) with (3 / 4 / u) by (field; lra).
    replace (2 * (-1 / 3) * u / u * (2 * (-1 / 3) * u / u) / (16 / 9 * u)) with (1 / 4 / u) by (field; lra).
    apply Rmult_lt_compat_r; [apply Rinv_0_lt_compat; exact U|lra]. }
  rewrite B. unfold pymax. change (nlt Rnum) with Rltb. change (n_of_Z Rnum 0) with 0. rewrite (proj2 (Rltb_spec _ _)) by (apply Rdiv_lt_0_compat; lra).
  cbn [bind]. do 4 eexists. split; [|do 2 f_equal].
  2: { simpl t_add. simpl t_neg. simpl t_scale.
       f_equal; try field; try lra; [..|do 1 f_equal; field].
       all: try (replace (2 * (-1 / 3) * u / u) with (- (2 / 3)) by (field; lra); rewrite ?Rabs_Ropp, ?Rabs_pos_eq by lra; field).
       all: reflexivity. }
  lra.
Qed.
(** The second iteration, to the point found by the line search. *)
Lemma second_step s u ss log calls tick x2 : 0 <= ss -> s (-1 / 3) = u -> 0 < u -> s x2 = 1 -> x2 <> 0 -> 0 < 2 / 3 * u - 1 / 3 ->
  (exists st o c, 0 <= st /\ ad_search (line s) ls_search_params (Some (3 / 2)) (fun x : R => x * x) (-1 / 3) (2 / 3 * u - 1 / 3) (1 / 9)
     (- (2 / 3) * u / u * ((2 / 3 * u - 1 / 3) / u)) = Ok (o, (st, x2), c)) ->
  exists s2 : cg_state (ad_searcher (line s) ls_search_params), cg_x s2 = x2 :> R /\ cg_iteration s2 = 2%Z /\
  cg_body (line_problem s) (ad_searcher (line s) ls_search_params) ls_stop (fun _ => 0) (beta_update LiuStorey) 1000000 0
    (mkCg (LS := ad_searcher (line s) ls_search_params) (-1 / 3) (1 / 9) (- (2 / 3) * u) (2 / 3) (- (2 / 3) * u) (4 / 9) (2 / 3 * u - 1 / 3)
      (Some ss) (Some (3 / 2)) 1 tick log calls) = Ok (Continue s2).
Proof.
  intros Hss S1 U S2 X2 HD [st [o [c [Hst HA]]]]. unfold cg_body.
  cbn [cg_iteration cg_x cg_cost cg_grad cg_gradient_norm cg_Pgrad cg_gradPgrad cg_dir cg_step_size cg_ls cg_tick cg_log cg_calls].
  rewrite cs_none; [|reflexivity|lra|exact Hss].
  unfold cg_direction. cbn [cg_x cg_grad cg_dir cg_Pgrad cg_gradPgrad]. simpl m_inner. rewrite S1. change (nle Rnum) with Rleb.
  assert (Hq : 0 < (2 / 3 * u - 1 / 3) / u) by (apply Rdiv_lt_0_compat; assumption).
  rewrite (proj2 (Rleb_false _ _)).
  2: { simpl. replace (- (2 / 3) * u / u) with (- (2 / 3)) by (field; lra). lra. }
  simpl ls_search. simpl p_cost. rewrite HA. cbn [bind]. simpl p_grad. simpl p_prec. simpl m_inner. unfold ip_div. simpl m_ip_py.
  change (ndiv Rnum) with Rdiv_res. rewrite S2.
  rewrite div_ok by (replace (2 * x2 * 1 / 1 * (2 * x2 * 1 / 1)) with ((2 * x2) * (2 * x2)) by field; apply Rmult_integral_contrapositive; lra).
  cbn [bind]. match goal with |- context [if ?b then _ else _] => destruct b end.
  { cbn [bind]. eexists. split; [|split; [|reflexivity]]; reflexivity. }
  cbn [beta_update]. unfold beta_liu_storey, ip_div.
  cbn [b_newx b_Pnewgrad b_newgrad b_oldgrad b_x b_grad b_descent_direction b_newgradPnewgrad]. simpl m_inner. simpl m_ip_py.
  change (ndiv Rnum) with Rdiv_res. rewrite ?S1, ?S2.
  rewrite !div_ok.
  1: { cbn [bind]. eexists. split; [|split; [|reflexivity]]; reflexivity. }
  all: apply Ropp_neq_0_compat, Rmult_integral_contrapositive; split;
    [replace (- (2 / 3) * u / u) with (- (2 / 3)) by (field; lra); lra|].
  all: simpl m_transp; rewrite ?S1, ?S2; replace ((2 / 3 * u - 1 / 3) / u * 1 / u) with ((2 / 3 * u - 1 / 3) / u / u) by (field; lra).
  all: apply Rgt_not_eq, Rdiv_lt_0_compat; assumption.
Qed.
Lemma last_step s (s2 : cg_state (ad_searcher (line s) ls_search_params)) : cg_iteration s2 = 2%Z -> exists r o,
  cg_body (line_problem s) (ad_searcher (line s) ls_search_params) ls_stop (fun _ => 0) (beta_update LiuStorey) 1000000 0 s2 = Ok (Stop (r, o)) /\
  r_point r = cg_x s2 :> R.
Proof.
  intros H. unfold cg_body. rewrite H. destruct (cs_some (cg_tick s2 + log_ticks ls_stop)%nat (cg_gradient_norm s2) (cg_step_size s2)) as [q Hq].
  change (2 + 1)%Z with 3%Z. rewrite Hq. do 2 eexists. split; reflexivity.
Qed.
Lemma whole_run s u x2 : s (2 / 3) = 1 -> s (-1 / 3) = u -> 0 < u -> s x2 = 1 -> x2 <> 0 -> 0 < 2 / 3 * u - 1 / 3 ->
  (exists st o c, 0 <= st /\ ad_search (line s) ls_search_params (Some (3 / 2)) (fun x : R => x * x) (-1 / 3) (2 / 3 * u - 1 / 3) (1 / 9)
     (- (2 / 3) * u / u * ((2 / 3 * u - 1 / 3) / u)) = Ok (o, (st, x2), c)) ->
  exists r o, ls_run s = Ok (r, o) /\ r_point r = x2 :> R.
Proof.
  intros S0 S1 U S2 X2 HD HA. destruct (first_step s u S0 S1 U) as (ss & lg & cl & tk & Hss & E1).
  destruct (second_step s u ss lg cl tk x2 Hss S1 U S2 X2 HD HA) as (s2 & Hx & Hi & E2).
  destruct (last_step s s2 Hi) as (r & o & E3 & Hr).
  exists r, o. split; [|congruence]. unfold ls_run, cg_run.
  change (format_length_check ls_stop) with (Ok tt). change (iter_fuel ls_stop) with 4%nat. cbn [bind loop].
  rewrite E1. cbn [bind]. rewrite E2. cbn [bind]. rewrite E3. reflexivity.
Qed.
(** One run on the line in its usual description, one on the line in halves, the same problem and the same starting point: two results. *)
Theorem C102_liu_storey_refuted :
  same_steps (line (fun _ => 1)) (line halves) eq (line_vector (fun _ => 1) halves) /\
  same_problem (line (fun _ => 1)) (line halves) eq (line_vector (fun _ => 1) halves) (line_problem (fun _ => 1)) (line_problem halves) /\
  (exists r o, ls_run (fun _ => 1) = Ok (r, o) /\ r_point r = 1 / 6 :> R) /\ (exists r o, ls_run halves = Ok (r, o) /\ r_point r = 1 / 24 :> R).
Proof.
  assert (P1 : forall x : R, 0 < 1) by (intros; lra).
  assert (P2 : forall x, 0 < halves x) by (intros x; unfold halves; destruct (Rlt_dec x 0); lra).
  destruct (line_same _ _ P1 P2) as (A & _ & _ & B).
  assert (S0 : halves (2 / 3) = 1) by (unfold halves; destruct (Rlt_dec (2 / 3) 0); lra).
  assert (S1 : halves (-1 / 3) = 2) by (unfold halves; destruct (Rlt_dec (-1 / 3) 0); lra).
  assert (S2 : halves (1 / 24) = 1) by (unfold halves; destruct (Rlt_dec (1 / 24) 0); lra).
  split; [exact A|split; [exact B|split]].
  - apply (whole_run (fun _ => 1) 1 (1 / 6)); try lra.
    assert (E := ad_one (fun _ => 1) (fun x : R => x * x) (-1 / 3) (2 / 3 * 1 - 1 / 3) (1 / 9) (- (2 / 3) * 1 / 1 * ((2 / 3 * 1 - 1 / 3) / 1))
      (Some (3 / 2)) (3 / 2) eq_refl ltac:(lra) ltac:(lra)).
    cbv beta in E. replace (-1 / 3 + 3 / 2 * (2 / 3 * 1 - 1 / 3) / 1) with (1 / 6) in E by field.
    do 3 eexists. split; [|exact E]. apply Rmult_le_pos; [lra|apply Rabs_pos].
  - apply (whole_run halves 2 (1 / 24)); try lra.
    destruct (ad_two halves (fun x : R => x * x) (-1 / 3) (2 / 3 * 2 - 1 / 3) (1 / 9) (- (2 / 3) * 2 / 2 * ((2 / 3 * 2 - 1 / 3) / 2)) (3 / 2)) as (st & o & c & Hst & E);
      rewrite ?S1; try lra.
    exists st, o, c. split; [exact Hst|]. rewrite S1 in E.
    replace (-1 / 3 + 3 / 2 * (1 / 2) * (2 / 3 * 2 - 1 / 3) / 2) with (1 / 24) in E by field. exact E.
Qed.
Print Assumptions C102_liu_storey_refuted.
(** The hypotheses of the theorems above: two descriptions of the line, and of the problem of minimising [x^2] on it. *)
Example C102_instance :
  same_steps (line (fun _ => 1)) (line halves) eq (line_vector (fun _ => 1) halves) /\ same_logs (line (fun _ => 1)) (line halves) eq (line_vector (fun _ => 1) halves) /\
  same_means (line (fun _ => 1)) (line halves) eq /\
  same_problem (line (fun _ => 1)) (line halves) eq (line_vector (fun _ => 1) halves) (line_problem (fun _ => 1)) (line_problem halves) /\
  p_grad (line_problem (fun _ => 1)) (-1 : R) = -2 :> R /\ p_grad (line_problem halves) (-1 : R) = -4 :> R.
Proof.
  assert (P1 : forall x : R, 0 < 1) by (intros; lra).
  assert (P2 : forall x, 0 < halves x) by (intros x; unfold halves; destruct (Rlt_dec x 0); lra).
  destruct (line_same _ _ P1 P2) as (A & B & C & D). repeat split; try assumption; try apply A; try apply C; try apply D; simpl.
  - lra.
  - unfold halves; destruct (Rlt_dec (-1) 0); lra.
Qed.
End Line.
