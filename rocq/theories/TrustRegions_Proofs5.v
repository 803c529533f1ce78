(** Assembling the statements about whole runs of trust regions. *)
From Coq Require Import ZArith List Bool Reals Lra Lia Psatz SpecFloat.
From Verif Require Import Num_Model Num_Spec Num_Instances Num_Proofs LineSearch_Model Optimizer_Model Optimizer_Spec
  Optimizer_Proofs Optimizer_Proofs2 TrustRegions_Model TrustRegions_Spec TrustRegions_Proofs TrustRegions_Proofs2
  TrustRegions_Proofs3 TrustRegions_Proofs4.
Import ListNotations.

Section General.
Context {N : NumOps} {M : Mfd N} (prob : OptProblem M) (tp : tr_params N)
  (sp : stop_params N) (clock : nat -> N).
Notation run := (tr_run prob tp sp clock).

Lemma tr_run_reason x0 mi ma bar d0 draws sf r tr : run x0 mi ma bar d0 draws sf = Ok (r, tr) ->
  exists tick,
    first_criterion (criterion_met sp (clock (S tick)) (clock 0) (r_iterations r)
      (r_gradient_norm r) None (-1)) (reason_criterion (r_stopping_criterion r)) /\
    reason_data (r_stopping_criterion r) (r_iterations r) (nsub N (clock tick) (clock 0)).
Proof.
  intros E. destruct (tr_run_inv _ _ _ _ _ _ _ _ _ _ _ _ _ E)
    as (b & st & y & D' & tick & _ & _ & _ & _ & _ & _ & _ & _ & _ & _ & _ & _ & C).
  exists tick.
  pose proof (check_stopping_cases sp clock tick (clock 0%nat) (r_iterations r) (r_gradient_norm r) None (-1)) as K.
  cbv zeta in K. rewrite C in K. exact K.
Qed.

Lemma tr_run_log x0 mi ma bar d0 draws sf r tr : run x0 mi ma bar d0 draws sf = Ok (r, tr) ->
  r_log r = (if (1 <=? log_verbosity sp)%Z then Some [] else None).
Proof.
  intros E. destruct (tr_run_inv _ _ _ _ _ _ _ _ _ _ _ _ _ E)
    as (b & st & y & D' & tick & _ & _ & _ & _ & _ & _ & _ & _ & _ & K & _). exact K.
Qed.

Lemma tr_log_incomplete x0 mi ma bar d0 draws sf r tr es : run x0 mi ma bar d0 draws sf = Ok (r, tr) ->
  r_log r = Some es -> Z.of_nat (length es) <> r_iterations r.
Proof.
  intros E Hl. rewrite (tr_run_log _ _ _ _ _ _ _ _ _ E) in Hl.
  destruct (_ <=? _)%Z; [|discriminate]. injection Hl as <-. simpl.
  apply tr_run_iterations in E. lia.
Qed.

Lemma tr_run_calls x0 mi ma bar d0 draws sf r tr : run x0 mi ma bar d0 draws sf = Ok (r, tr) ->
  r_cost_evaluations r = None /\ r_calls r = x0 :: map t_x_prop tr /\
  Z.of_nat (length (r_calls r)) = (r_iterations r + 1)%Z.
Proof.
  intros E. destruct (tr_run_inv _ _ _ _ _ _ _ _ _ _ _ _ _ E)
    as (b & st & y & D' & tick & _ & _ & _ & Hn & _ & _ & _ & K1 & _ & _ & K2 & _).
  repeat split; auto. rewrite K2. cbn [length]. rewrite map_length. lia.
Qed.

Lemma tr_run_result x0 mi ma bar d0 draws sf r tr : run x0 mi ma bar d0 draws sf = Ok (r, tr) ->
  r_cost r = p_cost prob (r_point r) /\
  r_gradient_norm r = Some (m_norm M (r_point r) (p_grad prob (r_point r))) /\
  (1 <= r_iterations r <= Z.max 1 (max_iterations sp))%Z /\ Z.of_nat (length tr) = r_iterations r.
Proof.
  intros E. pose proof (tr_run_iterations _ _ _ _ _ _ _ _ _ _ _ _ _ E) as Hi.
  destruct (tr_run_inv _ _ _ _ _ _ _ _ _ _ _ _ _ E)
    as (b & st & y & D' & tick & _ & _ & _ & Hn & K1 & K2 & K3 & _).
  rewrite K1. repeat split; auto; lia.
Qed.

Lemma tr_run_radius_changes x0 mi ma bar D0 draws sf r tr :
  run x0 mi ma (Some bar) (Some D0) draws sf = Ok (r, tr) ->
  (exists Delta', linked prob x0 D0 tr (r_point r) Delta') /\
  Forall (fun it : tr_iter M =>
    ndiv N (t_Delta it) (n_of_Z N 4) = Ok (t_Delta_new it) \/
    (t_Delta_new it = pymin (nmul N (n_of_Z N 2) (t_Delta it)) bar /\
     ratio_exceeds (tr_rho_reg tp) (lit 3 4) it /\
     (t_stop it = NEGATIVE_CURVATURE \/ t_stop it = EXCEEDED_TR)) \/
    t_Delta_new it = t_Delta it) tr.
Proof.
  intros E. destruct (tr_run_inv _ _ _ _ _ _ _ _ _ _ _ _ _ E)
    as (b & st & y & D' & tick & [Hb Hs] & HL & HK & _ & K1 & _).
  simpl in Hb, Hs. subst b st y. split; [eauto|].
  eapply Forall_impl; [|exact HK]. intros it K. cbv beta.
  destruct (iter_radius _ _ _ _ _ _ _ _ K) as [A|[(A & _ & B & C)|A]]; auto.
Qed.

Lemma tr_run_acceptance (L : OrderLaws N) x0 mi ma bar D0 draws sf r tr :
  run x0 mi ma bar D0 draws sf = Ok (r, tr) ->
  (exists start Delta', linked prob x0 start tr (r_point r) Delta') /\
  Forall (fun it : tr_iter M =>
    (t_accepted it = true <->
     nle N (n_of_Z N 0) (nadd N (predicted_decrease it) (shift (tr_rho_reg tp) it)) = true /\
     ratio_exceeds (tr_rho_reg tp) (tr_rho_prime tp) it) /\
    (nlt N (tr_rho_prime tp) (lit 1 4) = true -> t_accepted it = false ->
     ndiv N (t_Delta it) (n_of_Z N 4) = Ok (t_Delta_new it))) tr.
Proof.
  intros E. destruct (tr_run_inv _ _ _ _ _ _ _ _ _ _ _ _ _ E)
    as (b & st & y & D' & tick & _ & HL & HK & _ & K1 & _).
  subst y. split; [eauto|].
  eapply Forall_impl; [|exact HK]. intros it K. split.
  - eapply iter_accept; eauto.
  - eapply iter_rejected; eauto.
Qed.

Lemma tcg_loop_iterations x g Delta n0 mi n : forall j s eta Heta j' stop,
  tcg_loop prob tp x g Delta n0 mi n j s = Ok (eta, Heta, j', stop) ->
  (j - 1 <= j' < j + Z.of_nat n)%Z /\ (n <> O -> (j <= j')%Z).
Proof.
  induction n as [|n IH]; intros j s eta Heta j' stop E; cbn [tcg_loop] in E.
  - injection E as <- <- <- <-. split; [lia|congruence].
  - apply bind_ok in E as (o & _ & E). destruct o as [s'|[[e h] st]].
    + destruct (IH _ _ _ _ _ _ E). lia.
    + injection E as <- <- <- <-. lia.
Qed.
Lemma tcg_iterations x g eta0 Delta mininner maxinner eta Heta j stop :
  tcg prob tp x g eta0 Delta mininner maxinner = Ok (eta, Heta, j, stop) -> (0 <= j < maxinner)%Z.
Proof.
  unfold tcg. destruct (tcg_init _ _ _ _ _) as [s n0]. destruct (Z.leb_spec maxinner 0); [discriminate|].
  intros E. apply tcg_loop_iterations in E as [A B]. lia.
Qed.
Lemma tr_run_dim0 x0 mi bar D0 draws sf : (m_dim M <= 0)%Z -> tr_use_rand tp = false ->
  run x0 mi None (Some bar) (Some D0) draws sf = Raise UnboundLocalError.
Proof.
  intros Hd Hr. unfold tr_run, iter_fuel. cbn [bind loop]. unfold tr_body. rewrite Hr. cbn [bind].
  unfold tcg. destruct (tcg_init _ _ _ _ _) as [s n0].
  destruct (Z.leb_spec (m_dim M) 0); [reflexivity|lia].
Qed.
End General.

(** * Exact arithmetic *)
Section Exact.
Context {M : Mfd Rnum} (prob : OptProblem M) (tp : tr_params Rnum)
  (sp : stop_params Rnum) (clock : nat -> R).
Notation run := (tr_run prob tp sp clock).
Local Open Scope R_scope.

Lemma tr_run_radius_bounds x0 mi ma (bar D0 : R) draws sf r tr :
  run x0 mi ma (Some bar) (Some D0) draws sf = Ok (r, tr) -> 0 < D0 <= bar ->
  Forall (fun it : tr_iter M => 0 < t_Delta it <= bar /\ 0 < t_Delta_new it <= bar) tr.
Proof.
  intros E H0. destruct (tr_run_inv _ _ _ _ _ _ _ _ _ _ _ _ _ E)
    as (b & st & y & D' & tick & [Hb Hs] & HL & HK & _).
  simpl in Hb, Hs. subst b st. eapply linked_radius; eauto.
Qed.
Lemma tr_run_radius_bounds_default x0 mi ma draws sf r tr (bar : R) :
  m_typical_dist M = Ok bar -> 0 < bar ->
  run x0 mi ma None None draws sf = Ok (r, tr) ->
  Forall (fun it : tr_iter M => 0 < t_Delta it <= bar /\ 0 < t_Delta_new it <= bar) tr.
Proof.
  intros Ht H0 E. destruct (tr_run_inv _ _ _ _ _ _ _ _ _ _ _ _ _ E)
    as (b & st & y & D' & tick & [Hb Hs] & HL & HK & _).
  assert (b = bar) as -> by (destruct Hb as [Hb|[Hb _]]; congruence).
  apply Rdiv_ok in Hs as [_ ->]. eapply linked_radius; eauto. simpl. lra.
Qed.

Lemma shift_R (it : tr_iter M) : shift (N := Rnum) (tr_rho_reg tp) it =
  Rmax 1 (Rabs (t_fx it)) / 4503599627370496 * tr_rho_reg tp.
Proof.
  unfold shift. rewrite pymax_R, Rlit by (apply not_0_IZR; discriminate). cbn. field.
Qed.

Lemma tr_run_bounded_increase x0 mi ma bar D0 draws sf r tr :
  run x0 mi ma bar D0 draws sf = Ok (r, tr) -> 0 <= tr_rho_prime tp ->
  Forall (fun it : tr_iter M => t_accepted it = true ->
    t_fx_prop it < t_fx it + Rmax 1 (Rabs (t_fx it)) / 4503599627370496 * tr_rho_reg tp) tr.
Proof.
  intros E Hp. destruct (tr_run_inv _ _ _ _ _ _ _ _ _ _ _ _ _ E)
    as (b & st & y & D' & tick & _ & HL & HK & _).
  eapply Forall_impl; [|exact HK]. intros it K Ha. rewrite <- shift_R.
  eapply iter_bounded_increase; eauto.
Qed.
Lemma tr_run_total x0 mi ma bar D0 draws sf r tr :
  run x0 mi ma bar D0 draws sf = Ok (r, tr) -> 0 <= tr_rho_prime tp -> 0 <= tr_rho_reg tp ->
  r_cost r <= p_cost prob x0 + fold_right (fun (it : tr_iter M) acc =>
     Rmax 1 (Rabs (t_fx it)) / 4503599627370496 * tr_rho_reg tp + acc) 0 tr.
Proof.
  intros E Hp Hr. destruct (tr_run_inv _ _ _ _ _ _ _ _ _ _ _ _ _ E)
    as (b & st & y & D' & tick & _ & HL & HK & _ & Ey & Ec & _).
  rewrite Ec. eapply Rle_trans; [eapply linked_total; eauto|].
  apply Rplus_le_compat_l. clear. induction tr as [|it tr IH]; cbn [fold_right]; [lra|].
  rewrite <- shift_R. lra.
Qed.
Lemma tr_run_monotone x0 mi ma bar D0 draws sf r tr :
  run x0 mi ma bar D0 draws sf = Ok (r, tr) -> 0 <= tr_rho_prime tp -> tr_rho_reg tp = 0 ->
  r_cost r <= p_cost prob x0 /\
  Forall (fun it : tr_iter M => t_accepted it = true -> t_fx_prop it < t_fx it) tr.
Proof.
  intros E Hp Hr. split.
  - pose proof (tr_run_total _ _ _ _ _ _ _ _ _ E Hp ltac:(rewrite Hr; lra)) as K.
    eapply Rle_trans; [exact K|]. rewrite Hr. clear.
    assert (forall l : list (tr_iter M), fold_right (fun (it : tr_iter M) acc =>
      Rmax 1 (Rabs (t_fx it)) / 4503599627370496 * 0 + acc) 0 l = 0) as ->; [|lra].
    induction l; cbn [fold_right]; [lra|]. rewrite IHl. lra.
  - eapply Forall_impl; [|eapply tr_run_bounded_increase; eauto].
    intros it K Ha. specialize (K Ha). rewrite Hr in K. lra.
Qed.

Section Inner.
Variables (x : pt M) (g : tv M) (T : tv M -> Prop) (B : tv M -> tv M -> R) (Delta : R)
  (mininner maxinner : Z) (eta Heta : tv M) (j : Z) (stop : tcg_stop).
Hypothesis (HT : tangent_space x T) (HH : symmetric_operator x T (p_hess prob x)).
Hypothesis (HP : preconditioner_form x T (p_prec prob x) B).
Hypothesis (Hg : T g) (Hr : tr_use_rand tp = false).
Hypothesis (E : tcg prob tp x g (m_zero M x) Delta mininner maxinner = Ok (eta, Heta, j, stop)).
Lemma tcg_in_region : T eta /\ B eta eta <= Delta * Delta.
Proof. destruct (tcg_good M prob tp x g T B Delta mininner HT HH HP Hg Hr _ _ _ _ _ E) as (_ & A1 & A2 & A3 & _). auto. Qed.
Lemma tcg_decreases : let q := quadratic x g (p_hess prob x) in
  Heta = p_hess prob x eta /\ q eta <= 0 /\ (0 < Delta -> 0 < ip x g g -> q eta < 0) /\
  (forall t, 0 <= t -> t * t * B (p_prec prob x g) (p_prec prob x g) <= Delta * Delta ->
     q eta <= q (t_scale M (- t) (p_prec prob x g))).
Proof. destruct (tcg_good M prob tp x g T B Delta mininner HT HH HP Hg Hr _ _ _ _ _ E) as (_ & A1 & A2 & A3 & A4 & A5 & A6 & _). cbv zeta. auto. Qed.
Lemma tcg_reason : (0 <= j < maxinner)%Z /\
  reason_agrees x T g (p_hess prob x) B (tr_kappa tp) (tr_theta tp) Delta mininner maxinner j eta stop.
Proof. destruct (tcg_good M prob tp x g T B Delta mininner HT HH HP Hg Hr _ _ _ _ _ E) as (A0 & A1 & A2 & A3 & A4 & A5 & A6 & A7). auto. Qed.
End Inner.

Lemma id_precond x T P : tangent_space x T -> (forall v, P v = v) -> preconditioner_form (M := M) x T P (ip x).
Proof.
  intros HT HP. split; intros; rewrite ?HP; auto; try (apply HT; auto).
Qed.
Lemma tcg_in_region_id x g T (Delta : R) mininner maxinner eta Heta j stop :
  tangent_space x T -> symmetric_operator x T (p_hess prob x) ->
  (forall v, p_prec prob x v = v) ->
  T g -> 0 <= Delta -> tr_use_rand tp = false ->
  tcg prob tp x g (m_zero M x) Delta mininner maxinner = Ok (eta, Heta, j, stop) ->
  sqrt (ip x eta eta) <= Delta.
Proof.
  intros HT HH HP Hg HD Hr E.
  destruct (tcg_in_region x g T (ip x) Delta mininner maxinner eta Heta j stop HT HH (id_precond x T _ HT HP) Hg Hr E) as [_ K].
  rewrite <- (sqrt_square Delta) by auto. apply sqrt_le_1_alt; auto.
Qed.

Lemma linked_gradient x D tr y D' : linked prob x D tr y D' ->
  Forall (fun it : tr_iter M => t_gradient it = p_grad prob (t_x it)) tr.
Proof. induction 1; constructor; auto. Qed.

Lemma tr_run_steps (T : pt M -> tv M -> Prop) (B : pt M -> tv M -> tv M -> R) x0 mi ma (bar D0 : R) draws sf r tr :
  (forall x, tangent_space x (T x)) -> (forall x, symmetric_operator x (T x) (p_hess prob x)) ->
  (forall x, preconditioner_form x (T x) (p_prec prob x) (B x)) -> (forall x, T x (p_grad prob x)) ->
  tr_use_rand tp = false -> 0 < D0 <= bar ->
  run x0 mi ma (Some bar) (Some D0) draws sf = Ok (r, tr) ->
  Forall (fun it : tr_iter M =>
    let x := t_x it in
    let q := quadratic x (p_grad prob x) (p_hess prob x) in
    B x (t_eta it) (t_eta it) <= t_Delta it * t_Delta it /\
    predicted_decrease it = - q (t_eta it) /\ 0 <= predicted_decrease it /\
    (0 < ip x (p_grad prob x) (p_grad prob x) -> 0 < predicted_decrease it) /\
    (t_accepted it = true -> tr_rho_prime tp * (predicted_decrease it + shift (N := Rnum) (tr_rho_reg tp) it)
                              < t_fx it - t_fx_prop it + shift (N := Rnum) (tr_rho_reg tp) it)) tr.
Proof.
  intros HT HH HP Hg Hr HD E.
  pose proof (tr_run_radius_bounds _ _ _ _ _ _ _ _ _ E HD) as HB.
  destruct (tr_run_inv _ _ _ _ _ _ _ _ _ _ _ _ _ E)
    as (b & st & y & D' & tick & [Hb Hs] & HL & HK & _).
  simpl in Hb, Hs. subst b st.
  apply linked_gradient in HL.
  rewrite Forall_forall in *. intros it Hin. specialize (HB it Hin). specialize (HK it Hin). specialize (HL it Hin).
  destruct (k_start _ _ _ _ _ _ _ _ HK) as (eta0 & eta1 & Heta1 & K1 & K2 & K3).
  rewrite Hr in K1, K3. destruct K3 as [K3 K4]. subst eta0 eta1 Heta1. rewrite HL in K2.
  destruct (tcg_in_region (t_x it) (p_grad prob (t_x it)) (T (t_x it)) (B (t_x it)) (t_Delta it) _ _ _ _ _ _
    (HT _) (HH _) (HP _) (Hg _) Hr K2) as [A1 A2].
  destruct (tcg_decreases (t_x it) (p_grad prob (t_x it)) (T (t_x it)) (B (t_x it)) (t_Delta it) _ _ _ _ _ _
    (HT _) (HH _) (HP _) (Hg _) Hr K2) as (A3 & A4 & A5 & _).
  cbv zeta.
  assert (Q : predicted_decrease it = - quadratic (t_x it) (p_grad prob (t_x it)) (p_hess prob (t_x it)) (t_eta it)).
  { unfold predicted_decrease, quadratic, ip. rewrite HL, A3, Rlit by lra. cbn. lra. }
  split; [auto|]. split; [auto|]. rewrite Q. split; [lra|]. split.
  - intros K. apply A5 in K; lra.
  - rewrite <- Q. apply (iter_sufficient _ _ _ _ _ _ _ _ HK).
Qed.

Lemma tr_run_cauchy (T : pt M -> tv M -> Prop) x0 mi ma (bar D0 : R) draws sf r tr :
  (forall x, tangent_space x (T x)) -> (forall x, symmetric_operator x (T x) (p_hess prob x)) ->
  (forall x, T x (p_grad prob x)) -> (forall k x, T x (draws k x)) ->
  (forall x v, T x v -> m_norm M x v = sqrt (ip x v v)) ->
  tr_use_rand tp = true -> 0 < D0 <= bar ->
  run x0 mi ma (Some bar) (Some D0) draws sf = Ok (r, tr) ->
  Forall (fun it : tr_iter M =>
    let x := t_x it in let g := p_grad prob x in let q := quadratic x g (p_hess prob x) in
    t_Heta it = p_hess prob x (t_eta it) /\
    (forall t, 0 <= t -> t * sqrt (ip x g g) <= t_Delta it ->
      q (t_eta it) <= q (t_scale M (- t) g))) tr.
Proof.
  intros HT HH Hg Hd Hn Hr HD E.
  pose proof (tr_run_radius_bounds _ _ _ _ _ _ _ _ _ E HD) as HB.
  destruct (tr_run_inv _ _ _ _ _ _ _ _ _ _ _ _ _ E)
    as (b & st & y & D' & tick & [Hb Hs] & HL & HK & _).
  simpl in Hb, Hs. subst b st.
  apply linked_gradient in HL.
  rewrite Forall_forall in *. intros it Hin. specialize (HB it Hin). specialize (HK it Hin). specialize (HL it Hin).
  destruct (k_start _ _ _ _ _ _ _ _ HK) as (eta0 & eta1 & Heta1 & K1 & K2 & K3).
  rewrite Hr in K1, K3. destruct K1 as [k K1]. destruct K3 as [bb K3]. rewrite HL in K2, K3.
  assert (T0 : T (t_x it) eta0).
  { eapply (shrink_tangent M (t_x it) (T (t_x it))); [|apply (Hd k)|exact K1].
    intros. apply (T_scale (HT _)); auto. }
  destruct (lin_tcg M prob tp (t_x it) (p_grad prob (t_x it)) (T (t_x it)) (HT _) (HH _) (Hg _) Hr
    _ _ _ _ _ _ _ _ T0 K2) as [T1 ->].
  destruct (cauchy_best M prob (t_x it) (p_grad prob (t_x it)) (T (t_x it)) (HT _) (HH _) (Hg _)
    _ _ _ _ _ _ _ (proj1 (proj1 HB)) (Hn _ _ (Hg _)) T1 K3) as (C1 & C2 & C3 & C4).
  cbv zeta. split; auto. intros t Ht Hle. apply C4; auto. rewrite (Hn _ _ (Hg _)). auto.
Qed.
End Exact.

(** * binary64 *)
Section Binary64.
Variable powf : spec_float -> spec_float -> spec_float.
Notation F := (f64 powf).

Lemma tr_run_no_nan (M : Mfd F) (prob : OptProblem M) tp sp clock x0 mi ma bar D0 draws sf r tr :
  tr_run prob tp sp clock x0 mi ma bar D0 draws sf = Ok (r, tr) ->
  nisnan F (p_cost prob x0) = false -> nisnan F (r_cost r) = false.
Proof.
  intros E H0. destruct (tr_run_inv _ _ _ _ _ _ _ _ _ _ _ _ _ E)
    as (b & st & y & D' & tick & _ & HL & HK & _ & _ & Ec & _).
  rewrite Ec. eapply linked_no_nan; eauto.
Qed.

Lemma nan_step (M : Mfd F) (prob : OptProblem M) tp x g Delta n0 mininner j (s : tcg_state M) o :
  (exists b, c_d_Pd s = S754_zero b) -> (exists b, m_inner M x (c_delta s) (p_hess prob x (c_delta s)) = S754_zero b) ->
  (exists b, c_e_Pd s = S754_zero b) ->
  f64_is_finite (nsub F (nmul F Delta Delta) (c_e_Pe s)) = true ->
  tcg_body prob tp x g Delta n0 mininner j s = Ok o ->
  exists Heta, o = Stop (t_add M (c_eta s) (t_scale M (S754_nan : F) (c_delta s)), Heta, NEGATIVE_CURVATURE).
Proof.
  intros [b1 H1] [b2 H2] [b3 H3] Hf E. unfold tcg_body in E. cbv zeta in E. rewrite H1, H2, H3 in E.
  cbn [nonzero nle f64 n_of_Z bind] in E.
  assert (Z2 : SFleb (S754_zero b2) (f64_of_Z 0) = true) by (destruct b2; reflexivity).
  unfold nonzero in E. cbn [nle f64 n_of_Z] in E. rewrite Z2 in E.
  assert (Z3 : SFleb (f64_of_Z 0) (S754_zero b2) = true) by (destruct b2; reflexivity).
  rewrite Z3 in E. cbn [andb negb bind orb] in E.
  assert (Zt : ndiv F (nadd F (nneg F (S754_zero b3)) (nsqrt F (nadd F (nmul F (S754_zero b3) (S754_zero b3))
     (nmul F (S754_zero b1) (nsub F (nmul F Delta Delta) (c_e_Pe s)))))) (S754_zero b1) = Ok (S754_nan : F)).
  { destruct (nsub F (nmul F Delta Delta) (c_e_Pe s)) as [s1|s1| |s1 m1 e1]; try discriminate Hf;
      destruct b1, b3, s1; reflexivity. }
  rewrite Zt in E. cbn [bind] in E. injection E as <-. eexists. reflexivity.
Qed.
End Binary64.

(** * The budget of cost evaluations *)
Section Budget.
Lemma loop_ext {S R} (b b' : S -> res (step_out S R)) fuel : (forall s, b s = b' s) ->
  forall s, loop b fuel s = loop b' fuel s.
Proof.
  intros H. induction fuel as [|f IH]; intros s; cbn [loop]; auto.
  rewrite H. destruct (b' s) as [[s'|r]|e]; cbn [bind]; auto.
Qed.
Context {N : NumOps} {M : Mfd N} (prob : OptProblem M) (sp : stop_params N) (clock : nat -> N) (budget : Z).
Hypothesis (Hb : (0 <= budget)%Z) (Hsp : (0 <= max_cost_evaluations sp)%Z).

Lemma check_budget tick t0 it gn ss :
  check_stopping (with_budget sp budget) clock tick t0 it gn ss (-1) =
  check_stopping sp clock tick t0 it gn ss (-1).
Proof.
  unfold check_stopping, with_budget. cbn.
  destruct (Z.leb_spec budget (-1)); [lia|]. destruct (Z.leb_spec (max_cost_evaluations sp) (-1)); [lia|].
  reflexivity.
Qed.
Lemma sd_run_budget LS ls0 x0 :
  sd_run prob LS (with_budget sp budget) clock ls0 x0 = sd_run prob LS sp clock ls0 x0.
Proof.
  unfold sd_run. change (format_length_check (with_budget sp budget)) with (format_length_check sp).
  destruct (format_length_check sp); cbn [bind]; auto.
  apply loop_ext. intros s. unfold sd_body. cbv zeta.
  destruct (ls_search _ _ _ _ _ _ _) as [[[ls [ss x']] calls]|e]; cbn [bind]; auto.
  change (log_ticks (with_budget sp budget)) with (log_ticks sp). rewrite check_budget. reflexivity.
Qed.
Lemma cg_run_budget LS rule orth ls0 x0 :
  cg_run prob LS (with_budget sp budget) clock rule orth ls0 x0 = cg_run prob LS sp clock rule orth ls0 x0.
Proof.
  unfold cg_run. change (format_length_check (with_budget sp budget)) with (format_length_check sp).
  destruct (format_length_check sp); cbn [bind]; auto.
  apply loop_ext. intros s. unfold cg_body. cbv zeta.
  change (log_ticks (with_budget sp budget)) with (log_ticks sp). rewrite check_budget. reflexivity.
Qed.
Lemma tr_run_budget tp x0 mi ma bar D0 draws sf :
  tr_run prob tp (with_budget sp budget) clock x0 mi ma bar D0 draws sf =
  tr_run prob tp sp clock x0 mi ma bar D0 draws sf.
Proof.
  unfold tr_run. change (iter_fuel (with_budget sp budget)) with (iter_fuel sp).
  destruct (match bar with Some d => Ok d | None => _ end) as [b|e]; cbn [bind]; auto.
  destruct (match D0 with Some d => Ok d | None => _ end) as [d|e]; cbn [bind]; auto.
  f_equal. apply loop_ext. intros s. unfold tr_body. cbv zeta.
  destruct (if tr_use_rand tp then _ else _) as [eta0|e]; cbn [bind]; auto.
  destruct (tcg _ _ _ _ _ _ _ _) as [[[[eta Heta] n] st]|e]; cbn [bind]; auto.
  destruct (if tr_use_rand tp then _ else _) as [[[eta1 Heta1] uc]|e]; cbn [bind]; auto.
  destruct (match ndiv _ _ _ with Ok _ => _ | Raise _ => _ end) as [rho|e]; cbn [bind]; auto.
  destruct (if rho_lt _ _ || _ || _ then _ else _) as [Dn|e]; cbn [bind]; auto.
  rewrite check_budget. reflexivity.
Qed.
End Budget.
