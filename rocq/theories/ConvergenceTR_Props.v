(** C98: trust regions find points with small gradients within an explicit number of iterations (exact arithmetic). *)
From Coq Require Import ZArith List Bool Reals Lra Lia Psatz.
From Verif Require Import Num_Model Num_Spec Num_Instances Num_Proofs LineSearch_Model Optimizer_Model Optimizer_Spec
  Optimizer_Proofs Optimizer_Proofs2 TrustRegions_Model TrustRegions_Spec TrustRegions_Proofs TrustRegions_Proofs2
  TrustRegions_Proofs3 TrustRegions_Proofs5 TrustRegions_Instances Euclid1.
Import ListNotations.
Local Open Scope R_scope.

(** * What the user promises *)
Section Promises.
Variables (M : Mfd Rnum) (prob : OptProblem M) (T : pt M -> tv M -> Prop).
(** The curvature of the Hessian is between [- LH] and [LH]. *)
Definition bounded_curvature (LH : R) : Prop := forall x v, T x v ->
  Rabs (ip x v (p_hess prob x v)) <= LH * ip x v v.
(** The cost after a step not longer than [radius] is below a parabola of curvature [LG] that touches it. *)
Definition smooth_steps (LG radius : R) : Prop := forall x v, T x v -> ip x v v <= radius ^ 2 ->
  p_cost prob (m_retr M x v) <= p_cost prob x + ip x (p_grad prob x) v + LG / 2 * ip x v v.
End Promises.

(** * The constants *)
(** The trust region never becomes smaller. *)
Definition smallest_radius (LG LH e D0 : R) : R := Rmin D0 (3 * e / (16 * (LG + LH))).
(** every step is predicted to decrease the cost by so much *)
Definition predicted_progress (LG LH e D0 : R) : R := / 2 * e * Rmin (smallest_radius LG LH e D0) (e / LH).
(** ... and does decrease it by so much if it is accepted; [F] bounds the size of the costs (only used for the
    regularisation [reg] of the ratio) *)
Definition actual_progress (rho' reg F LG LH e D0 : R) : R :=
  rho' * predicted_progress LG LH e D0 - Rmax 1 F * (1 / 4503599627370496) * reg.

(** accepted and rejected iterations of a run *)
Definition accepted {M : Mfd Rnum} (tr : list (tr_iter M)) : nat := length (filter t_accepted tr).
Definition rejected {M : Mfd Rnum} (tr : list (tr_iter M)) : nat := length (filter (fun it => negb (t_accepted it)) tr).

Section Rate.
Variables (M : Mfd Rnum) (prob : OptProblem M) (tp : tr_params Rnum) (T : pt M -> tv M -> Prop).
Local Notation cost := (p_cost prob : pt M -> R).
Local Notation slope x := (m_norm M x (p_grad prob x) : R).
Variables (LG LH bar D0 bound : R) (x0 : pt M) (sp : stop_params Rnum) (clock : nat -> R).
Local Notation e := (min_gradient_norm sp : R).
Local Notation rho' := (tr_rho_prime tp : R).
Local Notation reg := (tr_rho_reg tp : R).
Local Notation F := (Rmax (Rabs (cost x0)) (Rabs bound)).
Hypotheses (HT : forall x, tangent_space x (T x)) (HH : forall x, symmetric_operator x (T x) (p_hess prob x))
  (Hg : forall x, T x (p_grad prob x)) (Hn : forall x v, T x v -> m_norm M x v = sqrt (ip x v v))
  (Hp : forall x v, p_prec prob x v = v) (Hr : tr_use_rand tp = false)
  (HLG : 0 <= LG) (HLH : 0 < LH) (Hcur : bounded_curvature M prob T LH) (Hsm : smooth_steps M prob T LG bar)
  (Hb : forall x, bound <= cost x) (HD : 0 < D0 <= bar) (He : 0 < e)
  (Hrho : 0 < rho' < 1 / 4) (Hreg : 0 <= reg).
Local Notation Dmin := (smallest_radius LG LH e D0).
Local Notation sigma := (actual_progress rho' reg F LG LH e D0).
Hypothesis (Hsig : 0 < sigma).

Lemma Dmin_pos : 0 < Dmin.
Proof. unfold smallest_radius. apply Rmin_glb_lt; [lra|]. apply Rdiv_lt_0_compat; lra. Qed.

(** ** The Cauchy decrease *)
Lemma cauchy_decrease (it : tr_iter M) : 0 < t_Delta it -> e <= slope (t_x it) ->
  (forall t, 0 <= t -> t * t * ip (t_x it) (p_grad prob (t_x it)) (p_grad prob (t_x it)) <= t_Delta it * t_Delta it ->
    quadratic (t_x it) (p_grad prob (t_x it)) (p_hess prob (t_x it)) (t_eta it) <=
    quadratic (t_x it) (p_grad prob (t_x it)) (p_hess prob (t_x it)) (t_scale M (- t) (p_grad prob (t_x it)))) ->
  / 2 * slope (t_x it) * Rmin (t_Delta it) (slope (t_x it) / LH) <=
  - quadratic (t_x it) (p_grad prob (t_x it)) (p_hess prob (t_x it)) (t_eta it).
Proof.
  set (x := t_x it). set (g := p_grad prob x). set (D := t_Delta it). intros HDp Hs Hq.
  change (0 < D) in HDp.
  set (n := m_norm M x g : R) in *. change (e <= n) in Hs. set (G := ip x g g). set (h := ip x g (p_hess prob x g)).
  assert (En : n * n = G).
  { unfold n. rewrite (Hn x g (Hg x)). apply sqrt_sqrt. apply (ip_pos (HT x)), Hg. }
  assert (Hn0 : 0 < n) by (simpl in *; lra).
  assert (HG : 0 < G) by (rewrite <- En; nra).
  assert (Eq : forall t, quadratic x g (p_hess prob x) (t_scale M (- t) g) = - t * G + t * t / 2 * h).
  { intros t. unfold quadratic.
    assert (Tg : T x g) by apply Hg. assert (TH : T x (p_hess prob x g)) by (apply (H_T (HH x)); auto).
    assert (Ts : T x (t_scale M (- t) g)) by (apply (T_scale (HT x)); auto).
    rewrite (H_scale (HH x)) by auto.
    rewrite (ip_sym (HT x) g) by auto. rewrite !(ip_scale (HT x)) by (auto; apply (T_scale (HT x)); auto).
    rewrite (ip_sym (HT x) g (t_scale M (- t) (p_hess prob x g))) by (auto; apply (T_scale (HT x)); auto).
    rewrite (ip_scale (HT x)) by auto. rewrite (ip_sym (HT x) (p_hess prob x g) g) by auto. fold G h. field. }
  assert (Hh : h <= LH * G).
  { pose proof (Hcur x g (Hg x)) as C. fold h G in C. pose proof (Rle_abs h). lra. }
  set (t := Rmin (D / n) (/ LH)).
  assert (Ht0 : 0 < t).
  { unfold t. apply Rmin_glb_lt; [apply Rdiv_lt_0_compat; lra|apply Rinv_0_lt_compat; lra]. }
  assert (Ht1 : t * n <= D).
  { apply Rle_trans with (D / n * n); [apply Rmult_le_compat_r; [lra|apply Rmin_l]|right; field; lra]. }
  assert (Ht2 : t * LH <= 1).
  { apply Rle_trans with (/ LH * LH); [apply Rmult_le_compat_r; [lra|apply Rmin_r]|right; field; lra]. }
  assert (B : quadratic x g (p_hess prob x) (t_eta it) <= - t * G + t * t / 2 * h).
  { rewrite <- Eq. apply Hq; [lra|]. fold x g G D. rewrite <- En.
    replace (t * t * (n * n)) with ((t * n) * (t * n)) by ring.
    apply Rmult_le_compat; auto; apply Rmult_le_pos; lra. }
  assert (B2 : t * t / 2 * h <= t / 2 * G).
  { apply Rle_trans with (t * t / 2 * (LH * G)); [apply Rmult_le_compat_l; nra|].
    replace (t * t / 2 * (LH * G)) with (t / 2 * G * (t * LH)) by field.
    rewrite <- (Rmult_1_r (t / 2 * G)) at 2. apply Rmult_le_compat_l; nra. }
  assert (Et : forall D n : R, 0 < n -> Rmin D (n / LH) = Rmin (D / n) (/ LH) * n).
  { clear -HLH. intros D n Hn0. destruct (Rle_dec D (n / LH)) as [H1|H1].
    - rewrite !Rmin_left; auto; [field; lra|]. apply Rmult_le_reg_r with n; [lra|].
      replace (D / n * n) with D by (field; lra). replace (/ LH * n) with (n / LH) by (field; lra). exact H1.
    - apply Rnot_le_lt in H1. rewrite !Rmin_right; [field; lra| |lra]. apply Rmult_le_reg_r with n; [lra|].
      replace (D / n * n) with D by (field; lra). replace (/ LH * n) with (n / LH) by (field; lra). lra. }
  rewrite (Et D n Hn0). fold t. replace (/ 2 * n * (t * n)) with (t / 2 * G) by (rewrite <- En; field). lra.
Qed.

(** ** One iteration *)
Record fine mi ma draws sf (it : tr_iter M) : Prop := {
  f_ok : iter_ok prob tp mi ma bar draws sf it;
  f_grad : t_gradient it = p_grad prob (t_x it);
  f_Delta : 0 < t_Delta it <= bar;
  f_slope : e <= slope (t_x it) }.

Lemma one_iteration mi ma draws sf (it : tr_iter M) : fine mi ma draws sf it ->
  t_fx it = cost (t_x it) -> cost (t_x it) <= cost x0 -> Dmin <= t_Delta it ->
  Dmin <= t_Delta_new it /\
  (t_accepted it = true -> sigma <= cost (t_x it) - cost (t_x_prop it) /\ t_Delta_new it <= 2 * t_Delta it) /\
  (t_accepted it = false -> t_Delta_new it = t_Delta it / 4).
Proof.
  intros [K HG HDl HS] Hfx Hx HDm.
  destruct (k_start _ _ _ _ _ _ _ _ K) as (eta0 & eta1 & Heta1 & K1 & K2 & K3).
  rewrite Hr in K1, K3. destruct K3 as [K3 K4]. subst eta0 eta1 Heta1. rewrite HG in K2.
  pose proof (id_precond (t_x it) (T (t_x it)) (p_prec prob (t_x it)) (HT _) (Hp _)) as PF.
  destruct (tcg_in_region prob tp (t_x it) (p_grad prob (t_x it)) (T (t_x it)) (ip (t_x it)) (t_Delta it)
    _ _ _ _ _ _ (HT _) (HH _) PF (Hg _) Hr K2) as [A1 A2].
  destruct (tcg_decreases prob tp (t_x it) (p_grad prob (t_x it)) (T (t_x it)) (ip (t_x it)) (t_Delta it)
    _ _ _ _ _ _ (HT _) (HH _) PF (Hg _) Hr K2) as (A3 & _ & _ & A4).
  rewrite Hp in A4.
  pose proof (cauchy_decrease it (proj1 HDl) HS A4) as Q. clear A4.
  set (q := quadratic (t_x it) (p_grad prob (t_x it)) (p_hess prob (t_x it)) (t_eta it) : R) in *.
  set (n := slope (t_x it)) in *. set (D := t_Delta it : R) in *.
  assert (EP : predicted_decrease it = - q :> R).
  { unfold predicted_decrease, q, quadratic, ip. rewrite HG, A3, Rlit by lra. cbn. lra. }
  pose proof Dmin_pos as Dp.
  set (s := shift (N := Rnum) reg it : R).
  assert (Es : s = Rmax 1 (Rabs (cost (t_x it))) * (1 / 4503599627370496) * reg).
  { unfold s, shift. rewrite pymax_R, Rlit by lra. rewrite Hfx. reflexivity. }
  assert (Hs0 : 0 <= s).
  { rewrite Es. pose proof (Rmax_l 1 (Rabs (cost (t_x it)))). apply Rmult_le_pos; [|exact Hreg]. lra. }
  assert (HsF : s <= Rmax 1 F * (1 / 4503599627370496) * reg).
  { rewrite Es. apply Rmult_le_compat_r; [exact Hreg|]. apply Rmult_le_compat_r; [lra|].
    apply Rle_max_compat_l. specialize (Hb (t_x it)).
    pose proof (Rmax_l (Rabs (cost x0)) (Rabs bound)). pose proof (Rmax_r (Rabs (cost x0)) (Rabs bound)).
    unfold Rabs in *. repeat destruct Rcase_abs; lra. }
  assert (Hpp : predicted_progress LG LH e D0 <= - q).
  { eapply Rle_trans; [|exact Q]. unfold predicted_progress.
    assert (0 < Rmin Dmin (e / LH)) by (apply Rmin_glb_lt; [lra|apply Rdiv_lt_0_compat; lra]).
    apply Rmult_le_compat; [lra|lra|apply Rmult_le_compat_l; lra|].
    apply Rle_trans with (Rmin D (e / LH)); [apply Rle_min_compat_r; exact HDm|].
    apply Rle_min_compat_l. apply Rmult_le_compat_r; [left; apply Rinv_0_lt_compat; lra|exact HS]. }
  assert (Hq : 0 < - q).
  { eapply Rlt_le_trans; [|exact Hpp]. unfold predicted_progress.
    assert (0 < Rmin Dmin (e / LH)) by (apply Rmin_glb_lt; [lra|apply Rdiv_lt_0_compat; lra]). nra. }
  assert (HD2 : ip (t_x it) (t_eta it) (t_eta it) <= bar ^ 2) by (simpl in *; nra).
  assert (Har : - q - (LG + LH) / 2 * (D * D) <= cost (t_x it) - cost (t_x_prop it)).
  { rewrite (k_prop _ _ _ _ _ _ _ _ K). pose proof (Hsm (t_x it) (t_eta it) A1 HD2) as S1.
    pose proof (Hcur (t_x it) (t_eta it) A1) as S2. unfold q, quadratic.
    set (h := ip (t_x it) (t_eta it) (p_hess prob (t_x it) (t_eta it))) in *.
    set (w := ip (t_x it) (t_eta it) (t_eta it)) in *. assert (- h <= LH * w).
    { unfold Rabs in S2. destruct Rcase_abs in S2; lra. }
    assert (LG * w <= LG * (D * D)) by (apply Rmult_le_compat_l; lra).
    assert (LH * w <= LH * (D * D)) by (apply Rmult_le_compat_l; lra). lra. }
  set (ar := cost (t_x it) - cost (t_x_prop it)) in *.
  pose proof (k_rho _ _ _ _ _ _ _ _ K) as KR. pose proof (k_den _ _ _ _ _ _ _ _ K) as KD.
  pose proof (k_acc _ _ _ _ _ _ _ _ K) as KA. pose proof (k_Delta _ _ _ _ _ _ _ _ K) as KL.
  pose proof (k_fprop _ _ _ _ _ _ _ _ K) as KF.
  assert (ED : t_rhoden it = - q + s :> R) by (rewrite KD; change (@eq R (Rplus (predicted_decrease it) s) (- q + s)); rewrite EP; reflexivity).
  assert (ER : t_rho it = Some ((ar + s) / (- q + s))).
  { rewrite ED, KF, Hfx in KR. change (shift (tr_rho_reg tp) it) with s in KR.
    simpl in KR. unfold Rdiv_res in KR. destruct (Req_EM_T (- q + s) 0) as [|_]; [exfalso; lra|].
    destruct (t_rho it); [|discriminate]. injection KR as <-. reflexivity. }
  rewrite ER in KA, KL. rewrite ED in KA, KL.
  set (rho := (ar + s) / (- q + s)) in *.
  assert (Erho : rho * (- q + s) = ar + s) by (unfold rho; field; lra).
  assert (Eden : nle Rnum (n_of_Z Rnum 0) (- q + s) = true) by (apply Rleb_spec; simpl; lra).
  rewrite Eden in KA, KL. rewrite Bool.andb_true_l in KA. cbn [negb] in KL. rewrite Bool.orb_false_r in KL.
  change (@rho_isnan Rnum (Some rho)) with false in KL. rewrite ?Bool.orb_false_r in KL.
  unfold rho_gt, rho_lt in *. simpl in KA, KL. rewrite !Rlit in KL by lra.
  unfold Rdiv_res in KL. destruct (Req_EM_T 4 0) as [|_] in KL; [exfalso; lra|].
  change (t_Delta it) with D in KL.
  (* a region this small is not made smaller *)
  assert (Small : D <= 3 * e / (4 * (LG + LH)) -> 1 / 4 <= rho).
  { intros HDs. set (Lt := LG + LH) in *. assert (HLt : LH <= Lt) by (unfold Lt; lra).
    assert (W : D * Lt <= 3 / 4 * e).
    { apply Rle_trans with (3 * e / (4 * Lt) * Lt); [apply Rmult_le_compat_r; lra|right; field; lra]. }
    assert (W2 : D <= n / LH).
    { apply Rmult_le_reg_r with LH; [lra|]. replace (n / LH * LH) with n by (field; lra).
      apply Rle_trans with (D * Lt); [apply Rmult_le_compat_l; lra|]. lra. }
    rewrite Rmin_left in Q by exact W2.
    assert (W3 : Lt / 2 * (D * D) <= 3 / 4 * - q).
    { apply Rle_trans with (3 / 4 * (/ 2 * n * D)); [|lra].
      replace (Lt / 2 * (D * D)) with (/ 2 * D * (D * Lt)) by field.
      replace (3 / 4 * (/ 2 * n * D)) with (/ 2 * D * (3 / 4 * n)) by field. apply Rmult_le_compat_l; lra. }
    apply Rmult_le_reg_r with (- q + s); [lra|]. rewrite Erho. lra. }
  split; [|split].
  - destruct (Rltb rho (1 / 4)) eqn:E1 in KL.
    + apply Rltb_spec in E1. injection KL as KL. rewrite <- KL.
      assert (3 * e / (4 * (LG + LH)) < D) by (apply Rnot_le_lt; intros X; apply Small in X; lra).
      unfold smallest_radius. eapply Rle_trans; [apply Rmin_r|].
      replace (3 * e / (16 * (LG + LH))) with (3 * e / (4 * (LG + LH)) / 4) by (field; lra). lra.
    + destruct (_ && _)%bool in KL; rewrite KL; [|exact HDm].
      change (pymin (N := Rnum) (2 * D) bar) with (pymin (N := Rnum) (2 * D) bar). rewrite pymin_R.
      apply Rmin_glb; [lra|]. lra.
  - intros Ha. rewrite Ha in KA. symmetry in KA. apply Rltb_spec in KA. split.
    + assert (rho' * (- q + s) < ar + s) by (rewrite <- Erho; apply Rmult_lt_compat_r; lra).
      unfold actual_progress. assert (rho' * predicted_progress LG LH e D0 <= rho' * - q) by (apply Rmult_le_compat_l; lra).
      assert (0 <= rho' * s) by (apply Rmult_le_pos; lra). lra.
    + destruct (Rltb rho (1 / 4)) eqn:E1 in KL; [injection KL as KL; rewrite <- KL; lra|].
      destruct (_ && _)%bool in KL; rewrite KL; [|lra]. rewrite pymin_R. apply Rmin_l.
  - intros Ha. rewrite Ha in KA. symmetry in KA. apply Rltb_false in KA.
    destruct (Rltb rho (1 / 4)) eqn:E1 in KL; [injection KL as KL; now rewrite <- KL|].
    apply Rltb_false in E1. exfalso. lra.
Qed.

(** ** The whole run *)
Lemma linked_rate mi ma draws sf x D tr y D' : linked prob x D tr y D' -> Forall (fine mi ma draws sf) tr ->
  cost x <= cost x0 -> Dmin <= D ->
  INR (accepted tr) * sigma <= cost x - cost y /\ Dmin <= D' /\ 4 ^ rejected tr * D' <= 2 ^ accepted tr * D /\
  (accepted tr + rejected tr = length tr)%nat /\ Forall (fun it : tr_iter M => Dmin <= t_Delta it) tr.
Proof.
  induction 1 as [x D|it rest y D' Hf Hgr Hxp Hfp HL IH]; intros HF Hx HDm.
  { unfold accepted, rejected. simpl. repeat split; try lra. constructor. }
  inversion HF as [|? ? F1 F2]; subst.
  destruct (one_iteration mi ma draws sf it F1 Hf Hx HDm) as (O1 & O2 & O3).
  pose proof Dmin_pos as Dp.
  destruct (t_accepted it) eqn:Ha.
  - destruct (O2 eq_refl) as [O4 O5].
    destruct (IH F2) as (I1 & I2 & I3 & I4 & I5); [simpl in *; lra|exact O1|].
    unfold accepted, rejected in *. cbn [filter]. rewrite Ha. cbn [negb length]. rewrite S_INR.
    split; [simpl in *; lra|]. split; [exact I2|]. split; [|split; [lia|constructor; auto]].
    eapply Rle_trans; [exact I3|]. rewrite <- tech_pow_Rmult.
    replace (2 * 2 ^ length (filter t_accepted rest) * t_Delta it) with
      (2 ^ length (filter t_accepted rest) * (2 * t_Delta it)) by ring.
    apply Rmult_le_compat_l; [apply pow_le; lra|exact O5].
  - specialize (O3 eq_refl).
    destruct (IH F2) as (I1 & I2 & I3 & I4 & I5); [exact Hx|exact O1|].
    unfold accepted, rejected in *. cbn [filter]. rewrite Ha. cbn [negb length].
    split; [exact I1|]. split; [exact I2|]. split; [|split; [lia|constructor; auto]].
    rewrite O3 in I3. rewrite <- tech_pow_Rmult. simpl in *. lra.
Qed.

Lemma not_small tick start it n step ce : check_stopping sp clock tick start it (Some n) step ce = None -> e <= n.
Proof.
  unfold check_stopping. cbv zeta. match goal with |- context [if ?b then _ else _] => destruct b; [discriminate|] end.
  match goal with |- context [if ?b then _ else _] => destruct b; [discriminate|] end.
  simpl opt_lt. match goal with |- context [if ?b then _ else _] => destruct b eqn:E; [discriminate|] end.
  intros _. now apply Rltb_false in E.
Qed.

Lemma linked_last x D tr it y D' z D'' : linked prob x D tr y D' -> linked prob x D (tr ++ [it]) z D'' -> t_x it = y.
Proof.
  induction 1 as [x D|it' rest y D' Hf Hgr Hxp Hfp HL IH]; intros H2.
  - inversion H2; subst; reflexivity.
  - inversion H2; subst. auto.
Qed.

Section Run.
Variables (mi : Z) (ma : Z) (draws : Z -> pt M -> tv M) (sf : nat).
Local Notation body := (tr_body prob tp sp clock mi ma bar draws sf).
Definition steep (it : tr_iter M) : Prop := e <= slope (t_x it).
Definition RInv (s : tr_state M) : Prop :=
  tr_inv prob tp mi ma bar draws sf x0 D0 s /\ Forall steep (s_trace s) /\ e <= slope (s_x s).

Lemma body_steep t0 s o : RInv s -> body t0 s = Ok o ->
  match o with Continue s' => RInv s' | Stop (_, tr) => Forall steep tr end.
Proof.
  intros (I1 & I2 & I3) E.
  destruct (tr_body_cases prob tp sp clock mi ma bar draws sf x0 D0 t0 s o I1 E) as (it & H1 & H2 & H3 & H4).
  assert (Hx : t_x it = s_x s) by (eapply linked_last; [apply (v_link _ _ _ _ _ _ _ _ _ _ I1)|exact H1]).
  assert (HF : Forall steep (s_trace s ++ [it])).
  { apply Forall_app. split; [exact I2|]. constructor; [|constructor]. unfold steep. rewrite Hx. exact I3. }
  destruct (check_stopping sp clock _ _ _ _ _ _) eqn:Ec; rewrite H4; [exact HF|].
  split; [split; simpl; auto|]. split; [exact HF|]. simpl. now apply not_small in Ec.
Qed.

Lemma init_RInv : e <= slope x0 -> RInv (mkTrState x0 (p_cost prob x0) (p_grad prob x0) (slope x0) D0 0 1 []).
Proof. intros Hx. split; [split; simpl; auto; constructor|]. split; [constructor|exact Hx]. Qed.
End Run.

Lemma run_steep mi ma draws sf r tr : e <= slope x0 ->
  tr_run prob tp sp clock x0 mi ma (Some bar) (Some D0) draws sf = Ok (r, tr) -> Forall steep tr.
Proof.
  intros Hx E. unfold tr_run in E. cbv zeta in E. cbn [bind] in E.
  apply bind_ok in E as ([r' tr'] & El & E). injection E as _ <-.
  refine (loop_inv _ (RInv mi _ draws sf) (fun rt => Forall steep (snd rt)) _ _ _ _ (r', tr') (init_RInv _ _ _ _ Hx) El).
  - intros s s' I Es. exact (body_steep _ _ _ _ _ _ _ I Es).
  - intros s [r0 tr0] I Es. exact (body_steep _ _ _ _ _ _ _ I Es).
Qed.

Lemma run_rate mi ma draws sf r tr : e <= slope x0 ->
  tr_run prob tp sp clock x0 mi ma (Some bar) (Some D0) draws sf = Ok (r, tr) ->
  INR (accepted tr) * sigma <= cost x0 - cost (r_point r) /\
  4 ^ rejected tr * Dmin <= 2 ^ accepted tr * D0 /\
  Z.of_nat (accepted tr + rejected tr) = r_iterations r /\
  Forall (fun it : tr_iter M => Dmin <= t_Delta it) tr.
Proof.
  intros Hx E. pose proof (run_steep _ _ _ _ _ _ Hx E) as HS.
  pose proof (tr_run_radius_bounds _ _ _ _ _ _ _ _ _ _ _ _ _ E HD) as HB.
  destruct (tr_run_inv _ _ _ _ _ _ _ _ _ _ _ _ _ E) as (b & st & y & D' & tick & [Hb1 Hs1] & HL & HK & HLen & HP & _).
  simpl in Hb1, Hs1. subst b st. rewrite HP.
  pose proof (linked_gradient _ _ _ _ _ _ HL) as HGr.
  assert (HF : Forall (fine mi (match ma with None => m_dim M | Some m => m end) draws sf) tr).
  { rewrite Forall_forall in *. intros it Hin. split; auto; [apply HB; auto|apply HS; auto]. }
  assert (H0 : Dmin <= D0) by apply Rmin_l.
  destruct (linked_rate _ _ _ _ _ _ _ _ _ HL HF (Rle_refl _) H0) as (R1 & R2 & R3 & R4 & R5).
  split; [exact R1|]. split; [|split].
  - eapply Rle_trans; [|exact R3]. apply Rmult_le_compat_l; [apply pow_le; lra|exact R2].
  - rewrite R4. exact HLen.
  - exact R5.
Qed.
End Rate.

(** * Runs return *)
Section Returns.
Variables (M : Mfd Rnum) (prob : OptProblem M) (tp : tr_params Rnum).
Hypotheses (Hr : tr_use_rand tp = false) (Hk : 0 <= tr_kappa tp).

Lemma ip_div_ok (a b : R) : b <> 0 -> ip_div M a b = Ok (a / b).
Proof. intros H. unfold ip_div; destruct (m_ip_py M); simpl; unfold Rdiv_res; destruct (Req_EM_T b 0); congruence. Qed.

Lemma Rpow_np_pos (a b : R) : 0 < a -> 0 < Rpow_np a b.
Proof. intros H. unfold Rpow_np. destruct (Req_EM_T a 0); [lra|]. apply exp_pos. Qed.

Section Inner.
Variables (x : pt M) (g : tv M) (T : tv M -> Prop) (B : tv M -> tv M -> R) (Delta : R) (mininner : Z).
Hypotheses (HT : tangent_space x T) (HH : symmetric_operator x T (p_hess prob x))
  (HP : preconditioner_form x T (p_prec prob x) B) (Hg : T g) (Hg0 : 0 < ip x g g) (Hmi : (mininner <= 0)%Z).

Lemma tcg_loop_returns n0 : 0 < n0 -> forall n j s, (0 <= j)%Z -> T (c_r s) -> T (c_delta s) -> 0 < c_z_r s -> 0 < c_d_Pd s ->
  exists out, tcg_loop prob tp x g Delta n0 mininner n j s = Ok out.
Proof.
  intros Hn0. induction n as [|n IH]; intros j s Hj T1 T2 Hz Hd; simpl; [eauto|].
  unfold tcg_body at 1. cbv zeta.
  set (Hdelta := p_hess prob x (c_delta s)). set (d := m_inner M x (c_delta s) Hdelta).
  assert (A : exists alpha ePe, (if nonzero d then
      let* alpha := ip_div M (c_z_r s) d in
      Ok (alpha, (c_e_Pe s + #2 * alpha * c_e_Pd s + alpha * alpha * c_d_Pd s)%num)
    else Ok ((#0)%num, c_e_Pe s)) = Ok (alpha, ePe)).
  { destruct (nonzero d) eqn:E; [|eauto]. apply Rnonzero in E. rewrite ip_div_ok by exact E. cbn [bind]. eauto. }
  destruct A as (alpha & ePe & ->). cbn [bind].
  match goal with |- context [if ?b then _ else _] => destruct b end.
  - simpl. unfold Rdiv_res. destruct (Req_EM_T (c_d_Pd s) 0); [exfalso; simpl in *; lra|]. cbn [bind]. eauto.
  - match goal with |- context [if ?b then _ else _] => destruct b end; [simpl; eauto|].
    match goal with |- context [if ?b then _ else _] => destruct b eqn:E end; [simpl; eauto|].
    rewrite ip_div_ok by (simpl in *; lra). cbn [bind].
    replace (mininner <=? j)%Z with true in E by (symmetry; apply Z.leb_le; lia). rewrite Bool.andb_true_l in E.
    simpl in E. rewrite pymin_R in E. set (r := t_add M (c_r s) (t_scale M alpha Hdelta)) in *.
    assert (Tr : T r) by (apply (T_add HT); auto; apply (T_scale HT); apply (H_T HH); auto).
    assert (R0 : 0 < ip x r r).
    { pose proof (ip_pos HT r Tr). destruct (Req_dec (ip x r r) 0) as [E0|]; [|lra]. exfalso.
      change (m_inner M x r r) with (ip x r r) in E. rewrite E0, sqrt_0 in E.
      assert (0 <= n0 * Rmin (Rpow_np n0 (tr_theta tp)) (tr_kappa tp)).
      { apply Rmult_le_pos; [lra|]. apply Rmin_glb; [|exact Hk]. left. apply Rpow_np_pos. exact Hn0. }
      apply Rleb_spec in H0. congruence. }
    unfold tcg_precondition. rewrite Hr. set (z := p_prec prob x r) in *.
    assert (Tz : T z) by (apply (P_T HP); auto).
    assert (Z0 : 0 < ip x z r) by (apply (P_def HP); auto).
    assert (Td : T (t_add M (t_neg M z) (t_scale M (ip x z r / c_z_r s) (c_delta s)))).
    { apply (T_add HT); [apply (T_neg HT); auto|apply (T_scale HT); auto]. }
    apply IH; cbn [c_r c_delta c_z_r c_d_Pd]; [lia|exact Tr| |exact Z0|].
    + rewrite (tangent_fixed HT) by exact Td. exact Td.
    + change (0 < ip x z r + ip x z r / c_z_r s * (ip x z r / c_z_r s) * c_d_Pd s).
      assert (0 <= ip x z r / c_z_r s * (ip x z r / c_z_r s) * c_d_Pd s).
      { apply Rmult_le_pos; [|simpl in *; lra]. apply Rle_0_sqr. }
      lra.
Qed.

Lemma tcg_returns maxinner : (0 < maxinner)%Z ->
  exists out, tcg prob tp x g (m_zero M x) Delta mininner maxinner = Ok out.
Proof.
  intros Hma. unfold tcg, tcg_init. rewrite Hr. cbv beta iota zeta.
  destruct (Z.leb_spec maxinner 0); [lia|]. unfold tcg_precondition. rewrite Hr.
  pose proof (P_def HP g Hg Hg0) as Z0.
  apply tcg_loop_returns; cbn [c_r c_delta c_z_r c_d_Pd]; auto; [|lia|].
  - apply sqrt_lt_R0. exact Hg0.
  - apply (T_neg HT). apply (P_T HP). exact Hg.
Qed.
End Inner.

Variables (T : pt M -> tv M -> Prop) (B : pt M -> tv M -> tv M -> R) (sp : stop_params Rnum) (clock : nat -> R).
Local Notation e := (min_gradient_norm sp : R).
Local Notation slope x := (m_norm M x (p_grad prob x) : R).
Hypotheses (HT : forall x, tangent_space x (T x)) (HH : forall x, symmetric_operator x (T x) (p_hess prob x))
  (HP : forall x, preconditioner_form x (T x) (p_prec prob x) (B x))
  (Hg : forall x, T x (p_grad prob x)) (Hn : forall x v, T x v -> m_norm M x v = sqrt (ip x v v)) (He : 0 < e).

Lemma steep_ip x : e <= slope x -> 0 < ip x (p_grad prob x) (p_grad prob x).
Proof.
  intros Hx. rewrite (Hn x _ (Hg x)) in Hx. pose proof (ip_pos (HT x) _ (Hg x)) as P.
  destruct (Req_dec (ip x (p_grad prob x) (p_grad prob x)) 0) as [E|]; [|lra].
  rewrite E, sqrt_0 in Hx. simpl in *; lra.
Qed.

Lemma run_returns x0 (bar D0 : R) mi ma draws sf : e <= slope x0 -> (mi <= 0)%Z ->
  (0 < match ma with None => m_dim M | Some m => m end)%Z ->
  exists r tr, tr_run prob tp sp clock x0 mi ma (Some bar) (Some D0) draws sf = Ok (r, tr).
Proof.
  intros Hx Hmi Hma. unfold tr_run. cbv zeta. cbn [bind].
  set (m := match ma with None => m_dim M | Some m => m end) in *.
  set (body := tr_body prob tp sp clock mi m bar draws sf (clock 0%nat)).
  pose (I := RInv M prob tp bar D0 x0 sp mi m draws sf).
  assert (BO : forall s, I s -> exists o, body s = Ok o).
  { intros s (I1 & _ & I3). unfold body, tr_body. cbv zeta. rewrite Hr. cbn [bind].
    rewrite (v_grad _ _ _ _ _ _ _ _ _ _ I1).
    destruct (tcg_returns (s_x s) (p_grad prob (s_x s)) (T (s_x s)) (B (s_x s)) (s_Delta s) mi (HT _) (HH _) (HP _) (Hg _)
      (steep_ip _ I3) Hmi m Hma) as ([[[eta Heta] j] st] & ->). cbn [bind].
    match goal with |- context [match ndiv Rnum ?a ?b with _ => _ end] => assert (D : exists o, match ndiv Rnum a b with
      | Ok q => Ok (Some q) | Raise ZeroDivisionError => Ok None | Raise ex => Raise ex end = Ok o) end.
    { simpl. unfold Rdiv_res. destruct (Req_EM_T _ 0); eauto. }
    destruct D as (rho & ->). cbn [bind].
    match goal with |- context [let* d := ?b in _] => assert (D : exists d, b = Ok d) end.
    { match goal with |- context [if ?b then _ else _] => destruct b end.
      - simpl. unfold Rdiv_res. destruct (Req_EM_T 4 0); [lra|]. eauto.
      - match goal with |- context [if ?b then _ else _] => destruct b end; eauto. }
    destruct D as (d & ->). cbn [bind]. destruct (check_stopping sp clock _ _ _ _ _ _); eauto. }
  assert (BI : forall s s', I s -> body s = Ok (Continue s') -> I s').
  { intros s s' Hs Es. exact (body_steep M prob tp bar D0 x0 sp clock mi m draws sf (clock 0%nat) s _ Hs Es). }
  assert (I0 : I (mkTrState x0 (p_cost prob x0) (p_grad prob x0) (slope x0) D0 0 1 [])).
  { apply init_RInv. exact Hx. }
  assert (NF : loop body (iter_fuel sp) (mkTrState x0 (p_cost prob x0) (p_grad prob x0) (slope x0) D0 0 1 []) <> Raise OutOfFuel).
  { apply (loop_fuel _ (fun s => I s /\ (0 <= s_iteration s)%Z) (fun s => Z.to_nat (max_iterations sp - s_iteration s))).
    - intros s [Hs _] E. destruct (BO s Hs) as [o E2]. congruence.
    - intros s s' [Hs H0] Es. split; [split; [eauto|]|]; unfold body in Es; apply tr_body_iter in Es; lia.
    - split; [exact I0|]. simpl; lia.
    - simpl. unfold iter_fuel. lia. }
  assert (LT : forall fuel s, I s -> (exists r, loop body fuel s = Ok r) \/ loop body fuel s = Raise OutOfFuel).
  { induction fuel as [|fuel IH]; intros s Hs; simpl; [auto|].
    destruct (BO s Hs) as [[s'|r] E]; rewrite E; simpl; [apply IH; eauto|eauto]. }
  destruct (LT (iter_fuel sp) _ I0) as [[[r tr] E]|E]; [|contradiction].
  simpl in E |- *. fold body. rewrite E. cbn [bind]. eauto.
Qed.
End Returns.

(** * C98 *)
(** The step of every iteration decreases the quadratic model at least by half the gradient norm times the smaller
    of the radius and gradient norm / curvature (the decrease of the Cauchy point). *)
Theorem C98_cauchy_decrease : forall (M : Mfd Rnum) (prob : OptProblem M) tp sp clock (T : pt M -> tv M -> Prop) (LH : R)
  x0 mininner maxinner (Delta_bar Delta0 : R) draws sf r tr,
  (forall x, tangent_space x (T x)) -> (forall x, symmetric_operator x (T x) (p_hess prob x)) ->
  (forall x, T x (p_grad prob x)) -> (forall x v, T x v -> m_norm M x v = sqrt (ip x v v)) ->
  (forall x v, p_prec prob x v = v) -> tr_use_rand tp = false ->
  0 < LH -> bounded_curvature M prob T LH -> 0 < Delta0 <= Delta_bar ->
  tr_run prob tp sp clock x0 mininner maxinner (Some Delta_bar) (Some Delta0) draws sf = Ok (r, tr) ->
  Forall (fun it : tr_iter M => let n := m_norm M (t_x it) (p_grad prob (t_x it)) : R in
    0 < n -> / 2 * n * Rmin (t_Delta it) (n / LH) <= predicted_decrease it) tr.
Proof.
  intros M prob tp sp clock T LH x0 mi ma bar D0 draws sf r tr HT HH Hg Hn Hp Hr HLH Hcur HD E.
  pose proof (tr_run_radius_bounds _ _ _ _ _ _ _ _ _ _ _ _ _ E HD) as HB.
  pose proof (tr_run_steps prob tp sp clock T (fun x => ip x) x0 mi ma bar D0 draws sf r tr HT HH
    (fun x => id_precond x (T x) (p_prec prob x) (HT x) (Hp x)) Hg Hr HD E) as HS.
  destruct (tr_run_inv _ _ _ _ _ _ _ _ _ _ _ _ _ E) as (b & st & y & D' & tick & [Hb1 Hs1] & HL & HK & _).
  simpl in Hb1, Hs1. subst b st. pose proof (linked_gradient _ _ _ _ _ _ HL) as HGr.
  rewrite Forall_forall in *. intros it Hin. specialize (HB it Hin). specialize (HS it Hin).
  specialize (HK it Hin). specialize (HGr it Hin). cbv zeta in *. intros Hn0.
  destruct HS as (_ & -> & _).
  destruct (k_start _ _ _ _ _ _ _ _ HK) as (eta0 & eta1 & Heta1 & K1 & K2 & K3).
  rewrite Hr in K1, K3. destruct K3 as [K3 K4]. subst eta0 eta1 Heta1. rewrite HGr in K2.
  pose proof (id_precond (t_x it) (T (t_x it)) (p_prec prob (t_x it)) (HT _) (Hp _)) as PF.
  destruct (tcg_decreases prob tp (t_x it) (p_grad prob (t_x it)) (T (t_x it)) (ip (t_x it)) (t_Delta it)
    _ _ _ _ _ _ (HT _) (HH _) PF (Hg _) Hr K2) as (_ & _ & _ & A4).
  rewrite Hp in A4.
  pose (sp' := @mkStop Rnum 0 0%Z (m_norm M (t_x it) (p_grad prob (t_x it))) 0 0%Z 0%Z 0%Z).
  exact (cauchy_decrease M prob T LH sp' HT HH Hg Hn HLH Hcur Hn0 it (proj1 (proj1 HB)) (Rle_refl _) A4).
Qed.
Print Assumptions C98_cauchy_decrease.

(** The rate: the number of accepted iterations times the progress is at most the decrease of the cost, the
    number of rejected ones is bounded through the radius, which never falls below [smallest_radius]. *)
Theorem C98_rate : forall (M : Mfd Rnum) (prob : OptProblem M) (tp : tr_params Rnum) (sp : stop_params Rnum) (clock : nat -> R) (T : pt M -> tv M -> Prop) (LG LH bound : R)
  x0 mininner maxinner (Delta_bar Delta0 : R) draws sf r tr,
  let e := (min_gradient_norm sp : R) in
  let progress := actual_progress (tr_rho_prime tp) (tr_rho_reg tp) (Rmax (Rabs (p_cost prob x0)) (Rabs bound)) LG LH e Delta0 in
  (forall x, tangent_space x (T x)) -> (forall x, symmetric_operator x (T x) (p_hess prob x)) ->
  (forall x, T x (p_grad prob x)) -> (forall x v, T x v -> m_norm M x v = sqrt (ip x v v)) ->
  (forall x v, p_prec prob x v = v) -> tr_use_rand tp = false ->
  0 <= LG -> 0 < LH -> bounded_curvature M prob T LH -> smooth_steps M prob T LG Delta_bar ->
  (forall x, bound <= p_cost prob x) -> 0 < Delta0 <= Delta_bar -> 0 < e -> 0 < tr_rho_prime tp < 1 / 4 -> 0 <= tr_rho_reg tp ->
  0 < progress -> e <= m_norm M x0 (p_grad prob x0) ->
  tr_run prob tp sp clock x0 mininner maxinner (Some Delta_bar) (Some Delta0) draws sf = Ok (r, tr) ->
  INR (accepted tr) * progress <= p_cost prob x0 - p_cost prob (r_point r) /\
  4 ^ rejected tr * smallest_radius LG LH e Delta0 <= 2 ^ accepted tr * Delta0 /\
  Z.of_nat (accepted tr + rejected tr) = r_iterations r /\
  Forall (fun it : tr_iter M => smallest_radius LG LH e Delta0 <= t_Delta it) tr.
Proof.
  intros M prob tp sp clock T LG LH bound x0 mi ma bar D0 draws sf r tr e progress HT HH Hg Hn Hp Hr HLG HLH Hcur Hsm Hb HD He Hrho
    Hreg Hsig Hx E.
  exact (run_rate M prob tp T LG LH bar D0 bound x0 sp clock HT HH Hg Hn Hp Hr HLG HLH Hcur Hsm Hb HD He Hrho Hreg Hsig
    mi ma draws sf r tr Hx E).
Qed.
Print Assumptions C98_rate.

(** Success: [A] accepted and [B] rejected iterations are enough.  With [mininner = 0] the run returns for sure. *)
Theorem C98_success : forall (M : Mfd Rnum) (prob : OptProblem M) (tp : tr_params Rnum) (sp : stop_params Rnum) (clock : nat -> R) (T : pt M -> tv M -> Prop) (LG LH bound : R)
  x0 mininner maxinner (Delta_bar Delta0 : R) draws sf (A B : nat),
  let e := (min_gradient_norm sp : R) in
  let progress := actual_progress (tr_rho_prime tp) (tr_rho_reg tp) (Rmax (Rabs (p_cost prob x0)) (Rabs bound)) LG LH e Delta0 in
  (forall x, tangent_space x (T x)) -> (forall x, symmetric_operator x (T x) (p_hess prob x)) ->
  (forall x, T x (p_grad prob x)) -> (forall x v, T x v -> m_norm M x v = sqrt (ip x v v)) ->
  (forall x v, p_prec prob x v = v) -> tr_use_rand tp = false ->
  0 <= LG -> 0 < LH -> bounded_curvature M prob T LH -> smooth_steps M prob T LG Delta_bar ->
  (forall x, bound <= p_cost prob x) -> 0 < Delta0 <= Delta_bar -> 0 < e -> 0 < tr_rho_prime tp < 1 / 4 -> 0 <= tr_rho_reg tp ->
  0 < progress -> e <= m_norm M x0 (p_grad prob x0) ->
  (* enough iterations, time and no budget of cost evaluations *)
  p_cost prob x0 - bound < INR (S A) * progress ->
  2 ^ A * Delta0 < 4 ^ S B * smallest_radius LG LH e Delta0 ->
  (Z.of_nat (A + B) < max_iterations sp)%Z ->
  (forall k, clock k < clock 0%nat + max_time sp) -> (0 <= max_cost_evaluations sp)%Z ->
  (forall r tr, tr_run prob tp sp clock x0 mininner maxinner (Some Delta_bar) (Some Delta0) draws sf = Ok (r, tr) ->
    (exists it t, r_stopping_criterion r = MinGradNorm it t) /\
    m_norm M (r_point r) (p_grad prob (r_point r)) < e /\ (r_iterations r <= Z.of_nat (A + B))%Z) /\
  ((mininner <= 0)%Z -> (0 < match maxinner with None => m_dim M | Some m => m end)%Z -> 0 <= tr_kappa tp ->
    exists r tr, tr_run prob tp sp clock x0 mininner maxinner (Some Delta_bar) (Some Delta0) draws sf = Ok (r, tr)).
Proof.
  intros M prob tp sp clock T LG LH bound x0 mi ma bar D0 draws sf A B e progress HT HH Hg Hn Hp Hr HLG HLH Hcur Hsm Hb HD He Hrho
    Hreg Hsig Hx HA HB Hmax Hclock Hce. split.
  - intros r tr E.
    destruct (C98_rate M prob tp sp clock T LG LH bound x0 mi ma bar D0 draws sf r tr HT HH Hg Hn Hp Hr HLG HLH Hcur Hsm Hb HD He Hrho
      Hreg Hsig Hx E) as (R1 & R2 & R3 & _). fold e progress in R1, R2.
    assert (HAc : (accepted tr <= A)%nat).
    { apply Nat.nlt_ge. intros Hlt. assert (INR (S A) <= INR (accepted tr)) by (apply le_INR; lia).
      pose proof (Hb (r_point r)). assert (INR (S A) * progress <= INR (accepted tr) * progress) by (apply Rmult_le_compat_r; lra).
      simpl in *. lra. }
    assert (HDm : 0 < smallest_radius LG LH e D0) by (apply (Dmin_pos LG LH bar D0 sp); assumption).
    assert (HRe : (rejected tr <= B)%nat).
    { apply Nat.nlt_ge. intros Hlt.
      assert (4 ^ S B <= 4 ^ rejected tr) by (apply Rle_pow; [lra|lia]).
      assert (2 ^ accepted tr <= 2 ^ A) by (apply Rle_pow; [lra|lia]).
      assert (4 ^ S B * smallest_radius LG LH e D0 <= 4 ^ rejected tr * smallest_radius LG LH e D0) by (apply Rmult_le_compat_r; lra).
      assert (2 ^ accepted tr * D0 <= 2 ^ A * D0) by (apply Rmult_le_compat_r; lra). lra. }
    assert (HIt : (r_iterations r <= Z.of_nat (A + B))%Z) by lia.
    destruct (tr_run_inv _ _ _ _ _ _ _ _ _ _ _ _ _ E) as (b & st & y & D' & tick & _ & _ & _ & _ & HP & _ & HGn & _ & _ & _ & _ & _ & Ec).
    rewrite HGn in Ec. rewrite HP. unfold check_stopping in Ec. cbv zeta in Ec. simpl in Ec.
    destruct (Rleb _ _) eqn:Et in Ec.
    { apply Rleb_spec in Et. specialize (Hclock (S tick)). simpl in Hclock. lra. }
    destruct (Z.leb_spec (max_iterations sp) (r_iterations r)); [lia|].
    destruct (Rltb _ _) eqn:Eg in Ec.
    + apply Rltb_spec in Eg. injection Ec as <-. split; [eauto|]. split; [exact Eg|exact HIt].
    + destruct (Z.leb_spec (max_cost_evaluations sp) (-1)); [lia|discriminate].
  - intros Hmi Hma Hk.
    exact (run_returns M prob tp Hr Hk T (fun x => ip x) sp clock HT HH
      (fun x => id_precond x (T x) (p_prec prob x) (HT x) (Hp x)) Hg Hn He x0 bar D0 mi ma draws sf Hx Hmi Hma).
Qed.
Print Assumptions C98_success.

(** The hypotheses are met by the cost [1/2 <x, A x>] on the plane with [A = (2 1; 1 2)], [LG = LH = 3], the default
    parameters, region sizes 1 and 1/8, start (3, 4) and [min_gradient_norm = 1/1000]. *)
Example C98_instance :
  let M := E2 Rnum in let prob := quad2 Rnum 2 1 2 in let T := fun (_ : pt M) (_ : tv M) => True in
  let x0 := ((3, 4) : pt M) in let e := 1 / 1000 in let tp := tr_default Rnum false in
  (forall x, tangent_space (M := M) x (T x)) /\ (forall x, symmetric_operator (M := M) x (T x) (p_hess prob x)) /\
  (forall x v, T x v -> m_norm M x v = sqrt (ip (M := M) x v v)) /\ (forall x v, p_prec prob x v = v) /\
  bounded_curvature M prob T 3 /\ smooth_steps M prob T 3 1 /\ (forall x, 0 <= p_cost prob x) /\
  0 < tr_rho_prime tp < 1 / 4 /\ 0 <= tr_rho_reg tp /\ 0 <= tr_kappa tp /\
  0 < actual_progress (tr_rho_prime tp) (tr_rho_reg tp) (Rmax (Rabs (p_cost prob x0)) (Rabs 0)) 3 3 e (1 / 8) /\
  e <= m_norm M x0 (p_grad prob x0).
Proof.
  cbv zeta. split; [exact E2_tangent_space|]. split; [intros x; apply quad2_symmetric|]. split; [reflexivity|]. split; [reflexivity|].
  assert (HL : lit (N := Rnum) 1 10 = 1 / 10) by (rewrite Rlit; lra).
  assert (HC : p_cost (quad2 Rnum 2 1 2) ((3, 4) : pt (E2 Rnum)) = 37 :> R).
  { simpl. rewrite Rlit by lra. lra. }
  split; [|split; [|split; [|split; [|split; [|split; [|split]]]]]].
  - intros x [v1 v2] _. unfold ip. simpl. apply Rabs_le.
    pose proof (pow2_ge_0 (v1 + v2)). pose proof (pow2_ge_0 (v1 - v2)). pose proof (pow2_ge_0 v1). pose proof (pow2_ge_0 v2).
    simpl in *. split; lra.
  - intros [x1 x2] [v1 v2] _ _. unfold ip. simpl. rewrite !Rlit by lra. pose proof (pow2_ge_0 (v1 - v2)). simpl in *. lra.
  - intros [x1 x2]. simpl. rewrite !Rlit by lra.
    pose proof (pow2_ge_0 (x1 + x2)). pose proof (pow2_ge_0 x1). pose proof (pow2_ge_0 x2). simpl in *. lra.
  - simpl. rewrite HL. lra.
  - simpl. lra.
  - simpl. rewrite HL. lra.
  - change (tr_rho_prime (tr_default Rnum false)) with (lit (N := Rnum) 1 10).
    change (tr_rho_reg (tr_default Rnum false)) with 1000. rewrite HL, HC.
    unfold actual_progress, predicted_progress, smallest_radius.
    rewrite Rabs_R0, (Rabs_right 37) by lra. rewrite (Rmax_left 37 0) by lra. rewrite (Rmax_right 1 37) by lra.
    rewrite (Rmin_right (1 / 8)) by lra. rewrite Rmin_left by lra. lra.
  - simpl. replace (1 / 1000) with (sqrt ((1 / 1000) * (1 / 1000))) by (apply sqrt_square; lra).
    apply sqrt_le_1_alt. lra.
Qed.
