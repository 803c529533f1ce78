(** The inner solver in exact arithmetic: conjugate gradient invariants. *)
From Coq Require Import ZArith List Bool Reals Lra Lia Psatz.
From Verif Require Import Num_Model Num_Spec Num_Instances Num_Proofs LineSearch_Model Optimizer_Model
  TrustRegions_Model TrustRegions_Spec.
Import ListNotations.
Local Open Scope R_scope.

Lemma Rlit a b : IZR b <> 0 -> lit (N := Rnum) a b = IZR a / IZR b.
Proof. intros H. unfold lit; simpl. unfold Rdiv_res. destruct (Req_EM_T (IZR b) 0); [tauto|reflexivity]. Qed.

Lemma Rdiv_ok a b q : Rdiv_res a b = Ok q -> b <> 0 /\ q = a / b.
Proof. unfold Rdiv_res. destruct (Req_EM_T b 0); [discriminate|]. intros [= <-]; auto. Qed.

Lemma Rnonzero (d : R) : nonzero (N := Rnum) d = true <-> d <> 0.
Proof.
  unfold nonzero; simpl. unfold Rleb.
  destruct (Rle_dec d 0), (Rle_dec 0 d); simpl; split; intros; try lra; try discriminate; auto.
Qed.

Lemma pymin_R (a b : R) : pymin (N := Rnum) a b = Rmin a b.
Proof. unfold pymin; simpl. unfold Rltb, Rmin. destruct (Rlt_dec b a), (Rle_dec a b); lra. Qed.
Lemma pymax_R (a b : R) : pymax (N := Rnum) a b = Rmax a b.
Proof. unfold pymax; simpl. unfold Rltb, Rmax. destruct (Rlt_dec a b), (Rle_dec a b); lra. Qed.

(** The boundary step length. *)
Lemma tau_boundary p e d D2 tau : 0 < d -> p <= D2 ->
  tau = (- e + sqrt (e * e + d * (D2 - p))) / d ->
  0 <= tau /\ p + 2 * tau * e + tau * tau * d = D2.
Proof.
  intros Hd Hp ->.
  set (Q := e * e + d * (D2 - p)).
  assert (HQ : 0 <= Q) by (unfold Q; nra).
  assert (HS : sqrt Q * sqrt Q = Q) by (apply sqrt_sqrt; auto).
  assert (HP : 0 <= sqrt Q) by apply sqrt_pos.
  split.
  - apply Rmult_le_pos; [|left; apply Rinv_0_lt_compat; auto].
    assert (e <= sqrt Q); [|lra].
    destruct (Rle_dec e 0); [lra|]. 
    apply Rsqr_incr_0_var; auto. unfold Rsqr. rewrite HS. unfold Q. nra.
  - set (S := sqrt Q) in *. clearbody S. 
    field_simplify; [|lra]. 
    replace (p * d - e ^ 2 + S ^ 2) with (d * D2); [field; lra|].
    replace (S ^ 2) with (S * S) by ring. rewrite HS. unfold Q. ring.
Qed.

(** The full step leaves the region beyond the boundary point. *)
Lemma tau_le_alpha p e d D2 tau alpha : 0 < d -> p <= D2 ->
  0 <= tau -> p + 2 * tau * e + tau * tau * d = D2 ->
  0 <= alpha -> D2 <= p + 2 * alpha * e + alpha * alpha * d ->
  tau <= alpha \/ (p = D2 /\ alpha = 0).
Proof.
  intros Hd Hp Ht Et Ha Ea.
  destruct (Rle_dec tau alpha); [auto|]. right.
  assert (K : 0 < tau) by lra.
  (* convexity on [0, tau] *)
  assert (tau * (p + 2 * alpha * e + alpha * alpha * d) =
          (tau - alpha) * p + alpha * D2 - alpha * tau * d * (tau - alpha)).
  { rewrite <- Et. ring. }
  assert (H1 : tau * D2 <= (tau - alpha) * p + alpha * D2 - alpha * tau * d * (tau - alpha)) by nra.
  assert (H2 : (tau - alpha) * D2 <= (tau - alpha) * (p - alpha * tau * d)) by nra.
  assert (H3 : D2 <= p - alpha * tau * d) by nra.
  assert (0 <= alpha * (tau * d)) by (apply Rmult_le_pos; nra).
  assert (p = D2) by lra. split; auto.
  assert (alpha * (tau * d) = 0) by lra.
  assert (0 < tau * d) by nra.
  destruct (Rmult_integral _ _ H5); lra.
Qed.

Section TCG.
Variables (M : Mfd Rnum) (prob : OptProblem M) (tp : tr_params Rnum) (x : pt M) (g : tv M)
  (T : tv M -> Prop) (B : tv M -> tv M -> R) (Delta : R) (mininner : Z).
Notation H := (p_hess prob x).
Notation P := (p_prec prob x).
Hypothesis (HT : tangent_space x T).
Hypothesis (HH : symmetric_operator x T H).
Hypothesis (HP : preconditioner_form x T P B).
Hypothesis (Hg : T g).
Hypothesis (HDelta : 0 <= Delta).
Hypothesis (Hrand : tr_use_rand tp = false).

Notation q := (quadratic x g H).
Notation norm_r0 := (sqrt (ip x g g)).
Let z0 := P g.
Let s0 := fst (tcg_init prob tp x g (m_zero M x)).

Lemma Tz : T (m_zero M x). Proof. apply (T_zero HT). Qed.
Lemma Ta u v : T u -> T v -> T (t_add M u v). Proof. apply (T_add HT). Qed.
Lemma Ts (a : R) u : T u -> T (t_scale M a u). Proof. apply (T_scale HT). Qed.
Lemma Tn u : T u -> T (t_neg M u). Proof. apply (T_neg HT). Qed.
Lemma TH u : T u -> T (H u). Proof. apply (H_T HH). Qed.
Lemma TP u : T u -> T (P u). Proof. apply (P_T HP). Qed.
Hint Resolve Tz Ta Ts Tn TH TP : core.

Lemma ip_add_r u v w : T u -> T v -> T w -> ip x w (t_add M u v) = ip x w u + ip x w v.
Proof. intros. rewrite (ip_sym HT), (ip_add HT), !(ip_sym HT w); auto. Qed.
Lemma ip_scale_r (a : R) u w : T u -> T w -> ip x w (t_scale M a u) = a * ip x w u.
Proof. intros. rewrite (ip_sym HT), (ip_scale HT), (ip_sym HT w); auto. Qed.
Lemma ip_neg_r u w : T u -> T w -> ip x w (t_neg M u) = - ip x w u.
Proof. intros. rewrite (ip_sym HT), (ip_neg HT), (ip_sym HT w); auto. Qed.
Lemma ip_zero_r w : T w -> ip x w (m_zero M x) = 0.
Proof. intros. rewrite (ip_sym HT), (ip_zero HT); auto. Qed.
Lemma B_add_r u v w : T u -> T v -> T w -> B w (t_add M u v) = B w u + B w v.
Proof. intros. rewrite (B_sym HP), (B_add HP), !(B_sym HP w); auto. Qed.
Lemma B_scale_r (a : R) u w : T u -> T w -> B w (t_scale M a u) = a * B w u.
Proof. intros. rewrite (B_sym HP), (B_scale HP), (B_sym HP w); auto. Qed.
Lemma B_neg_r u w : T u -> T w -> B w (t_neg M u) = - B w u.
Proof. intros. rewrite (B_sym HP), (B_neg HP), (B_sym HP w); auto. Qed.
Lemma P_sym u v : T u -> T v -> ip x (P u) v = ip x u (P v).
Proof.
  intros. rewrite (ip_sym HT) by auto. rewrite <- (B_inverse HP v (P u)) by auto.
  rewrite (B_sym HP) by auto. rewrite (B_inverse HP) by auto. auto.
Qed.

Ltac lin := rewrite ?(ip_add HT), ?(ip_scale HT), ?(ip_neg HT), ?(ip_zero HT),
  ?ip_add_r, ?ip_scale_r, ?ip_neg_r, ?ip_zero_r,
  ?(B_add HP), ?(B_scale HP), ?(B_neg HP), ?(B_zero HP),
  ?B_add_r, ?B_scale_r, ?B_neg_r by auto 10.

(** The model along a direction. *)
Lemma q_step eta d (t : R) : T eta -> T d ->
  q (t_add M eta (t_scale M t d)) =
  q eta + t * (ip x g d + ip x (H eta) d) + / 2 * (t * t) * ip x d (H d).
Proof.
  intros He Hd. unfold quadratic.
  rewrite (H_add HH), (H_scale HH) by auto. lin.
  rewrite (H_sym HH eta d) by auto.
  rewrite <- (H_sym HH d eta), (ip_sym HT (H d) eta) by auto. field.
Qed.

(** ** The invariant.  [D]: the earlier directions; [Rs]: the earlier residuals. *)
Record Inv (D Rs : list (tv M)) (s : tcg_state M) : Prop := {
  i_eta : T (c_eta s); i_Tr : T (c_r s); i_delta : T (c_delta s);
  i_D : Forall T D; i_Rs : Forall T Rs;
  i_Heta : c_Heta s = H (c_eta s);
  i_r : forall w, T w -> ip x (c_r s) w = ip x g w + ip x (H (c_eta s)) w;
  i_zr : c_z_r s = ip x (P (c_r s)) (c_r s) :> R;
  i_rd : ip x (c_r s) (c_delta s) = - c_z_r s;
  i_ePe : c_e_Pe s = B (c_eta s) (c_eta s) :> R;
  i_ePd : c_e_Pd s = B (c_eta s) (c_delta s) :> R;
  i_dPd : c_d_Pd s = B (c_delta s) (c_delta s) :> R;
  i_dPd_pos : 0 <= c_d_Pd s;
  i_dPd_zero : c_z_r s = 0 :> R -> c_d_Pd s = 0 :> R;
  i_in : c_e_Pe s <= Delta * Delta;
  i_model : c_model s = q (c_eta s) :> R;
  i_first : D = [] -> s = s0;
  i_strict : D <> [] -> q (c_eta s) < 0;
  i_cauchy : D <> [] -> forall t, 0 <= t -> t * t * B z0 z0 <= Delta * Delta ->
             q (c_eta s) <= q (t_scale M (- t) z0);
  i_orth : forall d, In d D -> ip x (c_r s) d = 0;
  i_orthP : forall r, In r Rs -> ip x (c_r s) (P r) = 0;
  i_conj : forall d, In d D -> ip x (c_delta s) (H d) = 0;
  i_diff : forall d, In d D -> exists c r1 r2, In r1 (c_r s :: Rs) /\ In r2 (c_r s :: Rs) /\
             forall w, T w -> ip x w (H d) = c * (ip x w r1 - ip x w r2);
  i_span_eta : forall w, T w -> (forall d, In d D -> ip x w d = 0) -> ip x w (c_eta s) = 0;
  i_span_P : forall w, T w -> (forall d, In d D -> ip x w d = 0) ->
             forall r, In r Rs -> ip x w (P r) = 0;
  i_span_z : forall w, T w -> (forall d, In d (c_delta s :: D) -> ip x w d = 0) ->
             ip x w (P (c_r s)) = 0 }.

Lemma s0_eq : s0 = mkTcg (m_zero M x) (m_zero M x) g 0 (ip x z0 g) (ip x z0 g) 0 (t_neg M z0) 0.
Proof. unfold s0, tcg_init, tcg_precondition. rewrite Hrand. reflexivity. Qed.

Lemma inv_init : Inv [] [] s0.
Proof.
  rewrite s0_eq. unfold z0.
  split; simpl; auto; try tauto; try congruence.
  - rewrite (H_zero HH); auto.
  - intros w Hw. rewrite (H_zero HH). lin. lra.
  - lin. rewrite (ip_sym HT); auto.
  - lin. auto.
  - lin. auto.
  - lin. rewrite (B_inverse HP) by auto. rewrite (ip_sym HT g) by auto. lra.
  - apply (P_pos HP); auto.
  - nra.
  - unfold quadratic. lin. lra.
  - intros _. rewrite s0_eq. reflexivity.
  - intros w Hw _. lin. auto.
  - intros w Hw K. specialize (K _ (or_introl eq_refl)). rewrite ip_neg_r in K by auto. lra.
Qed.

(** The reals version of one loop body. *)
Lemma zr_pos D Rs s : Inv D Rs s -> 0 <= c_z_r s.
Proof. intros I. rewrite (i_zr _ _ _ I). apply (P_pos HP), (i_Tr _ _ _ I). Qed.

Lemma q_dir D Rs s (t : R) : Inv D Rs s ->
  q (t_add M (c_eta s) (t_scale M t (c_delta s))) =
  q (c_eta s) - t * c_z_r s + / 2 * (t * t) * ip x (c_delta s) (H (c_delta s)).
Proof.
  intros I. rewrite q_step by (apply I).
  pose proof (i_r _ _ _ I (c_delta s) (i_delta _ _ _ I)) as K.
  rewrite (i_rd _ _ _ I) in K.
  replace (ip x g (c_delta s) + ip x (H (c_eta s)) (c_delta s)) with (- (c_z_r s : R)) by lra.
  simpl; lra.
Qed.

Lemma B_dir D Rs s (t : R) : Inv D Rs s ->
  B (t_add M (c_eta s) (t_scale M t (c_delta s))) (t_add M (c_eta s) (t_scale M t (c_delta s))) =
  c_e_Pe s + 2 * t * c_e_Pd s + t * t * c_d_Pd s.
Proof.
  intros I. pose proof (i_eta _ _ _ I) as Te. pose proof (i_delta _ _ _ I) as Td.
  lin. rewrite (i_ePe _ _ _ I), (i_ePd _ _ _ I), (i_dPd _ _ _ I).
  rewrite (B_sym HP (c_delta s) (c_eta s)) by auto. simpl; ring.
Qed.

(** Values of the model on the first search line. *)
Lemma q_cauchy_line t : q (t_scale M (- t) z0) =
  - t * ip x z0 g + / 2 * (t * t) * ip x (t_neg M z0) (H (t_neg M z0)).
Proof.
  unfold quadratic, z0.
  rewrite (H_scale HH), (H_neg HH) by auto. lin.
  rewrite (ip_sym HT g) by auto. field.
Qed.
Lemma B_z0 : B z0 z0 = ip x z0 g.
Proof.
  unfold z0. rewrite (B_inverse HP) by auto. rewrite (ip_sym HT); auto.
Qed.

(** Outcome of the loop body. *)
Lemma body_cases j s o : tcg_body prob tp x g Delta norm_r0 mininner j s = Ok o ->
  let d := ip x (c_delta s) (H (c_delta s)) in
  let alpha := c_z_r s / d in
  (* boundary *)
  (exists tau, c_d_Pd s <> 0 /\
     (d <= 0 \/ (0 < d /\ Delta * Delta <= c_e_Pe s + 2 * alpha * c_e_Pd s + alpha * alpha * c_d_Pd s)) /\
     tau = (- c_e_Pd s + sqrt (c_e_Pd s * c_e_Pd s + c_d_Pd s * (Delta * Delta - c_e_Pe s))) / c_d_Pd s /\
     o = Stop (t_add M (c_eta s) (t_scale M tau (c_delta s)),
               t_add M (c_Heta s) (t_scale M tau (H (c_delta s))),
               if Rleb d 0 then NEGATIVE_CURVATURE else EXCEEDED_TR)) \/
  (0 < d /\ c_e_Pe s + 2 * alpha * c_e_Pd s + alpha * alpha * c_d_Pd s < Delta * Delta /\
   let eta' := t_add M (c_eta s) (t_scale M alpha (c_delta s)) in
   let Heta' := t_add M (c_Heta s) (t_scale M alpha (H (c_delta s))) in
   let m' := ip x eta' g + / 2 * ip x eta' Heta' in
   let r' := t_add M (c_r s) (t_scale M alpha (H (c_delta s))) in
   ((c_model s <= m' /\ o = Stop (c_eta s, c_Heta s, MODEL_INCREASED)) \/
    (m' < c_model s /\
     (((mininner <= j)%Z /\ sqrt (ip x r' r') <= norm_r0 * Rmin (Rpow_np norm_r0 (tr_theta tp)) (tr_kappa tp) /\
       o = Stop (eta', Heta', if Rltb (tr_kappa tp) (Rpow_np norm_r0 (tr_theta tp))
                              then REACHED_TARGET_LINEAR else REACHED_TARGET_SUPERLINEAR)) \/
      (c_z_r s <> 0 /\
       let z_r := ip x (P r') r' in
       let beta := z_r / c_z_r s in
       o = Continue (mkTcg (N := Rnum) (M := M) eta' Heta' r'
             (c_e_Pe s + 2 * alpha * c_e_Pd s + alpha * alpha * c_d_Pd s)
             z_r (z_r + beta * beta * c_d_Pd s) (beta * (c_e_Pd s + alpha * c_d_Pd s))
             (m_to_tangent M x (t_add M (t_neg M (P r')) (t_scale M beta (c_delta s)))) m')))))).
Proof.
  intros E d alpha. unfold tcg_body in E. cbv zeta in E.
  change (m_inner M x (c_delta s) (H (c_delta s))) with d in E.
  destruct (nonzero (N := Rnum) d) eqn:Nz.
  - apply Rnonzero in Nz.
    assert (A : ip_div M (c_z_r s) d = Ok alpha).
    { unfold ip_div; simpl. destruct (m_ip_py M); simpl; unfold Rdiv_res; destruct (Req_EM_T d 0); tauto. }
    rewrite A in E. cbn [bind] in E.
    change (nadd Rnum (nadd Rnum (c_e_Pe s) (nmul Rnum (nmul Rnum (n_of_Z Rnum 2) alpha) (c_e_Pd s)))
           (nmul Rnum (nmul Rnum alpha alpha) (c_d_Pd s)))
      with (c_e_Pe s + 2 * alpha * c_e_Pd s + alpha * alpha * c_d_Pd s)%R in E.
    set (e' := (c_e_Pe s + 2 * alpha * c_e_Pd s + alpha * alpha * c_d_Pd s)%R) in *.
    change (nle Rnum d (n_of_Z Rnum 0)) with (Rleb d 0) in E.
    change (nle Rnum (nmul Rnum Delta Delta) e') with (Rleb (Delta * Delta) e') in E.
    destruct (Rleb d 0 || Rleb (Delta * Delta) e') eqn:Br.
    + left. apply bind_ok in E as (tau & Et & E). simpl in Et. apply Rdiv_ok in Et as [Hd ->].
      injection E as <-.
      eexists. split; [exact Hd|]. split; [|split; [reflexivity|reflexivity]].
      apply orb_prop in Br as [Br|Br]; apply Rleb_spec in Br; [auto|].
      destruct (Rle_dec d 0); [auto|]. right. split; [lra|auto].
    + right. apply orb_false_iff in Br as [B1 B2]. apply Rleb_false in B1, B2.
      split; [auto|]. split; [auto|]. cbv zeta.
      match type of E with (if nle Rnum _ ?m then _ else _) = _ => set (m' := m) in E end.
      assert (Em : m' = (ip x (t_add M (c_eta s) (t_scale M alpha (c_delta s))) g + / 2 *
        ip x (t_add M (c_eta s) (t_scale M alpha (c_delta s))) (t_add M (c_Heta s) (t_scale M alpha (H (c_delta s)))))%R).
      { unfold m', model_fun. rewrite Rlit by lra. simpl. unfold ip. lra. }
      rewrite <- Em. clearbody m'. clear Em.
      change (nle Rnum (c_model s) m') with (Rleb (c_model s) m') in E.
      destruct (Rleb (c_model s) m') eqn:Mi.
      * left. apply Rleb_spec in Mi. split; [auto|]. congruence.
      * right. apply Rleb_false in Mi. split; [auto|].
        match type of E with (if ?b then _ else _) = _ => destruct b eqn:Cv end.
        -- left. apply andb_prop in Cv as [C1 C2]. apply Z.leb_le in C1.
           simpl in C2. apply Rleb_spec in C2. split; [auto|]. split; [|injection E as <-; reflexivity].
           rewrite pymin_R in C2. exact C2.
        -- right. apply bind_ok in E as (beta & Eb & E).
           unfold tcg_precondition in Eb, E. rewrite Hrand in Eb, E.
           assert (c_z_r s <> 0 /\ beta = ip x (P (t_add M (c_r s) (t_scale M alpha (H (c_delta s)))))
              (t_add M (c_r s) (t_scale M alpha (H (c_delta s)))) / c_z_r s) as [Hz ->].
           { unfold ip_div in Eb; simpl in Eb. destruct (m_ip_py M); apply Rdiv_ok in Eb; exact Eb. }
           split; [auto|]. injection E as <-. reflexivity.
  - assert (Hd0 : d = 0).
    { destruct (Req_dec d 0) as [|Hx]; auto. apply Rnonzero in Hx. congruence. }
    cbn [bind] in E.
    change (nle Rnum d (n_of_Z Rnum 0)) with (Rleb d 0) in E.
    assert (L : Rleb d 0 = true) by (apply Rleb_spec; lra).
    rewrite L in E. cbn [orb] in E.
    left. apply bind_ok in E as (tau & Et & E). simpl in Et. apply Rdiv_ok in Et as [Hd ->].
    injection E as <-. rewrite L. eexists. split; [exact Hd|]. split; [left; lra|]. split; reflexivity.
Qed.

(** The full step decreases the model by [z_r^2 / (2 d)]. *)
Lemma q_alpha D Rs s : Inv D Rs s -> let d := ip x (c_delta s) (H (c_delta s)) in 0 < d ->
  q (t_add M (c_eta s) (t_scale M (c_z_r s / d) (c_delta s))) =
  q (c_eta s) - / 2 * (c_z_r s * c_z_r s / d).
Proof. intros I d Hd. rewrite (q_dir D Rs) by auto. fold d. simpl. field. lra. Qed.

Lemma model_value eta : T eta -> ip x eta g + / 2 * ip x eta (H eta) = q eta.
Proof. intros. unfold quadratic. rewrite (ip_sym HT eta g) by auto. auto. Qed.

Lemma Heta_step D Rs s (t : R) : Inv D Rs s ->
  t_add M (c_Heta s) (t_scale M t (H (c_delta s))) = H (t_add M (c_eta s) (t_scale M t (c_delta s))).
Proof.
  intros I. pose proof (i_eta _ _ _ I) as Te. pose proof (i_delta _ _ _ I) as Td.
  rewrite (H_add HH), (H_scale HH), (i_Heta _ _ _ I) by auto. auto.
Qed.

Lemma r_step D Rs s (t : R) w : Inv D Rs s -> T w ->
  ip x (t_add M (c_r s) (t_scale M t (H (c_delta s)))) w =
  ip x g w + ip x (H (t_add M (c_eta s) (t_scale M t (c_delta s)))) w.
Proof.
  intros I Hw. pose proof (i_eta _ _ _ I) as Te. pose proof (i_delta _ _ _ I) as Td. pose proof (i_Tr _ _ _ I) as Tr.
  rewrite (H_add HH), (H_scale HH) by auto. lin. rewrite (i_r _ _ _ I) by auto. lra.
Qed.

(** Quality of the point after the full step, compared with the first search line. *)
Lemma cauchy_alpha D Rs s : Inv D Rs s -> let d := ip x (c_delta s) (H (c_delta s)) in 0 < d ->
  forall t, 0 <= t -> t * t * B z0 z0 <= Delta * Delta ->
  q (c_eta s) - / 2 * (c_z_r s * c_z_r s / d) <= q (t_scale M (- t) z0).
Proof.
  intros I d Hd t Ht Hb.
  assert (S : 0 <= / 2 * (c_z_r s * c_z_r s / d)).
  { apply Rmult_le_pos; [lra|]. apply Rmult_le_pos; [apply Rle_0_sqr|left; apply Rinv_0_lt_compat; auto]. }
  destruct D as [|d0 D].
  - pose proof (i_first _ _ _ I eq_refl) as E. rewrite s0_eq in E.
    rewrite q_cauchy_line. subst d. rewrite E in Hd, S |- *. cbn [c_eta c_delta c_z_r] in *.
    replace (q (m_zero M x)) with 0 by (unfold quadratic; lin; lra).
    set (d := ip x (t_neg M z0) (H (t_neg M z0))) in *. set (z := ip x z0 g) in *. 
    assert (K0 : 0 <= / 2 * (d * ((t - z / d) * (t - z / d)))).
    { apply Rmult_le_pos; [lra|]. apply Rmult_le_pos; [lra|]. apply Rle_0_sqr. }
    replace (/ 2 * (d * ((t - z / d) * (t - z / d)))) with
      (/ 2 * (t * t) * d - t * z + / 2 * (z * z / d)) in K0 by (field; lra). lra.
  - pose proof (i_cauchy _ _ _ I ltac:(discriminate) t Ht Hb). lra.
Qed.

(** The step lemma: one more completed iteration. *)
Lemma inv_step D Rs j s s' : Inv D Rs s ->
  tcg_body prob tp x g Delta norm_r0 mininner j s = Ok (Continue s') ->
  Inv (c_delta s :: D) (c_r s :: Rs) s'.
Proof.
  intros I E. apply body_cases in E. cbv zeta in E.
  destruct E as [(tau & _ & _ & _ & E)|(Hd & Hin & [(_ & E)|(Hm & [(_ & _ & E)|(Hz & E)])])]; try discriminate E.
  set (d := ip x (c_delta s) (H (c_delta s))) in *.
  set (alpha := c_z_r s / d) in *.
  set (eta' := t_add M (c_eta s) (t_scale M alpha (c_delta s))) in *.
  set (r' := t_add M (c_r s) (t_scale M alpha (H (c_delta s)))) in *.
  set (zr' := ip x (P r') r') in *.
  set (beta := zr' / c_z_r s) in *.
  pose proof (i_eta _ _ _ I) as Te. pose proof (i_delta _ _ _ I) as Td. pose proof (i_Tr _ _ _ I) as Tr.
  pose proof (zr_pos _ _ _ I) as Zp.
  assert (Zp' : 0 < c_z_r s) by (simpl in *; lra). clear Zp.
  assert (Te' : T eta') by (unfold eta'; auto).
  assert (Tr' : T r') by (unfold r'; auto).
  assert (TD' : T (t_add M (t_neg M (P r')) (t_scale M beta (c_delta s)))) by auto.
  rewrite (tangent_fixed HT) in E by auto.
  set (delta' := t_add M (t_neg M (P r')) (t_scale M beta (c_delta s))) in *.
  assert (Ad : alpha * d = c_z_r s) by (unfold alpha; field; lra).
  assert (Ea : 0 < alpha) by (unfold alpha; apply Rdiv_lt_0_compat; auto).
  (* new residual against the old data *)
  assert (O1 : forall d', In d' (c_delta s :: D) -> ip x r' d' = 0).
  { intros d' [<-|Hd'].
    - unfold r'. lin. rewrite (i_rd _ _ _ I). rewrite (ip_sym HT (H (c_delta s))) by auto. fold d.
      rewrite Ad. lra.
    - assert (T d') by (eapply Forall_forall; [apply (i_D _ _ _ I)|auto]).
      unfold r'. lin. rewrite (i_orth _ _ _ I) by auto. rewrite (H_sym HH), (i_conj _ _ _ I) by auto. lra. }
  assert (O2 : forall r1, In r1 (c_r s :: Rs) -> ip x r' (P r1) = 0).
  { intros r1 [<-|Hr1].
    - apply (i_span_z _ _ _ I); auto.
    - apply (i_span_P _ _ _ I); auto. intros d' Hd'. apply O1. right; auto. }
  assert (O3 : ip x r' eta' = 0).
  { unfold eta' at 1. rewrite ip_add_r, ip_scale_r by auto.
    rewrite (O1 (c_delta s)) by (left; auto).
    rewrite (i_span_eta _ _ _ I) by (auto; intros; apply O1; right; auto). lra. }
  assert (TRs : forall r1, In r1 (c_r s :: Rs) -> T r1).
  { intros r1 [<-|Hr1]; auto. eapply Forall_forall; [apply (i_Rs _ _ _ I)|auto]. }
  assert (C1 : forall d', In d' (c_delta s :: D) -> ip x delta' (H d') = 0).
  { intros d' [<-|Hd'].
    - unfold delta'. lin. fold d.
      assert (K : alpha * ip x (P r') (H (c_delta s)) = zr').
      { assert (ip x (P r') r' = ip x (P r') (c_r s) + alpha * ip x (P r') (H (c_delta s))) as K1.
        { unfold r' at 2. lin. auto. }
        rewrite (P_sym r' (c_r s)) in K1 by auto. rewrite (O2 (c_r s)) in K1 by (left; auto).
        fold zr' in K1. 
        lra. }
      assert (beta * d = ip x (P r') (H (c_delta s))); [|lra].
      apply Rmult_eq_reg_l with alpha; [|lra]. rewrite K.
      unfold beta. rewrite <- Ad. field. split; lra.
    - assert (T d') by (eapply Forall_forall; [apply (i_D _ _ _ I)|auto]).
      unfold delta'. lin. rewrite (i_conj _ _ _ I) by auto.
      destruct (i_diff _ _ _ I d' Hd') as (c & r1 & r2 & H1 & H2 & K). rewrite K by auto.
      rewrite !P_sym by auto. rewrite !O2 by auto. lra. }
  assert (Bd : B delta' delta' = zr' + beta * beta * c_d_Pd s).
  { unfold delta'. lin. rewrite !(B_inverse HP) by auto.
    rewrite (B_sym HP (c_delta s)), (B_inverse HP) by auto.
    rewrite (O1 (c_delta s)) by (left; auto).
    rewrite <- P_sym by auto. fold zr'. rewrite (i_dPd _ _ _ I). simpl; lra. }
  assert (s' = mkTcg (N := Rnum) (M := M) eta' (H eta') r' (B eta' eta') zr' (B delta' delta') (B eta' delta')
            delta' (q eta')) as ->.
  { injection E as ->.
    rewrite (Heta_step D Rs) by auto. fold eta'.
    f_equal.
    - rewrite <- (B_dir D Rs) by auto. reflexivity.
    - rewrite Bd. reflexivity.
    - unfold delta'. lin. rewrite (B_sym HP eta'), (B_inverse HP), O3 by auto.
      unfold eta'. lin. rewrite (i_ePd _ _ _ I), (i_dPd _ _ _ I). simpl; lra.
    - apply model_value; auto. }
  assert (Qe : q eta' = q (c_eta s) - / 2 * (c_z_r s * c_z_r s / d)) by (apply (q_alpha D Rs); auto).
  split; cbn [c_eta c_Heta c_r c_e_Pe c_z_r c_d_Pd c_e_Pd c_delta c_model]; auto.
  - constructor; auto. apply (i_D _ _ _ I).
  - constructor; auto. apply (i_Rs _ _ _ I).
  - intros w Hw. apply (r_step D Rs); auto.
  - unfold delta'. lin. rewrite (O1 (c_delta s)) by (left; auto). rewrite <- P_sym by auto. fold zr'. lra.
  - rewrite Bd.
    assert (0 <= zr') by (apply (P_pos HP); auto).
    pose proof (i_dPd_pos _ _ _ I) as K.
    pose proof (Rle_0_sqr beta) as K2. unfold Rsqr in K2. simpl in *. nra.
  - intros Z. rewrite Bd. unfold beta. rewrite Z. field. lra.
  - unfold eta'. rewrite (B_dir D Rs) by auto. simpl in *. lra.
  - discriminate.
  - intros _. destruct D as [|d0 D].
    + pose proof (i_first _ _ _ I eq_refl) as Es. rewrite Qe.
      replace (q (c_eta s)) with 0 by (rewrite Es, s0_eq; cbn; unfold quadratic; lin; lra).
      assert (0 < c_z_r s * c_z_r s / d) by (apply Rdiv_lt_0_compat; auto; apply Rmult_lt_0_compat; auto). lra.
    + pose proof (i_strict _ _ _ I ltac:(discriminate)). rewrite Qe.
      assert (0 < c_z_r s * c_z_r s / d) by (apply Rdiv_lt_0_compat; auto; apply Rmult_lt_0_compat; auto). lra.
  - intros _ t Ht Hb. rewrite Qe. apply (cauchy_alpha D Rs); auto.
  - intros d' Hd'.
    assert (Hdiff : forall r1, In r1 (c_r s :: Rs) -> In r1 (r' :: c_r s :: Rs)) by (right; auto).
    destruct Hd' as [<-|Hd'].
    + exists (/ alpha), r', (c_r s). split; [left; auto|]. split; [right; left; auto|].
      intros w Hw. unfold r'. lin. field. lra.
    + destruct (i_diff _ _ _ I d' Hd') as (c & r1 & r2 & H1 & H2 & K). exists c, r1, r2; auto.
  - intros w Hw K. unfold eta'. lin. rewrite (K (c_delta s)) by (left; auto).
    rewrite (i_span_eta _ _ _ I) by (auto; intros; apply K; right; auto). lra.
  - intros w Hw K r1 [<-|Hr1].
    + apply (i_span_z _ _ _ I); auto.
    + apply (i_span_P _ _ _ I); auto. intros; apply K; right; auto.
  - intros w Hw K. specialize (K delta' (or_introl eq_refl)) as K1.
    specialize (K (c_delta s) (or_intror (or_introl eq_refl))) as K2.
    unfold delta' in K1. rewrite ip_add_r, ip_neg_r, ip_scale_r in K1 by auto. rewrite K2 in K1. lra.
Qed.

(** What holds of the step returned. *)
Definition good (maxinner j : Z) (eta Heta : tv M) (stop : tcg_stop) : Prop :=
  T eta /\ Heta = H eta /\ B eta eta <= Delta * Delta /\ q eta <= 0 /\
  (0 < Delta -> 0 < ip x g g -> q eta < 0) /\
  (forall t, 0 <= t -> t * t * B z0 z0 <= Delta * Delta -> q eta <= q (t_scale M (- t) z0)) /\
  reason_agrees x T g H B (tr_kappa tp) (tr_theta tp) Delta mininner maxinner j eta stop.

Lemma mgn D Rs s (t : R) : Inv D Rs s ->
  let r := t_add M (c_r s) (t_scale M t (H (c_delta s))) in
  let eta := t_add M (c_eta s) (t_scale M t (c_delta s)) in
  model_gradient_norm x g H eta = sqrt (ip x r r).
Proof.
  intros I r eta. pose proof (i_eta _ _ _ I) as Te. pose proof (i_delta _ _ _ I) as Td. pose proof (i_Tr _ _ _ I) as Tr.
  assert (Tr1 : T r) by (unfold r; auto). assert (Te1 : T eta) by (unfold eta; auto).
  assert (K : forall w, T w -> ip x r w = ip x g w + ip x (H eta) w) by (intros; apply (r_step D Rs); auto).
  clearbody r eta.
  unfold model_gradient_norm. f_equal.
  rewrite (K r) by auto. rewrite (ip_sym HT g r), (ip_sym HT (H eta) r) by auto.
  rewrite !K by auto. lin. lra.
Qed.

Lemma mgn0 D Rs s : Inv D Rs s -> model_gradient_norm x g H (c_eta s) = sqrt (ip x (c_r s) (c_r s)).
Proof.
  intros I. pose proof (i_eta _ _ _ I) as Te. pose proof (i_Tr _ _ _ I) as Tr.
  unfold model_gradient_norm. f_equal.
  rewrite (i_r _ _ _ I (c_r s)) by auto.
  rewrite (ip_sym HT g (c_r s)), (ip_sym HT (H (c_eta s)) (c_r s)) by auto.
  rewrite !(i_r _ _ _ I) by auto. lin. lra.
Qed.

Lemma stop_good D Rs j maxinner s eta Heta stop : Inv D Rs s ->
  tcg_body prob tp x g Delta norm_r0 mininner j s = Ok (Stop (eta, Heta, stop)) ->
  good maxinner j eta Heta stop.
Proof.
  intros I E. apply body_cases in E. cbv zeta in E.
  pose proof (i_eta _ _ _ I) as Te. pose proof (i_delta _ _ _ I) as Td. pose proof (i_Tr _ _ _ I) as Tr.
  pose proof (zr_pos _ _ _ I) as Zp.
  assert (Q0 : D = [] -> q (c_eta s) = 0).
  { intros ->. rewrite (i_first _ _ _ I eq_refl), s0_eq. cbn. unfold quadratic; lin; lra. }
  assert (Q1 : q (c_eta s) <= 0).
  { destruct D; [rewrite Q0; auto; lra|]. left. apply (i_strict _ _ _ I). discriminate. }
  assert (G : D = [] -> 0 < ip x g g -> 0 < c_z_r s).
  { intros -> Hgg. rewrite (i_first _ _ _ I eq_refl), s0_eq. cbn. apply (P_def HP); auto. }
  set (d := ip x (c_delta s) (H (c_delta s))) in *.
  set (alpha := c_z_r s / d) in *.
  destruct E as [(tau & Hp & Hb & Et & E)|(Hd & Hin & E)].
  - assert (Dp : 0 < c_d_Pd s) by (pose proof (i_dPd_pos _ _ _ I); simpl in *; lra).
    destruct (tau_boundary (c_e_Pe s) (c_e_Pd s) (c_d_Pd s) (Delta * Delta) tau Dp (i_in _ _ _ I) Et) as [Tp Tb].
    injection E as -> -> ->.
    rewrite (Heta_step D Rs) by auto.
    assert (Bb : B (t_add M (c_eta s) (t_scale M tau (c_delta s))) (t_add M (c_eta s) (t_scale M tau (c_delta s)))
            = Delta * Delta) by (rewrite (B_dir D Rs) by auto; exact Tb).
    pose proof (q_dir D Rs s tau I) as Qt. fold d in Qt.
    assert (Tlong : 0 < Delta -> D = [] -> 0 < tau).
    { intros HD ->. pose proof (i_first _ _ _ I eq_refl) as Es. rewrite s0_eq in Es.
      destruct (Req_dec tau 0) as [E0|]; [|lra]. rewrite Es, E0 in Tb. cbn in Tb. nra. }
    (* decrease along the boundary step *)
    assert (Dec : q (t_add M (c_eta s) (t_scale M tau (c_delta s))) <= q (c_eta s) - / 2 * tau * c_z_r s).
    { rewrite Qt. destruct Hb as [Hn|[Hd Hb]].
      - assert (0 <= - (tau * tau * d)) by (pose proof (Rle_0_sqr tau) as K; unfold Rsqr in K; nra).
        assert (0 <= tau * c_z_r s) by (apply Rmult_le_pos; auto). simpl in *; lra.
      - assert (Ap : 0 <= alpha) by (unfold alpha; apply Rmult_le_pos; auto; left; apply Rinv_0_lt_compat; auto).
        assert (Ad : alpha * d = c_z_r s) by (unfold alpha; field; lra).
        destruct (tau_le_alpha _ _ _ _ tau alpha Dp (i_in _ _ _ I) Tp Tb Ap Hb) as [Hle|[Hpd Ha0]].
        + assert (K0 : tau * (tau * d) <= tau * (alpha * d)) by (apply Rmult_le_compat_l; auto; apply Rmult_le_compat_r; lra).
          rewrite Ad in K0. simpl in *; lra.
        + (* alpha = 0: z_r = 0 *)
          assert (Hz : c_z_r s = 0) by (rewrite <- Ad, Ha0; lra).
          pose proof (i_dPd_zero _ _ _ I Hz). simpl in *; lra. }
    assert (Zpos : 0 < c_z_r s).
    { destruct (Req_dec (c_z_r s) 0) as [Hz|]; [|simpl in *; lra].
      pose proof (i_dPd_zero _ _ _ I Hz). simpl in *; lra. }
    assert (Tz' : 0 <= / 2 * tau * c_z_r s) by (apply Rmult_le_pos; [lra|auto]).
    repeat split.
    + auto.
    + simpl in *; lra.
    + simpl in *; lra.
    + intros HD Hgg. destruct D as [|d0 D].
      * rewrite Q0 in Dec by auto. specialize (Tlong HD eq_refl).
        assert (0 < / 2 * tau * c_z_r s) by (apply Rmult_lt_0_compat; auto; lra). simpl in *; lra.
      * pose proof (i_strict _ _ _ I ltac:(discriminate)). simpl in *; lra.
    + intros t Ht Hbt. destruct D as [|d0 D].
      * pose proof (i_first _ _ _ I eq_refl) as Es. rewrite s0_eq in Es.
        rewrite Qt, Q0 by auto. rewrite q_cauchy_line.
        assert (Ed : d = ip x (t_neg M z0) (H (t_neg M z0))) by (unfold d; rewrite Es; reflexivity).
        assert (Ez : c_z_r s = ip x z0 g :> R) by (rewrite Es; reflexivity).
        rewrite <- Ed, <- Ez. rewrite B_z0, <- Ez in Hbt.
        assert (Tt : tau * tau * c_z_r s = Delta * Delta).
        { rewrite <- Tb, Es. cbn. ring. }
        assert (Lt : t <= tau).
        { apply Rsqr_incr_0_var; auto. unfold Rsqr. apply Rmult_le_reg_r with (c_z_r s); simpl in *; lra. }
        destruct Hb as [Hn|[Hd Hb]].
        -- assert (t * t * - d <= tau * tau * - d) by (apply Rmult_le_compat_r; [lra|]; nra).
           assert (t * c_z_r s <= tau * c_z_r s) by (apply Rmult_le_compat_r; auto). simpl in *; lra.
        -- assert (Ap : 0 <= alpha) by (unfold alpha; apply Rmult_le_pos; auto; left; apply Rinv_0_lt_compat; auto).
           assert (Ad : alpha * d = c_z_r s) by (unfold alpha; field; lra).
           destruct (tau_le_alpha _ _ _ _ tau alpha Dp (i_in _ _ _ I) Tp Tb Ap Hb) as [Hle|[Hpd Ha0]].
           ++ rewrite <- Ad. 
              assert (0 <= (tau - t) * (d * (2 * alpha - tau - t))).
              { apply Rmult_le_pos; [lra|]. apply Rmult_le_pos; lra. }
              simpl in *; lra.
           ++ rewrite Ha0 in Ad. simpl in *; lra.
      * pose proof (i_cauchy _ _ _ I ltac:(discriminate) t Ht Hbt). simpl in *; lra.
    + unfold reason_agrees. cbv zeta. destruct (Rleb d 0) eqn:Ed; auto. apply Rleb_spec in Ed.
      split; auto. exists (c_delta s). auto.
  - pose proof (q_alpha D Rs s I Hd) as Qa. fold d alpha in Qa.
    pose proof (cauchy_alpha D Rs s I Hd) as Ca. fold d in Ca.
    assert (Te' : T (t_add M (c_eta s) (t_scale M alpha (c_delta s)))) by auto.
    assert (Em : ip x (t_add M (c_eta s) (t_scale M alpha (c_delta s))) g + / 2 *
             ip x (t_add M (c_eta s) (t_scale M alpha (c_delta s)))
               (t_add M (c_Heta s) (t_scale M alpha (H (c_delta s)))) =
             q (t_add M (c_eta s) (t_scale M alpha (c_delta s)))).
    { rewrite (Heta_step D Rs) by auto. apply model_value. auto. }
    assert (S : 0 <= / 2 * (c_z_r s * c_z_r s / d)).
    { apply Rmult_le_pos; [lra|]. apply Rmult_le_pos; [apply Rle_0_sqr|left; apply Rinv_0_lt_compat; auto]. }
    destruct E as [(Hm & E)|(Hm & [(Hj & Hc & E)|(_ & E)])]; try discriminate E.
    + (* the model did not decrease: the residual is zero *)
      injection E as -> -> ->.
      rewrite Em, Qa, (i_model _ _ _ I) in Hm.
      assert (Hz : c_z_r s = 0).
      { destruct (Req_dec (c_z_r s) 0) as [Hz|Hz]; auto. exfalso.
        assert (0 < c_z_r s * c_z_r s / d) by (apply Rdiv_lt_0_compat; auto; apply Rsqr_pos_lt; auto).
        simpl in *; lra. }
      repeat split; auto.
      * apply (i_Heta _ _ _ I).
      * rewrite <- (i_ePe _ _ _ I). apply (i_in _ _ _ I).
      * intros HD Hgg. destruct D as [|d0 D]; [specialize (G eq_refl Hgg); simpl in *; lra|].
        apply (i_strict _ _ _ I). discriminate.
      * intros t Ht Hbt. specialize (Ca t Ht Hbt). rewrite Hz in Ca.
        replace (/ 2 * (0 * 0 / d)) with 0 in Ca by (field; lra). lra.
      * unfold reason_agrees. rewrite (mgn0 D Rs) by auto.
        destruct (Rle_lt_or_eq_dec 0 (ip x (c_r s) (c_r s))) as [K|K].
        -- apply (ip_pos HT); auto.
        -- apply (P_def HP) in K; auto. rewrite <- (i_zr _ _ _ I) in K. simpl in *; lra.
        -- rewrite <- K. apply sqrt_0.
    + injection E as -> -> ->. rewrite Em, (i_model _ _ _ I) in Hm.
      rewrite (Heta_step D Rs) by auto.
      repeat split; auto.
      * rewrite (B_dir D Rs) by auto. simpl in *; lra.
      * lra.
      * intros; lra.
      * intros t Ht Hbt. rewrite Qa. apply Ca; auto.
      * unfold reason_agrees. cbv zeta. rewrite (mgn D Rs) by auto.
        destruct (Rltb _ _) eqn:L; [apply Rltb_spec in L|apply Rltb_false in L]; repeat split; auto.
Qed.

Lemma loop_good maxinner n : forall D Rs j s eta Heta j' stop, Inv D Rs s ->
  (n = O -> D <> []) -> (0 <= j)%Z -> (j + Z.of_nat n = maxinner)%Z ->
  tcg_loop prob tp x g Delta norm_r0 mininner n j s = Ok (eta, Heta, j', stop) ->
  (n <> O -> 0 <= j')%Z /\ (j' < maxinner)%Z /\ good maxinner j' eta Heta stop.
Proof.
  induction n as [|n IH]; intros D Rs j s eta Heta j' stop I HD Hj Hm E; simpl in E.
  - injection E as <- <- <- <-. specialize (HD eq_refl).
    split; [congruence|]. split; [lia|].
    pose proof (i_eta _ _ _ I) as Te.
    repeat split; auto.
    + apply (i_Heta _ _ _ I).
    + rewrite <- (i_ePe _ _ _ I). apply (i_in _ _ _ I).
    + left. apply (i_strict _ _ _ I); auto.
    + intros _ _. apply (i_strict _ _ _ I); auto.
    + apply (i_cauchy _ _ _ I); auto.
    + simpl. lia.
  - apply bind_ok in E as (o & Eo & E). destruct o as [s'|[[e h] st]].
    + destruct (IH (c_delta s :: D) (c_r s :: Rs) (j + 1)%Z s' eta Heta j' stop) as (A1 & A2 & A3); auto; try lia.
      * apply (inv_step D Rs j); auto.
      * discriminate.
      * split; auto. intros _. destruct n; [|apply A1; discriminate].
        simpl in E. injection E as <- <- <- <-. lia.
    + injection E as <- <- <- <-. split; [lia|]. split; [lia|]. apply (stop_good D Rs j maxinner s); auto.
Qed.

Theorem tcg_good maxinner eta Heta j stop :
  tcg prob tp x g (m_zero M x) Delta mininner maxinner = Ok (eta, Heta, j, stop) ->
  (0 <= j < maxinner)%Z /\ good maxinner j eta Heta stop.
Proof.
  intros E. unfold tcg in E.
  assert (Ei : tcg_init prob tp x g (m_zero M x) = (s0, norm_r0)).
  { unfold s0. unfold tcg_init. rewrite Hrand. reflexivity. }
  rewrite Ei in E. destruct (Z.leb_spec maxinner 0); [discriminate|].
  destruct (loop_good maxinner (Z.to_nat maxinner) [] [] 0 s0 eta Heta j stop) as (A1 & A2 & A3); auto; try lia.
  - apply inv_init.
  - split; auto. split; auto. apply A1. lia.
Qed.
End TCG.
