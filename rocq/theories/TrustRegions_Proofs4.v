(** Trust regions with use_rand, and termination of the shrinking loop. *)
From Coq Require Import ZArith List Bool Reals Lra Lia Psatz.
From Verif Require Import Num_Model Num_Spec Num_Instances Num_Proofs LineSearch_Model Optimizer_Model Optimizer_Spec
  Optimizer_Proofs Optimizer_Proofs2 TrustRegions_Model TrustRegions_Spec TrustRegions_Proofs TrustRegions_Proofs2
  TrustRegions_Proofs3.
Import ListNotations.
Local Open Scope R_scope.

Section Rand.
Variables (M : Mfd Rnum) (prob : OptProblem M) (tp : tr_params Rnum) (x : pt M) (g : tv M)
  (T : tv M -> Prop).
Notation H := (p_hess prob x).
Hypothesis (HT : tangent_space x T).
Hypothesis (HH : symmetric_operator x T H).
Hypothesis (Hg : T g).
Hypothesis (Hrand : tr_use_rand tp = true).

Record lin (s : tcg_state M) : Prop := {
  l_eta : T (c_eta s); l_r : T (c_r s); l_delta : T (c_delta s); l_Heta : c_Heta s = H (c_eta s) }.

Lemma lin_body Delta n0 mi j s o : lin s -> tcg_body prob tp x g Delta n0 mi j s = Ok o ->
  match o with
  | Continue s' => lin s'
  | Stop (eta, Heta, _) => T eta /\ Heta = H eta
  end.
Proof.
  intros [Le Lr Ld Lh] E. unfold tcg_body in E. cbv zeta in E.
  apply bind_ok in E as ([alpha e'] & _ & E). cbv beta iota in E.
  assert (St : forall t : R, T (t_add M (c_eta s) (t_scale M t (c_delta s))) /\
    t_add M (c_Heta s) (t_scale M t (H (c_delta s))) = H (t_add M (c_eta s) (t_scale M t (c_delta s)))).
  { intros t. split.
    - apply (T_add HT); auto. apply (T_scale HT); auto.
    - rewrite (H_add HH), (H_scale HH), Lh; auto. apply (T_scale HT); auto. }
  match type of E with (if ?b then _ else _) = _ => destruct b end.
  - apply bind_ok in E as (tau & _ & E). injection E as <-. apply St.
  - match type of E with (if ?b then _ else _) = _ => destruct b end; [injection E as <-; auto|].
    match type of E with (if ?b then _ else _) = _ => destruct b end; [injection E as <-; apply St|].
    apply bind_ok in E as (beta & _ & E). injection E as <-.
    destruct (St alpha) as [S1 S2].
    assert (Tr : T (t_add M (c_r s) (t_scale M alpha (H (c_delta s))))).
    { apply (T_add HT); auto. apply (T_scale HT), (H_T HH); auto. }
    unfold tcg_precondition. rewrite Hrand.
    assert (Td : T (t_add M (t_neg M (t_add M (c_r s) (t_scale M alpha (H (c_delta s))))) (t_scale M beta (c_delta s)))).
    { apply (T_add HT); [apply (T_neg HT); auto|apply (T_scale HT); auto]. }
    split; cbn; auto. rewrite (tangent_fixed HT); auto.
Qed.

Lemma lin_tcg eta0 Delta mi ma eta Heta j stop : T eta0 ->
  tcg prob tp x g eta0 Delta mi ma = Ok (eta, Heta, j, stop) -> T eta /\ Heta = H eta.
Proof.
  intros H0 E. unfold tcg, tcg_init in E. unfold tcg_precondition in E. rewrite Hrand in E. cbv beta zeta iota in E.
  destruct (Z.leb_spec ma 0) as [|Hma]; [discriminate|]. revert E.
  assert (Tr : T (t_add M g (H eta0))) by (apply (T_add HT), (H_T HH); auto).
  match goal with |- tcg_loop _ _ _ _ _ ?n0 _ _ _ ?s = _ -> _ => assert (L : lin s); [|revert L; generalize s as s1, n0 as n1] end.
  { split; cbn; auto. apply (T_neg HT); auto. }
  generalize 0%Z as i. induction (Z.to_nat ma) as [|n IH]; intros i s n1 L E; simpl in E.
  - injection E as <- <- _ _. split; apply L.
  - apply bind_ok in E as (o & Eo & E). apply lin_body in Eo; auto.
    destruct o as [s'|[[e h] st]]; [eauto|]. injection E as <- <- _ _; auto.
Qed.

Notation q := (quadratic x g H).
(** The comparison with the Cauchy step, lines 210-239. *)
Lemma cauchy_best fx Delta ng eta eta' Heta' b :
  0 < Delta -> ng = sqrt (ip x g g) -> T eta ->
  tr_cauchy prob x fx g ng Delta eta (H eta) = Ok (eta', Heta', b) ->
  T eta' /\ Heta' = H eta' /\ q eta' <= q eta /\
  forall t, 0 <= t -> t * ng <= Delta -> q eta' <= q (t_scale M (- t) g).
Proof.
  intros HD Hn Te E. unfold tr_cauchy in E. cbv zeta in E.
  apply bind_ok in E as (tau & Et & E). apply bind_ok in E as (c & Ec & E).
  simpl in Ec. apply Rdiv_ok in Ec as [Nn ->].
  assert (Ngp : 0 < ng). { rewrite Hn in *. pose proof (sqrt_pos (ip x g g)). simpl in *; lra. }
  assert (Ngq : ng * ng = ip x g g). { rewrite Hn. apply sqrt_sqrt, (ip_pos HT); auto. }
  set (h := ip x g (H g)) in *.
  assert (Hq : forall t : R, q (t_scale M (- t) g) = - t * (ng * ng) + / 2 * (t * t) * h).
  { intros t. unfold quadratic. rewrite (H_scale HH) by auto.
    rewrite (ip_sym HT g (t_scale M (- t) g)) by (auto; apply (T_scale HT); auto).
    rewrite !(ip_scale HT); auto; try apply (T_scale HT); try apply (H_T HH); auto.
    rewrite (ip_sym HT g (t_scale M (- t) (H g))) by (auto; apply (T_scale HT), (H_T HH); auto).
    rewrite (ip_scale HT) by (auto; apply (H_T HH); auto).
    rewrite (ip_sym HT (H g) g) by (auto; apply (H_T HH); auto). fold h. rewrite Ngq. simpl. ring. }
  assert (Tau : 0 <= tau /\ (h <= 0 /\ tau = 1 \/ 0 < h /\ tau = Rmin (ng * ng * ng / (Delta * h)) 1)).
  { change (m_inner M x g (H g)) with h in Et.
    change (nle Rnum h (n_of_Z Rnum 0)) with (Rleb h 0) in Et.
    destruct (Rleb h 0) eqn:Eh; [apply Rleb_spec in Eh|apply Rleb_false in Eh].
    - injection Et as <-. split; [simpl; lra|auto].
    - apply bind_ok in Et as (q0 & Eq & Et). simpl in Eq. apply Rdiv_ok in Eq as [_ ->].
      injection Et as <-. rewrite pymin_R. split; [|auto].
      apply Rmin_glb; [|lra]. apply Rlt_le, Rdiv_lt_0_compat; repeat apply Rmult_lt_0_compat; auto. }
  set (s := tau * Delta / ng).
  assert (Cs : (- tau * Delta / ng)%R = - s) by (unfold s; simpl; field; simpl in *; lra).
  rewrite Cs in E.
  assert (Best : forall t, 0 <= t -> t * ng <= Delta -> q (t_scale M (- s) g) <= q (t_scale M (- t) g)).
  { intros t Ht Hb. rewrite !Hq. destruct Tau as [Tp [[Hh Ht1]|[Hh Ht1]]].
    - assert (t <= s). { unfold s. rewrite Ht1. apply Rmult_le_reg_r with ng; auto.
        unfold Rdiv. rewrite !Rmult_assoc, Rinv_l; simpl in *; lra. }
      assert (0 <= s) by lra.
      assert (t * (ng * ng) <= s * (ng * ng)) by (apply Rmult_le_compat_r; auto; nra).
      assert (t * t * - h <= s * s * - h) by (apply Rmult_le_compat_r; [lra|nra]). lra.
    - unfold Rmin in Ht1. destruct (Rle_dec _ _) as [Hle|Hgt] in Ht1.
      + (* interior minimiser *)
        assert (Es : s = ng * ng / h) by (unfold s; rewrite Ht1; field; simpl in *; lra).
        assert (Eh : s * h = ng * ng) by (rewrite Es; field; lra).
        assert (K0 : 0 <= / 2 * (h * ((t - s) * (t - s)))).
        { apply Rmult_le_pos; [lra|]. apply Rmult_le_pos; [lra|apply Rle_0_sqr]. }
        rewrite <- Eh. nra.
      + (* boundary *)
        assert (Ls : s * h <= ng * ng).
        { unfold s. rewrite Ht1.
          assert (K : 1 < ng * ng * ng / (Delta * h)) by lra.
          apply (Rmult_lt_compat_r (Delta * h)) in K; [|apply Rmult_lt_0_compat; auto].
          unfold Rdiv in K. rewrite Rmult_assoc, Rinv_l in K by (apply Rgt_not_eq, Rmult_lt_0_compat; auto).
          apply Rmult_le_reg_r with ng; auto.
          replace (1 * Delta / ng * h * ng) with (Delta * h) by (field; simpl in *; lra). lra. }
        assert (Lt : t <= s). { unfold s. rewrite Ht1. apply Rmult_le_reg_r with ng; auto.
          unfold Rdiv. rewrite !Rmult_assoc, Rinv_l; simpl in *; lra. }
        assert (0 <= (s - t) * (2 * (ng * ng) - (s + t) * h)).
        { apply Rmult_le_pos; [lra|]. assert (t * h <= s * h) by (apply Rmult_le_compat_r; lra). lra. }
        nra. }
  assert (Mq : forall v, T v -> fx + m_inner M x g v + lit (N := Rnum) 1 2 * m_inner M x (H v) v = fx + q v).
  { intros v Hv. rewrite Rlit by lra. unfold quadratic. fold (ip x g v).
    change (m_inner M x (H v) v) with (ip x (H v) v).
    rewrite (ip_sym HT (H v) v) by (auto; apply (H_T HH); auto). simpl. lra. }
  assert (Tc : T (t_scale M (- s) g)) by (apply (T_scale HT); auto).
  assert (Hc : t_scale M (- s) (H g) = H (t_scale M (- s) g)) by (rewrite (H_scale HH); auto).
  rewrite Hc in E.
  change (nlt Rnum ?a ?b) with (Rltb a b) in E.
  change (nadd Rnum (nadd Rnum fx (m_inner M x g ?v)) (nmul Rnum (lit 1 2) (m_inner M x ?w ?v)))
    with (fx + m_inner M x g v + lit (N := Rnum) 1 2 * m_inner M x w v) in E.
  rewrite !Mq in E by auto.
  destruct (Rltb _ _) eqn:Lc in E; injection E as <- <- <-.
  - apply Rltb_spec in Lc. split; [auto|]. split; [auto|]. split; [simpl in *; lra|]. exact Best.
  - apply Rltb_false in Lc. split; [auto|]. split; [auto|]. split; [lra|].
    intros t Ht Hb. specialize (Best t Ht Hb). simpl in *; lra.
Qed.
End Rand.

(** ** The shrinking loop *)
Section Shrink.
Variables (M : Mfd Rnum) (x : pt M).

Definition cfac : R := sqrt (sqrt (lit (N := Rnum) 1 4503599627370496)).
Lemma cfac_bounds : 0 < cfac < 1.
Proof.
  assert (E : lit (N := Rnum) 1 4503599627370496 = 1 / 4503599627370496) by (apply Rlit; lra).
  unfold cfac. rewrite E. split.
  - apply sqrt_lt_R0, sqrt_lt_R0. lra.
  - apply Rlt_le_trans with (sqrt 1); [|rewrite sqrt_1; lra]. apply sqrt_lt_1_alt. split; [apply sqrt_pos|].
    apply Rlt_le_trans with (sqrt 1); [|rewrite sqrt_1; lra]. apply sqrt_lt_1_alt. lra.
Qed.

Lemma shrink_ends (draw : tv M) (Delta : R) : 0 < Delta ->
  (forall (a : R) v, 0 <= a -> m_norm M x (t_scale M a v) = a * m_norm M x v :> R) ->
  exists fuel, forall f, (fuel <= f)%nat -> exists eta,
    tr_shrink f x draw Delta = Ok eta /\ m_norm M x eta <= Delta.
Proof.
  intros HD Hh. destruct cfac_bounds as [C0 C1].
  unfold tr_shrink.
  set (v0 := t_scale M (lit (N := Rnum) 1 1000000) draw). clearbody v0.
  set (n0 := m_norm M x v0).
  destruct (pow_lt_1_zero cfac) with (y := Delta / (Rabs n0 + 1)) as [k Hk].
  { rewrite Rabs_right; lra. }
  { apply Rdiv_lt_0_compat; auto. pose proof (Rabs_pos n0) as A. simpl in *. lra. }
  specialize (Hk k (Nat.le_refl k)).
  assert (K : cfac ^ k * n0 <= Delta).
  { pose proof (Rabs_pos n0) as A1. pose proof (Rle_abs n0) as A2.
    rewrite Rabs_right in Hk by (apply Rle_ge, pow_le; lra).
    apply (Rmult_lt_compat_r (Rabs n0 + 1)) in Hk; [|lra].
    unfold Rdiv in Hk. rewrite Rmult_assoc, Rinv_l in Hk by lra.
    assert (0 <= cfac ^ k) by (apply pow_le; lra).
    assert (cfac ^ k * n0 <= cfac ^ k * (Rabs n0 + 1)) by (apply Rmult_le_compat_l; auto; simpl in *; lra). lra. }
  exists (S k). intros f Hf.
  assert (K' : cfac ^ k * m_norm M x v0 <= Delta) by exact K.
  clear n0 K Hk. revert v0 f Hf K'. induction k as [|k IH]; intros v0 f Hf K'.
  - destruct f as [|f]; [lia|]. cbn [loop bind].
    change (nlt Rnum Delta (m_norm M x v0)) with (Rltb Delta (m_norm M x v0)).
    destruct (Rltb _ _) eqn:E; [apply Rltb_spec in E; simpl in *; lra|].
    exists v0. split; auto. apply Rltb_false in E. auto.
  - destruct f as [|f]; [lia|]. cbn [loop bind].
    change (nlt Rnum Delta (m_norm M x v0)) with (Rltb Delta (m_norm M x v0)).
    destruct (Rltb _ _) eqn:E.
    + cbn [bind]. apply IH; [lia|].
      change (nsqrt Rnum (nsqrt Rnum spacing1)) with cfac. rewrite Hh by lra. simpl in K'. lra.
    + exists v0. split; auto. apply Rltb_false in E. auto.
Qed.

Lemma shrink_never (draw : tv M) (Delta : R) : Delta < 0 ->
  (forall v, 0 <= m_norm M x v) ->
  forall fuel, tr_shrink fuel x draw Delta = Raise OutOfFuel.
Proof.
  intros HD Hp fuel. unfold tr_shrink.
  set (v0 := t_scale M (lit (N := Rnum) 1 1000000) draw). clearbody v0. revert v0.
  induction fuel as [|f IH]; intros v0; [reflexivity|]. cbn [loop bind].
  change (nlt Rnum Delta (m_norm M x v0)) with (Rltb Delta (m_norm M x v0)).
  destruct (Rltb _ _) eqn:E; [apply IH|]. apply Rltb_false in E. specialize (Hp v0). simpl in *; lra.
Qed.

Lemma shrink_tangent (T : tv M -> Prop) fuel draw Delta eta : 
  (forall (a : R) u, T u -> T (t_scale M a u)) -> T draw ->
  tr_shrink fuel x draw Delta = Ok eta -> T eta /\ m_norm M x eta <= Delta.
Proof.
  intros Hs Hd E. unfold tr_shrink in E.
  apply (loop_inv _ T (fun v => T v /\ m_norm M x v <= Delta)) in E; auto.
  - intros s s' Hs' Es. destruct (nlt _ _ _); [injection Es as <-; apply Hs; auto|discriminate].
  - intros s r Hs' Es. destruct (nlt Rnum Delta (m_norm M x s)) eqn:El; [discriminate|]. injection Es as <-.
    split; auto. simpl in El. apply Rltb_false in El. auto.
Qed.
End Shrink.
