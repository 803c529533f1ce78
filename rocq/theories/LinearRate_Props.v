(** C115: on gradient-dominated costs steepest descent converges linearly, with either line searcher (exact
    arithmetic). *)
From Coq Require Import ZArith List Bool Reals Lra Lia Psatz.
From Verif Require Import Num_Model Num_Spec Num_Instances Num_Proofs LineSearch_Model LineSearch_Spec LineSearch_Proofs
  Optimizer_Model Euclid1 Convergence_Props AdaptiveRate_Props.
Import ListNotations.
Local Open Scope R_scope.

(** The squared norm of the gradient is at least [2 mu] times what the cost exceeds its bound by (for instance: a strongly
    convex cost, or the bound is attained in the whole critical set with a nondegenerate Hessian along the normal
    directions). *)
Definition gradient_dominated (M : Mfd Rnum) (prob : OptProblem M) (mu bound : R) : Prop := forall x,
  2 * mu * ((p_cost prob x : R) - bound) <= (m_norm M x (p_grad prob x) : R) ^ 2.

(** The share of the remaining excess of the cost that every iteration removes. *)
Definition bt_share (contraction sufficient initial L D mu : R) : R :=
  Rmin (2 * mu * sufficient * short_step contraction sufficient L) (mu * initial / sqrt (2 * L * D)).
Definition ad_share (contraction sufficient initial L D mu : R) : R :=
  2 * mu * sufficient * ad_factor contraction sufficient initial L D.

Section Backtracking.
Variables (M : Mfd Rnum) (prob : OptProblem M).
Variables (contraction optimism sufficient initial : R) (max_contractions : Z).
Local Notation p := (@mkBt Rnum contraction optimism sufficient max_contractions initial).
Local Notation cost := (p_cost prob : pt M -> R).
Local Notation slope x := (m_norm M x (p_grad prob x) : R).
Variables (L mu bound : R) (sp : stop_params Rnum) (clock : nat -> R) (x0 : pt M).
Local Notation e := (min_gradient_norm sp : R).
Local Notation D := (cost x0 - bound).
Local Notation theta := (bt_share contraction sufficient initial L D mu).
Hypotheses (HL : 0 < L) (Hs : sensible contraction optimism sufficient initial max_contractions)
  (Hsm : smooth_downhill M prob L) (Hneg : forall x v, m_norm M x (t_neg M v) = m_norm M x v :> R)
  (Hnn : forall x v, 0 <= (m_norm M x v : R)) (Hbound : forall x, bound <= cost x) (Hmu : 0 < mu) (Hdom : gradient_dominated M prob mu bound)
  (He : 0 < e) (Hcon : enough_contractions contraction optimism sufficient initial max_contractions L e D).

Definition BInv (s : @sd_state Rnum M (bt_searcher M p)) : Prop :=
  (0 <= sd_iteration s)%Z /\ cost (sd_x s) - bound <= (1 - theta) ^ Z.to_nat (sd_iteration s) * D /\
  cost (sd_x s) <= cost x0 /\
  match sd_ls s with
  | None => True
  | Some old => cost (sd_x s) - bound <= (1 - theta) * (old - bound) /\ cost (sd_x s) <= old <= cost x0
  end.
Definition BPost (r : result Rnum (pt M)) : Prop :=
  cost (r_point r) - bound <= Rmax (e ^ 2 / (2 * mu)) ((1 - theta) ^ Z.to_nat (r_iterations r) * D).

Lemma bt_linear_step s st step y calls : BInv s -> e <= slope (sd_x s) ->
  bt_search M p (sd_ls s) (p_cost prob) (sd_x s) (t_neg M (p_grad prob (sd_x s))) (cost (sd_x s))
    (- (slope (sd_x s) * slope (sd_x s))) = Ok (st, (step, y), calls) ->
  st = Some (cost (sd_x s)) /\ 0 <= 1 - theta /\ cost y <= cost (sd_x s) /\
  cost y - bound <= (1 - theta) * (cost (sd_x s) - bound).
Proof.
  intros (I1 & I2 & Hx & I3) Hn E. set (x := sd_x s) in *. set (n := slope x) in *.
  pose proof (short_pos contraction optimism sufficient initial max_contractions L HL Hs) as Hsp.
  destruct Hcon as (C1 & C2). pose proof Hs as (Hb & Hsig & Hinit & Hopt & Hm).
  set (bm := contraction ^ Z.to_nat (max_contractions)) in *.
  assert (Hbm : 0 < bm) by (apply pow_lt; lra).
  assert (Hen : e ^ 2 <= n ^ 2) by (simpl; nra). assert (He2 : 0 < e ^ 2) by (simpl; nra).
  pose proof (slope_bound M prob L HL Hsm bound x Hbound) as SB. fold n in SB.
  pose proof (Hdom x) as PL. fold n in PL.
  assert (gap : 0 < cost x - bound) by nra.
  assert (nS : n <= sqrt (2 * L * D)).
  { rewrite <- (sqrt_pow2 n) by lra. apply sqrt_le_1; [simpl; nra|nra|]. nra. }
  assert (Th1 : theta <= 2 * mu * sufficient * short_step contraction sufficient L) by apply Rmin_l.
  assert (Th2 : theta <= mu * initial / sqrt (2 * L * D)) by apply Rmin_r.
  assert (Thp : 0 < theta).
  { unfold bt_share. apply Rmin_glb_lt; [repeat apply Rmult_lt_0_compat; lra|]. apply Rdiv_lt_0_compat; nra. }
  assert (Fin : theta * (cost x - bound) <= cost x - cost y -> 0 <= 1 - theta /\ cost y <= cost x /\
     cost y - bound <= (1 - theta) * (cost x - bound)).
  { intros H. pose proof (Hbound y). split; [|split; nra]. apply Rmult_le_reg_r with (cost x - bound); nra. }
  assert (Long : forall a, short_step contraction sufficient L <= a -> cost y <= cost x - sufficient * a * n ^ 2 ->
     theta * (cost x - bound) <= cost x - cost y).
  { intros a Ha Hy.
    apply Rle_trans with (2 * mu * sufficient * short_step contraction sufficient L * (cost x - bound)).
    { apply Rmult_le_compat_r; lra. }
    assert (sufficient * short_step contraction sufficient L * (2 * mu * (cost x - bound)) <= sufficient * a * n ^ 2).
    { apply Rmult_le_compat; try nra. }
    nra. }
  destruct (sd_ls s) as [old|] eqn:El.
  - destruct I3 as (I3 & I4 & I5). set (a0 := 2 * (old - cost x) / n ^ 2 * optimism).
    assert (dec : theta * (cost x - bound) <= old - cost x) by nra.
    assert (decp : 0 < old - cost x) by nra.
    assert (Ha0 : 0 < a0).
    { unfold a0. apply Rmult_lt_0_compat; [|lra]. apply Rdiv_lt_0_compat; lra. }
    destruct (search_progress M prob contraction optimism sufficient initial max_contractions L HL Hs Hsm Hneg
      (Some old) x a0 st step y calls) as (-> & a & -> & Ha & Hy & Hc); auto.
    + fold n; lra.
    + fold n. exists (2 * (old - cost x) / n ^ 2). split; [|reflexivity].
      simpl. unfold Rdiv_res. destruct (Req_EM_T (- (n * n)) 0); [exfalso; nra|]. f_equal. field. nra.
    + fold bm. apply Rle_trans with (2 := C2). apply Rmult_le_compat_l; [lra|].
      unfold a0. replace (2 * (old - cost x) / n ^ 2 * optimism) with (2 * optimism * (old - cost x) * / n ^ 2) by (field; nra).
      unfold Rdiv. pose proof (Hbound x).
      apply Rmult_le_compat; [apply Rmult_le_pos; nra|left; apply Rinv_0_lt_compat; lra| |apply Rinv_le_contravar; lra].
      apply Rmult_le_compat_l; lra.
    + fold n in Hy, Hc. split; [reflexivity|]. apply Fin. destruct Hc as [Hc|(-> & Hc)].
      * apply (Long a); auto.
      * assert (Ea : a0 / 2 * n ^ 2 = optimism * (old - cost x)) by (unfold a0; field; nra). nra.
  - set (a0 := initial / n).
    assert (Ha0 : 0 < a0) by (apply Rdiv_lt_0_compat; lra).
    destruct (search_progress M prob contraction optimism sufficient initial max_contractions L HL Hs Hsm Hneg
      None x a0 st step y calls) as (-> & a & -> & Ha & Hy & Hc); auto.
    + fold n; lra.
    + fold n. simpl. unfold Rdiv_res. destruct (Req_EM_T n 0); [exfalso; lra|]. reflexivity.
    + fold bm. apply Rle_trans with (2 := C1). apply Rmult_le_compat_l; [lra|].
      unfold a0, Rdiv. apply Rmult_le_compat_l; [lra|]. apply Rinv_le_contravar; lra.
    + fold n in Hy, Hc. split; [reflexivity|]. apply Fin. destruct Hc as [Hc|(-> & Hc)].
      * apply (Long a); auto.
      * assert (Ea : a0 / 2 * n ^ 2 = initial * n / 2) by (unfold a0; field; lra).
        apply Rle_trans with (mu * initial / sqrt (2 * L * D) * (cost x - bound)); [apply Rmult_le_compat_r; lra|].
        apply Rle_trans with (initial * n / 2); [|lra].
        set (q := sqrt (2 * L * D)) in *. apply Rmult_le_reg_r with q; [lra|].
        replace (mu * initial / q * (cost x - bound) * q) with (mu * initial * (cost x - bound)) by (field; lra).
        assert (initial * (2 * mu * (cost x - bound)) <= initial * (n * q)).
        { apply Rmult_le_compat_l; [lra|]. apply Rle_trans with (1 := PL). simpl. nra. }
        lra.
Qed.

Lemma bt_linear_run r ls : sd_run prob (bt_searcher M p) sp clock None x0 = Ok (r, ls) -> BPost r.
Proof.
  unfold sd_run. destruct (format_length_check sp); [|discriminate]. cbn [bind].
  assert (B : forall s o, BInv s -> sd_body prob (bt_searcher M p) sp clock (clock 0%nat) s = Ok o ->
     match o with Continue s' => BInv s' | Stop rl => BPost (fst rl) end).
  { intros s o I E. unfold sd_body in E. cbv zeta in E.
    destruct (ls_search (bt_searcher M p) _ _ _ _ _ _) as [[[st [step y]] calls]|] eqn:Es; [|discriminate].
    assert (Pow : e <= slope (sd_x s) -> cost y - bound <= (1 - theta) ^ Z.to_nat (sd_iteration s + 1) * D).
    { intros Hn. destruct (bt_linear_step s st step y calls I Hn Es) as (_ & H1 & _ & H2). destruct I as (I1 & I2 & _).
      replace (Z.to_nat (sd_iteration s + 1)) with (S (Z.to_nat (sd_iteration s))) by lia. simpl.
      eapply Rle_trans; [exact H2|]. rewrite Rmult_assoc. apply Rmult_le_compat_l; auto. }
    cbn [bind] in E. destruct (check_stopping sp clock _ _ _ _ _ _) as [reason|] eqn:Ec.
    - injection E as <-. unfold BPost. simpl fst. cbn [r_point r_iterations].
      destruct (Rlt_le_dec (slope (sd_x s)) e) as [Hn|Hn].
      + eapply Rle_trans; [|apply Rmax_l].
        assert (cost y <= cost (sd_x s)).
        { destruct (bt_no_worse M p (sd_ls s) _ _ _ _ _ _ _ _ _ Es) as [[-> _]|H]; [lra|]. now apply Rltb_false in H. }
        pose proof (Hdom (sd_x s)) as PL. simpl in PL.
        assert (P0 : 0 <= 2 * mu * (cost (sd_x s) - bound)).
        { pose proof (Hbound (sd_x s)). apply Rmult_le_pos; lra. }
        apply Rmult_le_reg_r with (2 * mu); [lra|].
        replace (e ^ 2 / (2 * mu) * (2 * mu)) with (e ^ 2) by (field; lra).
        pose proof (Hnn (sd_x s) (p_grad prob (sd_x s))) as N0. simpl in N0, Hn, H |- *. nra.
      + eapply Rle_trans; [|apply Rmax_r]. apply Pow. exact Hn.
    - injection E as <-. apply not_stopped in Ec. specialize (Pow Ec).
      destruct (bt_linear_step s st step y calls I Ec Es) as (-> & H1 & H2 & H3). destruct I as (I1 & I2 & I3 & _).
      unfold BInv; cbn [sd_iteration sd_x sd_ls]. split; [lia|]. split; [exact Pow|]. simpl in *. split; [lra|].
      split; [exact H3|]. lra. }
  intros H. refine (loop_inv _ BInv (fun rl => BPost (fst rl)) _ _ _ _ (r, ls) _ H).
  - intros s s' I E. exact (B s _ I E).
  - intros s rl I E. exact (B s _ I E).
  - unfold BInv; simpl. repeat split; try lia; lra.
Qed.

(** The number of iterations is at most logarithmic in the tolerance. *)
Lemma bt_log_run r ls : sd_run prob (bt_searcher M p) sp clock None x0 = Ok (r, ls) -> (2 <= r_iterations r)%Z ->
  e ^ 2 <= 2 * L * ((1 - theta) ^ Z.to_nat (r_iterations r - 2) * D).
Proof.
  unfold sd_run. destruct (format_length_check sp); [|discriminate]. cbn [bind]. intros H.
  pose (J := fun s : @sd_state Rnum M (bt_searcher M p) => BInv s /\
    ((0 < sd_iteration s)%Z -> e ^ 2 <= 2 * L * ((1 - theta) ^ Z.to_nat (sd_iteration s - 1) * D))).
  pose (Q := fun rl : result Rnum (pt M) * ls_state (bt_searcher M p) => (2 <= r_iterations (fst rl))%Z ->
    e ^ 2 <= 2 * L * ((1 - theta) ^ Z.to_nat (r_iterations (fst rl) - 2) * D)).
  assert (B : forall s o, J s -> sd_body prob (bt_searcher M p) sp clock (clock 0%nat) s = Ok o ->
     match o with Continue s' => J s' | Stop rl => Q rl end).
  { intros s o (I & I') E. unfold sd_body in E. cbv zeta in E.
    destruct (ls_search (bt_searcher M p) _ _ _ _ _ _) as [[[st [step y]] calls]|] eqn:Es; [|discriminate].
    cbn [bind] in E. destruct (check_stopping sp clock _ _ _ _ _ _) as [reason|] eqn:Ec.
    - injection E as <-. unfold Q. simpl fst. cbn [r_iterations]. intros Hk.
      replace (sd_iteration s + 1 - 2)%Z with (sd_iteration s - 1)%Z by lia. apply I'. lia.
    - injection E as <-. apply not_stopped in Ec.
      destruct (bt_linear_step s st step y calls I Ec Es) as (-> & H1 & H2 & H3).
      pose proof (slope_bound M prob L HL Hsm bound (sd_x s) Hbound) as SB. destruct I as (I1 & I2 & I3 & _).
      split.
      + unfold BInv; cbn [sd_iteration sd_x sd_ls]. split; [lia|]. split; [|split].
        * replace (Z.to_nat (sd_iteration s + 1)) with (S (Z.to_nat (sd_iteration s))) by lia. simpl.
          eapply Rle_trans; [exact H3|]. rewrite Rmult_assoc. apply Rmult_le_compat_l; auto.
        * simpl in *. lra.
        * split; [exact H3|]. simpl in *. lra.
      + cbn [sd_iteration]. intros _. replace (sd_iteration s + 1 - 1)%Z with (sd_iteration s) by lia.
        apply Rle_trans with (2 * L * (cost (sd_x s) - bound)); [|apply Rmult_le_compat_l; lra].
        eapply Rle_trans; [|exact SB]. simpl in Ec |- *. nra. }
  refine (loop_inv _ J Q _ _ _ _ (r, ls) _ H).
  - intros s s' I E. exact (B s _ I E).
  - intros s rl I E. exact (B s _ I E).
  - split; [unfold BInv; simpl; repeat split; try lia; lra|]. simpl. lia.
Qed.
End Backtracking.

Section Adaptive.
Variables (M : Mfd Rnum) (prob : OptProblem M).
Variables (contraction sufficient initial : R) (max_contractions : Z).
Local Notation p := (@mkAd Rnum contraction sufficient max_contractions initial).
Local Notation cost := (p_cost prob : pt M -> R).
Local Notation slope x := (m_norm M x (p_grad prob x) : R).
Variables (L mu bound : R) (sp : stop_params Rnum) (clock : nat -> R) (x0 : pt M).
Local Notation e := (min_gradient_norm sp : R).
Local Notation D := (cost x0 - bound).
Local Notation low := (ad_factor contraction sufficient initial L D).
Local Notation theta := (ad_share contraction sufficient initial L D mu).
Hypotheses (HL : 0 < L) (Hs : ad_sensible contraction sufficient initial max_contractions)
  (Hsm : smooth_downhill M prob L) (Hneg : forall x v, m_norm M x (t_neg M v) = m_norm M x v :> R)
  (Hnn : forall x v, 0 <= (m_norm M x v : R)) (Hbound : forall x, bound <= cost x) (Hmu : 0 < mu)
  (Hdom : gradient_dominated M prob mu bound)
  (He : 0 < e) (Hcon : ad_enough contraction sufficient initial max_contractions L e D).

Definition LInv (s : @sd_state Rnum M (ad_searcher M p)) : Prop :=
  (0 <= sd_iteration s)%Z /\ cost (sd_x s) - bound <= (1 - theta) ^ Z.to_nat (sd_iteration s) * D /\
  cost (sd_x s) <= cost x0 /\
  match sd_ls s with
  | None => True
  | Some old => 0 < old /\ low <= old /\ old <= 2 * D / (sufficient * e ^ 2)
  end.
Definition LPost (r : result Rnum (pt M)) : Prop :=
  cost (r_point r) - bound <= Rmax (e ^ 2 / (2 * mu)) ((1 - theta) ^ Z.to_nat (r_iterations r) * D).

Lemma ad_linear_step s st step y calls : LInv s -> e <= slope (sd_x s) ->
  ad_search M p (sd_ls s) (p_cost prob) (sd_x s) (t_neg M (p_grad prob (sd_x s))) (cost (sd_x s))
    (- (slope (sd_x s) * slope (sd_x s))) = Ok (st, (step, y), calls) ->
  (exists old, st = Some old /\ 0 < old /\ low <= old /\ old <= 2 * D / (sufficient * e ^ 2)) /\
  0 <= 1 - theta /\ cost y <= cost (sd_x s) /\ cost y - bound <= (1 - theta) * (cost (sd_x s) - bound).
Proof.
  intros (I1 & I2 & Hx & I3) Hn E. set (x := sd_x s) in *. set (n := slope x) in *.
  destruct Hcon as (C1 & C2). pose proof (ad_safe_pos contraction sufficient initial max_contractions L HL Hs) as Hsafe.
  pose proof Hs as (Hb & Hsig & Hinit & Hm).
  set (bm := contraction ^ Z.to_nat (max_contractions)) in *.
  assert (Hbm : 0 < bm) by (apply pow_lt; lra).
  assert (Hen : e ^ 2 <= n ^ 2) by (simpl; nra). assert (He2 : 0 < e ^ 2) by (simpl; nra).
  pose proof (slope_bound M prob L HL Hsm bound x Hbound) as SB. fold n in SB.
  pose proof (Hdom x) as PL. fold n in PL.
  assert (gap : 0 < cost x - bound) by nra.
  assert (nS : n <= sqrt (2 * L * D)).
  { rewrite <- (sqrt_pow2 n) by lra. apply sqrt_le_1; [simpl; nra|nra|]. nra. }
  assert (lowp : 0 < low).
  { unfold ad_factor. apply Rmin_glb_lt; [nra|]. apply Rdiv_lt_0_compat; lra. }
  assert (A0 : exists a0, 0 < a0 /\ low <= a0 /\ @ad_initial_step Rnum initial (sd_ls s) n a0 /\ bm * a0 <= safe_step sufficient L).
  { destruct (sd_ls s) as [old|].
    - destruct I3 as (I3 & I4 & I5). exists old. repeat split; auto.
      apply Rle_trans with (2 := C2). apply Rmult_le_compat_l; lra.
    - exists (initial / n). split; [apply Rdiv_lt_0_compat; lra|]. split; [|split].
      + eapply Rle_trans; [apply Rmin_r|]. unfold Rdiv. apply Rmult_le_compat_l; [lra|]. apply Rinv_le_contravar; lra.
      + simpl. unfold Rdiv_res. destruct (Req_EM_T n 0); [exfalso; lra|]. reflexivity.
      + apply Rle_trans with (2 := C1). apply Rmult_le_compat_l; [lra|].
        unfold Rdiv. apply Rmult_le_compat_l; [lra|]. apply Rinv_le_contravar; lra. }
  destruct A0 as (a0 & Ha0 & La0 & Hi & Hc).
  destruct (ad_search_progress M prob contraction sufficient initial max_contractions L HL Hs Hsm Hneg
    (sd_ls s) x a0 st step y calls) as (a & -> & Ha & Hst & Hy & Hlow); auto.
  { fold n; lra. }
  fold n in Hy.
  assert (La : low <= a).
  { destruct Hlow as [H| ->]; [|exact La0]. eapply Rle_trans; [apply Rmin_l|exact H]. }
  assert (Ua : a <= D / (sufficient * e ^ 2)).
  { apply Rmult_le_reg_r with (sufficient * e ^ 2); [nra|].
    replace (D / (sufficient * e ^ 2) * (sufficient * e ^ 2)) with D by (field; split; nra).
    pose proof (Hbound y). assert (sufficient * a * e ^ 2 <= sufficient * a * n ^ 2).
    { apply Rmult_le_compat_l; [nra|lra]. }
    lra. }
  split.
  { assert (E2 : 2 * D / (sufficient * e ^ 2) = 2 * (D / (sufficient * e ^ 2))) by (unfold Rdiv; ring).
    rewrite E2. destruct Hst as [-> | ->]; eexists; (split; [reflexivity|]); repeat split; lra. }
  assert (H : theta * (cost x - bound) <= cost x - cost y).
  { unfold ad_share. assert (sufficient * low * (2 * mu * (cost x - bound)) <= sufficient * a * n ^ 2); [|nra].
    apply Rmult_le_compat; nra. }
  assert (Thp : 0 < theta) by (unfold ad_share; repeat apply Rmult_lt_0_compat; lra).
  pose proof (Hbound y). split; [|split; nra]. apply Rmult_le_reg_r with (cost x - bound); nra.
Qed.

Lemma ad_linear_run r ls : sd_run prob (ad_searcher M p) sp clock None x0 = Ok (r, ls) -> LPost r.
Proof.
  unfold sd_run. destruct (format_length_check sp); [|discriminate]. cbn [bind].
  assert (B : forall s o, LInv s -> sd_body prob (ad_searcher M p) sp clock (clock 0%nat) s = Ok o ->
     match o with Continue s' => LInv s' | Stop rl => LPost (fst rl) end).
  { intros s o I E. unfold sd_body in E. cbv zeta in E.
    destruct (ls_search (ad_searcher M p) _ _ _ _ _ _) as [[[st [step y]] calls]|] eqn:Es; [|discriminate].
    assert (Pow : e <= slope (sd_x s) -> cost y - bound <= (1 - theta) ^ Z.to_nat (sd_iteration s + 1) * D).
    { intros Hn. destruct (ad_linear_step s st step y calls I Hn Es) as (_ & H1 & _ & H2). destruct I as (I1 & I2 & _).
      replace (Z.to_nat (sd_iteration s + 1)) with (S (Z.to_nat (sd_iteration s))) by lia. simpl.
      eapply Rle_trans; [exact H2|]. rewrite Rmult_assoc. apply Rmult_le_compat_l; auto. }
    cbn [bind] in E. destruct (check_stopping sp clock _ _ _ _ _ _) as [reason|] eqn:Ec.
    - injection E as <-. unfold LPost. simpl fst. cbn [r_point r_iterations].
      destruct (Rlt_le_dec (slope (sd_x s)) e) as [Hn|Hn].
      + eapply Rle_trans; [|apply Rmax_l].
        assert (cost y <= cost (sd_x s)).
        { destruct (ad_no_worse M p (sd_ls s) _ _ _ _ _ _ _ _ _ Es) as [[-> _]|H]; [lra|]. now apply Rltb_false in H. }
        pose proof (Hdom (sd_x s)) as PL. simpl in PL.
        assert (P0 : 0 <= 2 * mu * (cost (sd_x s) - bound)).
        { pose proof (Hbound (sd_x s)). apply Rmult_le_pos; lra. }
        apply Rmult_le_reg_r with (2 * mu); [lra|].
        replace (e ^ 2 / (2 * mu) * (2 * mu)) with (e ^ 2) by (field; lra).
        pose proof (Hnn (sd_x s) (p_grad prob (sd_x s))) as N0. simpl in N0, Hn, H |- *. nra.
      + eapply Rle_trans; [|apply Rmax_r]. apply Pow. exact Hn.
    - injection E as <-. apply not_stopped in Ec. specialize (Pow Ec).
      destruct (ad_linear_step s st step y calls I Ec Es) as ((old & -> & Ho) & H1 & H2 & H3). destruct I as (I1 & I2 & I3 & _).
      unfold LInv; cbn [sd_iteration sd_x sd_ls]. split; [lia|]. split; [exact Pow|]. simpl in *. split; [lra|]. exact Ho. }
  intros H. refine (loop_inv _ LInv (fun rl => LPost (fst rl)) _ _ _ _ (r, ls) _ H).
  - intros s s' I E. exact (B s _ I E).
  - intros s rl I E. exact (B s _ I E).
  - unfold LInv; simpl. repeat split; try lia; lra.
Qed.

(** The number of iterations is at most logarithmic in the tolerance. *)
Lemma ad_log_run r ls : sd_run prob (ad_searcher M p) sp clock None x0 = Ok (r, ls) -> (2 <= r_iterations r)%Z ->
  e ^ 2 <= 2 * L * ((1 - theta) ^ Z.to_nat (r_iterations r - 2) * D).
Proof.
  unfold sd_run. destruct (format_length_check sp); [|discriminate]. cbn [bind]. intros H.
  pose (J := fun s : @sd_state Rnum M (ad_searcher M p) => LInv s /\
    ((0 < sd_iteration s)%Z -> e ^ 2 <= 2 * L * ((1 - theta) ^ Z.to_nat (sd_iteration s - 1) * D))).
  pose (Q := fun rl : result Rnum (pt M) * ls_state (ad_searcher M p) => (2 <= r_iterations (fst rl))%Z ->
    e ^ 2 <= 2 * L * ((1 - theta) ^ Z.to_nat (r_iterations (fst rl) - 2) * D)).
  assert (B : forall s o, J s -> sd_body prob (ad_searcher M p) sp clock (clock 0%nat) s = Ok o ->
     match o with Continue s' => J s' | Stop rl => Q rl end).
  { intros s o (I & I') E. unfold sd_body in E. cbv zeta in E.
    destruct (ls_search (ad_searcher M p) _ _ _ _ _ _) as [[[st [step y]] calls]|] eqn:Es; [|discriminate].
    cbn [bind] in E. destruct (check_stopping sp clock _ _ _ _ _ _) as [reason|] eqn:Ec.
    - injection E as <-. unfold Q. simpl fst. cbn [r_iterations]. intros Hk.
      replace (sd_iteration s + 1 - 2)%Z with (sd_iteration s - 1)%Z by lia. apply I'. lia.
    - injection E as <-. apply not_stopped in Ec.
      destruct (ad_linear_step s st step y calls I Ec Es) as ((old & -> & Ho) & H1 & H2 & H3).
      pose proof (slope_bound M prob L HL Hsm bound (sd_x s) Hbound) as SB. destruct I as (I1 & I2 & I3 & _).
      split.
      + unfold LInv; cbn [sd_iteration sd_x sd_ls]. split; [lia|]. split; [|split].
        * replace (Z.to_nat (sd_iteration s + 1)) with (S (Z.to_nat (sd_iteration s))) by lia. simpl.
          eapply Rle_trans; [exact H3|]. rewrite Rmult_assoc. apply Rmult_le_compat_l; auto.
        * simpl in *. lra.
        * exact Ho.
      + cbn [sd_iteration]. intros _. replace (sd_iteration s + 1 - 1)%Z with (sd_iteration s) by lia.
        apply Rle_trans with (2 * L * (cost (sd_x s) - bound)); [|apply Rmult_le_compat_l; lra].
        eapply Rle_trans; [|exact SB]. simpl in Ec |- *. nra. }
  refine (loop_inv _ J Q _ _ _ _ (r, ls) _ H).
  - intros s s' I E. exact (B s _ I E).
  - intros s rl I E. exact (B s _ I E).
  - split; [unfold LInv; simpl; repeat split; try lia; lra|]. simpl. lia.
Qed.

(** A run raises only if the gradient vanishes at the start. *)
Lemma ad_body_ok (s : @sd_state Rnum M (ad_searcher M p)) : sd_ls s <> None \/ slope (sd_x s) <> 0 ->
  match sd_body prob (ad_searcher M p) sp clock (clock 0%nat) s with
  | Raise _ => False
  | Ok (Continue s') => sd_ls s' <> None /\ sd_iteration s' = (sd_iteration s + 1)%Z /\ (sd_iteration s' < max_iterations sp)%Z
  | Ok (Stop _) => True
  end.
Proof.
  intros H.
  assert (A : exists a0, @ad_initial_step Rnum initial (sd_ls s) (slope (sd_x s)) a0).
  { destruct (sd_ls s) as [old|]; simpl; [eauto|]. unfold Rdiv_res.
    destruct (Req_EM_T (slope (sd_x s)) 0); [destruct H; congruence|eauto]. }
  destruct A as (a0 & Ha).
  unfold sd_body. cbv zeta. cbn [ls_search ad_searcher].
  match goal with |- context [ad_search M p ?o ?f ?x ?d ?f0 ?df0] =>
    destruct (ad_search_spec M p o f x d f0 df0 a0) as (J & _ & E) end.
  { rewrite Hneg. exact Ha. }
  cbv zeta in E. rewrite E. cbn [bind].
  destruct (check_stopping sp clock _ _ _ _ _ _) eqn:Ec; [exact I|]. cbn [sd_ls sd_iteration].
  split; [discriminate|]. split; [reflexivity|].
  unfold check_stopping in Ec. cbv zeta in Ec.
  match type of Ec with context [if ?b then _ else _] => destruct b; [discriminate|] end.
  destruct (Z.leb_spec (max_iterations sp) (sd_iteration s + 1)); [discriminate|assumption].
Qed.
Lemma ad_run_ok : (verbosity sp < 2)%Z -> slope x0 <> 0 ->
  exists out, sd_run prob (ad_searcher M p) sp clock None x0 = Ok out.
Proof.
  intros Hv Hz. unfold sd_run.
  replace (format_length_check sp) with (@Ok unit tt).
  2:{ unfold format_length_check. destruct (Z.leb_spec 2 (verbosity sp)); [lia|reflexivity]. }
  cbn [bind].
  assert (G : forall fuel (s : @sd_state Rnum M (ad_searcher M p)), sd_ls s <> None \/ slope (sd_x s) <> 0 -> (0 <= sd_iteration s)%Z ->
     (Z.to_nat (max_iterations sp) < fuel + Z.to_nat (sd_iteration s))%nat ->
     (sd_iteration s = 0%Z \/ (sd_iteration s < max_iterations sp)%Z) ->
     exists out, loop (sd_body prob (ad_searcher M p) sp clock (clock 0%nat)) fuel s = Ok out).
  { induction fuel as [|fuel IH]; intros s Hc Hi Hf Hr.
    - exfalso. lia.
    - simpl. pose proof (ad_body_ok s Hc) as B.
      destruct (sd_body prob (ad_searcher M p) sp clock (clock 0%nat) s) as [[s'|rl]|ex'].
      + simpl. destruct B as (B1 & B2 & B3). apply IH; auto; lia.
      + simpl. eauto.
      + destruct B. }
  apply G; simpl; auto; unfold iter_fuel; lia.
Qed.
End Adaptive.

(** Backtracking: the cost of the point returned exceeds the bound by at most [e^2 / (2 mu)], or by at most
    [(1 - share)^iterations] times what the cost at the start did. *)
Theorem C115_backtracking : forall (M : Mfd Rnum) (prob : OptProblem M) (contraction optimism sufficient initial : R)
  (max_contractions : Z) (L mu bound : R) (sp : stop_params Rnum) (clock : nat -> R) x0 r ls,
  let e := (min_gradient_norm sp : R) in let D := (p_cost prob x0 : R) - bound in
  let share := bt_share contraction sufficient initial L D mu in
  0 < L -> sensible contraction optimism sufficient initial max_contractions -> smooth_downhill M prob L ->
  (forall x v, m_norm M x (t_neg M v) = m_norm M x v) -> (forall x v, 0 <= m_norm M x v) ->
  (forall x, bound <= p_cost prob x) -> 0 < mu -> gradient_dominated M prob mu bound -> 0 < e ->
  enough_contractions contraction optimism sufficient initial max_contractions L e D ->
  sd_run prob (bt_searcher M (@mkBt Rnum contraction optimism sufficient max_contractions initial)) sp clock None x0 = Ok (r, ls) ->
  (p_cost prob (r_point r) : R) - bound <= Rmax (e ^ 2 / (2 * mu)) ((1 - share) ^ Z.to_nat (r_iterations r) * D).
Proof.
  intros M prob c o su i m L mu bound sp clock x0 r ls e D share HL Hs Hsm Hn Hnn Hb Hmu Hd He Hc E.
  exact (bt_linear_run M prob c o su i m L mu bound sp clock x0 HL Hs Hsm Hn Hnn Hb Hmu Hd He Hc r ls E).
Qed.
Print Assumptions C115_backtracking.

Theorem C115_adaptive : forall (M : Mfd Rnum) (prob : OptProblem M) (contraction sufficient initial : R)
  (max_contractions : Z) (L mu bound : R) (sp : stop_params Rnum) (clock : nat -> R) x0 r ls,
  let e := (min_gradient_norm sp : R) in let D := (p_cost prob x0 : R) - bound in
  let share := ad_share contraction sufficient initial L D mu in
  0 < L -> ad_sensible contraction sufficient initial max_contractions -> smooth_downhill M prob L ->
  (forall x v, m_norm M x (t_neg M v) = m_norm M x v) -> (forall x v, 0 <= m_norm M x v) ->
  (forall x, bound <= p_cost prob x) -> 0 < mu -> gradient_dominated M prob mu bound -> 0 < e ->
  ad_enough contraction sufficient initial max_contractions L e D ->
  sd_run prob (ad_searcher M (@mkAd Rnum contraction sufficient max_contractions initial)) sp clock None x0 = Ok (r, ls) ->
  (p_cost prob (r_point r) : R) - bound <= Rmax (e ^ 2 / (2 * mu)) ((1 - share) ^ Z.to_nat (r_iterations r) * D).
Proof.
  intros M prob c su i m L mu bound sp clock x0 r ls e D share HL Hs Hsm Hn Hnn Hb Hmu Hd He Hc E.
  exact (ad_linear_run M prob c su i m L mu bound sp clock x0 HL Hs Hsm Hn Hnn Hb Hmu Hd He Hc r ls E).
Qed.
Print Assumptions C115_adaptive.

(** The shares are positive, and less than 1: the excess shrinks.  ([D = 0] is the start at the minimum.) *)
Theorem C115_shares : forall (M : Mfd Rnum) (prob : OptProblem M) (contraction optimism sufficient initial : R)
  (max_contractions : Z) (L mu bound : R) x0,
  let D := (p_cost prob x0 : R) - bound in
  0 < L -> sensible contraction optimism sufficient initial max_contractions -> smooth_downhill M prob L ->
  (forall x, bound <= p_cost prob x) -> 0 < mu -> gradient_dominated M prob mu bound -> 0 < D ->
  0 < bt_share contraction sufficient initial L D mu < 1 /\ 0 < ad_share contraction sufficient initial L D mu < 1.
Proof.
  intros M prob c o su i m L mu bound x0 D HL Hs Hsm Hb Hmu Hd HD.
  pose proof (slope_bound M prob L HL Hsm bound x0 Hb) as SB. pose proof (Hd x0) as PL. fold D in SB, PL.
  assert (muL : mu <= L).
  { apply Rmult_le_reg_r with (2 * D); [lra|]. lra. }
  pose proof (short_pos c o su i m L HL Hs) as Sp. pose proof Hs as (Hc & Hsu & Hi & _).
  assert (0 < sqrt (2 * L * D)) by (apply sqrt_lt_R0; nra).
  assert (Sf : 0 < safe_step su L) by (unfold safe_step; apply Rdiv_lt_0_compat; lra).
  assert (SL : c * safe_step su L * L < 2 * (1 - su)).
  { replace (2 * (1 - su)) with (safe_step su L * L) by (unfold safe_step; field; lra).
    assert (0 < safe_step su L * L) by (apply Rmult_lt_0_compat; lra). rewrite Rmult_assoc.
    generalize dependent (safe_step su L * L). intros q Hq. nra. }
  assert (K : forall a, 0 < a -> a * L < 2 * (1 - su) -> 2 * mu * su * a < 1).
  { intros a Ha HaL. assert (0 < su * a) by (apply Rmult_lt_0_compat; lra).
    apply Rle_lt_trans with (2 * su * (a * L)); [clear - H0 muL; nra|].
    apply Rlt_le_trans with (2 * su * (2 * (1 - su))); [apply Rmult_lt_compat_l; lra|].
    pose proof (pow2_ge_0 (1 - 2 * su)). clear - H1. nra. }
  split.
  - split.
    + unfold bt_share. apply Rmin_glb_lt; [repeat apply Rmult_lt_0_compat; lra|]. apply Rdiv_lt_0_compat; [apply Rmult_lt_0_compat|]; lra.
    + unfold bt_share. eapply Rle_lt_trans; [apply Rmin_l|]. apply K; [exact Sp|].
      pose proof (Rmin_l (c * safe_step su L) (1 / L)) as Q. fold (short_step c su L) in Q.
      apply Rle_lt_trans with (2 := SL). apply Rmult_le_compat_r; lra.
  - assert (F : 0 < ad_factor c su i L D) by (unfold ad_factor; apply Rmin_glb_lt; [apply Rmult_lt_0_compat; lra|apply Rdiv_lt_0_compat; lra]).
    split; [unfold ad_share; repeat apply Rmult_lt_0_compat; lra|].
    unfold ad_share. apply K; [exact F|].
    pose proof (Rmin_l (c * safe_step su L) (i / sqrt (2 * L * D))) as Q. fold (ad_factor c su i L D) in Q.
    apply Rle_lt_trans with (2 := SL). apply Rmult_le_compat_r; lra.
Qed.
Print Assumptions C115_shares.

Lemma logarithmic L D share e k : 0 < L -> 0 < D -> 0 < share < 1 -> 0 < e -> (0 <= k)%Z ->
  e ^ 2 <= 2 * L * ((1 - share) ^ Z.to_nat k * D) -> share * IZR k <= ln (2 * L * D / e ^ 2).
Proof.
  intros HL HD Hs He Hk H. assert (He2 : 0 < e ^ 2) by (apply pow_lt; lra).
  assert (HLD : 0 < L * D) by (apply Rmult_lt_0_compat; lra).
  assert (P : (1 - share) ^ Z.to_nat k <= exp (- (share * IZR k))).
  { clear H. rewrite <- (Z2Nat.id k Hk) at 2. rewrite <- INR_IZR_INZ. induction (Z.to_nat k) as [|j IH].
    - simpl. rewrite Rmult_0_r, Ropp_0, exp_0. lra.
    - rewrite S_INR. replace (- (share * (INR j + 1))) with (- share + - (share * INR j)) by ring. rewrite exp_plus.
      simpl. apply Rmult_le_compat; [lra|apply pow_le; lra| |exact IH].
      pose proof (exp_ineq1 (- share)). lra. }
  assert (Q : exp (share * IZR k) <= 2 * L * D / e ^ 2).
  { apply Rmult_le_reg_r with (e ^ 2); [lra|]. replace (2 * L * D / e ^ 2 * e ^ 2) with (2 * L * D) by (field; lra).
    apply Rle_trans with (exp (share * IZR k) * (2 * L * D * exp (- (share * IZR k)))).
    - apply Rmult_le_compat_l; [left; apply exp_pos|]. apply Rle_trans with (1 := H).
      replace (2 * L * ((1 - share) ^ Z.to_nat k * D)) with (2 * (L * D) * (1 - share) ^ Z.to_nat k) by ring.
      replace (2 * L * D) with (2 * (L * D)) by ring. apply Rmult_le_compat_l; lra.
    - rewrite exp_Ropp. right. field. apply Rgt_not_eq, exp_pos. }
  rewrite <- (ln_exp (share * IZR k)). destruct (Rle_lt_or_eq_dec _ _ Q) as [Q'|Q'].
  - left. apply ln_increasing; [apply exp_pos|exact Q'].
  - right. now rewrite Q'.
Qed.
(** The number of iterations grows only with the logarithm of [1 / min_gradient_norm]. *)
Theorem C115_backtracking_iterations : forall (M : Mfd Rnum) (prob : OptProblem M) (contraction optimism sufficient initial : R)
  (max_contractions : Z) (L mu bound : R) (sp : stop_params Rnum) (clock : nat -> R) x0 r ls,
  let e := (min_gradient_norm sp : R) in let D := (p_cost prob x0 : R) - bound in
  let share := bt_share contraction sufficient initial L D mu in
  0 < L -> sensible contraction optimism sufficient initial max_contractions -> smooth_downhill M prob L ->
  (forall x v, m_norm M x (t_neg M v) = m_norm M x v) ->
  (forall x, bound <= p_cost prob x) -> 0 < mu -> gradient_dominated M prob mu bound -> 0 < e ->
  enough_contractions contraction optimism sufficient initial max_contractions L e D ->
  sd_run prob (bt_searcher M (@mkBt Rnum contraction optimism sufficient max_contractions initial)) sp clock None x0 = Ok (r, ls) ->
  (2 <= r_iterations r)%Z -> share * IZR (r_iterations r - 2) <= ln (2 * L * D / e ^ 2).
Proof.
  intros M prob c o su i m L mu bound sp clock x0 r ls e D share HL Hs Hsm Hn Hb Hmu Hd He Hc E Hk.
  pose proof (bt_log_run M prob c o su i m L mu bound sp clock x0 HL Hs Hsm Hn Hb Hmu Hd He Hc r ls E Hk) as H.
  fold e D share in H. assert (He2 : 0 < e ^ 2) by (apply pow_lt; exact He).
  assert (HD : 0 < D).
  { destruct (Rle_lt_or_eq_dec 0 D) as [|Z]; [unfold D; specialize (Hb x0); simpl in *; lra|assumption|].
    exfalso. rewrite <- Z, Rmult_0_r, Rmult_0_r in H. lra. }
  apply (logarithmic L D share e (r_iterations r - 2)); auto; [|lia].
  exact (proj1 (C115_shares M prob c o su i m L mu bound x0 HL Hs Hsm Hb Hmu Hd HD)).
Qed.
Print Assumptions C115_backtracking_iterations.
Theorem C115_adaptive_iterations : forall (M : Mfd Rnum) (prob : OptProblem M) (contraction sufficient initial : R)
  (max_contractions : Z) (L mu bound : R) (sp : stop_params Rnum) (clock : nat -> R) x0 r ls,
  let e := (min_gradient_norm sp : R) in let D := (p_cost prob x0 : R) - bound in
  let share := ad_share contraction sufficient initial L D mu in
  0 < L -> ad_sensible contraction sufficient initial max_contractions -> smooth_downhill M prob L ->
  (forall x v, m_norm M x (t_neg M v) = m_norm M x v) ->
  (forall x, bound <= p_cost prob x) -> 0 < mu -> gradient_dominated M prob mu bound -> 0 < e ->
  ad_enough contraction sufficient initial max_contractions L e D ->
  sd_run prob (ad_searcher M (@mkAd Rnum contraction sufficient max_contractions initial)) sp clock None x0 = Ok (r, ls) ->
  (2 <= r_iterations r)%Z -> share * IZR (r_iterations r - 2) <= ln (2 * L * D / e ^ 2).
Proof.
  intros M prob c su i m L mu bound sp clock x0 r ls e D share HL Hs Hsm Hn Hb Hmu Hd He Hc E Hk.
  pose proof (ad_log_run M prob c su i m L mu bound sp clock x0 HL Hs Hsm Hn Hb Hmu Hd He Hc r ls E Hk) as H.
  fold e D share in H. assert (He2 : 0 < e ^ 2) by (apply pow_lt; exact He).
  assert (HD : 0 < D).
  { destruct (Rle_lt_or_eq_dec 0 D) as [|Z]; [unfold D; specialize (Hb x0); simpl in *; lra|assumption|].
    exfalso. rewrite <- Z, Rmult_0_r, Rmult_0_r in H. lra. }
  apply (logarithmic L D share e (r_iterations r - 2)); auto; [|lia].
  exact (proj2 (C115_shares M prob c 1 su i m L mu bound x0 HL (conj (proj1 Hs) (conj (proj1 (proj2 Hs)) (conj (proj1 (proj2 (proj2 Hs))) (conj (Rle_refl 1) (proj2 (proj2 (proj2 Hs))))))) Hsm Hb Hmu Hd HD)).
Qed.
Print Assumptions C115_adaptive_iterations.

(** Unlike the default searcher (C97_no_other_failure), the adaptive one divides only in its first call: a run raises if and
    only if the gradient vanishes at the start. *)
Theorem C114_returns : forall (M : Mfd Rnum) (prob : OptProblem M) (contraction sufficient initial : R)
  (max_contractions : Z) (sp : stop_params Rnum) (clock : nat -> R) x0,
  let run := sd_run prob (ad_searcher M (@mkAd Rnum contraction sufficient max_contractions initial)) sp clock None x0 in
  (forall x v, m_norm M x (t_neg M v) = m_norm M x v) -> (verbosity sp < 2)%Z ->
  (m_norm M x0 (p_grad prob x0) <> 0 :> R -> exists out, run = Ok out) /\
  (m_norm M x0 (p_grad prob x0) = 0 :> R -> run = Raise ZeroDivisionError).
Proof.
  intros M prob c su i m sp clock x0 run Hn Hv. split; [exact (ad_run_ok M prob c su i m sp clock x0 Hn Hv)|].
  intros Hz. unfold run, sd_run.
  replace (format_length_check sp) with (@Ok unit tt).
  2:{ unfold format_length_check. destruct (Z.leb_spec 2 (verbosity sp)); [lia|reflexivity]. }
  cbn [bind]. unfold iter_fuel. simpl loop. unfold sd_body. cbv zeta. cbn [sd_x sd_ls ls_search ad_searcher].
  unfold ad_search. rewrite Hn, Hz. simpl. unfold Rdiv_res. destruct (Req_EM_T 0 0); [reflexivity|congruence].
Qed.
Print Assumptions C114_returns.

(** The cost [x^2] meets the hypotheses of both with [L = mu = 2]; its excess is a quarter of its squared slope. *)
Example C115_instance : gradient_dominated (E1 Rnum) (square Rnum) 2 0 /\ smooth_downhill (E1 Rnum) (square Rnum) 2 /\
  (forall x v, 0 <= m_norm (E1 Rnum) x v) /\ sensible (1 / 2) 2 (1 / 10000) 1 25 /\ ad_sensible (1 / 2) (1 / 2) 1 10 /\
  enough_contractions (1 / 2) 2 (1 / 10000) 1 25 2 (1 / 1000) 1 /\ ad_enough (1 / 2) (1 / 2) 1 10 2 (1 / 10) 1.
Proof.
  destruct C97_instance as (H1 & _ & _ & H2). destruct C114_instance as (H3 & _ & _ & _ & H4).
  split; [|repeat split; auto; try apply C97_defaults; try apply H3; try apply H2; try apply H4; intros; apply sqrt_pos].
  intros x. simpl. rewrite !Rmult_1_r, sqrt_sqrt by nra. nra.
Qed.
