(** C97: steepest descent with the default line searcher finds points with small gradients within an explicit number of
    iterations (exact arithmetic). *)
From Coq Require Import ZArith List Bool Reals Lra Lia Psatz.
From Verif Require Import Num_Model Num_Spec Num_Instances Num_Proofs LineSearch_Model LineSearch_Spec LineSearch_Proofs
  Optimizer_Model Euclid1.
Import ListNotations.
Local Open Scope R_scope.

Section Rate.
Variables (M : Mfd Rnum) (prob : OptProblem M).
(** the parameters of the line searcher *)
Variables (contraction optimism sufficient initial : R) (max_contractions : Z).
Local Notation p := (@mkBt Rnum contraction optimism sufficient max_contractions initial).
Local Notation cost := (p_cost prob : pt M -> R).
Local Notation slope x := (m_norm M x (p_grad prob x) : R).

(** The cost along a step against the gradient is below a parabola of curvature [L] (for instance: the
    gradient of the cost composed with the retraction is Lipschitz with constant [L]). *)
Definition smooth_downhill (L : R) : Prop := forall x t, 0 <= t ->
  cost (m_retr M x (t_scale M t (t_neg M (p_grad prob x)))) <= cost x - t * slope x ^ 2 + L / 2 * t ^ 2 * slope x ^ 2.

(** The parameters a user may choose: contraction in (0, 1), sufficient decrease in (0, 1), positive initial step
    size, optimism at least 1.  The defaults meet this. *)
Definition sensible : Prop :=
  0 < contraction < 1 /\ 0 < sufficient < 1 /\ 0 < initial /\ 1 <= optimism /\ (0 <= max_contractions)%Z.

(** Steps up to this length pass the test of sufficient decrease. *)
Definition safe_step (L : R) : R := 2 * (1 - sufficient) / L.
(** No accepted step needs to be shorter, unless the first one tried was. *)
Definition short_step (L : R) : R := Rmin (contraction * safe_step L) (1 / L).
(** the decrease of the cost in every iteration *)
Definition progress (L e : R) : R := Rmin (sufficient * short_step L * e ^ 2) (initial * e / 2).
(** every step is at least this long *)
Definition shortest (L e D : R) : R :=
  Rmin (short_step L * e) (Rmin (initial) (2 * optimism * progress L e / sqrt (2 * L * D))).
(** [max_iterations] contractions bring every initial step down to the safe one *)
Definition enough_contractions (L e D : R) : Prop :=
  contraction ^ Z.to_nat (max_contractions) * (initial / e) <= safe_step L /\
  contraction ^ Z.to_nat (max_contractions) * (2 * optimism * D / e ^ 2) <= safe_step L.

Variable (L : R).
Hypotheses (HL : 0 < L) (Hs : sensible) (Hsm : smooth_downhill L)
  (Hneg : forall x v, m_norm M x (t_neg M v) = m_norm M x v :> R).

Lemma contractedE (a : R) j : @contracted R (Rmult contraction) a j = contraction ^ j * a :> R.
Proof. induction j; simpl; [ring|]. rewrite IHj. ring. Qed.

Lemma safe_pos : 0 < safe_step L.
Proof. destruct Hs as (? & ? & _). unfold safe_step. apply Rdiv_lt_0_compat; lra. Qed.
Lemma short_pos : 0 < short_step L.
Proof.
  pose proof safe_pos. destruct Hs as (? & _). unfold short_step. apply Rmin_glb_lt; [nra|].
  apply Rdiv_lt_0_compat; lra.
Qed.
Lemma progress_pos e : 0 < e -> 0 < progress L e.
Proof.
  pose proof short_pos. destruct Hs as (? & ? & ? & _). intros He. unfold progress. apply Rmin_glb_lt; [|nra].
  apply Rmult_lt_0_compat; [nra|]. simpl; nra.
Qed.

(** One search. *)
Lemma search_progress (old : option R) x a0 st s y calls : 0 < slope x -> 0 < a0 ->
  @bt_initial_step Rnum initial optimism old (cost x) (- (slope x * slope x)) (slope x) a0 ->
  contraction ^ Z.to_nat (max_contractions) * a0 <= safe_step L ->
  bt_search M p old (p_cost prob) x (t_neg M (p_grad prob x)) (cost x) (- (slope x * slope x)) = Ok (st, (s, y), calls) ->
  st = Some (cost x) /\ exists a, s = a * slope x /\ 0 < a /\ cost y <= cost x - sufficient * a * slope x ^ 2 /\
    (short_step L <= a \/ (a = a0 /\ cost y <= cost x - a / 2 * slope x ^ 2)).
Proof.
  intros Hn Ha0 Hi Hc E.
  destruct (bt_search_spec M p old (p_cost prob) x (t_neg M (p_grad prob x)) (cost x) (- (slope x * slope x)) a0)
    as (J & (HJ1 & HJ2 & HJ3) & E').
  { rewrite Hneg. exact Hi. }
  rewrite E in E'. destruct Hs as (Hb & Hsig & _).
  set (n := slope x) in *. set (alpha := @contracted R (Rmult contraction) a0).
  change (@contracted (num Rnum) (nmul Rnum (bt_contraction p)) a0) with alpha in HJ2, HJ3, E'.
  assert (Hal : forall j, 0 < alpha j).
  { intros j. unfold alpha. rewrite contractedE. apply Rmult_lt_0_compat; [apply pow_lt; lra|exact Ha0]. }
  assert (Hn2 : 0 < n ^ 2) by (simpl; nra).
  assert (SL : safe_step L * L = 2 * (1 - sufficient)) by (unfold safe_step; field; lra).
  assert (Arm : forall a, 0 < a -> a <= safe_step L ->
     cost (along M x (t_neg M (p_grad prob x)) a) <= cost x - sufficient * a * n ^ 2).
  { intros a Ha Hle. pose proof (Hsm x a ltac:(lra)) as B. fold n in B. unfold along.
    assert (a * L <= 2 * (1 - sufficient)) by nra.
    assert (L / 2 * a ^ 2 * n ^ 2 <= (1 - sufficient) * a * n ^ 2).
    { apply Rmult_le_compat_r; [lra|]. simpl. nra. }
    nra. }
  assert (AF : forall a, ~ armijo_fails M (p_cost prob) x (t_neg M (p_grad prob x)) (sufficient) (cost x) (- (n * n)) a <->
     cost (along M x (t_neg M (p_grad prob x)) a) <= cost x - sufficient * a * n ^ 2).
  { intros a. unfold armijo_fails. simpl. rewrite Rltb_spec. split; intros H; [|lra].
    apply Rnot_lt_le in H. lra. }
  assert (AJ : cost (along M x (t_neg M (p_grad prob x)) (alpha J)) <= cost x - sufficient * alpha J * n ^ 2).
  { destruct HJ3 as [H|H]; [now apply AF|]. apply Arm; auto. unfold alpha. rewrite contractedE, H. exact Hc. }
  pose proof (Hal J) as HaJ.
  assert (NL : Rltb (cost x) (cost (along M x (t_neg M (p_grad prob x)) (alpha J))) = false).
  { apply Rltb_false. assert (0 < sufficient * alpha J * n ^ 2) by (repeat apply Rmult_lt_0_compat; lra). lra. }
  change (nlt Rnum) with Rltb in E'. rewrite NL in E'.
  injection E' as -> -> -> _. split; [reflexivity|].
  exists (alpha J). rewrite Hneg. fold n. split; [reflexivity|]. split; [exact HaJ|]. split; [exact AJ|].
  destruct (Rle_lt_dec (short_step L) (alpha J)) as [|Hlt]; [now left|right].
  assert (J0 : J = 0%nat).
  { destruct J as [|J]; auto. exfalso.
    specialize (HJ2 J ltac:(lia)).
    assert (~ alpha J <= safe_step L).
    { intros Hle. apply HJ2. apply AF. now apply Arm. }
    apply Rnot_le_lt in H. assert (alpha (S J) = contraction * alpha J) by reflexivity.
    pose proof (Rmin_l (contraction * safe_step L) (1 / L)). unfold short_step in Hlt. nra. }
  split; [now rewrite J0|].
  pose proof (Rmin_r (contraction * safe_step L) (1 / L)). unfold short_step in Hlt.
  assert (alpha J * L <= 1).
  { apply Rle_trans with (1 / L * L); [apply Rmult_le_compat_r; lra|]. right. field. lra. }
  pose proof (Hsm x (alpha J) ltac:(lra)) as B. fold n in B. unfold along.
  assert (L / 2 * alpha J ^ 2 * n ^ 2 <= alpha J / 2 * n ^ 2).
  { apply Rmult_le_compat_r; [lra|]. simpl. nra. }
  lra.
Qed.

(** The gradient is bounded by the cost that is left. *)
Lemma slope_bound bound x : (forall y, bound <= cost y) -> slope x ^ 2 <= 2 * L * (cost x - bound).
Proof.
  intros Hb. pose proof (Hsm x (1 / L) ltac:(apply Rlt_le, Rdiv_lt_0_compat; lra)) as B.
  specialize (Hb (m_retr M x (t_scale M (1 / L) (t_neg M (p_grad prob x))))).
  assert (1 / L * slope x ^ 2 - L / 2 * (1 / L) ^ 2 * slope x ^ 2 = slope x ^ 2 / (2 * L)) by (field; lra).
  assert (slope x ^ 2 / (2 * L) <= cost x - bound) by lra.
  apply Rmult_le_reg_r with (/ (2 * L)); [apply Rinv_0_lt_compat; lra|].
  replace (2 * L * (cost x - bound) * / (2 * L)) with (cost x - bound) by (field; lra). exact H0.
Qed.

Variables (sp : stop_params Rnum) (clock : nat -> R) (x0 : pt M) (bound : R).
Hypotheses (Hbound : forall x, bound <= cost x).
Local Notation e := (min_gradient_norm sp : R).
Local Notation D := (cost x0 - bound).
Hypotheses (He : 0 < e) (Hcon : enough_contractions L e D).

Definition Inv (s : @sd_state Rnum M (bt_searcher M p)) : Prop :=
  (0 <= sd_iteration s)%Z /\ IZR (sd_iteration s) * progress L e <= cost x0 - cost (sd_x s) /\
  match sd_ls s with
  | None => sd_x s = x0
  | Some old => progress L e <= old - cost (sd_x s) /\ old <= cost x0
  end.
Definition Post (r : result Rnum (pt M)) : Prop :=
  IZR (r_iterations r - 1) * progress L e <= D /\
  exists n s, r_gradient_norm r = Some n /\ r_step_size r = Some s /\
    (n < e \/ (IZR (r_iterations r) * progress L e <= cost x0 - cost (r_point r) /\ shortest L e D <= s)).

Lemma iteration_step s st step y calls : Inv s -> e <= slope (sd_x s) ->
  bt_search M p (sd_ls s) (p_cost prob) (sd_x s) (t_neg M (p_grad prob (sd_x s))) (cost (sd_x s))
    (- (slope (sd_x s) * slope (sd_x s))) = Ok (st, (step, y), calls) ->
  st = Some (cost (sd_x s)) /\ progress L e <= cost (sd_x s) - cost y /\ shortest L e D <= step /\ cost (sd_x s) <= cost x0.
Proof.
  intros (I1 & I2 & I3) Hn E. set (x := sd_x s) in *. set (n := slope x) in *.
  pose proof (progress_pos e He) as Hp.
  assert (Hx : cost x <= cost x0).
  { assert (0 <= IZR (sd_iteration s)) by (apply IZR_le; auto). nra. }
  destruct Hs as (Hb & Hsig & Hinit & Hopt & Hm). destruct Hcon as (C1 & C2).
  set (bm := contraction ^ Z.to_nat (max_contractions)) in *.
  assert (Hbm : 0 < bm) by (apply pow_lt; lra).
  assert (Hen : e ^ 2 <= n ^ 2) by (simpl; nra). assert (He2 : 0 < e ^ 2) by (simpl; nra).
  assert (Hsn : short_step L * e <= short_step L * n) by (pose proof short_pos; apply Rmult_le_compat_l; lra).
  destruct (sd_ls s) as [old|] eqn:El.
  - destruct I3 as (I3 & I4). set (a0 := 2 * (old - cost x) / n ^ 2 * optimism).
    assert (Ha0 : 0 < a0).
    { unfold a0. apply Rmult_lt_0_compat; [|lra]. apply Rdiv_lt_0_compat; lra. }
    destruct (search_progress (Some old) x a0 st step y calls) as (-> & a & -> & Ha & Hy & Hc); auto.
    + fold n; lra.
    + fold n. exists (2 * (old - cost x) / n ^ 2). split; [|reflexivity].
      simpl. unfold Rdiv_res. destruct (Req_EM_T (- (n * n)) 0); [exfalso; nra|]. f_equal. field. nra.
    + fold bm. apply Rle_trans with (2 := C2). apply Rmult_le_compat_l; [lra|].
      unfold a0. replace (2 * (old - cost x) / n ^ 2 * optimism) with (2 * optimism * (old - cost x) * / n ^ 2) by (field; nra).
      unfold Rdiv. pose proof (Hbound x).
      apply Rmult_le_compat; [apply Rmult_le_pos; nra|left; apply Rinv_0_lt_compat; lra| |apply Rinv_le_contravar; lra].
      apply Rmult_le_compat_l; lra.
    + fold n in Hy, Hc. split; [reflexivity|]. destruct Hc as [Hc|(-> & Hc)].
      * split; [|split; auto].
        -- unfold progress. eapply Rle_trans; [apply Rmin_l|].
           apply Rle_trans with (sufficient * a * n ^ 2); [|lra].
           pose proof short_pos. apply Rmult_le_compat; try nra.
        -- unfold shortest. eapply Rle_trans; [apply Rmin_l|]. fold n. nra.
      * assert (Ea : a0 / 2 * n ^ 2 = optimism * (old - cost x)) by (unfold a0; field; nra).
        split; [|split; auto].
        -- nra.
        -- unfold shortest. eapply Rle_trans; [apply Rmin_r|]. eapply Rle_trans; [apply Rmin_r|]. fold n.
           replace (a0 * n) with (2 * optimism * (old - cost x) * / n) by (unfold a0; field; nra).
           pose proof (slope_bound bound x Hbound) as SB. fold n in SB.
           assert (n <= sqrt (2 * L * D)).
           { rewrite <- (sqrt_pow2 n) by lra. apply sqrt_le_1; [simpl; nra|nra|]. nra. }
           unfold Rdiv. apply Rmult_le_compat; [apply Rmult_le_pos; lra| | |].
           ++ left. apply Rinv_0_lt_compat. lra.
           ++ apply Rmult_le_compat_l; lra.
           ++ apply Rinv_le_contravar; lra.
  - set (a0 := initial / n).
    assert (Ha0 : 0 < a0) by (apply Rdiv_lt_0_compat; lra).
    destruct (search_progress None x a0 st step y calls) as (-> & a & -> & Ha & Hy & Hc); auto.
    + fold n; lra.
    + fold n. simpl. unfold Rdiv_res. destruct (Req_EM_T n 0); [exfalso; lra|]. reflexivity.
    + fold bm. apply Rle_trans with (2 := C1). apply Rmult_le_compat_l; [lra|].
      unfold a0, Rdiv. apply Rmult_le_compat_l; [lra|]. apply Rinv_le_contravar; lra.
    + fold n in Hy, Hc. split; [reflexivity|]. destruct Hc as [Hc|(-> & Hc)].
      * split; [|split; auto].
        -- unfold progress. eapply Rle_trans; [apply Rmin_l|].
           apply Rle_trans with (sufficient * a * n ^ 2); [|lra].
           pose proof short_pos. apply Rmult_le_compat; try nra.
        -- unfold shortest. eapply Rle_trans; [apply Rmin_l|]. fold n. nra.
      * assert (Ea : a0 / 2 * n ^ 2 = initial * n / 2) by (unfold a0; field; lra).
        split; [|split; auto].
        -- unfold progress. eapply Rle_trans; [apply Rmin_r|]. nra.
        -- unfold shortest. eapply Rle_trans; [apply Rmin_r|]. eapply Rle_trans; [apply Rmin_l|]. fold n.
           right. unfold a0. field. lra.
Qed.

Lemma not_stopped tick start it n step ce :
  check_stopping sp clock tick start it (Some n) step ce = None -> e <= n.
Proof.
  unfold check_stopping. cbv zeta. match goal with |- context [if ?b then _ else _] => destruct b; [discriminate|] end.
  match goal with |- context [if ?b then _ else _] => destruct b; [discriminate|] end.
  simpl opt_lt. match goal with |- context [if ?b then _ else _] => destruct b eqn:E; [discriminate|] end.
  intros _. now apply Rltb_false in E.
Qed.

Lemma run_post r ls : sd_run prob (bt_searcher M p) sp clock None x0 = Ok (r, ls) -> Post r.
Proof.
  unfold sd_run. destruct (format_length_check sp); [|discriminate]. cbn [bind].
  assert (B : forall s o, Inv s -> sd_body prob (bt_searcher M p) sp clock (clock 0%nat) s = Ok o ->
     match o with Continue s' => Inv s' | Stop rl => Post (fst rl) end).
  { intros s o I E. unfold sd_body in E. cbv zeta in E.
    destruct (ls_search (bt_searcher M p) _ _ _ _ _ _) as [[[st [step y]] calls]|] eqn:Es; [|discriminate].
    cbn [bind] in E. destruct (check_stopping sp clock _ _ _ _ _ _) as [reason|] eqn:Ec.
    - injection E as <-. simpl. split.
      { destruct I as (_ & I2 & _). simpl. replace (sd_iteration s + 1 - 1)%Z with (sd_iteration s) by lia.
        pose proof (Hbound (sd_x s)). lra. }
      exists (slope (sd_x s)), step. split; [reflexivity|]. split; [reflexivity|].
      destruct (Rlt_le_dec (slope (sd_x s)) e) as [|Hn]; [now left|right].
      destruct (iteration_step s st step y calls I Hn Es) as (_ & H1 & H2 & _). destruct I as (_ & I2 & _).
      split; [|exact H2]. simpl. rewrite plus_IZR. simpl in *. lra.
    - injection E as <-. apply not_stopped in Ec.
      destruct (iteration_step s st step y calls I Ec Es) as (-> & H1 & H2 & H3). destruct I as (I1 & I2 & _).
      unfold Inv; simpl. split; [lia|]. split; [|split; assumption]. rewrite plus_IZR. simpl in *. lra. }
  intros H. refine (loop_inv _ Inv (fun rl => Post (fst rl)) _ _ _ _ (r, ls) _ H).
  - intros s s' I E. exact (B s _ I E).
  - intros s rl I E. exact (B s _ I E).
  - unfold Inv; simpl. split; [lia|]. split; [lra|reflexivity].
Qed.
End Rate.

(** The rate: a run returns a gradient norm below [min_gradient_norm], or the number of its iterations times
    the progress per iteration is at most the decrease of the cost. *)
Theorem C97_rate : forall (M : Mfd Rnum) (prob : OptProblem M) (contraction optimism sufficient initial : R)
  (max_contractions : Z) (L : R) (sp : stop_params Rnum) (clock : nat -> R) x0 (bound : R) r ls,
  let e := (min_gradient_norm sp : R) in
  let searcher := bt_searcher M (@mkBt Rnum contraction optimism sufficient max_contractions initial) in
  0 < L -> sensible contraction optimism sufficient initial max_contractions -> smooth_downhill M prob L ->
  (forall x v, m_norm M x (t_neg M v) = m_norm M x v) ->
  (forall x, bound <= p_cost prob x) -> 0 < e ->
  enough_contractions contraction optimism sufficient initial max_contractions L e (p_cost prob x0 - bound) ->
  sd_run prob searcher sp clock None x0 = Ok (r, ls) ->
  0 < progress contraction sufficient initial L e /\
  exists n, r_gradient_norm r = Some n /\
    (n < e \/ IZR (r_iterations r) * progress contraction sufficient initial L e <= p_cost prob x0 - p_cost prob (r_point r)).
Proof.
  intros M prob c o su i m L sp clock x0 bound r ls e searcher HL Hs Hsm Hn Hb He Hc E.
  split; [apply (progress_pos c o su i m L HL Hs e He)|].
  destruct (run_post M prob c o su i m L HL Hs Hsm Hn sp clock x0 bound Hb He Hc r ls E) as (H0 & n & s & H1 & _ & H2).
  exists n. split; [exact H1|]. destruct H2 as [H2|[H2 _]]; auto.
Qed.
Print Assumptions C97_rate.

(** Success: with an iteration budget above [(cost x0 - bound) / progress], [min_step_size] small enough and time
    left, the run stops because the gradient norm is below [min_gradient_norm]. *)
Theorem C97_success : forall (M : Mfd Rnum) (prob : OptProblem M) (contraction optimism sufficient initial : R)
  (max_contractions : Z) (L : R) (sp : stop_params Rnum) (clock : nat -> R) x0 (bound : R) r ls,
  let e := (min_gradient_norm sp : R) in
  let searcher := bt_searcher M (@mkBt Rnum contraction optimism sufficient max_contractions initial) in
  0 < L -> sensible contraction optimism sufficient initial max_contractions -> smooth_downhill M prob L ->
  (forall x v, m_norm M x (t_neg M v) = m_norm M x v) ->
  (forall x, bound <= p_cost prob x) -> 0 < e ->
  enough_contractions contraction optimism sufficient initial max_contractions L e (p_cost prob x0 - bound) ->
  p_cost prob x0 - bound < IZR (max_iterations sp - 1) * progress contraction sufficient initial L e ->
  min_step_size sp <= shortest contraction optimism sufficient initial L e (p_cost prob x0 - bound) ->
  (forall k, clock k < clock 0%nat + max_time sp) -> (0 <= max_cost_evaluations sp)%Z ->
  sd_run prob searcher sp clock None x0 = Ok (r, ls) ->
  (exists it t, r_stopping_criterion r = MinGradNorm it t) /\
  (exists n, r_gradient_norm r = Some n /\ n < e).
Proof.
  intros M prob c o su i m L sp clock x0 bound r ls e searcher HL Hs Hsm Hn Hb He Hc Hmax Hmin Hclock Hce E.
  destruct (run_post M prob c o su i m L HL Hs Hsm Hn sp clock x0 bound Hb He Hc r ls E) as (H0 & n & s & H1 & H2 & H3).
  pose proof (progress_pos c o su i m L HL Hs e He) as Hp. fold e in H3. simpl in H3.
  assert (R : exists tick it n' s', check_stopping sp clock tick (clock 0%nat) it (Some n') (Some s') (-1) = Some (r_stopping_criterion r)
     /\ r_gradient_norm r = Some n' /\ r_step_size r = Some s' /\ r_iterations r = it).
  { clear -E. unfold sd_run in E. destruct (format_length_check sp); [|discriminate]. cbn [bind] in E.
    refine (loop_inv _ (fun _ => True) (fun rl => exists tick it n' s',
       check_stopping sp clock tick (clock 0%nat) it (Some n') (Some s') (-1) = Some (r_stopping_criterion (fst rl))
       /\ r_gradient_norm (fst rl) = Some n' /\ r_step_size (fst rl) = Some s' /\ r_iterations (fst rl) = it) _ _ _ _ (r, ls) I E); auto.
    intros st [r' ls'] _ Eb. unfold sd_body in Eb. cbv zeta in Eb.
    destruct (ls_search _ _ _ _ _ _ _) as [[[st' [step y]] calls]|]; [|discriminate]. cbn [bind] in Eb.
    destruct (check_stopping sp clock _ _ _ _ _ _) as [reason|] eqn:Ec; [|discriminate].
    injection Eb as <- <-. simpl. do 4 eexists. split; [exact Ec|]. auto. }
  destruct R as (tick & it & n' & s' & Ec & G1 & G2 & G3). rewrite H1 in G1. rewrite H2 in G2.
  injection G1 as <-. injection G2 as <-.
  unfold check_stopping in Ec. cbv zeta in Ec. simpl in Ec.
  destruct (Rleb _ _) eqn:T in Ec.
  { apply Rleb_spec in T. specialize (Hclock (S tick)). simpl in Hclock. lra. }
  fold e in H0. assert (Hit : (r_iterations r < max_iterations sp)%Z).
  { apply Z.lt_nge. intros Hle. assert (IZR (max_iterations sp - 1) <= IZR (r_iterations r - 1)) by (apply IZR_le; lia).
    simpl in *. nra. }
  rewrite <- G3 in Ec. destruct (Z.leb_spec (max_iterations sp) (r_iterations r)); [lia|].
  destruct (Rltb n (min_gradient_norm sp)) eqn:G in Ec.
  - apply Rltb_spec in G. injection Ec as <-. split; [do 2 eexists; reflexivity|]. exists n. auto.
  - exfalso. apply Rltb_false in G. destruct H3 as [H3|[_ H3]]; [unfold e in *; simpl in *; lra|].
    destruct (Rltb s (min_step_size sp)) eqn:S in Ec.
    + apply Rltb_spec in S. simpl in *. lra.
    + destruct (Z.leb_spec (max_cost_evaluations sp) (-1)); [lia|discriminate].
Qed.
Print Assumptions C97_success.


Lemma bt_outcome (M : Mfd Rnum) (prob : OptProblem M) (p : @bt_params Rnum) (old : option R) x :
  (forall x v, m_norm M x (t_neg M v) = m_norm M x v) ->
  let n := (m_norm M x (p_grad prob x) : R) in
  let out := bt_search M p old (p_cost prob) x (t_neg M (p_grad prob x)) (p_cost prob x) (- (n * n)) in
  (exists st s y calls, out = Ok (st, (s, y), calls) /\ p_cost prob y <= p_cost prob x) \/
  (out = Raise ZeroDivisionError /\ n = 0).
Proof.
  intros Hn n out.
  assert (D : (exists a0, bt_initial_step (bt_init p) (bt_optimism p) old (p_cost prob x) (- (n * n)) n a0) \/
     (n = 0 /\ out = Raise ZeroDivisionError)).
  { destruct (Req_EM_T n 0) as [Hz|Hz].
    - right. split; [exact Hz|]. unfold out, bt_search. rewrite (Hn x (p_grad prob x)). fold n. rewrite Hz.
      destruct old; simpl; unfold Rdiv_res.
      + destruct (Req_EM_T (- (0 * 0)) 0) as [|X]; [reflexivity|exfalso; apply X; ring].
      + destruct (Req_EM_T 0 0); [reflexivity|lra].
    - left. destruct old as [old|]; simpl; unfold Rdiv_res.
      + destruct (Req_EM_T (- (n * n)) 0) as [X|]; [exfalso; nra|]. eauto.
      + destruct (Req_EM_T n 0); [lra|]. eauto. }
  destruct D as [[a0 Ha]|[Hz E]]; [left|right; auto].
  destruct (bt_search_spec M p old (p_cost prob) x (t_neg M (p_grad prob x)) (p_cost prob x) (- (n * n)) a0) as (J & _ & E).
  { rewrite Hn. exact Ha. }
  fold out in E. match type of E with _ = Ok (_, ?sy, _) => destruct sy as [s y] eqn:Ey end.
  exists (Some (p_cost prob x)), s, y. eexists. split; [exact E|].
  destruct (bt_no_worse M p old (p_cost prob) x (t_neg M (p_grad prob x)) (p_cost prob x) (- (n * n)) _ _ _ _ E) as [[-> _]|H].
  - lra.
  - now apply Rltb_false in H.
Qed.

(** A run that does not return has reached, without increasing the cost, a point where the gradient is zero: there the line
    searcher divides by zero (see C09). *)
Theorem C97_no_other_failure : forall (M : Mfd Rnum) (prob : OptProblem M) (p : @bt_params Rnum)
  (sp : stop_params Rnum) (clock : nat -> R) x0 ex,
  (forall x v, m_norm M x (t_neg M v) = m_norm M x v) -> (verbosity sp < 2)%Z ->
  sd_run prob (bt_searcher M p) sp clock None x0 = Raise ex ->
  ex = ZeroDivisionError /\ exists x, m_norm M x (p_grad prob x) = 0 /\ p_cost prob x <= p_cost prob x0.
Proof.
  intros M prob p sp clock x0 ex Hn Hv E. unfold sd_run in E.
  replace (format_length_check sp) with (@Ok unit tt) in E.
  2:{ unfold format_length_check. destruct (Z.leb_spec 2 (verbosity sp)); [lia|reflexivity]. }
  cbn [bind] in E.
  assert (B : forall s, p_cost prob (sd_x s) <= p_cost prob x0 ->
    match sd_body prob (bt_searcher M p) sp clock (clock 0%nat) s with
    | Raise ex => ex = ZeroDivisionError /\ m_norm M (sd_x s) (p_grad prob (sd_x s)) = 0
    | Ok (Continue s') => p_cost prob (sd_x s') <= p_cost prob x0 /\
        sd_iteration s' = (sd_iteration s + 1)%Z /\ (sd_iteration s' < max_iterations sp)%Z
    | Ok (Stop _) => True
    end).
  { intros s Hc. unfold sd_body. cbv zeta.
    destruct (bt_outcome M prob p (sd_ls s) (sd_x s) Hn) as [(st & step & y & calls & E1 & Hy)|[E1 Hz]].
    - cbn [ls_search bt_searcher]. simpl in E1 |- *. rewrite E1. cbn [bind].
      destruct (check_stopping sp clock _ _ _ _ _ _) eqn:Ec; [exact I|]. simpl. split; [simpl in *; lra|]. split; [reflexivity|].
      unfold check_stopping in Ec. cbv zeta in Ec.
      match type of Ec with context [if ?b then _ else _] => destruct b; [discriminate|] end.
      destruct (Z.leb_spec (max_iterations sp) (sd_iteration s + 1)); [discriminate|assumption].
    - cbn [ls_search bt_searcher]. simpl in E1 |- *. rewrite E1. cbn [bind]. auto. }
  assert (G : forall fuel s, p_cost prob (sd_x s) <= p_cost prob x0 -> (0 <= sd_iteration s)%Z ->
     (Z.to_nat (max_iterations sp) < fuel + Z.to_nat (sd_iteration s))%nat ->
     (sd_iteration s = 0%Z \/ (sd_iteration s < max_iterations sp)%Z) ->
     loop (sd_body prob (bt_searcher M p) sp clock (clock 0%nat)) fuel s = Raise ex ->
     ex = ZeroDivisionError /\ exists x, m_norm M x (p_grad prob x) = 0 /\ p_cost prob x <= p_cost prob x0).
  { induction fuel as [|fuel IH]; intros s Hc Hi Hf Hr El.
    - exfalso. lia.
    - simpl in El. specialize (B s Hc).
      destruct (sd_body prob (bt_searcher M p) sp clock (clock 0%nat) s) as [[s'|rl]|ex'].
      + simpl in El. destruct B as (B1 & B2 & B3). apply (IH s'); auto; lia.
      + discriminate.
      + injection El as <-. destruct B as [-> B]. eauto. }
  refine (G _ _ _ _ _ _ E); simpl; auto; try lra; unfold iter_fuel; lia.
Qed.
Print Assumptions C97_no_other_failure.

(** The default parameters are sensible, and the cost [x^2] on the line meets the hypotheses with [L = 2]. *)
Example C97_defaults : sensible (1 / 2) 2 (1 / 10000) 1 25.
Proof. unfold sensible; repeat split; try lra; lia. Qed.
Example C97_instance : smooth_downhill (E1 Rnum) (square Rnum) 2 /\
  (forall x v, m_norm (E1 Rnum) x (t_neg (E1 Rnum) v) = m_norm (E1 Rnum) x v) /\
  (forall x, 0 <= p_cost (square Rnum) x) /\
  enough_contractions (1 / 2) 2 (1 / 10000) 1 25 2 (1 / 1000) 1.
Proof.
  split; [|split; [|split]].
  - intros x t Ht. simpl. rewrite !Rmult_1_r. rewrite sqrt_sqrt by nra. nra.
  - intros x v. simpl. f_equal. ring.
  - intros x. simpl. nra.
  - unfold enough_contractions, safe_step. simpl Z.to_nat. split; simpl; lra.
Qed.
