(** C114: steepest descent with the adaptive line searcher finds points with small gradients within an explicit
    number of iterations (exact arithmetic), provided its contractions suffice. *)
From Coq Require Import ZArith List Bool Reals Lra Lia Psatz.
From Verif Require Import Num_Model Num_Spec Num_Instances Num_Proofs LineSearch_Model LineSearch_Spec LineSearch_Proofs
  Optimizer_Model Euclid1 Convergence_Props.
Import ListNotations.
Local Open Scope R_scope.

(** The parameters a user may choose.  The defaults meet this. *)
Definition ad_sensible (contraction sufficient initial : R) (max_contractions : Z) : Prop :=
  0 < contraction < 1 /\ 0 < sufficient < 1 /\ 0 < initial /\ (0 <= max_contractions)%Z.
(** Every accepted factor is at least this: no contraction happens below [safe_step], and the factor of the
    first trial is [initial] divided by a gradient norm of at most [sqrt (2 L D)]. *)
Definition ad_factor (contraction sufficient initial L D : R) : R :=
  Rmin (contraction * safe_step sufficient L) (initial / sqrt (2 * L * D)).
(** the decrease of the cost in every iteration *)
Definition ad_progress (contraction sufficient initial L D e : R) : R :=
  sufficient * ad_factor contraction sufficient initial L D * e ^ 2.
(** [max_contractions] contractions bring every first trial down to the safe step *)
Definition ad_enough (contraction sufficient initial : R) (max_contractions : Z) (L e D : R) : Prop :=
  contraction ^ Z.to_nat max_contractions * (initial / e) <= safe_step sufficient L /\
  contraction ^ Z.to_nat max_contractions * (2 * D / (sufficient * e ^ 2)) <= safe_step sufficient L.

Section Rate.
Variables (M : Mfd Rnum) (prob : OptProblem M).
Variables (contraction sufficient initial : R) (max_contractions : Z).
Local Notation p := (@mkAd Rnum contraction sufficient max_contractions initial).
Local Notation cost := (p_cost prob : pt M -> R).
Local Notation slope x := (m_norm M x (p_grad prob x) : R).
Variable (L : R).
Hypotheses (HL : 0 < L) (Hs : ad_sensible contraction sufficient initial max_contractions) (Hsm : smooth_downhill M prob L)
  (Hneg : forall x v, m_norm M x (t_neg M v) = m_norm M x v :> R).
Local Notation safe := (safe_step sufficient L).

Lemma ad_contractedE (a : R) j : @contracted R (fun a => a * contraction) a j = contraction ^ j * a :> R.
Proof. induction j; simpl; [ring|]. rewrite IHj. ring. Qed.
Lemma ad_safe_pos : 0 < safe.
Proof. destruct Hs as (? & ? & _). unfold safe_step. apply Rdiv_lt_0_compat; lra. Qed.

(** One search. *)
Lemma ad_search_progress (old : option R) x a0 st s y calls : 0 < slope x -> 0 < a0 ->
  @ad_initial_step Rnum initial old (slope x) a0 ->
  contraction ^ Z.to_nat max_contractions * a0 <= safe ->
  ad_search M p old (p_cost prob) x (t_neg M (p_grad prob x)) (cost x) (- (slope x * slope x)) = Ok (st, (s, y), calls) ->
  exists a, s = a * slope x /\ 0 < a /\ (st = Some a \/ st = Some (2 * a)) /\
    cost y <= cost x - sufficient * a * slope x ^ 2 /\ (contraction * safe <= a \/ a = a0).
Proof.
  intros Hn Ha0 Hi Hc E.
  destruct (ad_search_spec M p old (p_cost prob) x (t_neg M (p_grad prob x)) (cost x) (- (slope x * slope x)) a0)
    as (J & (HJ1 & HJ2 & HJ3) & E').
  { rewrite Hneg. exact Hi. }
  rewrite E in E'. destruct Hs as (Hb & Hsig & _).
  set (n := slope x) in *. set (alpha := @contracted R (fun a => a * contraction) a0).
  change (@contracted (num Rnum) (fun a => nmul Rnum a (ad_contraction p)) a0) with alpha in HJ2, HJ3, E'.
  assert (Hal : forall j, 0 < alpha j).
  { intros j. unfold alpha. rewrite ad_contractedE. apply Rmult_lt_0_compat; [apply pow_lt; lra|exact Ha0]. }
  assert (Hn2 : 0 < n ^ 2) by (simpl; nra).
  assert (SL : safe * L = 2 * (1 - sufficient)) by (unfold safe_step; field; lra).
  assert (Arm : forall a, 0 < a -> a <= safe ->
     cost (along M x (t_neg M (p_grad prob x)) a) <= cost x - sufficient * a * n ^ 2).
  { intros a Ha Hle. pose proof (Hsm x a ltac:(lra)) as B. fold n in B. unfold along.
    assert (a * L <= 2 * (1 - sufficient)) by nra.
    assert (L / 2 * a ^ 2 * n ^ 2 <= (1 - sufficient) * a * n ^ 2).
    { apply Rmult_le_compat_r; [lra|]. simpl. nra. }
    nra. }
  assert (AF : forall a, ~ armijo_fails M (p_cost prob) x (t_neg M (p_grad prob x)) (sufficient) (cost x) (- (n * n)) a <->
     cost (along M x (t_neg M (p_grad prob x)) a) <= cost x - sufficient * a * n ^ 2).
  { intros a. unfold armijo_fails. simpl. rewrite Rltb_spec. split; intros H; [|lra].
    apply Rnot_lt_le in H. lra. }
  assert (AJ : cost (along M x (t_neg M (p_grad prob x)) (alpha J)) <= cost x - sufficient * alpha J * n ^ 2).
  { destruct HJ3 as [H|H]; [now apply AF|]. apply Arm; auto. unfold alpha. rewrite ad_contractedE, H. exact Hc. }
  pose proof (Hal J) as HaJ.
  assert (NL : Rltb (cost x) (cost (along M x (t_neg M (p_grad prob x)) (alpha J))) = false).
  { apply Rltb_false. assert (0 < sufficient * alpha J * n ^ 2) by (repeat apply Rmult_lt_0_compat; lra). lra. }
  change (nlt Rnum) with Rltb in E'. cbv zeta in E'. rewrite NL in E'.
  injection E' as Est -> -> _.
  exists (alpha J). rewrite Hneg. fold n. split; [reflexivity|]. split; [exact HaJ|].
  split; [rewrite Est; destruct J as [|[|J]]; [right|left|right]; reflexivity|]. split; [exact AJ|].
  destruct J as [|J]; [right; reflexivity|left].
  specialize (HJ2 J ltac:(lia)).
  assert (H : ~ alpha J <= safe).
  { intros Hle. apply HJ2. apply AF. now apply Arm. }
  apply Rnot_le_lt in H. assert (alpha (S J) = alpha J * contraction) by reflexivity. nra.
Qed.

Variables (sp : stop_params Rnum) (clock : nat -> R) (x0 : pt M) (bound : R).
Hypotheses (Hbound : forall x, bound <= cost x).
Local Notation e := (min_gradient_norm sp : R).
Local Notation D := (cost x0 - bound).
Local Notation low := (ad_factor contraction sufficient initial L D).
Local Notation prog := (ad_progress contraction sufficient initial L D e).
Hypotheses (He : 0 < e) (Hcon : ad_enough contraction sufficient initial max_contractions L e D).

Definition AInv (s : @sd_state Rnum M (ad_searcher M p)) : Prop :=
  (0 <= sd_iteration s)%Z /\ cost (sd_x s) <= cost x0 /\ IZR (sd_iteration s) * prog <= cost x0 - cost (sd_x s) /\
  match sd_ls s with
  | None => True
  | Some old => 0 < old /\ low <= old /\ old <= 2 * D / (sufficient * e ^ 2)
  end.
Definition APost (r : result Rnum (pt M)) : Prop :=
  IZR (r_iterations r - 1) * prog <= D /\
  exists n s, r_gradient_norm r = Some n /\ r_step_size r = Some s /\
    (n < e \/ (0 < prog /\ IZR (r_iterations r) * prog <= cost x0 - cost (r_point r) /\ low * e <= s)).

Lemma ad_iteration_step s st step y calls : AInv s -> e <= slope (sd_x s) ->
  ad_search M p (sd_ls s) (p_cost prob) (sd_x s) (t_neg M (p_grad prob (sd_x s))) (cost (sd_x s))
    (- (slope (sd_x s) * slope (sd_x s))) = Ok (st, (step, y), calls) ->
  0 < low /\ 0 < prog /\ prog <= cost (sd_x s) - cost y /\ low * e <= step /\
  exists old, st = Some old /\ 0 < old /\ low <= old /\ old <= 2 * D / (sufficient * e ^ 2).
Proof.
  intros (I1 & Hx & I2 & I3) Hn E. set (x := sd_x s) in *. set (n := slope x) in *.
  destruct Hcon as (C1 & C2). pose proof ad_safe_pos as Hsafe.
  pose proof Hs as (Hb & Hsig & Hinit & Hm).
  set (bm := contraction ^ Z.to_nat (max_contractions)) in *.
  assert (Hbm : 0 < bm) by (apply pow_lt; lra).
  assert (Hen : e ^ 2 <= n ^ 2) by (simpl; nra). assert (He2 : 0 < e ^ 2) by (simpl; nra).
  pose proof (slope_bound M prob L HL Hsm bound x Hbound) as SB. fold n in SB.
  assert (nS : n <= sqrt (2 * L * D)).
  { rewrite <- (sqrt_pow2 n) by lra. apply sqrt_le_1; [simpl; nra|nra|]. nra. }
  assert (lowp : 0 < low).
  { unfold ad_factor. apply Rmin_glb_lt; [nra|]. apply Rdiv_lt_0_compat; lra. }
  assert (progp : 0 < prog).
  { unfold ad_progress. apply Rmult_lt_0_compat; [|lra]. apply Rmult_lt_0_compat; lra. }
  split; [exact lowp|]. split; [exact progp|].
  assert (A0 : exists a0, 0 < a0 /\ low <= a0 /\ @ad_initial_step Rnum initial (sd_ls s) n a0 /\ bm * a0 <= safe).
  { destruct (sd_ls s) as [old|].
    - destruct I3 as (I3 & I4 & I5). exists old. repeat split; auto.
      apply Rle_trans with (2 := C2). apply Rmult_le_compat_l; lra.
    - exists (initial / n). split; [apply Rdiv_lt_0_compat; lra|]. split; [|split].
      + eapply Rle_trans; [apply Rmin_r|]. unfold Rdiv. apply Rmult_le_compat_l; [lra|]. apply Rinv_le_contravar; lra.
      + simpl. unfold Rdiv_res. destruct (Req_EM_T n 0); [exfalso; lra|]. reflexivity.
      + apply Rle_trans with (2 := C1). apply Rmult_le_compat_l; [lra|].
        unfold Rdiv. apply Rmult_le_compat_l; [lra|]. apply Rinv_le_contravar; lra. }
  destruct A0 as (a0 & Ha0 & La0 & Hi & Hc).
  destruct (ad_search_progress (sd_ls s) x a0 st step y calls) as (a & -> & Ha & Hst & Hy & Hlow); auto.
  { fold n; lra. }
  fold n in Hy |- *.
  assert (La : low <= a).
  { destruct Hlow as [H| ->]; [|exact La0]. eapply Rle_trans; [apply Rmin_l|exact H]. }
  assert (Ua : a <= D / (sufficient * e ^ 2)).
  { apply Rmult_le_reg_r with (sufficient * e ^ 2); [nra|].
    replace (D / (sufficient * e ^ 2) * (sufficient * e ^ 2)) with D by (field; split; nra).
    pose proof (Hbound y). assert (sufficient * a * e ^ 2 <= sufficient * a * n ^ 2).
    { apply Rmult_le_compat_l; [nra|lra]. }
    lra. }
  split; [|split].
  - unfold ad_progress. assert (sufficient * low * e ^ 2 <= sufficient * a * n ^ 2); [|lra].
    apply Rmult_le_compat; try nra.
  - apply Rmult_le_compat; lra.
  - assert (E2 : 2 * D / (sufficient * e ^ 2) = 2 * (D / (sufficient * e ^ 2))) by (unfold Rdiv; ring).
    rewrite E2. destruct Hst as [-> | ->]; eexists; (split; [reflexivity|]); repeat split; lra.
Qed.

Lemma ad_run_post r ls : sd_run prob (ad_searcher M p) sp clock None x0 = Ok (r, ls) -> APost r.
Proof.
  unfold sd_run. destruct (format_length_check sp); [|discriminate]. cbn [bind].
  assert (B : forall s o, AInv s -> sd_body prob (ad_searcher M p) sp clock (clock 0%nat) s = Ok o ->
     match o with Continue s' => AInv s' | Stop rl => APost (fst rl) end).
  { intros s o I E. unfold sd_body in E. cbv zeta in E.
    destruct (ls_search (ad_searcher M p) _ _ _ _ _ _) as [[[st [step y]] calls]|] eqn:Es; [|discriminate].
    cbn [bind] in E. destruct (check_stopping sp clock _ _ _ _ _ _) as [reason|] eqn:Ec.
    - injection E as <-. simpl. split.
      { destruct I as (_ & _ & I2 & _). simpl. replace (sd_iteration s + 1 - 1)%Z with (sd_iteration s) by lia.
        pose proof (Hbound (sd_x s)). lra. }
      exists (slope (sd_x s)), step. split; [reflexivity|]. split; [reflexivity|].
      destruct (Rlt_le_dec (slope (sd_x s)) e) as [|Hn]; [now left|right].
      destruct (ad_iteration_step s st step y calls I Hn Es) as (_ & H0 & H1 & H2 & _). destruct I as (_ & _ & I2 & _).
      split; [exact H0|]. split; [|exact H2]. simpl. rewrite plus_IZR. simpl in *. lra.
    - injection E as <-. apply not_stopped in Ec.
      destruct (ad_iteration_step s st step y calls I Ec Es) as (_ & H0 & H1 & H2 & old & -> & H3).
      destruct I as (I1 & Ix & I2 & _).
      unfold AInv; simpl. split; [lia|]. simpl in *. split; [lra|]. split; [|exact H3]. rewrite plus_IZR. lra. }
  intros H. refine (loop_inv _ AInv (fun rl => APost (fst rl)) _ _ _ _ (r, ls) _ H).
  - intros s s' I E. exact (B s _ I E).
  - intros s rl I E. exact (B s _ I E).
  - unfold AInv; simpl. repeat split; try lia; lra.
Qed.
End Rate.

(** The rate: a run returns a gradient norm below [min_gradient_norm], or the number of its iterations times
    the (positive) progress per iteration is at most the decrease of the cost. *)
Theorem C114_rate : forall (M : Mfd Rnum) (prob : OptProblem M) (contraction sufficient initial : R)
  (max_contractions : Z) (L : R) (sp : stop_params Rnum) (clock : nat -> R) x0 (bound : R) r ls,
  let e := (min_gradient_norm sp : R) in let D := (p_cost prob x0 : R) - bound in
  let prog := ad_progress contraction sufficient initial L D e in
  0 < L -> ad_sensible contraction sufficient initial max_contractions -> smooth_downhill M prob L ->
  (forall x v, m_norm M x (t_neg M v) = m_norm M x v) ->
  (forall x, bound <= p_cost prob x) -> 0 < e ->
  ad_enough contraction sufficient initial max_contractions L e D ->
  sd_run prob (ad_searcher M (@mkAd Rnum contraction sufficient max_contractions initial)) sp clock None x0 = Ok (r, ls) ->
  exists n, r_gradient_norm r = Some n /\
    (n < e \/ (0 < prog /\ IZR (r_iterations r) * prog <= p_cost prob x0 - p_cost prob (r_point r))).
Proof.
  intros M prob c su i m L sp clock x0 bound r ls e D prog HL Hs Hsm Hn Hb He Hc E.
  destruct (ad_run_post M prob c su i m L HL Hs Hsm Hn sp clock x0 bound Hb He Hc r ls E) as (_ & n & s & H1 & _ & H2).
  exists n. split; [exact H1|]. destruct H2 as [H2|(H2 & H3 & _)]; auto.
Qed.
Print Assumptions C114_rate.

(** Success: with an iteration budget above [D / prog + 1], [min_step_size] small enough and time left, the run stops
    because the gradient norm is below [min_gradient_norm]. *)
Theorem C114_success : forall (M : Mfd Rnum) (prob : OptProblem M) (contraction sufficient initial : R)
  (max_contractions : Z) (L : R) (sp : stop_params Rnum) (clock : nat -> R) x0 (bound : R) r ls,
  let e := (min_gradient_norm sp : R) in let D := (p_cost prob x0 : R) - bound in
  let prog := ad_progress contraction sufficient initial L D e in
  0 < L -> ad_sensible contraction sufficient initial max_contractions -> smooth_downhill M prob L ->
  (forall x v, m_norm M x (t_neg M v) = m_norm M x v) ->
  (forall x, bound <= p_cost prob x) -> 0 < e ->
  ad_enough contraction sufficient initial max_contractions L e D ->
  0 < D -> D < IZR (max_iterations sp - 1) * prog ->
  min_step_size sp <= ad_factor contraction sufficient initial L D * e ->
  (forall k, clock k < clock 0%nat + max_time sp) -> (0 <= max_cost_evaluations sp)%Z ->
  sd_run prob (ad_searcher M (@mkAd Rnum contraction sufficient max_contractions initial)) sp clock None x0 = Ok (r, ls) ->
  (exists it t, r_stopping_criterion r = MinGradNorm it t) /\
  (exists n, r_gradient_norm r = Some n /\ n < e).
Proof.
  intros M prob c su i m L sp clock x0 bound r ls e D prog HL Hs Hsm Hn Hb He Hc HD Hmax Hmin Hclock Hce E.
  destruct (ad_run_post M prob c su i m L HL Hs Hsm Hn sp clock x0 bound Hb He Hc r ls E) as (H0 & n & s & H1 & H2 & H3).
  assert (Hp : 0 < prog).
  { unfold prog, ad_progress. pose proof Hs as (? & ? & ? & _).
    assert (0 < safe_step su L) by (unfold safe_step; apply Rdiv_lt_0_compat; lra).
    assert (0 < sqrt (2 * L * D)) by (apply sqrt_lt_R0; nra).
    assert (0 < ad_factor c su i L D) by (unfold ad_factor; apply Rmin_glb_lt; [nra|apply Rdiv_lt_0_compat; lra]).
    assert (0 < e ^ 2) by (simpl; nra). repeat apply Rmult_lt_0_compat; lra. }
  fold e in H3. fold D in H0, H3. simpl in H3.
  assert (R : exists tick it n' s', check_stopping sp clock tick (clock 0%nat) it (Some n') (Some s') (-1) = Some (r_stopping_criterion r)
     /\ r_gradient_norm r = Some n' /\ r_step_size r = Some s' /\ r_iterations r = it).
  { clear -E. unfold sd_run in E. destruct (format_length_check sp); [|discriminate]. cbn [bind] in E.
    refine (loop_inv _ (fun _ => True) (fun rl => exists tick it n' s',
       check_stopping sp clock tick (clock 0%nat) it (Some n') (Some s') (-1) = Some (r_stopping_criterion (fst rl))
       /\ r_gradient_norm (fst rl) = Some n' /\ r_step_size (fst rl) = Some s' /\ r_iterations (fst rl) = it) _ _ _ _ (r, ls) I E); auto.
    intros st [r' ls'] _ Eb. unfold sd_body in Eb. cbv zeta in Eb.
    destruct (ls_search _ _ _ _ _ _ _) as [[[st' [step y]] calls]|]; [|discriminate]. cbn [bind] in Eb.
    destruct (check_stopping sp clock _ _ _ _ _ _) as [reason|] eqn:Ec; [|discriminate].
    injection Eb as <- <-. simpl. do 4 eexists. split; [exact Ec|]. auto. }
  destruct R as (tick & it & n' & s' & Ec & G1 & G2 & G3). rewrite H1 in G1. rewrite H2 in G2.
  injection G1 as <-. injection G2 as <-.
  unfold check_stopping in Ec. cbv zeta in Ec. simpl in Ec.
  destruct (Rleb _ _) eqn:T in Ec.
  { apply Rleb_spec in T. specialize (Hclock (S tick)). simpl in Hclock. lra. }
  fold e in H0. assert (Hit : (r_iterations r < max_iterations sp)%Z).
  { apply Z.lt_nge. intros Hle. assert (IZR (max_iterations sp - 1) <= IZR (r_iterations r - 1)) by (apply IZR_le; lia).
    fold prog in H0. simpl in *. nra. }
  rewrite <- G3 in Ec. destruct (Z.leb_spec (max_iterations sp) (r_iterations r)); [lia|].
  destruct (Rltb n (min_gradient_norm sp)) eqn:G in Ec.
  - apply Rltb_spec in G. injection Ec as <-. split; [do 2 eexists; reflexivity|]. exists n. auto.
  - exfalso. apply Rltb_false in G. destruct H3 as [H3|(_ & _ & H3)]; [unfold e in *; simpl in *; lra|].
    destruct (Rltb s (min_step_size sp)) eqn:S in Ec.
    + apply Rltb_spec in S. simpl in *. lra.
    + destruct (Z.leb_spec (max_cost_evaluations sp) (-1)); [lia|discriminate].
Qed.
Print Assumptions C114_success.

(** The condition on the contractions cannot be dropped: with the default parameters, on the cost [x^2] started close
    to the minimum but not at it, a run with any stopping parameters ends where it started. *)
Theorem C114_necessary : forall (sp : stop_params Rnum) (clock : nat -> R) (x0 : R) r ls,
  0 < Rabs x0 < / 2 ^ 11 ->
  sd_run (square Rnum) (ad_searcher (E1 Rnum) (@mkAd Rnum (1 / 2) (1 / 2) 10 1)) sp clock None x0 = Ok (r, ls) ->
  r_point r = x0 /\ r_gradient_norm r = Some (2 * Rabs x0).
Proof.
  intros sp clock x0 r ls Hx. unfold sd_run. destruct (format_length_check sp); [|discriminate]. cbn [bind].
  set (p := @mkAd Rnum (1 / 2) (1 / 2) 10 1).
  assert (Nx : forall y : R, m_norm (E1 Rnum) y (p_grad (square Rnum) y) = 2 * Rabs y :> R).
  { intros y. simpl. replace ((y + y) * (y + y)) with ((2 * y) * (2 * y)) by ring.
    change (sqrt ((2 * y) * (2 * y))) with (sqrt (Rsqr (2 * y))). rewrite sqrt_Rsqr_abs, Rabs_mult, (Rabs_pos_eq 2); lra. }
  assert (S : forall old st step y calls, old = None \/ old = Some 0 ->
    ad_search (E1 Rnum) p old (p_cost (square Rnum)) x0 (t_neg (E1 Rnum) (p_grad (square Rnum) x0)) (p_cost (square Rnum) x0)
      (- (m_norm (E1 Rnum) x0 (p_grad (square Rnum) x0) * m_norm (E1 Rnum) x0 (p_grad (square Rnum) x0)))
      = Ok (st, (step, y), calls) -> st = Some 0 /\ y = x0).
  { intros old st step y calls [-> | ->] E.
    - destruct (ad_search_spec (E1 Rnum) p None (p_cost (square Rnum)) x0 (t_neg (E1 Rnum) (p_grad (square Rnum) x0))
        (p_cost (square Rnum) x0) (- (m_norm (E1 Rnum) x0 (p_grad (square Rnum) x0) * m_norm (E1 Rnum) x0 (p_grad (square Rnum) x0)))
        (1 / (2 * Rabs x0))) as (J & (HJ & _) & E').
      { replace (m_norm (E1 Rnum) x0 (t_neg (E1 Rnum) (p_grad (square Rnum) x0)) : R) with (2 * Rabs x0).
        - simpl. unfold Rdiv_res. destruct (Req_EM_T (2 * Rabs x0) 0); [exfalso; lra|reflexivity].
        - rewrite <- Nx. simpl. f_equal. ring. }
      cbv zeta in E'. pose proof (eq_trans (eq_sym E) E') as E1'. clear E'. rename E1' into E'.
      change (@contracted (num Rnum) (fun a => nmul Rnum a (ad_contraction p)) (1 / (2 * Rabs x0)) J)
        with (@contracted R (fun a => a * (1 / 2)) (1 / (2 * Rabs x0)) J) in E'.
      rewrite ad_contractedE in E'.
      assert (Pj : / 2 ^ 10 <= (1 / 2) ^ J).
      { change (Z.to_nat (ad_maxit p)) with 10%nat in HJ. replace ((1 / 2) ^ J) with (/ 2 ^ J).
        - apply Rinv_le_contravar; [apply pow_lt; lra|]. apply Rle_pow; [lra|exact HJ].
        - unfold Rdiv. rewrite Rmult_1_l, <- Rinv_pow; [reflexivity|lra]. }
      set (q := (1 / 2) ^ J) in *.
      assert (Lt : Rltb (p_cost (square Rnum) x0) (p_cost (square Rnum)
         (along (E1 Rnum) x0 (t_neg (E1 Rnum) (p_grad (square Rnum) x0)) (q * (1 / (2 * Rabs x0))))) = true).
      { apply Rltb_spec. simpl. unfold along. simpl.
        assert (Q : (x0 + q * (1 / (2 * Rabs x0)) * - (2 * x0)) * (x0 + q * (1 / (2 * Rabs x0)) * - (2 * x0))
           = (Rabs x0 - q) * (Rabs x0 - q)).
        { unfold Rabs in *. destruct (Rcase_abs x0); field; lra. }
        rewrite Q. assert (X : x0 * x0 = Rabs x0 * Rabs x0).
        { unfold Rabs. destruct (Rcase_abs x0); ring. }
        rewrite X. simpl in Hx, Pj. nra. }
      change (nlt Rnum) with Rltb in E'. rewrite Lt in E'. injection E' as -> _ -> _.
      split; [|reflexivity]. simpl. destruct (Nat.eqb J 1); [reflexivity|]. f_equal. apply Rmult_0_r.
    - destruct (ad_stuck (E1 Rnum) p (p_cost (square Rnum)) x0 (t_neg (E1 Rnum) (p_grad (square Rnum) x0))
        (p_cost (square Rnum) x0) (- (m_norm (E1 Rnum) x0 (p_grad (square Rnum) x0) * m_norm (E1 Rnum) x0 (p_grad (square Rnum) x0))))
        as (c & E' & _).
      pose proof (eq_trans (eq_sym E) E') as E1'. injection E1' as -> _ -> _. split; [reflexivity|].
      destruct (Rltb _ _); [reflexivity|]. unfold along. simpl. ring. }
  assert (B : forall (s : @sd_state Rnum (E1 Rnum) (ad_searcher (E1 Rnum) p)) o, (sd_x s = x0 /\ (sd_ls s = None \/ sd_ls s = Some (0 : R))) ->
     sd_body (square Rnum) (ad_searcher (E1 Rnum) p) sp clock (clock 0%nat) s = Ok o ->
     match o with Continue s' => sd_x s' = x0 /\ (sd_ls s' = None \/ sd_ls s' = Some (0 : R))
     | Stop rl => r_point (fst rl) = x0 /\ r_gradient_norm (fst rl) = Some (2 * Rabs x0) end).
  { intros s o (I1 & I2) E. unfold sd_body in E. cbv zeta in E. rewrite I1 in E.
    destruct (ls_search (ad_searcher (E1 Rnum) p) _ _ _ _ _ _) as [[[st [step y]] calls]|] eqn:Es; [|discriminate].
    destruct (S _ _ _ _ _ I2 Es) as (-> & ->). cbn [bind] in E.
    destruct (check_stopping sp clock _ _ _ _ _ _) as [reason|] eqn:Ec; injection E as <-.
    - simpl fst. unfold r_point, r_gradient_norm. split; [reflexivity|]. rewrite <- Nx. reflexivity.
    - simpl. auto. }
  intros H. refine (loop_inv _ (fun s : @sd_state Rnum (E1 Rnum) (ad_searcher (E1 Rnum) p) => sd_x s = x0 /\ (sd_ls s = None \/ sd_ls s = Some (0 : R)))
    (fun rl : result Rnum (pt (E1 Rnum)) * ls_state (ad_searcher (E1 Rnum) p) => r_point (fst rl) = x0 /\ r_gradient_norm (fst rl) = Some (2 * Rabs x0)) _ _ _ _ (r, ls) _ H).
  - intros s s' I E. exact (B s _ I E).
  - intros s rl I E. exact (B s _ I E).
  - simpl. auto.
Qed.
Print Assumptions C114_necessary.
(** The default parameters are sensible, and the cost [x^2] on the line meets the hypotheses with [L = 2]. *)
Example C114_instance : ad_sensible (1 / 2) (1 / 2) 1 10 /\ smooth_downhill (E1 Rnum) (square Rnum) 2 /\
  (forall x v, m_norm (E1 Rnum) x (t_neg (E1 Rnum) v) = m_norm (E1 Rnum) x v) /\
  (forall x, 0 <= p_cost (square Rnum) x) /\
  ad_enough (1 / 2) (1 / 2) 1 10 2 (1 / 10) 1.
Proof.
  split; [unfold ad_sensible; repeat split; try lra; lia|].
  destruct C97_instance as (H1 & H2 & H3 & _). repeat split; auto;
    unfold safe_step; simpl Z.to_nat; simpl; lra.
Qed.
