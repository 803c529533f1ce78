(** Particle swarm: invariants of whole runs. *)
From Coq Require Import ZArith List Bool Sorted Lia.
From Verif Require Import Num_Model Num_Spec Num_Proofs LineSearch_Model Optimizer_Model Optimizer_Spec
  Optimizer_Proofs ParticleSwarm_Model.
Import ListNotations.

Section PS.
Context {N : NumOps} {M : Mfd N} (L : OrderLaws N).
Variables (cost : pt M -> N) (o : ps_obj N) (sp : stop_params N) (clock : nat -> N) (uniform : nat -> N) (is_list : bool).
Notation body := (ps_body cost o sp clock uniform is_list).
Notation calls := sw_calls.

Definition positions (tr : list (swarm M)) : list (pt M) := concat (map sw_x tr).

(** * argmin *)
Lemma argmin_in best l : In (argmin_from (M:=M) best l) (best :: l).
Proof.
  revert best. induction l as [|c t IH]; intros best; [left; reflexivity|]. cbn [argmin_from].
  destruct (nisnan N (snd best)); [left; reflexivity|]. 
  destruct (nisnan N (snd c) || _)%bool.
  - right. apply IH.
  - destruct (IH best) as [H|H]; [left; auto|right; right; auto].
Qed.
Lemma argmin_nan best l : (exists c, In c (best :: l) /\ nisnan N (snd c) = true) ->
  nisnan N (snd (argmin_from (M:=M) best l)) = true.
Proof.
  revert best. induction l as [|c t IH]; intros best (d & Hd & Hn); cbn [argmin_from].
  - destruct Hd as [->|[]]. auto.
  - destruct (nisnan N (snd best)) eqn:Eb; [auto|].
    destruct (nisnan N (snd c)) eqn:Ec; simpl.
    + apply IH. exists c. split; [left|]; auto.
    + apply IH. exists d. split; auto. destruct Hd as [->|[->|Hd]]; [congruence|congruence|right; auto].
Qed.
Lemma argmin_min best l : (forall c, In c (best :: l) -> nisnan N (snd c) = false) ->
  forall c, In c (best :: l) -> nle N (snd (argmin_from (M:=M) best l)) (snd c) = true.
Proof.
  revert best. induction l as [|c t IH]; intros best Hn d Hd; cbn [argmin_from].
  - destruct Hd as [->|[]]. apply (le_refl N L). apply Hn. left. auto.
  - rewrite (Hn best (or_introl eq_refl)). rewrite (Hn c (or_intror (or_introl eq_refl))). simpl.
    assert (Hb := Hn best (or_introl eq_refl)). assert (Hc := Hn c (or_intror (or_introl eq_refl))).
    destruct (nlt N (snd c) (snd best)) eqn:E.
    + assert (IH' := IH c (fun e He => Hn e (or_intror He))).
      destruct Hd as [<-|Hd]; auto. apply (le_trans N L _ (snd c)); [apply IH'; left; auto|]. apply (lt_le N L); auto.
    + assert (IH' : forall e, In e (best :: t) -> nle N (snd (argmin_from (M:=M) best t)) (snd e) = true).
      { apply IH. intros e [<-|He]; auto. apply Hn. right. right. auto. }
      destruct Hd as [<-|[<-|Hd]]; try (apply IH'; simpl; auto; fail).
      apply (le_trans N L _ (snd best)); [apply IH'; left; auto|]. apply not_gt_le; auto.
Qed.

(** * Position update *)
Lemma ps_update_ok : forall xs vs ys xbest, length vs = length xs -> length ys = length xs ->
  let '(xs', ys', fys', xbest', fbest') := ps_update cost xs vs ys (map cost ys) xbest (cost xbest) in
  length xs' = length xs /\ length ys' = length xs /\ fys' = map cost ys' /\ fbest' = cost xbest' /\
  (xbest' = xbest \/ In xbest' xs) /\ (forall y, In y ys' -> In y ys \/ In y xs) /\
  (xbest' = xbest \/ nlt N (cost xbest') (cost xbest) = true) /\
  (* personal bests never increase *)
  (forall i y y', nth_error ys i = Some y -> nth_error ys' i = Some y' ->
     y' = y \/ nlt N (cost y') (cost y) = true) /\
  ((forall y, In y ys -> nle N (cost xbest) (cost y) = true) ->
   forall p, In p xs -> nisnan N (cost p) = false -> nle N (cost xbest') (cost p) = true) /\
  ((forall y, In y ys -> nle N (cost xbest) (cost y) = true) ->
   forall y, In y ys' -> nle N (cost xbest') (cost y) = true).
Proof.
  induction xs as [|x xs IH]; intros [|v vs] [|y ys] xbest Hv Hy; simpl in Hv, Hy; try discriminate.
  { simpl. repeat split; auto; try (intros ? []; fail). intros i y y'. rewrite nth_error_nil_r || destruct i; discriminate. }
  cbn [map ps_update].
  set (yi := if nlt N (cost x) (cost y) then x else y).
  set (xb := if nlt N (cost x) (cost y) then (if nlt N (cost x) (cost xbest) then x else xbest) else xbest).
  assert (E : (if nlt N (cost x) (cost y)
      then (x, cost x, if nlt N (cost x) (cost xbest) then x else xbest, if nlt N (cost x) (cost xbest) then cost x else cost xbest)
      else (y, cost y, xbest, cost xbest)) = (yi, cost yi, xb, cost xb)).
  { unfold yi, xb. destruct (nlt N (cost x) (cost y)); auto. destruct (nlt N (cost x) (cost xbest)); auto. }
  cbv zeta. rewrite E. specialize (IH vs ys xb ltac:(congruence) ltac:(congruence)).
  destruct (ps_update cost xs vs ys (map cost ys) xb (cost xb)) as [[[[xs' ys'] fys'] xb'] fb'].
  destruct IH as (A1 & A2 & A3 & A4 & A5 & A6 & A7 & A8 & A9 & A10).
  assert (Hxb : xb = xbest \/ (xb = x /\ nlt N (cost x) (cost xbest) = true)).
  { unfold xb. destruct (nlt N (cost x) (cost y)); auto. destruct (nlt N (cost x) (cost xbest)) eqn:Q; auto. }
  assert (Hle : (forall z, In z (y :: ys) -> nle N (cost xbest) (cost z) = true) ->
     (forall z, In z ys -> nle N (cost xb) (cost z) = true) /\ nle N (cost xb) (cost yi) = true /\
     (nisnan N (cost x) = false -> nle N (cost xb) (cost x) = true)).
  { intros H. assert (Hb : nisnan N (cost xbest) = false).
    { specialize (H y (or_introl eq_refl)). destruct (nisnan N (cost xbest)) eqn:Q; auto.
      rewrite (nan_le_l N L) in H by auto. discriminate. }
    assert (Hyn : nisnan N (cost y) = false).
    { specialize (H y (or_introl eq_refl)). destruct (nisnan N (cost y)) eqn:Q; auto.
      rewrite (nan_le_r N L) in H by auto. discriminate. }
    split; [|split].
    - intros z Hz. destruct Hxb as [->|[-> Q]]; [apply H; right; auto|].
      apply (le_trans N L _ (cost xbest)); [apply (lt_le N L); auto|apply H; right; auto].
    - unfold xb, yi. destruct (nlt N (cost x) (cost y)) eqn:Q1; [|apply H; left; auto].
      assert (Hx : nisnan N (cost x) = false).
      { destruct (nisnan N (cost x)) eqn:Q; auto. rewrite (nan_lt_l N L) in Q1 by auto. discriminate. }
      destruct (nlt N (cost x) (cost xbest)) eqn:Q2; [apply (le_refl N L); auto|]. apply not_gt_le; auto.
    - intros Hx. unfold xb. destruct (nlt N (cost x) (cost y)) eqn:Q1.
      + destruct (nlt N (cost x) (cost xbest)) eqn:Q2; [apply (le_refl N L); auto|]. apply not_gt_le; auto.
      + apply (le_trans N L _ (cost y)); [apply H; left; auto|]. apply not_gt_le; auto. }
  assert (Hxb' : xb' = xb \/ nlt N (cost xb') (cost xb) = true) by auto.
  assert (LE : forall c, nle N (cost xb) c = true -> nle N (cost xb') c = true).
  { intros c Hc. destruct Hxb' as [->|Q]; auto. apply (le_trans N L _ (cost xb)); auto. apply (lt_le N L); auto. }
  repeat split.
  - simpl. congruence.
  - simpl. congruence.
  - simpl. congruence.
  - auto.
  - destruct A5 as [->|H]; [|right; right; auto]. destruct Hxb as [->|[-> _]]; auto. right. left. auto.
  - intros z [<-|Hz]; [|destruct (A6 z Hz); simpl; auto]. unfold yi. destruct (nlt N (cost x) (cost y)); simpl; auto.
  - destruct Hxb' as [->|Q]; [destruct Hxb as [->|[-> Q]]; auto|]. right.
    destruct Hxb as [->|[-> Q']]; auto. apply (lt_le_trans N L _ (cost x)); auto. apply (lt_le N L); auto.
  - intros [|i] z z' H1 H2; simpl in H1, H2; [|eauto].
    assert (z = y) as -> by congruence. assert (z' = yi) as -> by congruence.
    unfold yi. destruct (nlt N (cost x) (cost y)) eqn:Q; auto.
  - intros H p [<-|Hp] Hn; destruct (Hle H) as (B1 & B2 & B3); [apply LE; auto|apply A9; auto].
  - intros H z [<-|Hz]; destruct (Hle H) as (B1 & B2 & B3); [apply LE; auto|apply A10; auto].
Qed.

Lemma ps_velocities_length w xb : forall xs ys ps vs k, length ys = length xs -> length ps = length xs -> length vs = length xs ->
  length (ps_velocities (M:=M) o uniform w xb xs ys ps vs k) = length xs.
Proof.
  induction xs as [|x xs IH]; intros [|y ys] [|p ps] [|v vs] k H1 H2 H3; simpl in *; try discriminate; auto.
Qed.

Lemma ps_check_some n : forall tick start it ev r t, ps_check sp clock n tick start it ev = (Some r, t) ->
  exists tick', check_stopping sp clock tick' start it None None ev = Some r.
Proof.
  induction n as [|n IH]; intros tick start it ev r t E; simpl in E; [discriminate|].
  destruct (check_stopping _ _ _ _ _ _ _ _) eqn:Q; [|eauto]. exists tick. congruence.
Qed.
Lemma ps_check_none n : forall tick start it ev t, n <> 0 -> ps_check sp clock n tick start it ev = (None, t) ->
  (it < max_iterations sp)%Z /\ (ev < max_cost_evaluations sp)%Z.
Proof.
  intros tick start it ev t Hn E. destruct n; [congruence|]. simpl in E.
  destruct (check_stopping _ _ _ _ _ _ _ _) eqn:Q; [discriminate|].
  pose proof (check_stopping_cases sp clock tick start it None None ev) as H. rewrite Q in H.
  pose proof (H CIterations) as H1. pose proof (H CEvaluations) as H2. simpl in H1, H2. lia.
Qed.

(** * Runs *)
Variable x0 : list (pt M).
Hypothesis Hx0 : x0 <> [].
Hypothesis Hpop : ps_population_size o = Z.of_nat (length x0).

Record swarm_ok (sw : swarm M) : Prop := {
  so_x : length (sw_x sw) = length x0;
  so_y : length (sw_y sw) = length x0;
  so_fy : sw_fy sw = map cost (sw_y sw);
  so_best : sw_fbest sw = cost (sw_xbest sw);
  so_sub : In (sw_xbest sw) (calls sw) /\ forall y, In y (sw_y sw) -> In y (calls sw);
  so_min : (forall p, In p x0 -> nisnan N (cost p) = false) ->
     (forall y, In y (sw_y sw) -> nle N (sw_fbest sw) (cost y) = true) /\
     (forall p, In p (calls sw) -> nisnan N (cost p) = false -> nle N (sw_fbest sw) (cost p) = true);
  so_nan : (exists p, In p x0 /\ nisnan N (cost p) = true) -> nisnan N (sw_fbest sw) = true }.

(** [b] is a later swarm. *)
Definition later (a b : swarm M) : Prop :=
  (sw_fbest b = sw_fbest a \/ nlt N (sw_fbest b) (sw_fbest a) = true) /\
  forall i fa fb, nth_error (sw_fy a) i = Some fa -> nth_error (sw_fy b) i = Some fb -> fb = fa \/ nlt N fb fa = true.

Record ps_inv (s : ps_state M) : Prop := {
  pi_sw : swarm_ok (p_swarm s);
  pi_prev : length (p_xprev s) = length x0;
  pi_v : length (p_v s) = length x0;
  pi_evals : p_evals s = Z.of_nat (length (calls (p_swarm s)));
  pi_budget : (p_evals s <= Z.max (Z.of_nat (length x0)) (max_cost_evaluations sp - 1 + Z.of_nat (length x0)))%Z;
  pi_it : p_iteration s = Z.of_nat (length (p_trace s));
  pi_it_le : (p_iteration s <= Z.max 0 (max_iterations sp - 1))%Z;
  pi_calls : calls (p_swarm s) = x0 ++ positions (p_trace s);
  pi_start : p_trace s = [] -> sw_x (p_swarm s) = x0;
  pi_first : forall a t, p_trace s = a :: t -> sw_x a = x0;
  pi_trace : Forall swarm_ok (p_trace s);
  pi_later : forall a, In a (p_trace s) -> later a (p_swarm s);
  pi_sorted : StronglySorted later (p_trace s) }.

Record ps_post (r : result N (pt M)) (tr : list (swarm M)) : Prop := {
  pp_trace : Forall swarm_ok tr;
  pp_sorted : StronglySorted later tr;
  pp_last : exists tr' sw, tr = tr' ++ [sw] /\ r_point r = sw_xbest sw /\ r_cost r = sw_fbest sw /\
     r_calls r = x0 ++ positions tr' /\ r_calls r = calls sw /\ swarm_ok sw;
  pp_first : exists a t, tr = a :: t /\ sw_x a = x0;
  pp_it : r_iterations r = Z.of_nat (length tr) /\ (1 <= r_iterations r <= Z.max 1 (max_iterations sp))%Z;
  pp_evals : r_cost_evaluations r = Some (Z.of_nat (length (r_calls r))) /\
    (Z.of_nat (length (r_calls r)) <= Z.max (Z.of_nat (length x0)) (max_cost_evaluations sp - 1 + Z.of_nat (length x0)))%Z;
  pp_log : r_log r = log_init (pt M) sp;
  pp_reason : exists tick n, r_cost_evaluations r = Some n /\
    check_stopping sp clock tick (clock 0) (r_iterations r) None None n = Some (r_stopping_criterion r) }.

Lemma later_trans a b c : length (sw_fy a) = length (sw_fy b) -> later a b -> later b c -> later a c.
Proof.
  intros HL [A1 A2] [B1 B2]. split.
  - destruct A1 as [A1|A1], B1 as [B1|B1].
    + left. congruence.
    + right. rewrite <- A1. auto.
    + right. rewrite B1. auto.
    + right. apply (lt_le_trans N L _ (sw_fbest b)); auto. apply (lt_le N L); auto.
  - intros i fa fc Ha Hc. destruct (nth_error (sw_fy b) i) as [fb|] eqn:Hb.
    + destruct (A2 i fa fb Ha Hb) as [E1|Q1], (B2 i fb fc Hb Hc) as [E2|Q2].
      * left. congruence.
      * right. congruence.
      * right. congruence.
      * right. apply (lt_le_trans N L _ fb); auto. apply (lt_le N L); auto.
    + apply nth_error_None in Hb. assert (i < length (sw_fy a)) by (apply nth_error_Some; congruence). lia.
Qed.

Lemma positions_app a b : positions (a ++ b) = positions a ++ positions b.
Proof. unfold positions. rewrite map_app, concat_app. reflexivity. Qed.

Lemma ps_step s s' : ps_inv s -> body (clock 0) s = Ok (Continue s') -> ps_inv s' /\
  (p_iteration s' = p_iteration s + 1)%Z /\ (p_iteration s' < max_iterations sp)%Z.
Proof.
  intros I E. unfold ps_body in E. cbv zeta in E.
  destruct (ps_check _ _ _ _ _ _ _) as [[rs|] tick] eqn:Ec; [discriminate|].
  apply bind_ok in E as (frac & _ & E). destruct is_list; [|discriminate].
  pose proof (pi_sw s I) as SO. destruct SO as [S1 S2 S3 S4 S5 S6 S7].
  apply ps_check_none in Ec as [C1 C2]; [|rewrite S1; destruct x0; [congruence|discriminate]].
  set (sw := p_swarm s) in *.
  match type of E with context [ps_velocities ?a ?b ?c ?d ?e ?f ?g ?h ?i] => set (v := ps_velocities a b c d e f g h i) in * end.
  assert (Hv : length v = length (sw_x sw)).
  { apply ps_velocities_length; rewrite ?S1, ?S2; auto; apply I. }
  pose proof (ps_update_ok (sw_x sw) v (sw_y sw) (sw_xbest sw) Hv ltac:(congruence)) as U.
  rewrite S3, S4 in E.
  destruct (ps_update _ _ _ _ _ _ _) as [[[[x' y'] fy'] xb'] fb'].
  destruct U as (U1 & U2 & U3 & U4 & U5 & U6 & U7 & U8 & U9 & U10). injection E as <-.
  assert (OK : swarm_ok (mkSwarm x' y' fy' xb' fb' (calls sw ++ sw_x sw))).
  { split; cbn [sw_x sw_y sw_fy sw_xbest sw_fbest sw_calls]; try congruence.
    - split.
      + apply in_or_app. destruct U5 as [->|]; [left; exact (proj1 S5)|right; auto].
      + intros y Hy. apply in_or_app. destruct (U6 y Hy); [left; apply (proj2 S5); auto|right; auto].
    - intros Hn. destruct (S6 Hn) as [S6a S6b]. rewrite S4 in S6a, S6b. rewrite U4. split.
      + intros y Hy. apply U10; [|auto]. exact S6a.
      + intros p Hp Hpn. apply in_app_or in Hp as [Hp|Hp]; [|apply U9; auto].
        destruct U7 as [->|Q]; auto. apply (le_trans N L _ (cost (sw_xbest sw))); auto. apply (lt_le N L); auto.
    - intros Hn. specialize (S7 Hn). rewrite S4 in S7. rewrite U4. destruct U7 as [->|Q]; auto.
      rewrite (nan_lt_r N L) in Q by auto. discriminate. }
  assert (LA : later sw (mkSwarm x' y' fy' xb' fb' (calls sw ++ sw_x sw))).
  { split; cbn [sw_x sw_y sw_fy sw_xbest sw_fbest sw_calls].
    - rewrite S4, U4. destruct U7 as [->|]; auto.
    - rewrite S3, U3. intros i fa fb Ha Hb.
      destruct (nth_error (sw_y sw) i) as [ya|] eqn:Qa; [|apply nth_error_None in Qa; 
        assert (i < length (map cost (sw_y sw))) by (apply nth_error_Some; congruence); rewrite map_length in *; lia].
      destruct (nth_error y' i) as [yb|] eqn:Qb; [|apply nth_error_None in Qb; 
        assert (i < length (map cost y')) by (apply nth_error_Some; congruence); rewrite map_length in *; lia].
      rewrite (map_nth_error cost _ _ Qa) in Ha. rewrite (map_nth_error cost _ _ Qb) in Hb.
      assert (fa = cost ya) as -> by congruence. assert (fb = cost yb) as -> by congruence.
      destruct (U8 i ya yb Qa Qb) as [->|]; auto. }
  split; [|simpl; lia].
  split; cbn [p_swarm p_xprev p_v p_evals p_iteration p_trace].
  - exact OK.
  - exact S1.
  - congruence.
  - rewrite (pi_evals s I), Hpop. cbn [sw_calls]. rewrite app_length, S1. fold sw. lia.
  - rewrite Hpop. lia.
  - rewrite app_length, (pi_it s I). cbn [length]. lia.
  - lia.
  - cbn [sw_calls]. rewrite positions_app. unfold positions at 2. simpl. rewrite app_nil_r, app_assoc.
    rewrite <- (pi_calls s I). reflexivity.
  - intros Q. destruct (p_trace s); discriminate.
  - intros a t Q. destruct (p_trace s) as [|a0 t0] eqn:Et.
    + simpl in Q. assert (a = sw) as -> by congruence. apply (pi_start s I). auto.
    + simpl in Q. assert (a = a0) as -> by congruence. eapply (pi_first s I). eauto.
  - apply Forall_app. split; [apply I|]. constructor; auto. apply (pi_sw s I).
  - intros a Ha. apply in_app_or in Ha as [Ha|[<-|[]]]; auto.
    apply later_trans with (b := sw); auto; [|apply (pi_later s I); auto].
    pose proof (pi_trace s I) as T. rewrite Forall_forall in T. destruct (T a Ha) as [? T2 T3 ? ? ? ?].
    rewrite T3, S3, !map_length. congruence.
  - apply SSorted_app_one; [apply I|]. apply (pi_later s I).
Qed.

Lemma ps_stop s r tr : ps_inv s -> body (clock 0) s = Ok (Stop (r, tr)) -> ps_post r tr.
Proof.
  intros I E. unfold ps_body in E. cbv zeta in E.
  destruct (ps_check _ _ _ _ _ _ _) as [[rs|] tick] eqn:Ec.
  2:{ apply bind_ok in E as (frac & _ & E). destruct is_list; [|discriminate].
      destruct (ps_update _ _ _ _ _ _ _) as [[[[x' y'] fy'] xb'] fb']. discriminate. }
  injection E as <- <-. apply ps_check_some in Ec as (tick' & Ec).
  split; cbn [r_point r_cost r_iterations r_cost_evaluations r_log r_calls r_stopping_criterion].
  - apply Forall_app. split; [apply I|]. constructor; auto. apply (pi_sw s I).
  - apply SSorted_app_one; [apply I|]. apply (pi_later s I).
  - exists (p_trace s), (p_swarm s). pose proof (pi_calls s I). pose proof (pi_sw s I). auto 10.
  - destruct (p_trace s) as [|a t] eqn:Et.
    + exists (p_swarm s), []. split; auto. apply (pi_start s I). auto.
    + exists a, (t ++ [p_swarm s]). split; auto. eapply (pi_first s I). eauto.
  - rewrite app_length. cbn [length]. pose proof (pi_it_le s I). pose proof (pi_it s I). split; lia.
  - rewrite <- (pi_evals s I). split; auto. apply (pi_budget s I).
  - reflexivity.
  - exists tick', (p_evals s). auto.
Qed.

Lemma ps_init_inv rtv c t xbest fbest : combine x0 (map cost x0) = c :: t -> argmin_from c t = (xbest, fbest) ->
  ps_inv (mkPsState (mkSwarm x0 x0 (map cost x0) xbest fbest x0) x0
    (map (fun p => rtv (fst p) (snd p)) (combine (seq 0 (length x0)) x0)) (ps_population_size o) 0 1 0 []).
Proof.
  intros Ec Ea.
  assert (G : forall p, In p x0 <-> In (p, cost p) (c :: t)).
  { intros p. rewrite <- Ec. clear. induction x0 as [|a l IH]; simpl; [tauto|]. rewrite IH. split; intros [H|H]; auto; left; congruence. }
  assert (G2 : forall q, In q (c :: t) -> In (fst q) x0 /\ snd q = cost (fst q)).
  { intros q. rewrite <- Ec. clear. induction x0 as [|a l IH]; simpl; [tauto|]. intros [<-|H]; [auto|]. destruct (IH H). auto. }
  assert (Hin : In xbest x0 /\ fbest = cost xbest).
  { pose proof (argmin_in c t) as Q. rewrite Ea in Q. apply G2 in Q. exact Q. }
  destruct Hin as [Hi Hb].
  split; cbn [p_swarm p_xprev p_v p_evals p_iteration p_trace sw_calls sw_x]; auto; try lia.
  - split; cbn [sw_x sw_y sw_fy sw_xbest sw_fbest sw_calls]; auto.
    + intros Hn.
      assert (Q : forall p, In p x0 -> nle N fbest (cost p) = true).
      { intros p Hp. replace fbest with (snd (argmin_from c t)) by (rewrite Ea; auto).
        apply (argmin_min c t) with (c := (p, cost p)); [|apply G; auto]. intros q Hq. destruct (G2 q Hq) as [Q1 ->]. auto. }
      split; auto.
    + intros (p & Hp & Hn). replace fbest with (snd (argmin_from c t)) by (rewrite Ea; auto).
      apply argmin_nan. exists (p, cost p). split; auto. apply G. auto.
  - rewrite map_length, combine_length, seq_length. lia.
  - unfold positions. simpl. rewrite app_nil_r. auto.
  - intros; discriminate.
  - intros ? [].
  - constructor.
Qed.

Lemma ps_loop_post rtv r tr : ps_loop cost o sp clock uniform is_list rtv x0 = Ok (r, tr) -> ps_post r tr.
Proof.
  unfold ps_loop. cbv zeta. destruct (combine x0 (map cost x0)) as [|c t] eqn:Ec; [discriminate|].
  destruct (argmin_from c t) as [xb fb] eqn:Ea. intros H. apply bind_ok in H as (u & _ & H).
  refine (loop_inv (body (clock 0)) ps_inv (fun q => ps_post (fst q) (snd q)) _ _ _ _ (r, tr) (ps_init_inv rtv c t xb fb Ec Ea) H).
  - intros s s' I E'. apply (ps_step s s' I E').
  - intros s [r' tr'] I E'. apply (ps_stop s r' tr' I E').
Qed.

Lemma ps_loop_fuel rtv : ps_loop cost o sp clock uniform is_list rtv x0 <> Raise OutOfFuel.
Proof.
  unfold ps_loop. cbv zeta. destruct (combine x0 (map cost x0)) as [|c t] eqn:Ec; [discriminate|].
  destruct (argmin_from c t) as [xb fb] eqn:Ea.
  destruct (format_length_check sp) as [u|e] eqn:Ef; cbn [bind].
  2:{ unfold format_length_check in Ef. destruct (2 <=? _)%Z; [|discriminate]. destruct (_ =? _)%Z; [congruence|].
      destruct (_ <? _)%Z; congruence. }
  apply (loop_fuel _ ps_inv (fun s => Z.to_nat (max_iterations sp - p_iteration s))).
  - intros s I. unfold ps_body. cbv zeta.
    destruct (ps_check _ _ _ _ _ _ _) as [[rs|] tick]; [discriminate|].
    destruct (ndiv_py _ _ _) eqn:Q; cbn [bind]; [|apply (div_py_exn N L) in Q; subst; discriminate].
    destruct is_list; [|discriminate]. destruct (ps_update _ _ _ _ _ _ _) as [[[[x' y'] fy'] xb'] fb']. discriminate.
  - intros s s' I E'. destruct (ps_step s s' I E') as (I' & Q1 & Q2). split; auto. lia.
  - apply ps_init_inv with (c := c) (t := t); auto.
  - unfold iter_fuel. simpl. lia.
Qed.
End PS.
