From Coq Require Import ZArith List Bool Lia Sorted.
From Verif Require Import Num_Model Num_Spec Num_Proofs LineSearch_Model LineSearch_Spec
  LineSearch_Proofs Optimizer_Model Optimizer_Spec.
Import ListNotations.

(** * Stopping test *)
Section Stop.
Context {N : NumOps} (p : stop_params N) (clock : nat -> N) (tick : nat) (start : N)
  (it : Z) (gn ss : option N) (ev : Z).
Let met := criterion_met p (clock (S tick)) start it gn ss ev.

Lemma opt_lt_iff (x : option N) t : opt_lt x t = true <-> exists g, x = Some g /\ nlt N g t = true.
Proof.
  destruct x; simpl; split; try discriminate; eauto.
  - intros (g & E & H). congruence.
  - intros (g & E & H). congruence.
Qed.

Lemma check_stopping_cases :
  match check_stopping p clock tick start it gn ss ev with
  | None => forall c, ~ met c
  | Some r => first_criterion met (reason_criterion r) /\
              reason_data r it (nsub N (clock tick) start)
  end.
Proof.
  unfold check_stopping.
  destruct (nle N (nadd N start (max_time p)) (clock (S tick))) eqn:E1.
  { split; [|reflexivity]. split; [exact E1|]. exists [], [CIterations; CGradient; CStep; CEvaluations].
    split; auto. }
  assert (H1 : ~ met CTime) by (unfold met; simpl; congruence).
  destruct (Z.leb_spec (max_iterations p) it).
  { split; [|reflexivity]. split; [simpl; lia|]. exists [CTime], [CGradient; CStep; CEvaluations].
    split; auto. }
  assert (H2 : ~ met CIterations) by (unfold met; simpl; lia).
  destruct (opt_lt gn (min_gradient_norm p)) eqn:E3.
  { split; [|split; reflexivity]. split; [apply opt_lt_iff; exact E3|].
    exists [CTime; CIterations], [CStep; CEvaluations]. split; auto. }
  assert (H3 : ~ met CGradient).
  { intros K. apply opt_lt_iff in K. congruence. }
  destruct (opt_lt ss (min_step_size p)) eqn:E4.
  { split; [|split; reflexivity]. split; [apply opt_lt_iff; exact E4|].
    exists [CTime; CIterations; CGradient], [CEvaluations]. split; auto. }
  assert (H4 : ~ met CStep).
  { intros K. apply opt_lt_iff in K. congruence. }
  destruct (Z.leb_spec (max_cost_evaluations p) ev).
  { split; [|reflexivity]. split; [simpl; lia|].
    exists [CTime; CIterations; CGradient; CStep], []. split; auto. }
  intros []; auto; unfold met; simpl; lia.
Qed.

Lemma check_stopping_none_iter :
  check_stopping p clock tick start it gn ss ev = None -> (it < max_iterations p)%Z.
Proof.
  pose proof check_stopping_cases as H. intros E; rewrite E in H.
  specialize (H CIterations). unfold met in H; simpl in H. lia.
Qed.
End Stop.

(** * Sorted lists *)
Lemma SSorted_app_one {A} (R : A -> A -> Prop) l b :
  StronglySorted R l -> (forall a, In a l -> R a b) -> StronglySorted R (l ++ [b]).
Proof.
  induction l; simpl; intros H K.
  - repeat constructor.
  - inversion H; subst. constructor; auto. apply Forall_app; split; auto.
Qed.
Lemma SSorted_last {A} (R : A -> A -> Prop) l a :
  StronglySorted R (l ++ [a]) -> forall b, In b l -> R b a.
Proof.
  induction l; simpl; intros H b K; [easy|].
  inversion H; subst. destruct K as [<-|K]; auto.
  rewrite Forall_app in H3. destruct H3 as [_ H3]. inversion H3; auto.
Qed.
Lemma SSorted_front {A} (R : A -> A -> Prop) l m :
  StronglySorted R (l ++ m) -> StronglySorted R l.
Proof.
  induction l; simpl; intros H; [constructor|].
  inversion H; subst. constructor; auto. rewrite Forall_app in H3. tauto.
Qed.

Section Mono.
Context {N : NumOps} (L : OrderLaws N).

Lemma nonincreasing_snoc (l : list N) a b :
  nonincreasing (l ++ [a]) -> nle N b a = true -> nonincreasing ((l ++ [a]) ++ [b]).
Proof.
  intros H K. apply SSorted_app_one; auto.
  intros c Hc. apply in_app_or in Hc as [Hc|[<-|[]]]; auto.
  apply (le_trans N L b a c); auto. exact (SSorted_last _ _ _ H _ Hc).
Qed.

Lemma nonincreasing_replace (l : list N) a b :
  nonincreasing (l ++ [a]) -> nle N b a = true -> nonincreasing (l ++ [b]).
Proof.
  intros H K. apply SSorted_app_one; [exact (SSorted_front _ _ _ H)|].
  intros c Hc. apply (le_trans N L b a c); auto. exact (SSorted_last _ _ _ H _ Hc).
Qed.
End Mono.

(** * Log invariants shared by the two optimizers *)
Definition entries {N : NumOps} {P} (l : option (list (log_entry N P))) : list (log_entry N P) :=
  match l with Some es => es | None => [] end.

Section Log.
Context {N : NumOps} {M : Mfd N} (prob : OptProblem M) (sp : stop_params N).

Definition log_inv (x0 : pt M) (l : option (list (log_entry N (pt M)))) (iteration : Z) : Prop :=
  if (1 <=? log_verbosity sp)%Z then
    exists es, l = Some es /\ Z.of_nat (length es) = iteration /\
      (es = [] \/ exists e es', es = e :: es' /\ l_point e = x0) /\
      forall i e, nth_error es i = Some e ->
        l_iteration e = (Z.of_nat i + 1)%Z /\
        l_cost e = p_cost prob (l_point e) /\
        l_gradient_norm e = m_norm M (l_point e) (p_grad prob (l_point e))
  else l = None.

Lemma log_inv_init x0 : log_inv x0 (log_init (pt M) sp) 0.
Proof.
  unfold log_inv, log_init. destruct (1 <=? log_verbosity sp)%Z; auto.
  exists []. repeat split; auto; destruct i; discriminate.
Qed.

Lemma log_inv_add x0 l it x t :
  log_inv x0 l it -> (it = 0%Z -> x = x0) ->
  log_inv x0 (log_add sp l (mkLog t (it + 1) x (p_cost prob x) (m_norm M x (p_grad prob x))))
    (it + 1).
Proof.
  unfold log_inv, log_add. intros H Hx.
  destruct (Z.leb_spec 1 (log_verbosity sp)), (Z.leb_spec (log_verbosity sp) 0); try lia; auto.
  - destruct H as (es & -> & Hlen & Hhd & Hall).
    eexists; split; [reflexivity|]. repeat split.
    + rewrite app_length; simpl; lia.
    + right. destruct es as [|e es'].
      * simpl in *. exists (mkLog t (it + 1) x (p_cost prob x) (m_norm M x (p_grad prob x))), [].
        split; [reflexivity|]. simpl. apply Hx; lia.
      * destruct Hhd as [|(e1 & es1 & E & Hp)]; [discriminate|].
        injection E as <- <-. exists e, (es' ++ [mkLog t (it + 1) x (p_cost prob x)
             (m_norm M x (p_grad prob x))]). auto.
    + destruct (Nat.lt_ge_cases i (length es)).
      * rewrite nth_error_app1 in H by auto. apply Hall in H. tauto.
      * rewrite nth_error_app2 in H by auto.
        destruct (i - length es) as [|[|k]] eqn:Ei; simpl in H; try discriminate.
        injection H as <-. simpl. lia.
    + destruct (Nat.lt_ge_cases i (length es)).
      * rewrite nth_error_app1 in H by auto. apply Hall in H. tauto.
      * rewrite nth_error_app2 in H by auto.
        destruct (i - length es) as [|[|k]] eqn:Ei; simpl in H; try discriminate.
        injection H as <-. reflexivity.
    + destruct (Nat.lt_ge_cases i (length es)).
      * rewrite nth_error_app1 in H by auto. apply Hall in H. tauto.
      * rewrite nth_error_app2 in H by auto.
        destruct (i - length es) as [|[|k]] eqn:Ei; simpl in H; try discriminate.
        injection H as <-. reflexivity.
Qed.

Lemma log_add_entries l t it x c g :
  entries (log_add (P:=pt M) sp l (mkLog t it x c g)) = entries l \/
  entries (log_add sp l (mkLog t it x c g)) = entries l ++ [mkLog t it x c g].
Proof. unfold log_add. destruct (_ <=? 0)%Z; auto. destruct l; auto. Qed.
End Log.

(** * Steepest descent *)
Section SD.
Context {N : NumOps} {M : Mfd N} (prob : OptProblem M) (LS : LineSearcher M)
        (sp : stop_params N) (clock : nat -> N).
Let f := p_cost prob.

Definition iter_ok (it : Z) : Prop := (it = 0 \/ (0 < it < max_iterations sp))%Z.

(** Facts about one iteration of steepest descent. *)
Lemma sd_body_inv start s o : sd_body prob LS sp clock start s = Ok o ->
  exists ls step x' calls',
    ls_search LS (sd_ls s) f (sd_x s) (t_neg M (p_grad prob (sd_x s))) (f (sd_x s))
      (nneg N (nmul N (m_norm M (sd_x s) (p_grad prob (sd_x s))) (m_norm M (sd_x s) (p_grad prob (sd_x s)))))
     = Ok (ls, (step, x'), calls') /\
    let log := log_add sp (sd_log s) (mkLog (clock (sd_tick s)) (sd_iteration s + 1) (sd_x s)
       (f (sd_x s)) (m_norm M (sd_x s) (p_grad prob (sd_x s)))) in
    let calls := sd_calls s ++ sd_x s :: calls' in
    match o with
    | Continue s' => sd_x s' = x' /\ sd_iteration s' = (sd_iteration s + 1)%Z /\
        (sd_iteration s + 1 < max_iterations sp)%Z /\ sd_log s' = log /\ sd_calls s' = calls
    | Stop (r, ls') => r_point r = x' /\ r_cost r = f x' /\ r_iterations r = (sd_iteration s + 1)%Z /\
        r_log r = log /\ r_calls r = calls ++ [x'] /\ r_cost_evaluations r = Some (sd_iteration s + 1)%Z /\
        r_step_size r = Some step /\
        r_gradient_norm r = Some (m_norm M (sd_x s) (p_grad prob (sd_x s)))
    end.
Proof.
  unfold sd_body. intros H. apply bind_ok in H as (((ls & (step & x')) & calls') & E & H).
  exists ls, step, x', calls'. split; [exact E|]. cbn zeta.
  destruct (check_stopping _ _ _ _ _ _ _ _) eqn:Ec; injection H as <-.
  - repeat split; reflexivity.
  - apply check_stopping_none_iter in Ec. repeat split; auto.
Qed.

Record sd_inv (x0 : pt M) (s : sd_state LS) : Prop := {
  si_it : iter_ok (sd_iteration s);
  si_x0 : (sd_iteration s = 0%Z /\ sd_x s = x0) \/ (0 < sd_iteration s /\ In x0 (sd_calls s))%Z;
  si_log : log_inv prob sp x0 (sd_log s) (sd_iteration s) }.

Lemma sd_inv_init ls0 x0 : sd_inv x0 (mkSd (LS:=LS) x0 ls0 0 1 (log_init (pt M) sp) []).
Proof. split; simpl; auto. left; reflexivity. apply log_inv_init. Qed.

Lemma sd_inv_step x0 start s s' : sd_inv x0 s ->
  sd_body prob LS sp clock start s = Ok (Continue s') -> sd_inv x0 s'.
Proof.
  intros [H1 H2 H3] H. apply sd_body_inv in H as (ls & step & x' & calls' & _ & Hx & Hi & Hlt & Hl & Hc).
  assert (0 <= sd_iteration s)%Z by (destruct H1; lia).
  split.
  - right. lia.
  - right. split; [lia|]. rewrite Hc. apply in_or_app. destruct H2 as [[_ <-]|H2]; simpl; tauto.
  - rewrite Hl, Hi. apply log_inv_add; auto. intros E. destruct H2 as [[_ H2]|H2]; auto. lia.
Qed.

Record sd_post (x0 : pt M) (r : result N (pt M)) : Prop := {
  sq_it : (1 <= r_iterations r <= Z.max 1 (max_iterations sp))%Z;
  sq_cost : r_cost r = f (r_point r);
  sq_ev : r_cost_evaluations r = Some (r_iterations r);
  sq_log : log_inv prob sp x0 (r_log r) (r_iterations r) }.

Lemma sd_run_post ls0 x0 r ls : sd_run prob LS sp clock ls0 x0 = Ok (r, ls) -> sd_post x0 r.
Proof.
  unfold sd_run. intros H. apply bind_ok in H as (u & _ & H).
  refine (loop_inv _ (sd_inv x0) (fun '(r, _) => sd_post x0 r) _ _ _ _ (r, ls) _ H).
  - intros; eapply sd_inv_step; eauto.
  - intros s [r' ls'] [H1 H2 H3] Hb.
    apply sd_body_inv in Hb as (l' & step & x' & calls' & _ & Hp & Hc & Hi & Hl & Hca & He & _).
    assert (0 <= sd_iteration s)%Z by (destruct H1; lia).
    split.
    + rewrite Hi. destruct H1; lia.
    + congruence.
    + congruence.
    + rewrite Hl, Hi. apply log_inv_add; auto. intros E. destruct H2 as [[_ H2]|H2]; auto. lia.
  - apply sd_inv_init.
Qed.

(** The reported gradient norm is the one at the iterate the last line search started from. *)
Lemma sd_run_norm ls0 x0 r ls : sd_run prob LS sp clock ls0 x0 = Ok (r, ls) ->
  exists y ls1 step calls, In y (r_calls r) /\
    ls_search LS ls1 f y (t_neg M (p_grad prob y)) (f y)
      (nneg N (nmul N (m_norm M y (p_grad prob y)) (m_norm M y (p_grad prob y)))) = Ok (ls, (step, r_point r), calls) /\
    r_step_size r = Some step /\ r_gradient_norm r = Some (m_norm M y (p_grad prob y)).
Proof.
  unfold sd_run. intros H. apply bind_ok in H as (u & _ & H).
  refine (loop_inv _ (fun _ => True) (fun '(r, ls) => exists y ls1 step calls, In y (r_calls r) /\
    ls_search LS ls1 f y (t_neg M (p_grad prob y)) (f y)
      (nneg N (nmul N (m_norm M y (p_grad prob y)) (m_norm M y (p_grad prob y)))) = Ok (ls, (step, r_point r), calls) /\
    r_step_size r = Some step /\ r_gradient_norm r = Some (m_norm M y (p_grad prob y))) _ _ _ _ (r, ls) _ H); auto.
  intros s [r' ls'] _ Hb. pose proof Hb as Hb2.
  apply sd_body_inv in Hb as (l' & step & x' & calls' & E & Hp & Hc & Hi & Hl & Hca & He & Hs & Hg).
  exists (sd_x s), (sd_ls s), step, calls'. rewrite Hca, Hp. repeat split; auto.
  - apply in_or_app. left. apply in_or_app. right. left. reflexivity.
  - rewrite E. do 2 f_equal. unfold sd_body in Hb2. apply bind_ok in Hb2 as (((l2 & (step2 & x2)) & calls2) & E2 & H2).
    unfold f in *. rewrite E in E2. injection E2 as <- <- <- <-.
    destruct (check_stopping _ _ _ _ _ _ _ _); [injection H2 as _ <-; reflexivity|discriminate].
Qed.

Lemma sd_run_fuel ls0 x0 :
  (forall st f x d f0 df0, ls_search LS st f x d f0 df0 <> Raise OutOfFuel) ->
  sd_run prob LS sp clock ls0 x0 <> Raise OutOfFuel.
Proof.
  intros HLS. unfold sd_run, format_length_check.
  assert (G : loop (sd_body prob LS sp clock (clock 0%nat)) (iter_fuel sp)
    (mkSd (LS:=LS) x0 ls0 0 1 (log_init (pt M) sp) []) <> Raise OutOfFuel).
  { apply (loop_fuel _ (sd_inv x0) (fun s => Z.to_nat (max_iterations sp - sd_iteration s))).
    - intros s _ H. unfold sd_body in H.
      destruct (ls_search LS _ _ _ _ _ _) as [((l & (st & x')) & c)|e] eqn:E; simpl in H.
      + destruct (check_stopping _ _ _ _ _ _ _ _); discriminate.
      + injection H as ->. eapply HLS; eauto.
    - intros s s' HI H. split; [eapply sd_inv_step; eauto|].
      apply sd_body_inv in H as (ls & step & x' & calls' & _ & Hx & Hi & Hlt & Hl & Hc).
      destruct HI as [H1 _ _]. destruct H1; lia.
    - apply sd_inv_init.
    - unfold iter_fuel; simpl. lia. }
  destruct (2 <=? verbosity sp)%Z; simpl; auto.
  destruct (max_iterations sp =? 0)%Z; simpl; try discriminate.
  destruct (max_iterations sp <? 0)%Z; simpl; auto; discriminate.
Qed.

(** Monotonicity. *)
Section SDMono.
Variable (L : OrderLaws N).
Variable (safe : ls_safe M LS).

Definition sd_mono (x0 : pt M) (s : sd_state LS) : Prop :=
  sd_inv x0 s /\
  ((forall p, In p (x0 :: sd_x s :: sd_calls s) -> nisnan N (f p) = false) ->
   nonincreasing (f x0 :: map l_cost (entries (sd_log s)) ++ [f (sd_x s)])).

Lemma mono_extend (x0 x x' : pt M) l t it g :
  nonincreasing (f x0 :: map l_cost (entries l) ++ [f x]) -> nle N (f x') (f x) = true ->
  nonincreasing (f x0 :: map l_cost (entries (log_add sp l (mkLog t it x (f x) g))) ++ [f x']).
Proof.
  intros H K.
  destruct (log_add_entries (M:=M) sp l t it x (f x) g) as [E|E]; rewrite E.
  - change (nonincreasing ((f x0 :: map l_cost (entries l)) ++ [f x'])).
    eapply nonincreasing_replace; eauto.
  - rewrite map_app. change (nonincreasing (((f x0 :: map l_cost (entries l)) ++ [f x]) ++ [f x'])).
    apply nonincreasing_snoc; auto.
Qed.

Lemma safe_le (x x' : pt M) calls' :
  (x' = x \/ (In x' calls' /\ nlt N (f x) (f x') = false)) ->
  nisnan N (f x) = false -> (forall p, In p calls' -> nisnan N (f p) = false) ->
  nle N (f x') (f x) = true.
Proof.
  intros [->|[Hin Hn]] Hx Hc.
  - apply (le_refl N L); auto.
  - apply (not_gt_le L); auto.
Qed.

Lemma sd_mono_step x0 start s s' : sd_mono x0 s ->
  sd_body prob LS sp clock start s = Ok (Continue s') -> sd_mono x0 s'.
Proof.
  intros [HI HM] H. split; [eapply sd_inv_step; eauto|].
  apply sd_body_inv in H as (ls & step & x' & calls' & Hs & Hx & Hi & Hlt & Hl & Hc).
  intros Hok. rewrite Hl, Hx.
  assert (Hok' : forall p, In p (x0 :: sd_x s :: sd_calls s ++ calls') -> nisnan N (f p) = false).
  { intros p Hp. apply Hok. rewrite Hc. simpl in *. rewrite in_app_iff in *. simpl. tauto. }
  apply mono_extend.
  - apply HM. intros p Hp. apply Hok'. simpl in *. rewrite in_app_iff. tauto.
  - apply safe_le with calls'.
    + eapply safe; eauto.
    + apply Hok'. simpl; auto.
    + intros p Hp. apply Hok'. simpl; rewrite in_app_iff; auto.
Qed.

Lemma sd_run_mono ls0 x0 r ls : sd_run prob LS sp clock ls0 x0 = Ok (r, ls) ->
  (forall p, In p (r_calls r) -> nisnan N (f p) = false) ->
  nonincreasing (f x0 :: map l_cost (entries (r_log r)) ++ [r_cost r]).
Proof.
  unfold sd_run. intros H. apply bind_ok in H as (u & _ & H).
  refine (loop_inv _ (sd_mono x0) (fun '(r, _) =>
    (forall p, In p (r_calls r) -> nisnan N (f p) = false) ->
     nonincreasing (f x0 :: map l_cost (entries (r_log r)) ++ [r_cost r])) _ _ _ _ (r, ls) _ H).
  - intros; eapply sd_mono_step; eauto.
  - intros s [r' ls'] [HI HM] Hb Hok.
    apply sd_body_inv in Hb as (l' & step & x' & calls' & Hs & Hp & Hc & Hi & Hl & Hca & He & _).
    rewrite Hl, Hc, Hca in *.
    assert (Hok' : forall p, In p (x0 :: sd_x s :: sd_calls s ++ calls') -> nisnan N (f p) = false).
    { intros p Hin. apply Hok. simpl in *. rewrite !in_app_iff in *. simpl.
      destruct HI as [_ [[_ <-]|[_ HI]] _]; destruct Hin as [<-|Hin]; tauto. }
    apply mono_extend.
    + apply HM. intros p Hin. apply Hok'. simpl in *. rewrite in_app_iff. tauto.
    + apply safe_le with calls'.
      * eapply safe; eauto.
      * apply Hok'. simpl; auto.
      * intros p Hin. apply Hok'. simpl; rewrite in_app_iff; auto.
  - split; [apply sd_inv_init|]. simpl. intros Hok.
    unfold log_init. destruct (1 <=? log_verbosity sp)%Z; simpl;
    (constructor; [repeat constructor|constructor; [|constructor]]; apply (le_refl N L); apply Hok; auto).
Qed.
End SDMono.
End SD.

(** * Conjugate gradient *)
Section CG.
Context {N : NumOps} {M : Mfd N} (prob : OptProblem M) (LS : LineSearcher M)
        (sp : stop_params N) (clock : nat -> N) (rule : beta_args M -> res N) (orth : N).
Let f := p_cost prob.
Let gn x := m_norm M x (p_grad prob x).

(** What one iteration does, besides the new direction. *)
Lemma cg_body_inv start s o : cg_body prob LS sp clock rule orth start s = Ok o ->
  let log := log_add sp (cg_log s) (mkLog (clock (cg_tick s)) (cg_iteration s + 1) (cg_x s)
       (cg_cost s) (cg_gradient_norm s)) in
  match o with
  | Continue s' => exists step calls',
      ls_search LS (cg_ls s) f (cg_x s) (fst (cg_direction s)) (cg_cost s)
        (snd (cg_direction s)) = Ok (cg_ls s', (step, cg_x s'), calls') /\
      cg_cost s' = f (cg_x s') /\ cg_grad s' = p_grad prob (cg_x s') /\
      cg_gradient_norm s' = gn (cg_x s') /\
      cg_Pgrad s' = p_prec prob (cg_x s') (cg_grad s') /\
      cg_gradPgrad s' = m_inner M (cg_x s') (cg_grad s') (cg_Pgrad s') /\
      cg_iteration s' = (cg_iteration s + 1)%Z /\ (cg_iteration s + 1 < max_iterations sp)%Z /\
      cg_log s' = log /\ cg_calls s' = cg_calls s ++ calls' ++ [cg_x s']
  | Stop (r, ls') => r_point r = cg_x s /\ r_cost r = cg_cost s /\
      r_gradient_norm r = Some (cg_gradient_norm s) /\
      r_iterations r = (cg_iteration s + 1)%Z /\ r_log r = log /\ r_calls r = cg_calls s /\
      r_cost_evaluations r = Some (cg_iteration s + 1)%Z /\ ls' = cg_ls s
  end.
Proof.
  unfold cg_body. intros H.
  destruct (check_stopping _ _ _ _ _ _ _ _) eqn:Ec.
  - injection H as <-. simpl. repeat split; reflexivity.
  - apply check_stopping_none_iter in Ec.
    destruct (cg_direction s) as [dir df0] eqn:Ed.
    apply bind_ok in H as (((ls & (step & x')) & calls') & E & H).
    apply bind_ok in H as (og & _ & H). apply bind_ok in H as (nd & _ & H).
    injection H as <-. simpl. exists step, calls'. repeat split; auto.
Qed.

Record cg_inv (x0 : pt M) (s : cg_state LS) : Prop := {
  ci_it : iter_ok sp (cg_iteration s);
  ci_cost : cg_cost s = f (cg_x s);
  ci_grad : cg_grad s = p_grad prob (cg_x s);
  ci_gn : cg_gradient_norm s = gn (cg_x s);
  ci_P : cg_Pgrad s = p_prec prob (cg_x s) (cg_grad s);
  ci_gPg : cg_gradPgrad s = m_inner M (cg_x s) (cg_grad s) (cg_Pgrad s);
  ci_x0 : cg_iteration s = 0%Z -> cg_x s = x0;
  ci_calls : In x0 (cg_calls s) /\ In (cg_x s) (cg_calls s);
  ci_log : log_inv prob sp x0 (cg_log s) (cg_iteration s) }.

Lemma cg_inv_init ls0 x0 : cg_inv x0 (cg_init prob LS sp ls0 x0).
Proof. split; simpl; auto. left; reflexivity. apply log_inv_init. Qed.

Lemma cg_inv_step x0 start s s' : cg_inv x0 s ->
  cg_body prob LS sp clock rule orth start s = Ok (Continue s') -> cg_inv x0 s'.
Proof.
  intros [] H. apply cg_body_inv in H as (step & calls' & Hs & Hc & Hg & Hn & HP & HgP & Hi & Hlt & Hl & Hca).
  assert (0 <= cg_iteration s)%Z by (destruct ci_it0; lia).
  split; auto.
  - right. lia.
  - lia.
  - rewrite Hca. rewrite !in_app_iff. simpl. tauto.
  - rewrite Hl, Hi, ci_cost0, ci_gn0. apply log_inv_add; auto.
Qed.

Record cg_post (x0 : pt M) (r : result N (pt M)) : Prop := {
  cq_it : (1 <= r_iterations r <= Z.max 1 (max_iterations sp))%Z;
  cq_cost : r_cost r = f (r_point r);
  cq_gn : r_gradient_norm r = Some (gn (r_point r));
  cq_ev : r_cost_evaluations r = Some (r_iterations r);
  cq_log : log_inv prob sp x0 (r_log r) (r_iterations r) }.

Lemma cg_run_post ls0 x0 r ls :
  cg_run prob LS sp clock rule orth ls0 x0 = Ok (r, ls) -> cg_post x0 r.
Proof.
  unfold cg_run. intros H. apply bind_ok in H as (u & _ & H).
  refine (loop_inv _ (cg_inv x0) (fun '(r, _) => cg_post x0 r) _ _ _ _ (r, ls) _ H).
  - intros; eapply cg_inv_step; eauto.
  - intros s [r' ls'] [] Hb.
    apply cg_body_inv in Hb as (Hp & Hc & Hg & Hi & Hl & Hca & He & _).
    assert (0 <= cg_iteration s)%Z by (destruct ci_it0; lia).
    split.
    + rewrite Hi. destruct ci_it0; lia.
    + congruence.
    + congruence.
    + congruence.
    + rewrite Hl, Hi, ci_cost0, ci_gn0. apply log_inv_add; auto.
  - apply cg_inv_init.
Qed.

Lemma cg_run_fuel ls0 x0 :
  (forall st f x d f0 df0, ls_search LS st f x d f0 df0 <> Raise OutOfFuel) ->
  (forall a, rule a <> Raise OutOfFuel) ->
  (forall a b, ip_div M a b <> Raise OutOfFuel) ->
  cg_run prob LS sp clock rule orth ls0 x0 <> Raise OutOfFuel.
Proof.
  intros HLS HR HD. unfold cg_run, format_length_check.
  assert (G : loop (cg_body prob LS sp clock rule orth (clock 0%nat)) (iter_fuel sp)
    (cg_init prob LS sp ls0 x0) <> Raise OutOfFuel).
  { apply (loop_fuel _ (cg_inv x0) (fun s => Z.to_nat (max_iterations sp - cg_iteration s))).
    - intros s _ H. unfold cg_body in H.
      destruct (check_stopping _ _ _ _ _ _ _ _); [discriminate|].
      destruct (cg_direction s) as [dir df0].
      destruct (ls_search LS _ _ _ _ _ _) as [((l & (st & x')) & c)|e] eqn:E; simpl in H;
        [|injection H as ->; eapply HLS; eauto].
      match goal with H : bind ?r _ = _ |- _ => destruct r as [og|e] eqn:E2; simpl in H end;
        [|injection H as ->; eapply HD; eauto].
      destruct (nle N orth (nabs N og)); simpl in H; [discriminate|].
      match goal with H : bind (bind ?r _) _ = _ |- _ => destruct r as [be|e] eqn:E3; simpl in H end;
        [discriminate|injection H as ->; eapply HR; eauto].
    - intros s s' HI H. split; [eapply cg_inv_step; eauto|].
      apply cg_body_inv in H as (step & calls' & Hs & Hc & Hg & Hn & HP & HgP & Hi & Hlt & Hl & Hca).
      destruct HI. destruct ci_it0; lia.
    - apply cg_inv_init.
    - unfold iter_fuel; simpl. lia. }
  destruct (2 <=? verbosity sp)%Z; simpl; auto.
  destruct (max_iterations sp =? 0)%Z; simpl; try discriminate.
  destruct (max_iterations sp <? 0)%Z; simpl; auto; discriminate.
Qed.

Section CGMono.
Variable (L : OrderLaws N).
Variable (safe : ls_safe M LS).

Definition cg_mono (x0 : pt M) (s : cg_state LS) : Prop :=
  cg_inv x0 s /\
  ((forall p, In p (cg_calls s) -> nisnan N (f p) = false) ->
   nonincreasing (f x0 :: map l_cost (entries (cg_log s)) ++ [f (cg_x s)])).

Lemma cg_run_mono ls0 x0 r ls : cg_run prob LS sp clock rule orth ls0 x0 = Ok (r, ls) ->
  (forall p, In p (r_calls r) -> nisnan N (f p) = false) ->
  nonincreasing (f x0 :: map l_cost (entries (r_log r)) ++ [r_cost r]).
Proof.
  unfold cg_run. intros H. apply bind_ok in H as (u & _ & H).
  refine (loop_inv _ (cg_mono x0) (fun '(r, _) =>
    (forall p, In p (r_calls r) -> nisnan N (f p) = false) ->
     nonincreasing (f x0 :: map l_cost (entries (r_log r)) ++ [r_cost r])) _ _ _ _ (r, ls) _ H).
  - intros s s' [HI HM] Hb. split; [eapply cg_inv_step; eauto|].
    intros Hok. destruct HI.
    apply cg_body_inv in Hb as (step & calls' & Hs & Hc & Hg & Hn & HP & HgP & Hi & Hlt & Hl & Hca).
    assert (Hok' : forall p, In p (cg_calls s ++ calls') -> nisnan N (f p) = false).
    { intros p Hp. apply Hok. rewrite Hca. rewrite !in_app_iff in *. tauto. }
    rewrite Hl, ci_cost0. apply (mono_extend prob sp L).
    + apply HM. intros p Hp. apply Hok'. rewrite in_app_iff; auto.
    + apply (safe_le prob L) with calls'.
      * pose proof (safe _ _ _ _ _ _ _ _ _ _ Hs) as K. rewrite ci_cost0 in K. exact K.
      * apply Hok'. rewrite in_app_iff. tauto.
      * intros p Hp. apply Hok'. rewrite in_app_iff; auto.
  - intros s [r' ls'] [HI HM] Hb Hok. destruct HI.
    apply cg_body_inv in Hb as (Hp & Hc & Hg & Hi & Hl & Hca & He & _).
    rewrite Hl, Hc, Hca, ci_cost0 in *.
    apply (mono_extend prob sp L); auto.
    apply (le_refl N L). apply Hok. tauto.
  - split; [apply cg_inv_init|]. simpl. intros Hok.
    unfold log_init. destruct (1 <=? log_verbosity sp)%Z; simpl;
    (constructor; [repeat constructor|constructor; [|constructor]]; apply (le_refl N L); apply Hok; auto).
Qed.
End CGMono.
End CG.
