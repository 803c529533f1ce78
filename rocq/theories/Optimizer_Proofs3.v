From Coq Require Import ZArith List Bool Lia Sorted Reals Lra SpecFloat.
From Verif Require Import Num_Model Num_Spec Num_Proofs Num_Instances LineSearch_Model LineSearch_Spec
  LineSearch_Proofs Optimizer_Model Optimizer_Spec Optimizer_Proofs Optimizer_Proofs2.
Import ListNotations.

Lemma log_inv_faithful {N : NumOps} {M : Mfd N} (prob : OptProblem M) (sp : stop_params N) x0 l it :
  (1 <= it)%Z -> log_inv prob sp x0 l it ->
  if (1 <=? log_verbosity sp)%Z
  then exists es, l = Some es /\ Z.of_nat (length es) = it /\ faithful_log prob x0 es
  else l = None.
Proof.
  unfold log_inv. intros Hit. destruct (1 <=? log_verbosity sp)%Z; auto.
  intros (es & -> & Hl & Hh & Ha). exists es. repeat split; auto; try (apply (Ha _ _ H)).
  destruct Hh as [->|Hh]; auto. simpl in Hl. lia.
Qed.

Lemma builtin_evaluates {N : NumOps} {M : Mfd N} (LS : LineSearcher M) : builtin_searcher LS ->
  forall st f x d f0 df0 st' sy calls,
  ls_search LS st f x d f0 df0 = Ok (st', sy, calls) -> 1 <= length calls.
Proof.
  intros [[p ->]|[p ->]] st f x d f0 df0 st' sy calls H; simpl in H.
  - apply bt_eval_bound in H. lia.
  - apply ad_eval_bound in H. lia.
Qed.

Section SD.
Context {N : NumOps} {M : Mfd N} (prob : OptProblem M) (LS : LineSearcher M)
        (sp : stop_params N) (clock : nat -> N).

Lemma sd_run_calls ls0 x0 r ls : builtin_searcher LS ->
  sd_run prob LS sp clock ls0 x0 = Ok (r, ls) ->
  (2 * r_iterations r + 1 <= Z.of_nat (length (r_calls r)))%Z.
Proof.
  unfold sd_run. intros HB H. apply bind_ok in H as (u & _ & H).
  refine (loop_inv _ (fun s : sd_state LS => 2 * sd_iteration s <= Z.of_nat (length (sd_calls s)))%Z
    (fun '(r, _) => 2 * r_iterations r + 1 <= Z.of_nat (length (r_calls r)))%Z _ _ _ _ (r, ls) _ H).
  - intros s s' HI Hb. apply sd_body_inv in Hb as (l & st & x' & c' & Hs & _ & Hi & _ & _ & Hc).
    rewrite Hi, Hc. apply (builtin_evaluates _ HB) in Hs. rewrite app_length. simpl length. lia.
  - intros s [r' l'] HI Hb. apply sd_body_inv in Hb as (l & st & x' & c' & Hs & _ & _ & Hi & _ & Hc & _).
    rewrite Hi, Hc. apply (builtin_evaluates _ HB) in Hs. rewrite !app_length. simpl length. lia.
  - simpl. lia.
Qed.

Lemma sd_run_reason ls0 x0 r ls :
  sd_run prob LS sp clock ls0 x0 = Ok (r, ls) ->
  exists tick, 
    first_criterion (criterion_met sp (clock (S tick)) (clock 0) (r_iterations r)
      (r_gradient_norm r) (r_step_size r) (-1)) (reason_criterion (r_stopping_criterion r)) /\
    reason_data (r_stopping_criterion r) (r_iterations r) (nsub N (clock tick) (clock 0)).
Proof.
  unfold sd_run. intros H. apply bind_ok in H as (u & _ & H).
  refine (loop_inv _ (fun _ => True) (fun '(r, _) => exists tick, 
    first_criterion (criterion_met sp (clock (S tick)) (clock 0) (r_iterations r)
      (r_gradient_norm r) (r_step_size r) (-1)) (reason_criterion (r_stopping_criterion r)) /\
    reason_data (r_stopping_criterion r) (r_iterations r) (nsub N (clock tick) (clock 0))) _ _ _ _ (r, ls) _ H); auto.
  intros s [r' l'] _ Hb. unfold sd_body in Hb.
  apply bind_ok in Hb as (((l & (step & x')) & calls') & E & Hb).
  match type of Hb with context [check_stopping ?a ?b ?c ?d ?e ?f ?g ?h] =>
    pose proof (check_stopping_cases a b c d e f g h) as HC;
    destruct (check_stopping a b c d e f g h); [|discriminate]; exists c end.
  injection Hb as <- <-. exact HC.
Qed.

(** Arguments of the line search in steepest descent. *)
Definition sd_call (c : pt M * tv M * N * N) : Prop :=
  let '(x, d, f0, df0) := c in
  d = t_neg M (p_grad prob x) /\ f0 = p_cost prob x /\
  df0 = nneg N (nmul N (m_norm M x (p_grad prob x)) (m_norm M x (p_grad prob x))).
End SD.

Lemma sd_run_calls_args {N : NumOps} {M : Mfd N} (prob : OptProblem M) (LS : LineSearcher M)
  (sp : stop_params N) (clock : nat -> N) ls0 x0 r ls :
  sd_run prob (recording LS) sp clock (ls0, []) x0 = Ok (r, ls) ->
  Forall (sd_call prob) (snd ls) /\ Z.of_nat (length (snd ls)) = r_iterations r.
Proof.
  unfold sd_run. intros H. apply bind_ok in H as (u & _ & H).
  refine (loop_inv _ (fun s : sd_state (recording LS) => Forall (sd_call prob) (snd (sd_ls s)) /\
     Z.of_nat (length (snd (sd_ls s))) = sd_iteration s)
    (fun '(r, l) => Forall (sd_call prob) (snd l) /\ Z.of_nat (length (snd l)) = r_iterations r)
     _ _ _ _ (r, ls) _ H).
  - intros s s' [HF HL] Hb. unfold sd_body in Hb. apply bind_ok in Hb as (((l & (step & x')) & calls') & E & Hb).
    simpl ls_search in E. apply bind_ok in E as (((l2 & sy) & c') & Hs & E). injection E as <- _ _.
    destruct (check_stopping _ _ _ _ _ _ _ _); [discriminate|]. injection Hb as <-.
    cbn [sd_ls snd sd_iteration]. split; [constructor; simpl; auto|]. simpl length. lia.
  - intros s [r' l'] [HF HL] Hb. unfold sd_body in Hb. apply bind_ok in Hb as (((l & (step & x')) & calls') & E & Hb).
    simpl ls_search in E. apply bind_ok in E as (((l2 & sy) & c') & Hs & E). injection E as <- _ _.
    destruct (check_stopping _ _ _ _ _ _ _ _); [|discriminate]. injection Hb as <- <-.
    cbn [snd r_iterations]. split; [constructor; simpl; auto|]. simpl length. lia.
  - simpl. auto.
Qed.

Section CG.
Context {N : NumOps} {M : Mfd N} (prob : OptProblem M) (LS : LineSearcher M)
        (sp : stop_params N) (clock : nat -> N) (rule : beta_args M -> res N) (orth : N).

Lemma cg_run_calls ls0 x0 r ls : builtin_searcher LS ->
  cg_run prob LS sp clock rule orth ls0 x0 = Ok (r, ls) ->
  (2 * r_iterations r - 1 <= Z.of_nat (length (r_calls r)))%Z.
Proof.
  unfold cg_run. intros HB H. apply bind_ok in H as (u & _ & H).
  refine (loop_inv _ (fun s : cg_state LS => 2 * cg_iteration s + 1 <= Z.of_nat (length (cg_calls s)))%Z
    (fun '(r, _) => 2 * r_iterations r - 1 <= Z.of_nat (length (r_calls r)))%Z _ _ _ _ (r, ls) _ H).
  - intros s s' HI Hb. apply cg_body_inv in Hb as (st & c' & Hs & _ & _ & _ & _ & _ & Hi & _ & _ & Hc).
    rewrite Hi, Hc. apply (builtin_evaluates _ HB) in Hs. rewrite !app_length. simpl length. lia.
  - intros s [r' l'] HI Hb. apply cg_body_inv in Hb as (_ & _ & _ & Hi & _ & Hc & _).
    rewrite Hi, Hc. lia.
  - simpl. lia.
Qed.

Lemma cg_run_reason ls0 x0 r ls :
  cg_run prob LS sp clock rule orth ls0 x0 = Ok (r, ls) ->
  exists tick, 
    first_criterion (criterion_met sp (clock (S tick)) (clock 0) (r_iterations r)
      (r_gradient_norm r) (r_step_size r) (-1)) (reason_criterion (r_stopping_criterion r)) /\
    reason_data (r_stopping_criterion r) (r_iterations r) (nsub N (clock tick) (clock 0)).
Proof.
  unfold cg_run. intros H. apply bind_ok in H as (u & _ & H).
  refine (loop_inv _ (fun _ => True) (fun '(r, _) => exists tick, 
    first_criterion (criterion_met sp (clock (S tick)) (clock 0) (r_iterations r)
      (r_gradient_norm r) (r_step_size r) (-1)) (reason_criterion (r_stopping_criterion r)) /\
    reason_data (r_stopping_criterion r) (r_iterations r) (nsub N (clock tick) (clock 0))) _ _ _ _ (r, ls) _ H); auto.
  intros s [r' l'] _ Hb. unfold cg_body in Hb.
  match type of Hb with context [check_stopping ?a ?b ?c ?d ?e ?f ?g ?h] =>
    pose proof (check_stopping_cases a b c d e f g h) as HC;
    destruct (check_stopping a b c d e f g h); [exists c|] end.
  - injection Hb as <- <-. exact HC.
  - destruct (cg_direction s).
    apply bind_ok in Hb as (((l & (step & x')) & calls') & E & Hb).
    apply bind_ok in Hb as (og & _ & H'). apply bind_ok in H' as (nd & _ & H'). discriminate.
Qed.
End CG.

(** On manifolds with Python-float inner products, conjugate gradient only gets past
    iterates whose preconditioned gradient norm is non-zero. *)
Section CGZero.
Context (powf : spec_float -> spec_float -> spec_float) {M : Mfd (f64 powf)} (prob : OptProblem M)
  (LS : LineSearcher M) (sp : stop_params (f64 powf)) (clock : nat -> f64 powf)
  (rule : beta_args M -> res (f64 powf)) (orth : f64 powf).
Hypothesis py : m_ip_py M = true.

Definition nonzero_grad (x : pt M) : Prop :=
  f64_is_zero (m_inner M x (p_grad prob x) (p_prec prob x (p_grad prob x))) = false.

Lemma ip_div_py a b q : ip_div M a b = Ok q -> f64_is_zero b = false.
Proof. unfold ip_div. rewrite py. simpl. destruct (f64_is_zero b); [discriminate|auto]. Qed.

Lemma cg_run_nonzero ls0 x0 r ls :
  cg_run prob LS sp clock rule orth ls0 x0 = Ok (r, ls) ->
  Forall nonzero_grad (tl (map l_point (entries (r_log r)))) /\
  (r_iterations r = 1%Z \/ nonzero_grad (r_point r)).
Proof.
  unfold cg_run. intros H. apply bind_ok in H as (u & _ & H).
  refine (loop_inv _ (fun s : cg_state LS => 
     Forall nonzero_grad (tl (map l_point (entries (cg_log s)))) /\
     (cg_iteration s = 0%Z /\ entries (cg_log s) = [] \/ (0 < cg_iteration s)%Z /\ nonzero_grad (cg_x s)))
    (fun '(r, _) => Forall nonzero_grad (tl (map l_point (entries (r_log r)))) /\
      (r_iterations r = 1%Z \/ nonzero_grad (r_point r))) _ _ _ _ (r, ls) _ H).
  - intros s s' [HF HI] Hb. pose proof Hb as Hb'.
    apply cg_body_inv in Hb as (st & c' & Hs & _ & Hg & _ & HP & HgP & Hi & _ & Hl & Hc).
    split.
    + rewrite Hl. unfold log_add. destruct (log_verbosity sp <=? 0)%Z; auto.
      destruct (cg_log s) as [es|]; auto. simpl in *. rewrite map_app.
      destruct HI as [[_ ->]|[_ HI]]; [simpl; constructor|].
      destruct es; simpl in *; [constructor|]. apply Forall_app; split; auto.
    + right. split; [rewrite Hi; destruct HI as [[-> _]|[? _]]; lia|].
      unfold cg_body in Hb'. destruct (check_stopping _ _ _ _ _ _ _ _); [discriminate|].
      destruct (cg_direction s).
      apply bind_ok in Hb' as (((l & (step & x')) & calls') & E & Hb).
      apply bind_ok in Hb as (og & Ho & Hb). apply bind_ok in Hb as (nd & _ & Hb).
      injection Hb as <-. apply ip_div_py in Ho. exact Ho.
  - intros s [r' l'] [HF HI] Hb. apply cg_body_inv in Hb as (Hp & _ & _ & Hi & Hl & Hc & _).
    split.
    + rewrite Hl. unfold log_add. destruct (log_verbosity sp <=? 0)%Z; auto.
      destruct (cg_log s) as [es|]; auto. simpl in *. rewrite map_app.
      destruct HI as [[_ ->]|[_ HI]]; [simpl; constructor|].
      destruct es; simpl in *; [constructor|]. apply Forall_app; split; auto.
    + rewrite Hi, Hp. destruct HI as [[-> _]|[_ ?]]; auto.
  - unfold cg_init, log_init. simpl. destruct (1 <=? log_verbosity sp)%Z; simpl; auto.
Qed.
End CGZero.

(** First trial point of steepest descent at a critical point, binary64. *)
Lemma bt_zero_norm powf (M : Mfd (f64 powf)) (f : pt M -> f64 powf) x d f0 df0 st sy calls s :
  m_norm M x d = S754_zero s ->
  bt_search M bt_default None f x d f0 df0 = Ok (st, sy, calls) ->
  hd_error calls = Some (m_retr M x (t_scale M (S754_infinity s) d)).
Proof.
  intros Hn H.
  assert (Ha : bt_initial_step (bt_init (N:=f64 powf) bt_default) (bt_optimism bt_default) None f0 df0
     (m_norm M x d) (S754_infinity s)).
  { rewrite Hn. simpl. destruct s; reflexivity. }
  destruct (bt_search_spec M _ _ f _ _ _ _ _ Ha) as (J & _ & E).
  assert (calls = map (fun j => along M x d (contracted (nmul (f64 powf) (bt_contraction bt_default))
      (S754_infinity s : f64 powf) j)) (seq 0 (S J))) as -> by congruence.
  reflexivity.
Qed.

Lemma sd_log_faithful {N : NumOps} {M : Mfd N} (prob : OptProblem M) LS sp clock ls0 x0 r ls :
  sd_run prob LS sp clock ls0 x0 = Ok (r, ls) ->
  if (1 <=? log_verbosity sp)%Z
  then exists es, r_log r = Some es /\ Z.of_nat (length es) = r_iterations r /\ faithful_log prob x0 es
  else r_log r = None.
Proof.
  intros H. apply sd_run_post in H as []. apply log_inv_faithful; auto. lia.
Qed.
Lemma cg_log_faithful {N : NumOps} {M : Mfd N} (prob : OptProblem M) LS sp clock rule orth ls0 x0 r ls :
  cg_run prob LS sp clock rule orth ls0 x0 = Ok (r, ls) ->
  if (1 <=? log_verbosity sp)%Z
  then exists es, r_log r = Some es /\ Z.of_nat (length es) = r_iterations r /\ faithful_log prob x0 es
  else r_log r = None.
Proof.
  intros H. apply cg_run_post in H as []. apply log_inv_faithful; auto. lia.
Qed.
Lemma sd_count_wrong {N : NumOps} {M : Mfd N} (prob : OptProblem M) LS sp clock ls0 x0 r ls :
  builtin_searcher LS ->
  sd_run prob LS sp clock ls0 x0 = Ok (r, ls) ->
  exists n, r_cost_evaluations r = Some n /\ n = r_iterations r /\
    (n < Z.of_nat (length (r_calls r)))%Z.
Proof.
  intros HB H. exists (r_iterations r). pose proof (sd_run_calls _ _ _ _ _ _ _ _ HB H).
  apply sd_run_post in H as []. repeat split; auto. lia.
Qed.
Lemma cg_count_wrong {N : NumOps} {M : Mfd N} (prob : OptProblem M) LS sp clock rule orth ls0 x0 r ls :
  builtin_searcher LS ->
  cg_run prob LS sp clock rule orth ls0 x0 = Ok (r, ls) -> (2 <= r_iterations r)%Z ->
  exists n, r_cost_evaluations r = Some n /\ n = r_iterations r /\
    (n < Z.of_nat (length (r_calls r)))%Z.
Proof.
  intros HB H H2. exists (r_iterations r). pose proof (cg_run_calls _ _ _ _ _ _ _ _ _ _ HB H).
  apply cg_run_post in H as []. repeat split; auto. lia.
Qed.

Lemma beta_nonneg {N : NumOps} (L : OrderLaws N) (M : Mfd N) : nlt N (n_of_Z N 1) (n_of_Z N 0) = false ->
  forall r (a : beta_args M) b,
  In r [PolakRibiere; HestenesStiefel; LiuStorey] -> beta_update r a = Ok b ->
  nlt N b (n_of_Z N 0) = false.
Proof.
  intros H1 r a b [<-|[<-|[<-|[]]]] H.
  - apply (beta_pr_nonneg L M) in H; auto.
  - apply (beta_hs_nonneg L M) in H; auto.
  - apply (beta_ls_nonneg L M) in H; auto.
Qed.

Lemma beta_agree (M : Mfd Rnum) (a : beta_args M) :
  let ip := m_inner M (b_newx a) in
  (forall u v w, ip (t_sub M u v) w = ip u w - ip v w)%R ->
  (forall u v w, ip w (t_sub M u v) = ip w u - ip w v)%R ->
  (forall u v, ip u v = ip v u) ->
  b_newgradPnewgrad a = ip (b_newgrad a) (b_Pnewgrad a) ->
  (0 <= b_newgradPnewgrad a)%R -> (0 < b_gradPgrad a)%R ->
  ip (b_oldgrad a) (b_Pnewgrad a) = 0%R ->
  ip (b_newgrad a) (b_descent_direction a) = 0%R ->
  ip (b_oldgrad a) (b_descent_direction a) = (- b_gradPgrad a)%R ->
  m_inner M (b_x a) (b_grad a) (b_descent_direction a) = (- b_gradPgrad a)%R ->
  (0 < m_norm M (b_newx a) (b_descent_direction a))%R -> (0 < b_gradient_norm a)%R ->
  forall r, beta_update r a = Ok (b_newgradPnewgrad a / b_gradPgrad a)%R.
Proof.
  intros ip H1 H2 H3 H4 H5 H6 H7 H8 H9 H10 H11 H12 [].
  - apply agree_fr; auto.
  - apply agree_pr; auto.
  - apply agree_hs; auto.
  - apply agree_hz; auto.
  - apply agree_ls; auto.
Qed.
