From Coq Require Import ZArith List Bool Lia Sorted Reals Lra.
From Verif Require Import Num_Model Num_Spec Num_Proofs Num_Instances LineSearch_Model LineSearch_Spec
  LineSearch_Proofs Optimizer_Model Optimizer_Spec Optimizer_Proofs.
Import ListNotations.

(** * No fuel problems *)
Section Fuel.
Context {N : NumOps} (L : OrderLaws N) (M : Mfd N).

Lemma ndiv_fuel x y : ndiv N x y <> Raise OutOfFuel.
Proof. intros H. apply (div_exn N L) in H. discriminate. Qed.
Lemma ip_div_fuel x y : ip_div M x y <> Raise OutOfFuel.
Proof.
  unfold ip_div; destruct (m_ip_py M); intros H;
    [apply (div_py_exn N L) in H|apply (div_exn N L) in H]; discriminate.
Qed.

Lemma builtin_fuel (LS : LineSearcher M) : builtin_searcher LS ->
  forall st f x d f0 df0, ls_search LS st f x d f0 df0 <> Raise OutOfFuel.
Proof.
  intros [[p ->]|[p ->]] st f x d f0 df0 H; simpl in st, H.
  - assert (exists a0, bt_initial_step (bt_init p) (bt_optimism p) st f0 df0 (m_norm M x d) a0) as [a0 Ha].
    { unfold bt_search, bt_initial_step in *. destruct st as [o|].
      - destruct (ndiv N (nmul N (n_of_Z N 2) (nsub N f0 o)) df0) eqn:E; eauto.
        simpl in H. injection H as ->. apply ndiv_fuel in E; easy.
      - destruct (ndiv N (bt_init p) (m_norm M x d)) eqn:E; eauto.
        simpl in H. injection H as ->. apply ndiv_fuel in E; easy. }
    destruct (bt_search_spec M p st f x d f0 df0 a0 Ha) as (J & _ & E). congruence.
  - assert (exists a0, ad_initial_step (ad_init p) st (m_norm M x d) a0) as [a0 Ha].
    { unfold ad_search, ad_initial_step in *. destruct st as [o|]; eauto.
      destruct (ndiv N (ad_init p) (m_norm M x d)) eqn:E; eauto.
      simpl in H. injection H as ->. apply ndiv_fuel in E; easy. }
    destruct (ad_search_spec M p st f x d f0 df0 a0 Ha) as (J & _ & E). cbn zeta in E. congruence.
Qed.

Lemma builtin_safe (LS : LineSearcher M) : builtin_searcher LS -> ls_safe M LS.
Proof. intros [[p ->]|[p ->]]; [apply bt_safe|apply ad_safe]. Qed.

Lemma beta_fuel r a : beta_update (M:=M) r a <> Raise OutOfFuel.
Proof.
  destruct r; simpl; intros H.
  - unfold beta_fletcher_reeves in H. eapply ip_div_fuel; eauto.
  - unfold beta_polak_ribiere in H.
    destruct (ip_div M _ _) eqn:E; simpl in H; [discriminate|].
    injection H as ->. eapply ip_div_fuel; eauto.
  - unfold beta_hestenes_stiefel in H.
    destruct (ip_div M _ _) as [|e] eqn:E; [discriminate|].
    destruct e; try discriminate. eapply ip_div_fuel; eauto.
  - unfold beta_hager_zhang in H.
    destruct (ip_div M _ _) eqn:E in H; simpl in H; [|injection H as ->; eapply ip_div_fuel; eauto].
    destruct (ip_div M _ _) eqn:E2 in H; simpl in H; [|injection H as ->; eapply ip_div_fuel; eauto].
    destruct (ndiv N _ _) eqn:E3 in H; simpl in H; [discriminate|].
    injection H as ->; eapply ndiv_fuel; eauto.
  - unfold beta_liu_storey in H.
    destruct (ip_div M _ _) eqn:E in H; simpl in H; [|injection H as ->; eapply ip_div_fuel; eauto].
    destruct (ip_div M _ _) eqn:E2 in H; simpl in H; [discriminate|injection H as ->; eapply ip_div_fuel; eauto].
Qed.

(** * Signs of the beta rules *)
Lemma pymax_ge (a b : N) : nlt N (pymax a b) a = false.
Proof.
  unfold pymax. destruct (nlt N a b) eqn:E; [apply (lt_asym L); auto|apply (lt_irrefl L)].
Qed.
Lemma pymax_ge_r (a b : N) : nlt N (pymax a b) b = false.
Proof.
  unfold pymax. destruct (nlt N a b) eqn:E; auto. apply (lt_irrefl L).
Qed.

Lemma beta_pr_nonneg a b : beta_polak_ribiere (M:=M) a = Ok b -> nlt N b (n_of_Z N 0) = false.
Proof.
  unfold beta_polak_ribiere. intros H; apply bind_ok in H as (q & _ & H). injection H as <-.
  apply pymax_ge.
Qed.
Lemma beta_ls_nonneg a b : beta_liu_storey (M:=M) a = Ok b -> nlt N b (n_of_Z N 0) = false.
Proof.
  unfold beta_liu_storey. intros H; apply bind_ok in H as (q & _ & H).
  apply bind_ok in H as (q' & _ & H). injection H as <-.
  apply pymax_ge.
Qed.
Lemma beta_hs_nonneg a b : nlt N (n_of_Z N 1) (n_of_Z N 0) = false ->
  beta_hestenes_stiefel (M:=M) a = Ok b -> nlt N b (n_of_Z N 0) = false.
Proof.
  unfold beta_hestenes_stiefel. intros H1 H.
  destruct (ip_div M _ _) as [|e] eqn:E.
  - injection H as <-. apply pymax_ge.
  - destruct e; try discriminate. injection H as <-. auto.
Qed.
Lemma beta_hz_bound a b : beta_hager_zhang (M:=M) a = Ok b ->
  exists eta, ndiv N (nneg N (n_of_Z N 1))
    (nmul N (m_norm M (b_newx a) (b_descent_direction a)) (pymin (lit 1 100) (b_gradient_norm a))) = Ok eta /\
    nlt N b eta = false.
Proof.
  unfold beta_hager_zhang. intros H; apply bind_ok in H as (q & _ & H).
  apply bind_ok in H as (q' & _ & H). apply bind_ok in H as (e & E & H). injection H as <-.
  exists e; split; auto. apply pymax_ge_r.
Qed.
End Fuel.

(** * Agreement of the beta rules in exact arithmetic *)
Section Agree.
Context (M : Mfd Rnum) (a : beta_args M).
Local Open Scope R_scope.
Let ip := m_inner M (b_newx a).
Hypothesis ip_sub_l : forall u v w, ip (t_sub M u v) w = ip u w - ip v w.
Hypothesis ip_sub_r : forall u v w, ip w (t_sub M u v) = ip w u - ip w v.
Hypothesis ip_sym : forall u v, ip u v = ip v u.
Hypothesis def_ng : b_newgradPnewgrad a = ip (b_newgrad a) (b_Pnewgrad a).
Hypothesis ng_nonneg : 0 <= b_newgradPnewgrad a.
Hypothesis g_pos : 0 < b_gradPgrad a.
Hypothesis orth_grads : ip (b_oldgrad a) (b_Pnewgrad a) = 0.
Hypothesis exact_search : ip (b_newgrad a) (b_descent_direction a) = 0.
Hypothesis slope : ip (b_oldgrad a) (b_descent_direction a) = - b_gradPgrad a.

Let fr := b_newgradPnewgrad a / b_gradPgrad a.

Lemma Rdiv_ok x y : y <> 0 -> ip_div M x y = Ok (x / y).
Proof.
  intros. unfold ip_div; destruct (m_ip_py M); simpl; unfold Rdiv_res;
    destruct (Req_EM_T y 0); congruence.
Qed.
Lemma fr_nonneg : 0 <= fr.
Proof. unfold fr. apply Rmult_le_pos; auto. left; apply Rinv_0_lt_compat; auto. Qed.
Lemma pymax_0_fr : pymax (N:=Rnum) 0 fr = fr.
Proof.
  unfold pymax; simpl. unfold Rltb. destruct (Rlt_dec 0 fr); auto.
  pose proof fr_nonneg. apply Rle_antisym; lra.
Qed.

Lemma agree_fr : beta_update FletcherReeves a = Ok fr.
Proof. simpl. unfold beta_fletcher_reeves. apply Rdiv_ok; lra. Qed.
Lemma ipd : ip (b_Pnewgrad a) (t_sub M (b_newgrad a) (b_oldgrad a)) = b_newgradPnewgrad a.
Proof. rewrite ip_sub_r, def_ng, (ip_sym _ (b_oldgrad a)), orth_grads, ip_sym. lra. Qed.
Lemma agree_pr : beta_update PolakRibiere a = Ok fr.
Proof.
  simpl. unfold beta_polak_ribiere. fold ip. rewrite ipd, Rdiv_ok by lra. simpl. f_equal.
  apply pymax_0_fr.
Qed.
Lemma den : ip (t_sub M (b_newgrad a) (b_oldgrad a)) (b_descent_direction a) = b_gradPgrad a.
Proof. rewrite ip_sub_l, exact_search, slope. lra. Qed.
Lemma agree_hs : beta_update HestenesStiefel a = Ok fr.
Proof.
  simpl. unfold beta_hestenes_stiefel. fold ip. rewrite ipd, den, Rdiv_ok by lra. f_equal.
  apply pymax_0_fr.
Qed.
Lemma agree_ls : m_inner M (b_x a) (b_grad a) (b_descent_direction a) = - b_gradPgrad a ->
  beta_update LiuStorey a = Ok fr.
Proof.
  intros H. simpl. unfold beta_liu_storey. fold ip. simpl nneg. rewrite H, ipd.
  rewrite Ropp_involutive.
  rewrite Rdiv_ok by lra. simpl. f_equal. fold fr.
  unfold pymin. simpl. unfold Rltb. destruct (Rlt_dec fr fr); [lra|]. apply pymax_0_fr.
Qed.
Lemma agree_hz : 0 < m_norm M (b_newx a) (b_descent_direction a) -> 0 < b_gradient_norm a ->
  beta_update HagerZhang a = Ok fr.
Proof.
  intros H1 H2. simpl. unfold beta_hager_zhang. fold ip. rewrite den.
  rewrite Rdiv_ok by lra. simpl bind.
  rewrite (ip_sym (b_descent_direction a)), exact_search.
  rewrite Rdiv_ok by lra. simpl bind.
  rewrite (ip_sym _ (b_Pnewgrad a)), ipd.
  assert (Hmin : 0 < pymin (N:=Rnum) (lit 1 100) (b_gradient_norm a)).
  { unfold pymin, lit. simpl. unfold Rltb, Rdiv_res. destruct (Req_EM_T 100 0); [lra|].
    destruct (Rlt_dec _ _); lra. }
  assert (Hp : 0 < m_norm M (b_newx a) (b_descent_direction a) *
     pymin (N:=Rnum) (lit 1 100) (b_gradient_norm a)) by (apply Rmult_lt_0_compat; auto).
  simpl ndiv. unfold Rdiv_res. destruct (Req_EM_T _ 0) as [E|E].
  - simpl in E. lra.
  - simpl. f_equal. 
    match goal with |- pymax ?u ?v = _ => replace u with fr end.
    2:{ unfold fr. field. lra. }
    unfold pymax. simpl. unfold Rltb. destruct (Rlt_dec _ _) as [K|K]; auto.
    exfalso. pose proof fr_nonneg.
    assert (- (1) / (m_norm M (b_newx a) (b_descent_direction a) *
     pymin (N:=Rnum) (lit 1 100) (b_gradient_norm a)) < 0); [|simpl in *; lra].
    apply Rmult_lt_reg_r with (m_norm M (b_newx a) (b_descent_direction a) *
     pymin (N:=Rnum) (lit 1 100) (b_gradient_norm a)); auto.
    unfold Rdiv. rewrite Rmult_assoc, Rinv_l by (simpl in *; lra). lra.
Qed.
End Agree.

(** * Hager-Zhang directions are sufficient descent directions *)
Section SufficientDescent.
Context (M : Mfd Rnum) (a : beta_args M) (P : tv M -> tv M).
Local Open Scope R_scope.
Let ip := m_inner M (b_newx a).
Hypothesis ip_add_r : forall w u v, ip w (t_add M u v) = ip w u + ip w v.
Hypothesis ip_neg_r : forall w u, ip w (t_neg M u) = - ip w u.
Hypothesis ip_sub_r : forall w u v, ip w (t_sub M u v) = ip w u - ip w v.
Hypothesis ip_scale_r : forall w t u, ip w (t_scale M t u) = t * ip w u.
Hypothesis ip_sym : forall u v, ip u v = ip v u.
Hypothesis P_sub : forall u v, P (t_sub M u v) = t_sub M (P u) (P v).
Hypothesis P_scale : forall t u, P (t_scale M t u) = t_scale M t (P u).
Hypothesis P_sym : forall u v, ip u (P v) = ip v (P u).
Hypothesis P_pos : forall u, 0 <= ip u (P u).
Hypothesis norm_pos : 0 <= m_norm M (b_newx a) (b_descent_direction a).
Hypothesis grad_norm_pos : 0 <= b_gradient_norm a.
Hypothesis new_P : b_Pnewgrad a = P (b_newgrad a).
Hypothesis old_P : m_transp M (b_x a) (b_newx a) (b_Pgrad a) = P (b_oldgrad a).

Lemma hz_sufficient_descent b : beta_update HagerZhang a = Ok b ->
  ip (b_newgrad a) (t_add M (t_neg M (b_Pnewgrad a)) (t_scale M b (b_descent_direction a)))
  <= - (7 / 8) * ip (b_newgrad a) (b_Pnewgrad a).
Proof.
  simpl beta_update. unfold beta_hager_zhang. rewrite old_P, new_P, <- P_sub. fold ip.
  set (g := b_newgrad a). set (d := b_descent_direction a). set (y := t_sub M g (b_oldgrad a)).
  assert (DIV : forall u v q, ip_div M u v = Ok q -> v <> 0 /\ q = u / v).
  { intros u v q. unfold ip_div. destruct (m_ip_py M); simpl; unfold Rdiv_res;
      destruct (Req_EM_T v 0); intros; try discriminate; split; congruence. }
  intros H. apply bind_ok in H as (q & H1 & H). apply bind_ok in H as (beta & H2 & H).
  apply bind_ok in H as (eta & H3 & H).
  apply DIV in H1 as (NZ & ->). apply DIV in H2 as (_ & ->).
  assert (ETA : eta <= 0).
  { simpl in H3. unfold Rdiv_res in H3. destruct (Req_EM_T _ 0) as [|NZ']; [discriminate|].
    injection H3 as <-.
    assert (0 <= pymin (N:=Rnum) (lit 1 100) (b_gradient_norm a)).
    { unfold pymin, lit. simpl. unfold Rltb, Rdiv_res. destruct (Req_EM_T 100 0); [lra|].
      destruct (Rlt_dec _ _); lra. }
    fold d in norm_pos.
    assert (0 < m_norm M (b_newx a) d * pymin (N:=Rnum) (lit 1 100) (b_gradient_norm a)) as K.
    { destruct (Rmult_le_pos _ _ norm_pos H0); auto. simpl in NZ'. congruence. }
    unfold Rdiv. apply Rinv_0_lt_compat in K. simpl in *. nra. }
  rewrite ip_add_r, ip_neg_r, ip_scale_r.
  assert (E : b = pymax (N:=Rnum) ((ip y (P g) - 2 * ip y (P y) * ip d g / ip y d) / ip y d) eta).
  { simpl in *. congruence. }
  clear H. set (bN := (ip y (P g) - 2 * ip y (P y) * ip d g / ip y d) / ip y d) in *.
  assert (KEY : - ip g (P g) + bN * ip g d <= - (7 / 8) * ip g (P g)).
  { set (w := t_sub M (t_scale M (ip y d / 2) g) (t_scale M (2 * ip g d) y)).
    pose proof (P_pos w) as W. unfold w in W.
    rewrite P_sub, !P_scale, ip_sub_r, !ip_scale_r in W.
    rewrite !(ip_sym (t_sub M _ _)), !ip_sub_r, !ip_scale_r in W.
    rewrite !(ip_sym (P _)) in W. rewrite (P_sym g y) in W.
    unfold bN. rewrite (ip_sym d g). simpl in NZ. fold ip in NZ.
    set (yd := ip y d) in *. set (gd := ip g d) in *. set (yPg := ip y (P g)) in *.
    set (gPg := ip g (P g)) in *. set (yPy := ip y (P y)) in *.
    clearbody yd gd yPg gPg yPy.
    assert (SQ : 0 < yd * yd) by (destruct (Rtotal_order yd 0) as [?|[?|?]]; [nra|contradiction|nra]).
    apply Rmult_le_reg_r with (yd * yd); auto.
    replace ((- gPg + (yPg - 2 * yPy * gd / yd) / yd * gd) * (yd * yd)) with
      (- gPg * (yd * yd) + yPg * yd * gd - 2 * yPy * gd * gd) by (field; auto).
    nra. }
  assert (SGN : b * ip g d <= Rmax 0 (bN * ip g d)).
  { rewrite E. unfold pymax. simpl. unfold Rltb. destruct (Rlt_dec _ _) as [LT|GE].
    - destruct (Rle_or_lt 0 (ip g d)); [apply Rle_trans with 0; [nra|apply Rmax_l]|].
      apply Rle_trans with (bN * ip g d); [simpl in *; nra|apply Rmax_r].
    - apply Rmax_r. }
  pose proof (P_pos g) as PG. fold d.
  revert SGN. unfold Rmax. destruct (Rle_dec _ _); simpl in *; lra.
Qed.
End SufficientDescent.

(** * Descent directions handed to the line search, exact arithmetic *)
Section Descent.
Context {M : Mfd Rnum} (prob : OptProblem M) (LS : LineSearcher M)
  (sp : stop_params Rnum) (clock : nat -> R) (rule : beta_args M -> res R) (orth : R).
Local Open Scope R_scope.
Hypothesis ip_neg : forall x u v, m_inner M x u (t_neg M v) = - m_inner M x u v.
Hypothesis prec_nonneg : forall x v, 0 <= m_inner M x v (p_prec prob x v).

Definition good_call (c : pt M * tv M * R * R) : Prop :=
  let '(x, d, f0, df0) := c in
  f0 = p_cost prob x /\ df0 = m_inner M x (p_grad prob x) d /\
  (df0 < 0 \/ m_inner M x (p_grad prob x) (p_prec prob x (p_grad prob x)) = 0).

Lemma cg_good_calls ls0 x0 r ls :
  cg_run prob (recording LS) sp clock rule orth (ls0, []) x0 = Ok (r, ls) ->
  Forall good_call (snd ls).
Proof.
  unfold cg_run. intros H. apply bind_ok in H as (u & _ & H).
  refine (loop_inv _ (fun s => cg_inv prob (recording LS) sp x0 s /\ Forall good_call (snd (cg_ls s)))
     (fun '(_, l) => Forall good_call (snd l)) _ _ _ _ (r, ls) _ H).
  - intros s s' [HI HF] Hb. split; [eapply cg_inv_step; eauto|].
    destruct HI.
    apply cg_body_inv in Hb as (step & calls' & Hs & _).
    simpl ls_search in Hs. apply bind_ok in Hs as (((l' & sy) & c') & Hs & E).
    injection E as E _ _. rewrite <- E. simpl. constructor; auto.
    unfold good_call, cg_direction. simpl.
    rewrite ci_cost, ci_gPg, ci_P, ci_grad.
    destruct (Rleb 0 (m_inner M (cg_x s) (p_grad prob (cg_x s)) (cg_dir s))) eqn:E1; simpl.
    + rewrite ip_neg. split; auto. split; auto.
      destruct (prec_nonneg (cg_x s) (p_grad prob (cg_x s))); [left; lra|right; auto].
    + apply Rleb_false in E1. auto.
  - intros s [r' l'] [HI HF] Hb. apply cg_body_inv in Hb. 
    destruct Hb as (_ & _ & _ & _ & _ & _ & _ & ->). auto.
  - split; [apply cg_inv_init|]. constructor.
Qed.
End Descent.

(** * Object histories *)
Lemma after_runs_template {N : NumOps} {M : Mfd N} {LS : LineSearcher M} runs (o : opt_obj LS) :
  o_template (after_runs runs o) = o_template o.
Proof.
  revert o; induction runs as [|[[runner x0] reuse] rest IH]; intros o; simpl; auto.
  rewrite IH. unfold obj_run. destruct (runner _ _) as [[? ?]|]; reflexivity.
Qed.

Lemma obj_run_history {N : NumOps} {M : Mfd N} {LS : LineSearcher M} runs (o : opt_obj LS) runner x0 :
  snd (obj_run LS runner (after_runs runs o) x0 false) = snd (obj_run LS runner o x0 false).
Proof.
  unfold obj_run. rewrite after_runs_template. destruct (runner _ _) as [[? ?]|]; reflexivity.
Qed.
