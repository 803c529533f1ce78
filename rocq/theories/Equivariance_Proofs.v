(** Proofs for C102. *)
From Coq Require Import ZArith List Bool.
From Verif Require Import Num_Model PyList_Model LineSearch_Model Optimizer_Model TrustRegions_Model NelderMead_Model
  ParticleSwarm_Model Equivariance_Spec.
Import ListNotations.

(** * Outcomes and loops *)
Lemma so_bind {A A' B B'} (R : A -> A' -> Prop) (Q : B -> B' -> Prop) r r' k k' :
  same_outcome R r r' -> (forall a a', R a a' -> same_outcome Q (k a) (k' a')) ->
  same_outcome Q (bind r k) (bind r' k').
Proof. destruct r, r'; simpl; intros H K; try contradiction; auto. Qed.
Lemma so_eq {A B B'} (Q : B -> B' -> Prop) (r : res A) k k' :
  (forall a, same_outcome Q (k a) (k' a)) -> same_outcome Q (bind r k) (bind r k').
Proof. destruct r; simpl; auto. Qed.
Lemma so_imp {A A'} (R Q : A -> A' -> Prop) r r' : same_outcome R r r' -> (forall a a', R a a' -> Q a a') -> same_outcome Q r r'.
Proof. destruct r, r'; simpl; auto. Qed.

Definition same_step {S S' R R'} (Rs : S -> S' -> Prop) (Rr : R -> R' -> Prop) (o : step_out S R) (o' : step_out S' R') : Prop :=
  match o, o' with Continue s, Continue s' => Rs s s' | Stop r, Stop r' => Rr r r' | _, _ => False end.
Lemma so_loop {S S' R R'} (Rs : S -> S' -> Prop) (Rr : R -> R' -> Prop) body body' :
  (forall s s', Rs s s' -> same_outcome (same_step Rs Rr) (body s) (body' s')) ->
  forall fuel s s', Rs s s' -> same_outcome Rr (loop body fuel s) (loop body' fuel s').
Proof.
  intros H; induction fuel as [|n IH]; intros s s' Hs; simpl; [reflexivity|].
  eapply so_bind; [exact (H _ _ Hs)|]. intros o o' Ho; destruct o, o'; simpl in *; try contradiction; auto.
Qed.

(** * Lists *)
Section Lists.
Context {A B : Type} (R : A -> B -> Prop).
Lemma f2_len l l' : Forall2 R l l' -> length l = length l'.
Proof. induction 1; simpl; auto. Qed.
Lemma f2_rev l l' : Forall2 R l l' -> Forall2 R (rev l) (rev l').
Proof. induction 1; simpl; [constructor|apply Forall2_app; auto]. Qed.
Lemma f2_firstn n : forall l l', Forall2 R l l' -> Forall2 R (firstn n l) (firstn n l').
Proof. induction n; intros l l' H; simpl; [constructor|]. destruct H; constructor; auto. Qed.
Lemma f2_removelast l l' : Forall2 R l l' -> Forall2 R (removelast l) (removelast l').
Proof. induction 1 as [|a b l l' H H' IH]; simpl; [constructor|]. destruct H'; constructor; auto. Qed.
Lemma f2_set_nth a b : R a b -> forall l l', Forall2 R l l' -> forall k, Forall2 R (set_nth l k a) (set_nth l' k b).
Proof. intros Hab; induction 1; intros [|k]; simpl; constructor; auto. Qed.
Lemma f2_nth l l' : Forall2 R l l' -> forall k,
  match nth_error l k, nth_error l' k with Some a, Some b => R a b | None, None => True | _, _ => False end.
Proof. induction 1; intros [|k]; simpl; auto. apply IHForall2. Qed.
Lemma f2_index l l' i : Forall2 R l l' -> py_index l i = py_index l' i.
Proof. intros H; unfold py_index; rewrite (f2_len _ _ H); reflexivity. Qed.
Lemma f2_get l l' i : Forall2 R l l' -> same_outcome R (py_get l i) (py_get l' i).
Proof.
  intros H; unfold py_get; rewrite (f2_index _ _ i H). destruct (py_index l' i) as [k|]; [|reflexivity].
  generalize (f2_nth _ _ H k); destruct (nth_error l k), (nth_error l' k); simpl; tauto.
Qed.
Lemma f2_set l l' i a b : Forall2 R l l' -> R a b -> same_outcome (Forall2 R) (py_set l i a) (py_set l' i b).
Proof.
  intros H Hab; unfold py_set; rewrite (f2_index _ _ i H). destruct (py_index l' i) as [k|]; [|reflexivity].
  apply f2_set_nth; assumption.
Qed.
Lemma f2_take l l' order : Forall2 R l l' -> same_outcome (Forall2 R) (py_take l order) (py_take l' order).
Proof.
  intros H; induction order as [|i t IH]; simpl; [constructor|].
  eapply so_bind; [apply f2_get, H|]. intros a b Hab. eapply so_bind; [exact IH|]. intros m m' Hm; constructor; auto.
Qed.
Lemma f2_map_eq {C} (f : A -> C) (g : B -> C) l l' : (forall a b, R a b -> f a = g b) -> Forall2 R l l' -> map f l = map g l'.
Proof. intros H; induction 1; simpl; f_equal; auto. Qed.
End Lists.
Lemma f2_map {A B C D} (R : A -> B -> Prop) (Q : C -> D -> Prop) f g l l' : (forall a b, R a b -> Q (f a) (g b)) ->
  Forall2 R l l' -> Forall2 Q (map f l) (map g l').
Proof. intros H; induction 1; simpl; constructor; auto. Qed.
Lemma so_refl {A} (r : res A) : same_outcome eq r r.
Proof. destruct r; reflexivity. Qed.

Section Equivariance.
Context {N : NumOps} {M M' : Mfd N}.
Variables (Rp : pt M -> pt M' -> Prop) (Rt : pt M -> pt M' -> tv M -> tv M' -> Prop).
Hypothesis G : same_steps M M' Rp Rt.
Let ss_retr' := ss_retr _ _ _ _ G.
Let ss_scale' := ss_scale _ _ _ _ G.
Let ss_neg' := ss_neg _ _ _ _ G.
Let ss_add' := ss_add _ _ _ _ G.
Let ss_sub' := ss_sub _ _ _ _ G.
Let ss_zero' := ss_zero _ _ _ _ G.
Let ss_transp' := ss_transp _ _ _ _ G.
Let ss_to_tangent' := ss_to_tangent _ _ _ _ G.
Local Hint Resolve ss_retr' ss_scale' ss_neg' ss_add' ss_sub' ss_zero' ss_transp' ss_to_tangent' : same.

Lemma ip_div_same a b : ip_div M a b = ip_div M' a b.
Proof. unfold ip_div; rewrite (ss_py _ _ _ _ G); reflexivity. Qed.

(** * Line searches *)
Section Search.
Variables (f : pt M -> N) (f' : pt M' -> N) (x : pt M) (y : pt M') (d : tv M) (d' : tv M') (f0 df0 : N).
Hypotheses (Hf : forall x y, Rp x y -> f x = f' y) (Hx : Rp x y) (Hd : Rt x y d d').
Definition same_vars (v : ls_vars M) (v' : ls_vars M') : Prop :=
  v_alpha v = v_alpha v' /\ Rp (v_newx v) (v_newx v') /\ v_newf v = v_newf v' /\ v_count v = v_count v' /\
  Forall2 Rp (v_calls v) (v_calls v').
Lemma same_while c suff maxit v v' : same_vars v v' ->
  same_outcome (same_step same_vars same_vars) (ls_while M c suff maxit f x d f0 df0 v) (ls_while M' c suff maxit f' y d' f0 df0 v').
Proof.
  intros Hv; pose proof Hv as (Ha & Hn & Hnf & Hc & Hl); unfold ls_while; rewrite Ha, Hnf, Hc.
  destruct (_ && _); simpl; [|exact Hv].
  assert (Rp (m_retr M x (t_scale M (c (v_alpha v')) d)) (m_retr M' y (t_scale M' (c (v_alpha v')) d'))) by auto with same.
  repeat split; simpl; auto.
Qed.
Lemma same_bt p o : same_outcome (fun o o' => fst (fst o) = fst (fst o') /\ fst (snd (fst o)) = fst (snd (fst o')) /\
    Rp (snd (snd (fst o))) (snd (snd (fst o'))) /\ Forall2 Rp (snd o) (snd o'))
  (bt_search M p o f x d f0 df0) (bt_search M' p o f' y d' f0 df0).
Proof.
  unfold bt_search. rewrite (ss_norm _ _ _ _ G _ _ _ _ Hx Hd).
  apply so_eq; intros alpha.
  assert (Hr : Rp (m_retr M x (t_scale M alpha d)) (m_retr M' y (t_scale M' alpha d'))) by auto with same.
  eapply so_bind; [apply (so_loop same_vars same_vars)|].
  - apply same_while.
  - repeat split; simpl; auto.
  - intros v v' (Ha & Hn & Hnf & Hc & Hl). rewrite Hnf. destruct (_ : bool); simpl; rewrite ?Ha; repeat split; auto using f2_rev.
Qed.
Lemma same_ad p o : same_outcome (fun o o' => fst (fst o) = fst (fst o') /\ fst (snd (fst o)) = fst (snd (fst o')) /\
    Rp (snd (snd (fst o))) (snd (snd (fst o'))) /\ Forall2 Rp (snd o) (snd o'))
  (ad_search M p o f x d f0 df0) (ad_search M' p o f' y d' f0 df0).
Proof.
  unfold ad_search. rewrite (ss_norm _ _ _ _ G _ _ _ _ Hx Hd).
  apply so_eq; intros alpha.
  assert (Hr : Rp (m_retr M x (t_scale M alpha d)) (m_retr M' y (t_scale M' alpha d'))) by auto with same.
  eapply so_bind; [apply (so_loop same_vars same_vars)|].
  - apply same_while.
  - repeat split; simpl; auto.
  - intros v v' (Ha & Hn & Hnf & Hc & Hl). rewrite Hnf, Hc. destruct (_ : bool); simpl; rewrite ?Ha; repeat split; auto using f2_rev.
Qed.
End Search.
Lemma same_bt_searcher p : same_searcher M M' Rp Rt (bt_searcher M p) (bt_searcher M' p) eq.
Proof. intros s s' f f' x y d d' f0 df0 Hs Hf Hx Hd; simpl in *; subst s'; apply same_bt; assumption. Qed.
Lemma same_ad_searcher p : same_searcher M M' Rp Rt (ad_searcher M p) (ad_searcher M' p) eq.
Proof. intros s s' f f' x y d d' f0 df0 Hs Hf Hx Hd; simpl in *; subst s'; apply same_ad; assumption. Qed.

(** * Logs *)
Lemma same_log_init sp : same_log M M' Rp (log_init (pt M) sp) (log_init (pt M') sp).
Proof. unfold log_init; destruct (_ : bool); simpl; auto. Qed.
Lemma same_log_add sp l l' e e' : same_log M M' Rp l l' -> same_entry M M' Rp e e' ->
  same_log M M' Rp (log_add sp l e) (log_add sp l' e').
Proof.
  intros Hl He; unfold log_add; destruct (_ : bool); [assumption|]. destruct l, l'; simpl in *; try contradiction; auto.
  apply Forall2_app; auto.
Qed.

(** * Steepest descent and conjugate gradient *)
Section Runs.
Variables (p : OptProblem M) (p' : OptProblem M').
Hypothesis P : same_problem M M' Rp Rt p p'.
Let sp_grad' := sp_grad _ _ _ _ _ _ P.
Let sp_hess' := sp_hess _ _ _ _ _ _ P.
Let sp_prec' := sp_prec _ _ _ _ _ _ P.
Local Hint Resolve sp_grad' sp_hess' sp_prec' : same.
Variables (L : LineSearcher M) (L' : LineSearcher M') (Rs : ls_state L -> ls_state L' -> Prop).
Hypothesis HL : same_searcher M M' Rp Rt L L' Rs.
Variables (sp : stop_params N) (clock : nat -> N).
Definition same_sd (s : sd_state L) (s' : sd_state L') : Prop :=
  Rp (sd_x s) (sd_x s') /\ Rs (sd_ls s) (sd_ls s') /\ sd_iteration s = sd_iteration s' /\ sd_tick s = sd_tick s' /\
  same_log M M' Rp (sd_log s) (sd_log s') /\ Forall2 Rp (sd_calls s) (sd_calls s').
Definition same_out (o : result N (pt M) * ls_state L) (o' : result N (pt M') * ls_state L') : Prop :=
  same_result M M' Rp (fst o) (fst o') /\ Rs (snd o) (snd o').
Lemma same_sd_body t s s' : same_sd s s' ->
  same_outcome (same_step same_sd same_out) (sd_body p L sp clock t s) (sd_body p' L' sp clock t s').
Proof.
  intros (Hx & Hs & Hi & Ht & Hlog & Hcalls); unfold sd_body. rewrite Hi, Ht.
  pose proof (sp_grad' _ _ Hx) as Hg. rewrite (ss_norm _ _ _ _ G _ _ _ _ Hx Hg), (sp_cost _ _ _ _ _ _ P _ _ Hx).
  set (gn := m_norm M' _ _).
  match goal with |- context [log_add sp (sd_log s) ?e] => set (lg := log_add sp (sd_log s) e) end.
  match goal with |- context [log_add sp (sd_log s') ?e] => set (lg' := log_add sp (sd_log s') e) end.
  assert (Hlg : same_log M M' Rp lg lg') by (apply same_log_add; [assumption|repeat split; assumption]).
  clearbody lg lg'.
  eapply so_bind; [apply HL; [eassumption|apply (sp_cost _ _ _ _ _ _ P)|eassumption|auto with same]|].
  intros [[ls [st nx]] cs] [[ls' [st' nx']] cs'] (H1 & H2 & H3 & H4); simpl in *; subst st'.
  destruct (check_stopping _ _ _ _ _ _ _ _); simpl.
  - rewrite (sp_cost _ _ _ _ _ _ P _ _ H3). repeat split; simpl; auto.
    apply Forall2_app; [apply Forall2_app; auto|auto].
  - repeat split; simpl; auto. apply Forall2_app; auto.
Qed.
Lemma same_sd_run s s' x y : Rs s s' -> Rp x y -> same_outcome same_out (sd_run p L sp clock s x) (sd_run p' L' sp clock s' y).
Proof.
  intros Hs Hx; unfold sd_run; apply so_eq; intros _; apply (so_loop same_sd same_out); [apply same_sd_body|].
  repeat split; simpl; auto using same_log_init.
Qed.

(** The arguments of the beta rules. *)
Definition same_args (a : beta_args M) (a' : beta_args M') : Prop :=
  Rp (b_x a) (b_x a') /\ Rp (b_newx a) (b_newx a') /\ Rt (b_x a) (b_x a') (b_grad a) (b_grad a') /\
  Rt (b_newx a) (b_newx a') (b_newgrad a) (b_newgrad a') /\ Rt (b_newx a) (b_newx a') (b_Pnewgrad a) (b_Pnewgrad a') /\
  b_newgradPnewgrad a = b_newgradPnewgrad a' /\ Rt (b_x a) (b_x a') (b_Pgrad a) (b_Pgrad a') /\
  b_gradPgrad a = b_gradPgrad a' /\ b_gradient_norm a = b_gradient_norm a' /\
  Rt (b_newx a) (b_newx a') (b_oldgrad a) (b_oldgrad a') /\
  Rt (b_newx a) (b_newx a') (b_descent_direction a) (b_descent_direction a').
Lemma same_beta r a a' : r <> LiuStorey -> same_args a a' -> beta_update r a = beta_update r a'.
Proof.
  intros Hr (H1 & H2 & H3 & H4 & H5 & H6 & H7 & H8 & H9 & H10 & H11).
  assert (Hd : Rt (b_newx a) (b_newx a') (t_sub M (b_newgrad a) (b_oldgrad a)) (t_sub M' (b_newgrad a') (b_oldgrad a'))) by auto with same.
  destruct r; simpl; [| | | |contradiction].
  - unfold beta_fletcher_reeves; rewrite ip_div_same, H6, H8; reflexivity.
  - unfold beta_polak_ribiere. rewrite ip_div_same, H8, (ss_inner _ _ _ _ G _ _ _ _ _ _ H2 H5 Hd). reflexivity.
  - unfold beta_hestenes_stiefel.
    rewrite ip_div_same, (ss_inner _ _ _ _ G _ _ _ _ _ _ H2 H5 Hd), (ss_inner _ _ _ _ G _ _ _ _ _ _ H2 Hd H11). reflexivity.
  - unfold beta_hager_zhang.
    assert (Hp : Rt (b_newx a) (b_newx a') (t_sub M (b_Pnewgrad a) (m_transp M (b_x a) (b_newx a) (b_Pgrad a)))
                   (t_sub M' (b_Pnewgrad a') (m_transp M' (b_x a') (b_newx a') (b_Pgrad a')))) by auto with same.
    rewrite (ss_inner _ _ _ _ G _ _ _ _ _ _ H2 Hd Hp), (ss_inner _ _ _ _ G _ _ _ _ _ _ H2 Hd H11), (ss_inner _ _ _ _ G _ _ _ _ _ _ H2 Hd H5),
      (ss_inner _ _ _ _ G _ _ _ _ _ _ H2 H11 H4), (ss_norm _ _ _ _ G _ _ _ _ H2 H11), H9, !ip_div_same.
    destruct (ip_div M' _ _); simpl; [|reflexivity]. rewrite ip_div_same. reflexivity.
Qed.

(** Liu-Storey: the inner product of line 122 is taken at the old point, of a vector at the old and one at the new point. *)
Definition same_mixed_inner : Prop := forall x y z w u u' v v', Rp x y -> Rp z w -> Rt x y u u' -> Rt z w v v' ->
  m_inner M x u v = m_inner M' y u' v'.
Lemma same_beta_mixed r a a' : same_mixed_inner -> same_args a a' -> beta_update r a = beta_update r a'.
Proof.
  intros Hm Ha. assert (D : r = LiuStorey \/ r <> LiuStorey) by (destruct r; auto; right; discriminate).
  destruct D as [->|D]; [|apply same_beta; assumption].
  destruct Ha as (H1 & H2 & H3 & H4 & H5 & H6 & H7 & H8 & H9 & H10 & H11).
  assert (Hd : Rt (b_newx a) (b_newx a') (t_sub M (b_newgrad a) (b_oldgrad a)) (t_sub M' (b_newgrad a') (b_oldgrad a'))) by auto with same.
  simpl; unfold beta_liu_storey.
  rewrite !ip_div_same, H6, (ss_inner _ _ _ _ G _ _ _ _ _ _ H2 H5 Hd), (Hm _ _ _ _ _ _ _ _ H1 H2 H3 H11).
  destruct (ip_div M' _ _); simpl; reflexivity.
Qed.

Section CGruns.
Variables (rule : beta_args M -> res N) (rule' : beta_args M' -> res N) (orth : N).
Hypothesis Hrule : forall a a', same_args a a' -> rule a = rule' a'.
Definition same_cg (s : cg_state L) (s' : cg_state L') : Prop :=
  Rp (cg_x s) (cg_x s') /\ cg_cost s = cg_cost s' /\ Rt (cg_x s) (cg_x s') (cg_grad s) (cg_grad s') /\
  cg_gradient_norm s = cg_gradient_norm s' /\ Rt (cg_x s) (cg_x s') (cg_Pgrad s) (cg_Pgrad s') /\
  cg_gradPgrad s = cg_gradPgrad s' /\ Rt (cg_x s) (cg_x s') (cg_dir s) (cg_dir s') /\ cg_step_size s = cg_step_size s' /\
  Rs (cg_ls s) (cg_ls s') /\ cg_iteration s = cg_iteration s' /\ cg_tick s = cg_tick s' /\
  same_log M M' Rp (cg_log s) (cg_log s') /\ Forall2 Rp (cg_calls s) (cg_calls s').
Lemma same_cg_body t s s' : same_cg s s' ->
  same_outcome (same_step same_cg same_out) (cg_body p L sp clock rule orth t s) (cg_body p' L' sp clock rule' orth t s').
Proof.
  intros (Hx & Hc & Hg & Hgn & HPg & HgP & Hd & Hst & Hs & Hi & Ht & Hlog & Hcalls); unfold cg_body. rewrite Hi, Ht, Hc, Hgn, Hst.
  match goal with |- context [log_add sp (cg_log s) ?e] => set (lg := log_add sp (cg_log s) e) end.
  match goal with |- context [log_add sp (cg_log s') ?e] => set (lg' := log_add sp (cg_log s') e) end.
  assert (Hlg : same_log M M' Rp lg lg') by (apply same_log_add; [assumption|repeat split; assumption]).
  clearbody lg lg'.
  destruct (check_stopping _ _ _ _ _ _ _ _).
  { repeat split; simpl; auto. }
  unfold cg_direction. rewrite (ss_inner _ _ _ _ G _ _ _ _ _ _ Hx Hg Hd), HgP.
  match goal with |- context [if ?b then (?u, ?c) else (?u2, ?c2)] => set (b0 := b) end.
  assert (HD : exists D D' df, Rt (cg_x s) (cg_x s') D D' /\
     (if b0 then (t_neg M (cg_Pgrad s), nneg N (cg_gradPgrad s')) else (cg_dir s, m_inner M' (cg_x s') (cg_grad s') (cg_dir s'))) = (D, df) /\
     (if b0 then (t_neg M' (cg_Pgrad s'), nneg N (cg_gradPgrad s')) else (cg_dir s', m_inner M' (cg_x s') (cg_grad s') (cg_dir s'))) = (D', df))
    by (destruct b0; repeat eexists; auto with same).
  destruct HD as (D & D' & df & HD & -> & ->).
  eapply so_bind; [apply HL; [eassumption|apply (sp_cost _ _ _ _ _ _ P)|eassumption|eassumption]|].
  intros [[ls [st nx]] cs] [[ls' [st' nx']] cs'] (H1 & H2 & H3 & H4); cbn [fst snd] in H1, H2, H3, H4; subst st'.
  pose proof (sp_grad' _ _ H3) as Hng. pose proof (sp_prec' _ _ _ _ H3 Hng) as HPng.
  pose proof (ss_transp' _ _ _ _ _ _ Hx H3 Hg) as Hog.
  rewrite (ss_inner _ _ _ _ G _ _ _ _ _ _ H3 Hng HPng), (ss_inner _ _ _ _ G _ _ _ _ _ _ H3 Hog HPng), ip_div_same.
  apply so_eq; intros og.
  assert (HF : forall nd nd', Rt nx nx' nd nd' -> same_outcome (same_step same_cg same_out)
    (Ok (Continue (mkCg nx (p_cost p nx) (p_grad p nx) (m_norm M nx (p_grad p nx)) (p_prec p nx (p_grad p nx))
            (m_inner M' nx' (p_grad p' nx') (p_prec p' nx' (p_grad p' nx'))) nd (Some st) ls (cg_iteration s' + 1)%Z (cg_tick s' + log_ticks sp + 2) lg
            (cg_calls s ++ cs ++ [nx]))))
    (Ok (Continue (mkCg nx' (p_cost p' nx') (p_grad p' nx') (m_norm M' nx' (p_grad p' nx')) (p_prec p' nx' (p_grad p' nx'))
            (m_inner M' nx' (p_grad p' nx') (p_prec p' nx' (p_grad p' nx'))) nd' (Some st) ls' (cg_iteration s' + 1)%Z (cg_tick s' + log_ticks sp + 2) lg'
            (cg_calls s' ++ cs' ++ [nx']))))).
  { intros nd nd' Hnd; simpl. rewrite (sp_cost _ _ _ _ _ _ P _ _ H3), (ss_norm _ _ _ _ G _ _ _ _ H3 Hng).
    repeat split; simpl; auto. apply Forall2_app; auto. apply Forall2_app; auto. }
  destruct (nle N orth (nabs N og)); cbn [bind].
  { apply HF; auto with same. }
  match goal with |- context [rule ?a] => match goal with |- context [rule' ?a'] => assert (HA : same_args a a') end end.
  { repeat split; simpl; auto with same. }
  rewrite (Hrule _ _ HA). destruct (rule' _); cbn [bind]; [|reflexivity]. apply HF; auto 6 with same.
Qed.
Lemma same_cg_run s s' x y : Rs s s' -> Rp x y ->
  same_outcome same_out (cg_run p L sp clock rule orth s x) (cg_run p' L' sp clock rule' orth s' y).
Proof.
  intros Hs Hx; unfold cg_run; apply so_eq; intros _; apply (so_loop same_cg same_out); [apply same_cg_body|].
  pose proof (sp_grad' _ _ Hx) as Hng. pose proof (sp_prec' _ _ _ _ Hx Hng) as HPng.
  repeat split; simpl; auto using same_log_init with same.
  - apply (sp_cost _ _ _ _ _ _ P), Hx.
  - apply (ss_norm _ _ _ _ G); assumption.
  - apply (ss_inner _ _ _ _ G); assumption.
Qed.
End CGruns.

(** * Trust regions *)
Section TRruns.
Variable tp : tr_params N.
Definition same_tcg (x : pt M) (y : pt M') (s : tcg_state M) (s' : tcg_state M') : Prop :=
  Rt x y (c_eta s) (c_eta s') /\ Rt x y (c_Heta s) (c_Heta s') /\ Rt x y (c_r s) (c_r s') /\ c_e_Pe s = c_e_Pe s' /\
  c_z_r s = c_z_r s' /\ c_d_Pd s = c_d_Pd s' /\ c_e_Pd s = c_e_Pd s' /\ Rt x y (c_delta s) (c_delta s') /\ c_model s = c_model s'.
Section Inner.
Variables (x : pt M) (y : pt M') (g : tv M) (g' : tv M').
Hypotheses (Hx : Rp x y) (Hg : Rt x y g g').
Lemma same_inner u u' v v' : Rt x y u u' -> Rt x y v v' -> m_inner M x u v = m_inner M' y u' v'.
Proof. apply (ss_inner _ _ _ _ G); assumption. Qed.
Lemma same_model e e' h h' : Rt x y e e' -> Rt x y h h' -> model_fun x g e h = model_fun y g' e' h'.
Proof. intros; unfold model_fun; rewrite (same_inner e e' g g'), (same_inner e e' h h'); auto. Qed.
Lemma same_precondition r r' : Rt x y r r' -> Rt x y (tcg_precondition p tp x r) (tcg_precondition p' tp y r').
Proof. unfold tcg_precondition; destruct (tr_use_rand tp); auto with same. Qed.
Local Hint Resolve same_precondition : same.
Lemma same_tcg_init e e' : Rt x y e e' ->
  same_tcg x y (fst (tcg_init p tp x g e)) (fst (tcg_init p' tp y g' e')) /\ snd (tcg_init p tp x g e) = snd (tcg_init p' tp y g' e').
Proof.
  intros He; unfold tcg_init.
  assert (HH : Rt x y (p_hess p x e) (p_hess p' y e')) by auto with same.
  assert (Hr : Rt x y (t_add M g (p_hess p x e)) (t_add M' g' (p_hess p' y e'))) by auto with same.
  assert (Hz : Rt x y (tcg_precondition p tp x g) (tcg_precondition p' tp y g')) by auto with same.
  assert (Hz' : Rt x y (tcg_precondition p tp x (t_add M g (p_hess p x e))) (tcg_precondition p' tp y (t_add M' g' (p_hess p' y e')))) by auto with same.
  destruct (tr_use_rand tp); simpl; unfold same_tcg; simpl; repeat split; auto with same;
    try (f_equal; apply same_inner; auto with same); try (apply same_inner; auto with same); apply same_model; auto.
Qed.
Definition same_tcg_out (o : tv M * tv M * tcg_stop) (o' : tv M' * tv M' * tcg_stop) : Prop :=
  Rt x y (fst (fst o)) (fst (fst o')) /\ Rt x y (snd (fst o)) (snd (fst o')) /\ snd o = snd o'.
Lemma same_tcg_body Delta nr mi j s s' : same_tcg x y s s' ->
  same_outcome (same_step (same_tcg x y) same_tcg_out) (tcg_body p tp x g Delta nr mi j s) (tcg_body p' tp y g' Delta nr mi j s').
Proof.
  intros (He & HH & Hr & H1 & H2 & H3 & H4 & Hd & Hm); unfold tcg_body.
  assert (HHd : Rt x y (p_hess p x (c_delta s)) (p_hess p' y (c_delta s'))) by auto with same.
  rewrite (same_inner _ _ _ _ Hd HHd), H1, H2, H3, H4, Hm. set (dHd := m_inner M' y _ _).
  rewrite ip_div_same. apply so_eq; intros [alpha e_new].
  destruct (_ || _).
  { apply so_eq; intros tau. repeat split; simpl; auto 6 with same. }
  assert (Hne : Rt x y (t_add M (c_eta s) (t_scale M alpha (c_delta s))) (t_add M' (c_eta s') (t_scale M' alpha (c_delta s')))) by auto with same.
  assert (HnH : Rt x y (t_add M (c_Heta s) (t_scale M alpha (p_hess p x (c_delta s))))
                       (t_add M' (c_Heta s') (t_scale M' alpha (p_hess p' y (c_delta s'))))) by auto with same.
  rewrite (same_model _ _ _ _ Hne HnH).
  destruct (nle N (c_model s') _). { repeat split; simpl; auto. }
  assert (Hnr : Rt x y (t_add M (c_r s) (t_scale M alpha (p_hess p x (c_delta s))))
                       (t_add M' (c_r s') (t_scale M' alpha (p_hess p' y (c_delta s'))))) by auto with same.
  rewrite (same_inner _ _ _ _ Hnr Hnr).
  destruct (_ && _). { repeat split; simpl; auto. }
  pose proof (same_precondition _ _ Hnr) as Hz. rewrite (same_inner _ _ _ _ Hz Hnr), ip_div_same.
  apply so_eq; intros beta. repeat split; simpl; auto 8 with same.
Qed.
Definition same_tcg_res (o : tv M * tv M * Z * tcg_stop) (o' : tv M' * tv M' * Z * tcg_stop) : Prop :=
  Rt x y (fst (fst (fst o))) (fst (fst (fst o'))) /\ Rt x y (snd (fst (fst o))) (snd (fst (fst o'))) /\
  snd (fst o) = snd (fst o') /\ snd o = snd o'.
Lemma same_tcg_loop Delta nr mi : forall n j s s', same_tcg x y s s' ->
  same_outcome same_tcg_res (tcg_loop p tp x g Delta nr mi n j s) (tcg_loop p' tp y g' Delta nr mi n j s').
Proof.
  induction n as [|n IH]; intros j s s' Hs; cbn [tcg_loop].
  { destruct Hs as (He & HH & _). repeat split; simpl; auto. }
  eapply so_bind; [apply same_tcg_body, Hs|]. intros [a|[[e h] q]] [a'|[[e' h'] q']] Ho; simpl in Ho; try contradiction; auto.
  destruct Ho as (A & B & C); simpl in *. repeat split; simpl; auto.
Qed.
Lemma same_tcg_run e e' Delta mi ma : Rt x y e e' ->
  same_outcome same_tcg_res (tcg p tp x g e Delta mi ma) (tcg p' tp y g' e' Delta mi ma).
Proof.
  intros He; unfold tcg. destruct (same_tcg_init e e' He) as [A B].
  destruct (tcg_init p tp x g e) as [s nr], (tcg_init p' tp y g' e') as [s' nr']; simpl in *; subst nr'.
  destruct (_ : bool); [reflexivity|]. apply same_tcg_loop, A.
Qed.
Lemma same_shrink fuel d d' Delta : Rt x y d d' -> same_outcome (Rt x y) (tr_shrink fuel x d Delta) (tr_shrink fuel y d' Delta).
Proof.
  intros Hd; unfold tr_shrink. apply (so_loop (Rt x y) (Rt x y)); [|auto with same].
  intros e e' He. rewrite (ss_norm _ _ _ _ G _ _ _ _ Hx He). destruct (_ : bool); simpl; auto with same.
Qed.
Lemma same_cauchy fx ng Delta e e' h h' : Rt x y e e' -> Rt x y h h' ->
  same_outcome (fun o o' => Rt x y (fst (fst o)) (fst (fst o')) /\ Rt x y (snd (fst o)) (snd (fst o')) /\ snd o = snd o')
    (tr_cauchy p x fx g ng Delta e h) (tr_cauchy p' y fx g' ng Delta e' h').
Proof.
  intros He Hh; unfold tr_cauchy.
  assert (HH : Rt x y (p_hess p x g) (p_hess p' y g')) by auto with same.
  rewrite (same_inner _ _ _ _ Hg HH). apply so_eq; intros tau. apply so_eq; intros c.
  rewrite (same_inner _ _ _ _ Hg He), (same_inner _ _ _ _ Hh He),
    (same_inner _ _ _ _ Hg (ss_scale' _ _ c _ _ Hx Hg)), (same_inner _ _ _ _ (ss_scale' _ _ c _ _ Hx HH) (ss_scale' _ _ c _ _ Hx Hg)).
  destruct (_ : bool); repeat split; simpl; auto with same.
Qed.
End Inner.
Definition same_tr (s : tr_state M) (s' : tr_state M') : Prop :=
  Rp (s_x s) (s_x s') /\ s_fx s = s_fx s' /\ Rt (s_x s) (s_x s') (s_grad s) (s_grad s') /\ s_norm_grad s = s_norm_grad s' /\
  s_Delta s = s_Delta s' /\ s_iteration s = s_iteration s' /\ s_tick s = s_tick s' /\
  Forall2 (same_iter M M' Rp Rt) (s_trace s) (s_trace s').
Definition same_tr_out (o : result N (pt M) * list (tr_iter M)) (o' : result N (pt M') * list (tr_iter M')) : Prop :=
  same_result M M' Rp (fst o) (fst o') /\ Forall2 (same_iter M M' Rp Rt) (snd o) (snd o').
Variables (draws : Z -> pt M -> tv M) (draws' : Z -> pt M' -> tv M').
Hypothesis Hdraws : forall k x y, Rp x y -> Rt x y (draws k x) (draws' k y).
Lemma same_tr_body mi ma Db fuel t s s' : same_tr s s' ->
  same_outcome (same_step same_tr same_tr_out) (tr_body p tp sp clock mi ma Db draws fuel t s) (tr_body p' tp sp clock mi ma Db draws' fuel t s').
Proof.
  intros (Hx & Hf & Hg & Hn & HD & Hi & Ht & Htr); unfold tr_body. rewrite Hf, Hn, HD, Hi, Ht.
  eapply (so_bind (Rt (s_x s) (s_x s'))).
  { destruct (tr_use_rand tp); [apply same_shrink; auto|simpl; auto with same]. }
  intros e0 e0' He0. eapply so_bind; [apply same_tcg_run; eassumption|].
  intros [[[e h] nu] st] [[[e' h'] nu'] st'] (He & Hh & Hnu & Hst); cbn [fst snd] in He, Hh, Hnu, Hst; subst nu' st'.
  eapply (so_bind (fun o o' => Rt (s_x s) (s_x s') (fst (fst o)) (fst (fst o')) /\ Rt (s_x s) (s_x s') (snd (fst o)) (snd (fst o')) /\ snd o = snd o')).
  { destruct (tr_use_rand tp); [apply same_cauchy; auto|simpl; auto]. }
  clear e e' h h' He Hh. intros [[e h] uc] [[e' h'] uc'] (He & Hh & _); cbn [fst snd] in He, Hh.
  pose proof (ss_retr' _ _ _ _ Hx He) as Hr.
  rewrite (sp_cost _ _ _ _ _ _ P _ _ Hr), (same_inner _ _ Hx _ _ _ _ Hg He), (same_inner _ _ Hx _ _ _ _ He Hh).
  apply so_eq; intros rho. apply so_eq; intros Dn.
  match goal with |- context [nle N ?a ?b && rho_gt rho ?c] => set (acc := nle N a b && rho_gt rho c) end.
  pose proof (sp_grad' _ _ Hr) as Hgr. rewrite (ss_norm _ _ _ _ G _ _ _ _ Hr Hgr).
  match goal with |- context [s_trace s ++ [?t1]] => match goal with |- context [s_trace s' ++ [?t1']] =>
    assert (HT : same_iter M M' Rp Rt t1 t1') by (repeat split; simpl; auto);
    assert (HT' : Forall2 (same_iter M M' Rp Rt) (s_trace s ++ [t1]) (s_trace s' ++ [t1'])) by (apply Forall2_app; auto) end end.
  assert (Ha : Rp (if acc then m_retr M (s_x s) e else s_x s) (if acc then m_retr M' (s_x s') e' else s_x s')) by (destruct acc; auto).
  destruct (check_stopping _ _ _ _ _ _ _ _).
  - repeat split; simpl; auto using same_log_init. eapply f2_map; [|exact HT']. intros a b Hab; apply Hab.
  - repeat split; simpl; auto. destruct acc; auto.
Qed.
Lemma same_tr_run x y mi ma Db D0 fuel : Rp x y ->
  same_outcome same_tr_out (tr_run p tp sp clock x mi ma Db D0 draws fuel) (tr_run p' tp sp clock y mi ma Db D0 draws' fuel).
Proof.
  intros Hx; unfold tr_run. rewrite (ss_typical _ _ _ _ G), (ss_dim _ _ _ _ G).
  apply so_eq; intros Db'. apply so_eq; intros D0'.
  pose proof (sp_grad' _ _ Hx) as Hg. rewrite (sp_cost _ _ _ _ _ _ P _ _ Hx), (ss_norm _ _ _ _ G _ _ _ _ Hx Hg).
  eapply so_bind; [apply (so_loop same_tr same_tr_out); [intros; apply same_tr_body; assumption|repeat split; simpl; auto]|].
  intros [r t] [r' t'] [(A1 & A2 & A3 & A4 & A5 & A6 & A7 & A8 & A9 & A10) HT]; repeat split; simpl in *; auto.
Qed.
End TRruns.
End Runs.
(** * Derivative-free methods *)
Section Free.
Hypothesis GL : same_logs M M' Rp Rt.
Let sl_log' := GL.
Local Hint Resolve sl_log' : same.
Variables (cost : pt M -> N) (cost' : pt M' -> N).
Hypothesis Hcost : forall x y, Rp x y -> cost x = cost' y.

Section Means.
Hypothesis GM : same_means M M' Rp.
Let sl_mean' := sl_mean _ _ _ GM.
Local Hint Resolve sl_mean' : same.

(** The Karcher mean of [compute_centroid]. *)
Lemma same_karcher l l' : Forall2 Rp l l' -> same_problem M M' Rp Rt (karcher_problem l) (karcher_problem l').
Proof.
  intros Hl; split; simpl; auto.
  - intros x y Hx; unfold karcher_cost.
    assert (E : forall a, fold_left (fun acc p => nadd N acc (nmul N (m_dist M x p) (m_dist M x p))) l a =
                fold_left (fun acc p => nadd N acc (nmul N (m_dist M' y p) (m_dist M' y p))) l' a); [|rewrite E; reflexivity].
    induction Hl as [|q q' l l' Hq Hl IH]; intros a; simpl; [reflexivity|].
    rewrite (sl_dist _ _ _ GM _ _ _ _ Hx Hq). apply IH.
  - intros x y Hx; unfold karcher_gradient. apply ss_neg'; [assumption|].
    assert (E : forall a a', Rt x y a a' -> Rt x y (fold_left (fun acc p => t_add M acc (m_log M x p)) l a)
                (fold_left (fun acc p => t_add M' acc (m_log M' y p)) l' a')); [|auto with same].
    induction Hl as [|q q' l l' Hq Hl IH]; intros a a' Ha; simpl; [assumption|]. apply IH; auto with same.
Qed.
Lemma same_centroid L L' Rs s s' sp clock x y l l' : same_searcher M M' Rp Rt L L' Rs -> Rs s s' -> Rp x y -> Forall2 Rp l l' ->
  same_outcome Rp (compute_centroid L s sp clock x l) (compute_centroid L' s' sp clock y l').
Proof.
  intros HL Hs Hx Hl; unfold compute_centroid.
  eapply so_bind; [eapply same_sd_run; [apply same_karcher, Hl|eassumption|eassumption|eassumption]|].
  intros [r q] [r' q'] [H _]; apply H.
Qed.

(** ** Nelder-Mead *)
Section NMruns.
Variables (sp : stop_params N) (clock : nat -> N) (argsort : list N -> list nat)
  (centroid : Z -> list (pt M) -> res (pt M)) (centroid' : Z -> list (pt M') -> res (pt M')).
Hypothesis Hcentroid : forall k l l', Forall2 Rp l l' -> same_outcome Rp (centroid k l) (centroid' k l').
Variable o : nm_obj N.
Lemma same_nm_sort xs ys costs : Forall2 Rp xs ys ->
  same_outcome (same_simplex M M' Rp) (nm_sort argsort xs costs) (nm_sort argsort ys costs).
Proof.
  intros H; unfold nm_sort. apply so_eq; intros c. eapply so_bind; [apply f2_take, H|]. intros a b Hab; split; [exact Hab|reflexivity].
Qed.
Lemma same_nm_shrink x y : Rp x y -> forall n i xs ys costs cs cs', Forall2 Rp xs ys -> Forall2 Rp cs cs' ->
  same_outcome (fun a b => Forall2 Rp (fst (fst a)) (fst (fst b)) /\ snd (fst a) = snd (fst b) /\ Forall2 Rp (snd a) (snd b))
    (nm_shrink cost x n i xs costs cs) (nm_shrink cost' y n i ys costs cs').
Proof.
  intros Hx; induction n as [|n IH]; intros i xs ys costs cs cs' H Hc; cbn [nm_shrink]; [repeat split; assumption|].
  eapply so_bind; [apply f2_get, H|]. intros a b Hab. pose proof (sl_mean' _ _ _ _ Hx Hab) as Hm.
  eapply so_bind; [apply f2_set; [exact H|exact Hm]|]. intros xs1 ys1 H1. rewrite (Hcost _ _ Hm).
  apply so_eq; intros c1. apply IH; [assumption|apply Forall2_app; auto].
Qed.
Lemma same_nm_replace xs ys costs x y c : Forall2 Rp xs ys -> Rp x y ->
  same_outcome (same_simplex M M' Rp) (nm_replace xs costs x c) (nm_replace ys costs y c).
Proof.
  intros H Hx; unfold nm_replace. apply so_eq; intros c1. eapply so_bind; [apply f2_set; eassumption|].
  intros a b Hab; split; [exact Hab|reflexivity].
Qed.
Definition same_move (a : list (pt M) * list N * Z * list (pt M)) (b : list (pt M') * list N * Z * list (pt M')) : Prop :=
  Forall2 Rp (fst (fst (fst a))) (fst (fst (fst b))) /\ snd (fst (fst a)) = snd (fst (fst b)) /\ snd (fst a) = snd (fst b) /\
  Forall2 Rp (snd a) (snd b).
Lemma same_finish xs ys costs x y c ev cs cs' : Forall2 Rp xs ys -> Rp x y -> Forall2 Rp cs cs' ->
  same_outcome same_move (let* (xs, costs) := nm_replace xs costs x c in Ok (xs, costs, ev, cs))
    (let* (ys, costs) := nm_replace ys costs y c in Ok (ys, costs, ev, cs')).
Proof.
  intros H Hx Hc. eapply so_bind; [apply same_nm_replace; eassumption|]. intros [a c1] [b c2] [Hab He]; simpl in *.
  repeat split; simpl; auto.
Qed.
Lemma same_nm_move k xs ys costs ev : Forall2 Rp xs ys ->
  same_outcome same_move (nm_move cost o centroid k xs costs ev) (nm_move cost' o centroid' k ys costs ev).
Proof.
  intros H; unfold nm_move. eapply so_bind; [apply Hcentroid, f2_removelast, H|]. intros x y Hx.
  eapply so_bind; [apply f2_get, H|]. intros w w' Hw. pose proof (sl_log' _ _ _ _ Hx Hw) as Hv.
  assert (HR : forall a, Rp (m_retr M x (t_scale M a (m_log M x w))) (m_retr M' y (t_scale M' a (m_log M' y w')))) by auto with same.
  rewrite (Hcost _ _ (HR (nneg N (nm_reflection o)))).
  apply so_eq; intros c0. apply so_eq; intros hon. destruct hon; [apply same_finish; auto|].
  destruct (nlt N _ c0).
  { rewrite (Hcost _ _ (HR (nneg N (nm_expansion o)))). destruct (nlt N _ _); apply same_finish; auto. }
  apply so_eq; intros c2. apply so_eq; intros c1.
  rewrite (Hcost _ _ (HR (nneg N (nm_contraction o)))), (Hcost _ _ (HR (nm_contraction o))).
  assert (HS : forall e cs cs', Forall2 Rp cs cs' -> same_outcome same_move
    (let* x0 := py_get xs 0%Z in let* (xs, costs, calls) := nm_shrink cost x0 (Z.to_nat (m_dim M)) 1 xs costs cs in Ok (xs, costs, (e + m_dim M)%Z, calls))
    (let* x0 := py_get ys 0%Z in let* (xs, costs, calls) := nm_shrink cost' x0 (Z.to_nat (m_dim M')) 1 ys costs cs' in Ok (xs, costs, (e + m_dim M')%Z, calls))).
  { intros e cs cs' Hc. rewrite (ss_dim _ _ _ _ G). eapply so_bind; [apply f2_get, H|]. intros a b Hab.
    eapply so_bind; [apply same_nm_shrink; eassumption|]. intros [[xs1 cs1] cl1] [[xs2 cs2] cl2] (A & B & C); simpl in *.
    repeat split; simpl; auto. }
  destruct (nle N c2 _); [|apply HS; auto]. destruct (nlt N _ c1).
  - destruct (nle N _ _); [apply same_finish; auto|apply HS; auto].
  - destruct (nle N _ _); [apply same_finish; auto|apply HS; auto].
Qed.
Definition same_nm (s : nm_state M) (s' : nm_state M') : Prop :=
  Forall2 Rp (n_x s) (n_x s') /\ n_costs s = n_costs s' /\ n_evals s = n_evals s' /\ n_iteration s = n_iteration s' /\
  n_tick s = n_tick s' /\ Forall2 Rp (n_calls s) (n_calls s') /\ Forall2 (same_simplex M M' Rp) (n_trace s) (n_trace s').
Definition same_nm_out (a : result N (pt M) * list (list (pt M) * list N)) (b : result N (pt M') * list (list (pt M') * list N)) : Prop :=
  same_result M M' Rp (fst a) (fst b) /\ Forall2 (same_simplex M M' Rp) (snd a) (snd b).
Lemma same_nm_body t s s' : same_nm s s' -> same_outcome (same_step same_nm same_nm_out)
  (nm_body cost o sp clock argsort centroid t s) (nm_body cost' o sp clock argsort centroid' t s').
Proof.
  intros (Hx & Hc & He & Hi & Ht & Hcalls & Htr); unfold nm_body. rewrite Hc, He, Hi, Ht.
  eapply so_bind; [apply same_nm_sort, Hx|]. intros [xs cs] [ys cs'] [Hxs Hcs]; cbn [fst snd] in Hxs, Hcs; subst cs'.
  assert (HT : Forall2 (same_simplex M M' Rp) (n_trace s ++ [(xs, cs)]) (n_trace s' ++ [(ys, cs)])).
  { apply Forall2_app; [assumption|repeat constructor; assumption]. }
  destruct (check_stopping _ _ _ _ _ _ _ _).
  - eapply so_bind; [apply f2_get, Hxs|]. intros a b Hab. rewrite (Hcost _ _ Hab). repeat split; simpl; auto using same_log_init.
    apply Forall2_app; auto.
  - eapply so_bind; [apply same_nm_move, Hxs|]. intros [[[xs1 cs1] e1] cl1] [[[xs2 cs2] e2] cl2] (A & B & C & D); cbn [fst snd] in A, B, C, D.
    subst. repeat split; simpl; auto. apply Forall2_app; auto.
Qed.
Lemma same_nm_loop xs ys : Forall2 Rp xs ys -> same_outcome same_nm_out
  (nm_loop cost o sp clock argsort centroid xs) (nm_loop cost' o sp clock argsort centroid' ys).
Proof.
  intros H; unfold nm_loop. rewrite (f2_map_eq _ cost cost' _ _ Hcost H), (ss_dim _ _ _ _ G).
  eapply so_bind; [apply same_nm_sort, H|]. intros [xs1 cs1] [ys1 cs1'] [Hxs Hcs]; cbn [fst snd] in Hxs, Hcs; subst cs1'.
  apply (so_loop same_nm same_nm_out); [apply same_nm_body|]. repeat split; simpl; auto.
Qed.
End NMruns.
Lemma same_nm_run base clock argsort centroid centroid' o st st' :
  (forall k l l', Forall2 Rp l l' -> same_outcome Rp (centroid k l) (centroid' k l')) -> same_nm_start M M' Rp st st' ->
  fst (nm_run cost base clock argsort centroid o st) = fst (nm_run cost' base clock argsort centroid' o st') /\
  same_outcome same_nm_out (snd (nm_run cost base clock argsort centroid o st)) (snd (nm_run cost' base clock argsort centroid' o st')).
Proof.
  intros Hce Hst; unfold nm_run, nm_fill; rewrite (ss_dim _ _ _ _ G); split; [reflexivity|]. cbn [snd].
  eapply (so_bind (Forall2 Rp)); [|intros xs ys H; apply same_nm_loop; assumption].
  unfold nm_simplex; rewrite (ss_dim _ _ _ _ G). destruct st, st'; simpl in Hst; try contradiction; [apply f2_firstn; assumption| |reflexivity].
  rewrite (f2_len _ _ _ Hst). destruct (negb _); [assumption|reflexivity].
Qed.

End Means.

(** ** Particle swarm *)
Section PSruns.
Variables (sp : stop_params N) (clock uniform : nat -> N) (o : ps_obj N) (is_list : bool).
(** velocities [vs] of the particles at the positions [xs] *)
Inductive same_velocities : list (pt M) -> list (pt M') -> list (tv M) -> list (tv M') -> Prop :=
  | sv_nil xs ys : Forall2 Rp xs ys -> same_velocities xs ys [] []
  | sv_cons x y xs ys v v' vs vs' : Rp x y -> Rt x y v v' -> same_velocities xs ys vs vs' ->
      same_velocities (x :: xs) (y :: ys) (v :: vs) (v' :: vs').
Lemma same_ps_velocities w b b' : Rp b b' -> forall xs ys, Forall2 Rp xs ys -> forall ys1 ys1' xp xp' vs vs' k,
  Forall2 Rp ys1 ys1' -> same_velocities xp xp' vs vs' ->
  same_velocities xs ys (ps_velocities o uniform w b xs ys1 xp vs k) (ps_velocities o uniform w b' ys ys1' xp' vs' k).
Proof.
  intros Hb; induction 1 as [|x y xs ys Hx H IH]; intros ys1 ys1' xp xp' vs vs' k Hy Hv; cbn [ps_velocities].
  { constructor; constructor. }
  assert (E : same_velocities (x :: xs) (y :: ys) [] []) by (constructor; constructor; assumption).
  destruct Hy as [|a a' ys1 ys1' Ha Hy]; [exact E|]. destruct Hv as [xp xp' Hxp|q q' xp xp' v v' vs vs' Hq Hv Hvs].
  { destruct xp, xp'; exact E. }
  constructor; [assumption| |apply IH; assumption].
  apply ss_add'; [assumption|apply ss_add'; auto with same|auto with same].
Qed.
Definition same_update (a : list (pt M) * list (pt M) * list N * pt M * N) (b : list (pt M') * list (pt M') * list N * pt M' * N) : Prop :=
  Forall2 Rp (fst (fst (fst (fst a)))) (fst (fst (fst (fst b)))) /\ Forall2 Rp (snd (fst (fst (fst a)))) (snd (fst (fst (fst b)))) /\
  snd (fst (fst a)) = snd (fst (fst b)) /\ Rp (snd (fst a)) (snd (fst b)) /\ snd a = snd b.
Lemma same_ps_update xs ys vs vs' : same_velocities xs ys vs vs' -> forall ys1 ys1' fys b b' fb, Forall2 Rp ys1 ys1' -> Rp b b' ->
  same_update (ps_update cost xs vs ys1 fys b fb) (ps_update cost' ys vs' ys1' fys b' fb).
Proof.
  induction 1 as [xs ys H|x y xs ys v v' vs vs' Hx Hv H IH]; intros ys1 ys1' fys b b' fb Hy Hb.
  { destruct xs, ys; simpl; repeat split; simpl; auto; try constructor. }
  cbn [ps_update]. destruct Hy as [|a a' ys1 ys1' Ha Hy]; [repeat split; simpl; auto|].
  destruct fys as [|fy fys]; [repeat split; simpl; auto|]. rewrite (Hcost _ _ Hx).
  destruct (nlt N (cost' y) fy).
  - assert (Hb1 : Rp (if nlt N (cost' y) fb then x else b) (if nlt N (cost' y) fb then y else b')) by (destruct (nlt _ _ _); assumption).
    specialize (IH ys1 ys1' fys _ _ (if nlt N (cost' y) fb then cost' y else fb) Hy Hb1).
    destruct (ps_update cost xs _ _ _ _ _) as [[[[a1 a2] a3] a4] a5], (ps_update cost' ys _ _ _ _ _) as [[[[b1 b2] b3] b4] b5].
    destruct IH as (I1 & I2 & I3 & I4 & I5); simpl in *. repeat split; simpl; auto with same. congruence.
  - specialize (IH ys1 ys1' fys _ _ fb Hy Hb).
    destruct (ps_update cost xs _ _ _ _ _) as [[[[a1 a2] a3] a4] a5], (ps_update cost' ys _ _ _ _ _) as [[[[b1 b2] b3] b4] b5].
    destruct IH as (I1 & I2 & I3 & I4 & I5); simpl in *. repeat split; simpl; auto with same. congruence.
Qed.
Definition same_ps (s : ps_state M) (s' : ps_state M') : Prop :=
  same_swarm M M' Rp (p_swarm s) (p_swarm s') /\ same_velocities (p_xprev s) (p_xprev s') (p_v s) (p_v s') /\ p_evals s = p_evals s' /\
  p_iteration s = p_iteration s' /\ p_tick s = p_tick s' /\ p_draws s = p_draws s' /\
  Forall2 (same_swarm M M' Rp) (p_trace s) (p_trace s').
Definition same_ps_out (a : result N (pt M) * list (swarm M)) (b : result N (pt M') * list (swarm M')) : Prop :=
  same_result M M' Rp (fst a) (fst b) /\ Forall2 (same_swarm M M' Rp) (snd a) (snd b).
Lemma same_ps_body t s s' : same_ps s s' -> same_outcome (same_step same_ps same_ps_out)
  (ps_body cost o sp clock uniform is_list t s) (ps_body cost' o sp clock uniform is_list t s').
Proof.
  intros (Hsw & Hv & He & Hi & Ht & Hd & Htr); pose proof Hsw as (Hx & Hy & Hfy & Hb & Hfb & Hcl); unfold ps_body.
  rewrite He, Hi, Ht, Hd, Hfy, Hfb, (f2_len _ _ _ Hx).
  assert (HT : Forall2 (same_swarm M M' Rp) (p_trace s ++ [p_swarm s]) (p_trace s' ++ [p_swarm s'])) by (apply Forall2_app; auto).
  destruct (ps_check _ _ _ _ _ _ _) as [[reason|] tick].
  - repeat split; simpl; auto using same_log_init.
  - apply so_eq; intros frac.
    match goal with |- context [ps_velocities o uniform ?w _ _ _ _ _ _] =>
      pose proof (same_ps_velocities w _ _ Hb _ _ Hx _ _ _ _ _ _ (p_draws s') Hy Hv) as HV; set (w0 := w) in * end.
    destruct is_list; [|reflexivity].
    pose proof (same_ps_update _ _ _ _ HV _ _ (sw_fy (p_swarm s')) _ _ (sw_fbest (p_swarm s')) Hy Hb) as HU.
    destruct (ps_update cost _ _ _ _ _ _) as [[[[a1 a2] a3] a4] a5], (ps_update cost' _ _ _ _ _ _) as [[[[b1 b2] b3] b4] b5].
    destruct HU as (I1 & I2 & I3 & I4 & I5); cbn [fst snd] in I1, I2, I3, I4, I5.
    repeat split; simpl; auto. apply Forall2_app; auto.
Qed.
Lemma same_argmin : forall l l' c c', Forall2 (fun a b => Rp (fst a) (fst b) /\ snd a = snd b) l l' ->
  Rp (fst c) (fst c') /\ snd c = snd c' -> Rp (fst (argmin_from c l)) (fst (argmin_from c' l')) /\ snd (argmin_from c l) = snd (argmin_from c' l').
Proof.
  intros l l' c c' H; revert c c'; induction H as [|a b l l' [Ha Hb] H IH]; intros c c' [Hc Hc']; cbn [argmin_from]; [auto|].
  rewrite Hc', Hb. destruct (nisnan N (snd c')); [auto|]. apply IH. destruct (_ || _); auto.
Qed.
Lemma same_ps_loop rtv rtv' xs ys : (forall k x y, Rp x y -> Rt x y (rtv k x) (rtv' k y)) -> Forall2 Rp xs ys ->
  same_outcome same_ps_out (ps_loop cost o sp clock uniform is_list rtv xs) (ps_loop cost' o sp clock uniform is_list rtv' ys).
Proof.
  intros Hr H; unfold ps_loop. rewrite (f2_map_eq _ cost cost' _ _ Hcost H).
  assert (HC : Forall2 (fun a b => Rp (fst a) (fst b) /\ snd a = snd b) (combine xs (map cost' ys)) (combine ys (map cost' ys))).
  { clear Hr; induction H; simpl; constructor; auto. }
  destruct HC as [|c c' l l' Hc HC]; [reflexivity|].
  pose proof (same_argmin _ _ _ _ HC Hc) as [HA HB]. destruct (argmin_from c l) as [b fb], (argmin_from c' l') as [b' fb']; cbn [fst snd] in HA, HB.
  subst fb'. apply so_eq; intros _. apply (so_loop same_ps same_ps_out); [apply same_ps_body|].
  repeat split; simpl; auto.
  rewrite (f2_len _ _ _ H). generalize 0 at 1 2. revert H; clear -Hr. intros H.
  induction H as [|x y xs ys Hx H IH]; intros n; simpl; constructor; auto.
Qed.
End PSruns.
Lemma same_ps_run base clock uniform rtv rtv' o st st' : (forall k x y, Rp x y -> Rt x y (rtv k x) (rtv' k y)) -> same_ps_start M M' Rp st st' ->
  let r := ps_run cost base clock uniform rtv o st in let r' := ps_run cost' base clock uniform rtv' o st' in
  fst (fst r) = fst (fst r') /\ same_outcome same_ps_out (snd (fst r)) (snd (fst r')) /\ same_list M M' Rp (snd r) (snd r').
Proof.
  intros Hr Hst; unfold ps_run, ps_fill; rewrite (ss_dim _ _ _ _ G); cbv zeta.
  assert (HR : forall (o1 : ps_obj N) sp b xs ys, Forall2 Rp xs ys ->
     same_outcome same_ps_out (ps_loop cost o1 sp clock uniform b rtv xs) (ps_loop cost' o1 sp clock uniform b rtv' ys)).
  { intros; apply same_ps_loop; assumption. }
  destruct st, st'; simpl in Hst; try contradiction.
  - unfold ps_swarm; cbn [fst snd bind]; repeat split; try exact I. apply HR.
    induction (seq _ _); simpl; constructor; auto.
  - unfold ps_swarm; rewrite (f2_len _ _ _ Hst); cbn [fst snd bind].
    match goal with |- context [ps_loop cost ?o1 ?sp1 clock uniform ?b rtv l] => pose proof (HR o1 sp1 b _ _ Hst) as HO end.
    split; [reflexivity|split; [exact HO|]].
    destruct (ps_loop cost _ _ _ _ _ _ _) as [[r tr]|], (ps_loop cost' _ _ _ _ _ _ _) as [[r' tr']|]; try contradiction; [|exact I].
    destruct HO as [_ HT]; cbn [snd] in HT. apply f2_rev in HT. destruct HT as [|a b ? ? Hab]; [exact I|apply Hab].
  - unfold ps_swarm; rewrite (f2_len _ _ _ Hst); cbn [fst snd bind]. split; [reflexivity|split; [apply HR; assumption|exact Hst]].
  - unfold ps_swarm; cbn [fst snd bind]; repeat split.
Qed.
End Free.
End Equivariance.
