(** The outer loop of trust regions. *)
From Coq Require Import ZArith List Bool Reals Lra Lia Psatz.
From Verif Require Import Num_Model Num_Spec Num_Instances Num_Proofs LineSearch_Model Optimizer_Model Optimizer_Spec
  Optimizer_Proofs Optimizer_Proofs2 TrustRegions_Model TrustRegions_Spec TrustRegions_Proofs.
Import ListNotations.

Section Outer.
Context {N : NumOps} {M : Mfd N} (prob : OptProblem M) (tp : tr_params N)
  (sp : stop_params N) (clock : nat -> N).
Variables (mininner maxinner : Z) (Delta_bar : N) (draws : Z -> pt M -> tv M) (sf : nat).
Local Open Scope num_scope.
Notation body := (tr_body prob tp sp clock mininner maxinner Delta_bar draws sf).

(** What every iteration satisfies. *)
Record iter_ok (it : tr_iter M) : Prop := {
  k_prop : t_x_prop it = m_retr M (t_x it) (t_eta it);
  k_fprop : t_fx_prop it = p_cost prob (t_x_prop it);
  k_shift : t_rho_shift it = shift (tr_rho_reg tp) it;
  k_den : t_rhoden it = predicted_decrease it + shift (tr_rho_reg tp) it;
  k_rho : match t_rho it with
          | Some q => ndiv N (t_fx it - t_fx_prop it + shift (tr_rho_reg tp) it) (t_rhoden it) = Ok q
          | None => ndiv N (t_fx it - t_fx_prop it + shift (tr_rho_reg tp) it) (t_rhoden it) = Raise ZeroDivisionError
          end;
  k_acc : t_accepted it = (t_rhoden it >=? #0) && rho_gt (t_rho it) (tr_rho_prime tp);
  k_Delta :
    if rho_lt (t_rho it) (lit 1 4) || negb (t_rhoden it >=? #0) || rho_isnan (t_rho it)
    then ndiv N (t_Delta it) #4 = Ok (t_Delta_new it)
    else if rho_gt (t_rho it) (lit 3 4) &&
            match t_stop it with NEGATIVE_CURVATURE | EXCEEDED_TR => true | _ => false end
    then t_Delta_new it = pymin (#2 * t_Delta it) Delta_bar
    else t_Delta_new it = t_Delta it;
  k_start : exists eta0 eta1 Heta1,
    (if tr_use_rand tp then exists k, tr_shrink sf (t_x it) (draws k (t_x it)) (t_Delta it) = Ok eta0
     else eta0 = m_zero M (t_x it)) /\
    tcg prob tp (t_x it) (t_gradient it) eta0 (t_Delta it) mininner maxinner = Ok (eta1, Heta1, t_numit it, t_stop it) /\
    (if tr_use_rand tp
     then exists b, tr_cauchy prob (t_x it) (t_fx it) (t_gradient it)
            (m_norm M (t_x it) (t_gradient it)) (t_Delta it) eta1 Heta1 = Ok (t_eta it, t_Heta it, b)
     else t_eta it = eta1 /\ t_Heta it = Heta1) }.

Lemma linked_app x D tr y D' tr' z D'' :
  linked prob x D tr y D' -> linked prob y D' tr' z D'' -> linked prob x D (tr ++ tr') z D''.
Proof. induction 1; simpl; auto. intros. constructor; auto. Qed.

Record tr_inv (x0 : pt M) (Delta0 : N) (s : tr_state M) : Prop := {
  v_link : linked prob x0 Delta0 (s_trace s) (s_x s) (s_Delta s);
  v_ok : Forall iter_ok (s_trace s);
  v_fx : s_fx s = p_cost prob (s_x s);
  v_grad : s_grad s = p_grad prob (s_x s);
  v_norm : s_norm_grad s = m_norm M (s_x s) (p_grad prob (s_x s));
  v_len : Z.of_nat (length (s_trace s)) = s_iteration s }.

(** One iteration: the new trace entry and what follows from it. *)
Lemma tr_body_cases x0 Delta0 t0 s o : tr_inv x0 Delta0 s -> body t0 s = Ok o ->
  exists it, let tr := s_trace s ++ [it] in
    let x' := if t_accepted it then t_x_prop it else t_x it in
    let gn := m_norm M x' (p_grad prob x') in
    let n := (s_iteration s + 1)%Z in
    linked prob x0 Delta0 tr x' (t_Delta_new it) /\ Forall iter_ok tr /\
    Z.of_nat (length tr) = n /\
    match check_stopping sp clock (s_tick s) t0 n (Some gn) None (-1) with
    | Some reason =>
        o = Stop (mkResult x' (p_cost prob x') n reason (clock (s_tick s + 2)%nat - t0) None None (Some gn)
                    (log_init (pt M) sp) (map t_x_prop tr), tr)
    | None => o = Continue (mkTrState x' (p_cost prob x') (p_grad prob x') gn (t_Delta_new it) n (s_tick s + 2) tr)
    end.
Proof.
  intros I E. destruct I as [Il Ik If Ig In Ie].
  unfold tr_body in E. cbv zeta in E.
  apply bind_ok in E as (eta0 & E0 & E).
  apply bind_ok in E as ([[[eta1 Heta1] numit] stop] & Et & E). cbv beta iota in E.
  apply bind_ok in E as ([[eta Heta] uc] & Ec & E). cbv beta iota in E.
  apply bind_ok in E as (rho & Er & E).
  apply bind_ok in E as (Dn & Ed & E).
  set (sh := (pymax #1 (nabs N (s_fx s)) * spacing1 * tr_rho_reg tp)) in *.
  set (den := (- m_inner M (s_x s) (s_grad s) eta - lit 1 2 * m_inner M (s_x s) eta Heta + sh)) in *.
  set (xp := m_retr M (s_x s) eta) in *.
  match type of E with context [s_trace s ++ [?i]] => exists i; set (it := i) in * end.
  assert (K : iter_ok it).
  { split; unfold it; cbn; auto.
    - destruct (ndiv N _ _) as [q|e]; [injection Er as <-; reflexivity|].
      destruct e; try discriminate Er. injection Er as <-. reflexivity.
    - match goal with |- if ?b then _ else _ => destruct b end; [exact Ed|].
      match goal with |- if ?b then _ else _ => destruct b end; congruence.
    - exists eta0, eta1, Heta1. split.
      + destruct (tr_use_rand tp); [eauto|congruence].
      + split; [exact Et|]. destruct (tr_use_rand tp).
        * exists uc. rewrite <- Ec, In, Ig. reflexivity.
        * split; congruence. }
  cbv zeta.
  assert (Ex : (if t_accepted it then t_x_prop it else t_x it) =
               if (den >=? #0) && rho_gt rho (tr_rho_prime tp) then xp else s_x s) by reflexivity.
  rewrite Ex.
  assert (Ef : (if (den >=? #0) && rho_gt rho (tr_rho_prime tp) then p_cost prob xp else s_fx s) =
    p_cost prob (if (den >=? #0) && rho_gt rho (tr_rho_prime tp) then xp else s_x s))
    by (destruct ((den >=? #0) && rho_gt rho (tr_rho_prime tp)); auto).
  assert (Eg : (if (den >=? #0) && rho_gt rho (tr_rho_prime tp) then p_grad prob xp else s_grad s) =
    p_grad prob (if (den >=? #0) && rho_gt rho (tr_rho_prime tp) then xp else s_x s))
    by (destruct ((den >=? #0) && rho_gt rho (tr_rho_prime tp)); auto).
  assert (En : (if (den >=? #0) && rho_gt rho (tr_rho_prime tp) then m_norm M xp (p_grad prob xp) else s_norm_grad s) =
    let x' := (if (den >=? #0) && rho_gt rho (tr_rho_prime tp) then xp else s_x s) in m_norm M x' (p_grad prob x'))
    by (destruct ((den >=? #0) && rho_gt rho (tr_rho_prime tp)); auto).
  cbv zeta in En. rewrite Ef, Eg, En in E.
  split; [|split; [|split]].
  - eapply linked_app; [exact Il|].
    change (s_x s) with (t_x it) at 1. change (s_Delta s) with (t_Delta it). rewrite <- Ex.
    apply linked_cons; auto; constructor.
  - apply Forall_app; auto.
  - rewrite app_length. simpl. lia.
  - destruct (check_stopping _ _ _ _ _ _ _ _); injection E as <-; reflexivity.
Qed.

Lemma tr_loop x0 Delta0 t0 fuel s r tr : tr_inv x0 Delta0 s ->
  loop (body t0) fuel s = Ok (r, tr) ->
  exists y Delta' tick, linked prob x0 Delta0 tr y Delta' /\ Forall iter_ok tr /\
    Z.of_nat (length tr) = r_iterations r /\
    r_point r = y /\ r_cost r = p_cost prob y /\
    r_gradient_norm r = Some (m_norm M y (p_grad prob y)) /\
    r_cost_evaluations r = None /\ r_step_size r = None /\ r_log r = log_init (pt M) sp /\
    r_calls r = map t_x_prop tr /\ tr <> [] /\
    check_stopping sp clock tick t0 (r_iterations r) (r_gradient_norm r) None (-1) = Some (r_stopping_criterion r).
Proof.
  intros I E.
  pose proof (loop_inv (body t0) (tr_inv x0 Delta0)
    (fun rt => let '(r, tr) := rt in exists y Delta' tick, linked prob x0 Delta0 tr y Delta' /\ Forall iter_ok tr /\
    Z.of_nat (length tr) = r_iterations r /\
    r_point r = y /\ r_cost r = p_cost prob y /\
    r_gradient_norm r = Some (m_norm M y (p_grad prob y)) /\
    r_cost_evaluations r = None /\ r_step_size r = None /\ r_log r = log_init (pt M) sp /\
    r_calls r = map t_x_prop tr /\ tr <> [] /\
    check_stopping sp clock tick t0 (r_iterations r) (r_gradient_norm r) None (-1) = Some (r_stopping_criterion r))) as K.
  apply (fun a b => K a b fuel s (r, tr) I E); clear.
  - intros s s' I E. destruct (tr_body_cases _ _ _ _ _ I E) as (it & H). cbv zeta in H.
    destruct H as (Hl & Hk & Hn & H). destruct (check_stopping _ _ _ _ _ _ _ _); [discriminate|].
    injection H as ->. split; auto.
  - intros s [r tr] I E. destruct (tr_body_cases _ _ _ _ _ I E) as (it & H). cbv zeta in H.
    destruct H as (Hl & Hk & Hn & H).
    destruct (check_stopping _ _ _ _ _ _ _ _) eqn:C; [|discriminate].
    injection H as -> ->. cbn. do 2 eexists. exists (s_tick s). repeat split; eauto.
    destruct (s_trace s); discriminate.
Qed.
End Outer.

Section Run.
Context {N : NumOps} {M : Mfd N} (prob : OptProblem M) (tp : tr_params N)
  (sp : stop_params N) (clock : nat -> N).

(** The defaults of [Delta_bar] and [Delta0]. *)
Definition radii_ok (bar0 start0 : option N) (bar start : N) : Prop :=
  (match bar0 with
   | Some d => bar = d
   | None => m_typical_dist M = Ok bar \/
             (m_typical_dist M = Raise NotImplementedError /\ bar = nsqrt N (n_of_Z N (m_dim M)))
   end) /\
  (match start0 with Some d => start = d | None => ndiv N bar (n_of_Z N 8) = Ok start end).

Lemma tr_run_inv x0 mininner maxinner Delta_bar Delta0 draws sf r tr :
  tr_run prob tp sp clock x0 mininner maxinner Delta_bar Delta0 draws sf = Ok (r, tr) ->
  exists bar start y Delta' tick,
    radii_ok Delta_bar Delta0 bar start /\
    linked prob x0 start tr y Delta' /\
    Forall (iter_ok prob tp mininner (match maxinner with None => m_dim M | Some m => m end) bar draws sf) tr /\
    Z.of_nat (length tr) = r_iterations r /\
    r_point r = y /\ r_cost r = p_cost prob y /\
    r_gradient_norm r = Some (m_norm M y (p_grad prob y)) /\
    r_cost_evaluations r = None /\ r_step_size r = None /\ r_log r = log_init (pt M) sp /\
    r_calls r = x0 :: map t_x_prop tr /\ tr <> [] /\
    check_stopping sp clock tick (clock 0%nat) (r_iterations r) (r_gradient_norm r) None (-1) =
      Some (r_stopping_criterion r).
Proof.
  intros E. unfold tr_run in E. cbv zeta in E.
  apply bind_ok in E as (bar & Eb & E). apply bind_ok in E as (start & Es & E).
  apply bind_ok in E as ([r' tr'] & El & E). cbv beta iota in E.
  apply tr_loop with (x0 := x0) (Delta0 := start) in El.
  2: { split; cbn; auto. constructor. }
  destruct El as (y & D' & tick & H1 & H2 & H3 & H4 & H5 & H6 & H7 & H8 & H9 & H10 & H11 & H12).
  assert (r = mkResult (r_point r') (r_cost r') (r_iterations r') (r_stopping_criterion r') (r_time r')
        (r_cost_evaluations r') (r_step_size r') (r_gradient_norm r') (r_log r') (x0 :: r_calls r')) as -> by congruence.
  assert (tr = tr') as -> by congruence.
  exists bar, start, y, D', tick. cbn. rewrite H10. repeat split; auto.
  - destruct Delta_bar; [congruence|]. destruct (m_typical_dist M) as [d|e]; [left; congruence|].
    destruct e; try discriminate Eb. right; split; congruence.
  - destruct Delta0; congruence.
Qed.
End Run.
