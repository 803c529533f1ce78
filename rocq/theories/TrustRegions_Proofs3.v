(** Consequences of the outer-loop invariant. *)
From Coq Require Import ZArith List Bool Reals Lra Lia Psatz SpecFloat.
From Verif Require Import Num_Model Num_Spec Num_Instances Num_Proofs LineSearch_Model Optimizer_Model Optimizer_Spec
  Optimizer_Proofs Optimizer_Proofs2 TrustRegions_Model TrustRegions_Spec TrustRegions_Proofs TrustRegions_Proofs2.
Import ListNotations.

Lemma check_none {N} (sp : stop_params N) clock tick t0 n gn ss ev :
  check_stopping sp clock tick t0 n gn ss ev = None -> (n < max_iterations sp)%Z.
Proof.
  unfold check_stopping. destruct (nle _ _ _); [discriminate|].
  destruct (Z.leb_spec (max_iterations sp) n); [discriminate|auto].
Qed.

Section Iterations.
Context {N : NumOps} {M : Mfd N} (prob : OptProblem M) (tp : tr_params N)
  (sp : stop_params N) (clock : nat -> N).

Lemma tr_body_iter mi ma bar draws sf t0 s o :
  tr_body prob tp sp clock mi ma bar draws sf t0 s = Ok o ->
  match o with
  | Continue s' => s_iteration s' = (s_iteration s + 1)%Z /\ (s_iteration s' < max_iterations sp)%Z
  | Stop (r, _) => r_iterations r = (s_iteration s + 1)%Z
  end.
Proof.
  intros E. unfold tr_body in E. cbv zeta in E.
  repeat match type of E with
  | bind _ _ = Ok _ => apply bind_ok in E as (? & _ & E)
  | (let '(_, _) := ?a in _) = _ => destruct a
  end.
  destruct (check_stopping _ _ _ _ _ _ _ _) eqn:C; injection E as <-; cbn; auto.
  apply check_none in C. auto.
Qed.

Lemma tr_run_iterations x0 mi ma bar d0 draws sf r tr :
  tr_run prob tp sp clock x0 mi ma bar d0 draws sf = Ok (r, tr) ->
  (1 <= r_iterations r <= Z.max 1 (max_iterations sp))%Z.
Proof.
  intros E. unfold tr_run in E. cbv zeta in E.
  apply bind_ok in E as (b & _ & E). apply bind_ok in E as (d & _ & E).
  apply bind_ok in E as ([r' tr'] & El & E). cbv beta iota in E.
  assert (r_iterations r = r_iterations r') as -> by (injection E as <- <-; reflexivity).
  revert El.
  match goal with |- loop ?b ?f ?s0 = _ -> _ =>
    intros El; apply (loop_inv b (fun s => (0 <= s_iteration s)%Z /\ (s_iteration s = 0 \/ s_iteration s < max_iterations sp)%Z)
      (fun rt => (1 <= r_iterations (fst rt) <= Z.max 1 (max_iterations sp))%Z)) in El; auto end.
  - intros s s' Hs Es. apply tr_body_iter in Es. lia.
  - intros s [r1 t1] Hs Es. apply tr_body_iter in Es. cbn. lia.
  - cbn. lia.
Qed.

Context (L : OrderLaws N).
Lemma tcg_fuel x g e D mi ma : tcg prob tp x g e D mi ma <> Raise OutOfFuel.
Proof.
  unfold tcg. destruct (tcg_init _ _ _ _ _) as [s n0]. destruct (Z.leb _ _); [discriminate|].
  generalize (Z.to_nat ma) as n, 0%Z as j. intros n; revert s.
  induction n as [|n IH]; intros s j; simpl; [discriminate|].
  intros E. destruct (tcg_body prob tp x g D n0 mi j s) as [[s'|[[a b] c]]|ex] eqn:Eb; simpl in E.
  - eapply IH; eauto.
  - discriminate.
  - injection E as ->. unfold tcg_body in Eb. cbv zeta in Eb.
    destruct (nonzero _).
    + destruct (ip_div M _ _) eqn:Ed in Eb; [|simpl in Eb; injection Eb as ->; eapply (ip_div_fuel L M); eauto].
      cbn [bind] in Eb.
      destruct (_ || _).
      * destruct (ndiv N _ _) eqn:Ed2 in Eb; [discriminate|]. simpl in Eb. injection Eb as ->. eapply (ndiv_fuel L); eauto.
      * destruct (nle _ _ _); [discriminate|]. destruct (_ && _); [discriminate|].
        destruct (ip_div M _ _) eqn:Ed3 in Eb; [discriminate|]. simpl in Eb; injection Eb as ->; eapply (ip_div_fuel L M); eauto.
    + cbn [bind] in Eb. destruct (_ || _).
      * destruct (ndiv N _ _) eqn:Ed2 in Eb; [discriminate|]. simpl in Eb. injection Eb as ->. eapply (ndiv_fuel L); eauto.
      * destruct (nle _ _ _); [discriminate|]. destruct (_ && _); [discriminate|].
        destruct (ip_div M _ _) eqn:Ed3 in Eb; [discriminate|]. simpl in Eb; injection Eb as ->; eapply (ip_div_fuel L M); eauto.
Qed.

Lemma tr_run_fuel x0 mi ma bar d0 draws sf :
  tr_use_rand tp = false -> m_typical_dist M <> Raise OutOfFuel ->
  tr_run prob tp sp clock x0 mi ma bar d0 draws sf <> Raise OutOfFuel.
Proof.
  intros Hr Ht E. unfold tr_run in E. cbv zeta in E.
  match type of E with bind ?a _ = _ => destruct a as [b|e] eqn:Eb end; cbn [bind] in E.
  2: { injection E as ->. destruct bar; [discriminate|]. destruct (m_typical_dist M) as [|e]; [discriminate|].
       destruct e; congruence. }
  match type of E with bind ?a _ = _ => destruct a as [d|e] eqn:Ed end; cbn [bind] in E.
  2: { injection E as ->. destruct d0; [discriminate|]. eapply (ndiv_fuel L); eauto. }
  match type of E with bind ?a _ = _ => destruct a as [[r tr]|e] eqn:El end; cbn [bind] in E; [discriminate|].
  injection E as ->. revert El.
  apply (loop_fuel _ (fun s => (0 <= s_iteration s)%Z) (fun s => Z.to_nat (max_iterations sp - s_iteration s))).
  - intros s _ E. unfold tr_body in E. cbv zeta in E. rewrite Hr in E. cbn [bind] in E.
    match type of E with bind ?a _ = _ => destruct a as [[[[? ?] ?] ?]|] eqn:Et end; simpl in E.
    2: { injection E as ->. eapply tcg_fuel; eauto. }
    match type of E with bind (match ndiv N ?a ?b with _ => _ end) _ = _ => destruct (ndiv N a b) as [|e] eqn:En end; simpl in E.
    + match type of E with bind ?a _ = _ => destruct a eqn:Ed2 end; simpl in E.
      * destruct (check_stopping _ _ _ _ _ _ _ _); discriminate.
      * injection E as ->. destruct (_ || _); [eapply (ndiv_fuel L); eauto|]. destruct (_ && _); discriminate.
    + apply (div_exn N L) in En as K. subst e. simpl in E.
      match type of E with bind ?a _ = _ => destruct a eqn:Ed2 end; simpl in E.
      * destruct (check_stopping _ _ _ _ _ _ _ _); discriminate.
      * injection E as ->. destruct (_ || _); [eapply (ndiv_fuel L); eauto|]. try destruct (_ && _); discriminate.
  - intros s s' Hs Es. apply tr_body_iter in Es. lia.
  - cbn. lia.
  - cbn. unfold iter_fuel. lia.
Qed.
End Iterations.

(** ** The rule for the radius and acceptance, any number system *)
Section Rules.
Context {N : NumOps} (L : OrderLaws N) {M : Mfd N} (prob : OptProblem M) (tp : tr_params N).

Lemma iter_accept mi ma bar draws sf (it : tr_iter M) : iter_ok prob tp mi ma bar draws sf it ->
  t_accepted it = true <->
  nle N (n_of_Z N 0) (nadd N (predicted_decrease it) (shift (tr_rho_reg tp) it)) = true /\
  ratio_exceeds (tr_rho_reg tp) (tr_rho_prime tp) it.
Proof.
  intros K. rewrite (k_acc _ _ _ _ _ _ _ _ K), (k_den _ _ _ _ _ _ _ _ K).
  pose proof (k_rho _ _ _ _ _ _ _ _ K) as Kr. rewrite (k_den _ _ _ _ _ _ _ _ K) in Kr.
  unfold ratio_exceeds. rewrite andb_true_iff. split; intros [A B]; split; auto.
  - destruct (t_rho it) as [q|]; [|discriminate]. eauto.
  - destruct B as (q & Eq & Lq). destruct (t_rho it) as [q'|]; [|congruence].
    simpl. congruence.
Qed.

Lemma iter_rejected mi ma bar draws sf (it : tr_iter M) : iter_ok prob tp mi ma bar draws sf it ->
  nlt N (tr_rho_prime tp) (lit 1 4) = true -> t_accepted it = false ->
  ndiv N (t_Delta it) (n_of_Z N 4) = Ok (t_Delta_new it).
Proof.
  intros K Hp Ha. pose proof (k_Delta _ _ _ _ _ _ _ _ K) as Kd.
  rewrite (k_acc _ _ _ _ _ _ _ _ K) in Ha.
  destruct (_ || _ || _) eqn:C in Kd; [exact Kd|]. exfalso.
  apply orb_false_iff in C as [C C3]. apply orb_false_iff in C as [C1 C2].
  apply negb_false_iff in C2. rewrite C2 in Ha. cbn [andb] in Ha.
  destruct (t_rho it) as [q|]; simpl in *; [|discriminate].
  destruct (lt_not_nan L _ _ Hp) as [Np N4].
  assert (nle N q (tr_rho_prime tp) = true) by (apply (not_gt_le L); auto).
  rewrite (le_lt_trans N L _ _ _ H Hp) in C1. discriminate.
Qed.

Lemma iter_radius mi ma bar draws sf (it : tr_iter M) : iter_ok prob tp mi ma bar draws sf it ->
  ndiv N (t_Delta it) (n_of_Z N 4) = Ok (t_Delta_new it) \/
  (t_Delta_new it = pymin (nmul N (n_of_Z N 2) (t_Delta it)) bar /\
   t_accepted it = nlt N (tr_rho_prime tp) match t_rho it with Some q => q | None => tr_rho_prime tp end /\
   ratio_exceeds (tr_rho_reg tp) (lit 3 4) it /\
   (t_stop it = NEGATIVE_CURVATURE \/ t_stop it = EXCEEDED_TR)) \/
  t_Delta_new it = t_Delta it.
Proof.
  intros K. pose proof (k_Delta _ _ _ _ _ _ _ _ K) as Kd.
  destruct (_ || _ || _) eqn:C in Kd; [auto|].
  destruct (_ && _) eqn:C2 in Kd; [|auto].
  right; left. split; [auto|].
  apply orb_false_iff in C as [C C3]. apply orb_false_iff in C as [C1 C4].
  apply negb_false_iff in C4.
  apply andb_prop in C2 as [C2 C5].
  pose proof (k_rho _ _ _ _ _ _ _ _ K) as Kr. pose proof (k_acc _ _ _ _ _ _ _ _ K) as Ka.
  rewrite C4 in Ka. cbn [andb] in Ka.
  destruct (t_rho it) as [q|]; [|discriminate].
  split; [exact Ka|]. split.
  - exists q. split; auto. rewrite <- (k_den _ _ _ _ _ _ _ _ K). auto.
  - destruct (t_stop it); auto; discriminate.
Qed.
End Rules.

(** ** Exact arithmetic *)
Section Exact.
Context {M : Mfd Rnum} (prob : OptProblem M) (tp : tr_params Rnum).
Local Open Scope R_scope.

Lemma iter_radius_bounds mi ma bar draws sf (it : tr_iter M) : iter_ok prob tp mi ma bar draws sf it ->
  0 < t_Delta it <= bar -> 0 < t_Delta_new it <= bar.
Proof.
  intros K Hb. pose proof (k_Delta _ _ _ _ _ _ _ _ K) as Kd.
  destruct (_ || _ || _) in Kd.
  - simpl in Kd. apply Rdiv_ok in Kd as [_ ->]. simpl in *. lra.
  - destruct (_ && _) in Kd; rewrite Kd.
    + rewrite pymin_R. simpl. unfold Rmin. simpl in *. destruct (Rle_dec _ _); lra.
    + auto.
Qed.

Lemma linked_radius mi ma bar draws sf x D tr y D' : linked prob x D tr y D' ->
  Forall (iter_ok prob tp mi ma bar draws sf) tr -> 0 < D <= bar ->
  Forall (fun it : tr_iter M => 0 < t_Delta it <= bar /\ 0 < t_Delta_new it <= bar) tr.
Proof.
  induction 1; intros F Hb; [constructor|]. inversion F; subst.
  assert (0 < t_Delta_new it <= bar) by (eapply iter_radius_bounds; eauto).
  constructor; auto.
Qed.

Lemma iter_bounded_increase mi ma bar draws sf (it : tr_iter M) : iter_ok prob tp mi ma bar draws sf it ->
  0 <= tr_rho_prime tp -> t_accepted it = true ->
  t_fx_prop it < t_fx it + shift (tr_rho_reg tp) it.
Proof.
  intros K Hp Ha. apply (iter_accept prob tp mi ma bar draws sf it K) in Ha as (H1 & q & Eq & Hq).
  simpl in H1. apply Rleb_spec in H1. simpl in Eq, Hq. apply Rltb_spec in Hq. apply Rdiv_ok in Eq as [Hn ->].
  assert (P : 0 < predicted_decrease it + shift (tr_rho_reg tp) it) by (simpl in *; lra).
  assert (Q : 0 < (t_fx it - t_fx_prop it + shift (tr_rho_reg tp) it) /
               (predicted_decrease it + shift (tr_rho_reg tp) it)) by (simpl in *; lra).
  apply (Rmult_lt_compat_r _ _ _ P) in Q. unfold Rdiv in Q. rewrite Rmult_assoc, Rinv_l in Q by (simpl in *; lra).
  simpl in *; lra.
Qed.

(** The sufficient decrease condition in multiplied form. *)
Lemma iter_sufficient mi ma bar draws sf (it : tr_iter M) : iter_ok prob tp mi ma bar draws sf it ->
  t_accepted it = true ->
  tr_rho_prime tp * (predicted_decrease it + shift (tr_rho_reg tp) it) <
  t_fx it - t_fx_prop it + shift (tr_rho_reg tp) it.
Proof.
  intros K Ha. apply (iter_accept prob tp mi ma bar draws sf it K) in Ha as (H1 & q & Eq & Hq).
  simpl in H1. apply Rleb_spec in H1. simpl in Eq, Hq. apply Rltb_spec in Hq. apply Rdiv_ok in Eq as [Hn ->].
  assert (P : 0 < predicted_decrease it + shift (tr_rho_reg tp) it) by (simpl in *; lra).
  apply (Rmult_lt_compat_r _ _ _ P) in Hq. unfold Rdiv in Hq. rewrite Rmult_assoc, Rinv_l in Hq by (simpl in *; lra).
  simpl in *; lra.
Qed.

Lemma shift_zero (it : tr_iter M) : shift (N := Rnum) 0 it = 0.
Proof. unfold shift. simpl. lra. Qed.

Lemma linked_total mi ma bar draws sf x D tr y D' : linked prob x D tr y D' ->
  Forall (iter_ok prob tp mi ma bar draws sf) tr -> 0 <= tr_rho_prime tp ->
  0 <= tr_rho_reg tp ->
  p_cost prob y <= p_cost prob x + fold_right (fun (it : tr_iter M) acc => shift (tr_rho_reg tp) it + acc) 0 tr.
Proof.
  induction 1; intros F Hp Hr; [simpl; lra|]. inversion F; subst.
  specialize (IHlinked H7 Hp Hr). cbn [fold_right].
  assert (0 <= shift (tr_rho_reg tp) it).
  { unfold shift. rewrite pymax_R, Rlit by lra. simpl.
    apply Rmult_le_pos; auto. apply Rmult_le_pos; [|lra].
    eapply Rle_trans; [|apply Rmax_l]. lra. }
  destruct (t_accepted it) eqn:A.
  - pose proof (iter_bounded_increase _ _ _ _ _ _ H6 Hp A) as K. rewrite H2, H in K. simpl in *; lra.
  - simpl in *; lra.
Qed.
End Exact.

(** ** NaN never accepted, binary64 *)
Section NaN.
Variable powf : spec_float -> spec_float -> spec_float.
Notation F := (f64 powf).
Lemma sub_nan a : SFsub 53 1024 a S754_nan = S754_nan.
Proof. destruct a; reflexivity. Qed.
Lemma add_nan a : SFadd 53 1024 S754_nan a = S754_nan.
Proof. destruct a; reflexivity. Qed.
Lemma div_nan a : SFdiv 53 1024 S754_nan a = S754_nan.
Proof. destruct a; reflexivity. Qed.

Lemma iter_no_nan (M : Mfd F) (prob : OptProblem M) tp mi ma bar draws sf (it : tr_iter M) :
  iter_ok prob tp mi ma bar draws sf it ->
  t_accepted it = true -> nisnan F (p_cost prob (t_x_prop it)) = false.
Proof.
  intros K Ha. apply (iter_accept prob tp mi ma bar draws sf it K) in Ha as (_ & q & Eq & Hq).
  rewrite <- (k_fprop _ _ _ _ _ _ _ _ K).
  destruct (t_fx_prop it) eqn:E; auto. exfalso.
  change (Ok (SFdiv 53 1024 (SFadd 53 1024 (SFsub 53 1024 (t_fx it) S754_nan) (shift (tr_rho_reg tp) it))
    (nadd F (predicted_decrease it) (shift (tr_rho_reg tp) it))) = Ok q) in Eq.
  rewrite sub_nan, add_nan, div_nan in Eq. injection Eq as <-.
  change (SFltb (tr_rho_prime tp) S754_nan = true) in Hq. destruct (tr_rho_prime tp); discriminate.
Qed.

Lemma linked_no_nan (M : Mfd F) (prob : OptProblem M) tp mi ma bar draws sf x D tr y D' :
  linked prob x D tr y D' -> Forall (iter_ok prob tp mi ma bar draws sf) tr ->
  nisnan F (p_cost prob x) = false -> nisnan F (p_cost prob y) = false.
Proof.
  induction 1; intros Fo Hx; auto. inversion Fo; subst. apply IHlinked; auto.
  destruct (t_accepted it) eqn:A; auto. eapply iter_no_nan; eauto.
Qed.
End NaN.
