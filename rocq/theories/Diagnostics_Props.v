(** C94-C96: what the checks of gradients, Hessians and retractions report. *)
From Coq Require Import Reals List Bool Arith Lia Lra Psatz.
From Verif Require Import Num_Model Diagnostics_Model Diagnostics_Spec Diagnostics_Proofs.
Import ListNotations.
Local Open Scope R_scope.

Lemma take_window x k w : take x (window k w) = piece k w x.
Proof. reflexivity. Qed.
Lemma piece_length k w x : length (piece k w x) = (w + 1)%nat.
Proof. unfold piece. now rewrite map_length, seq_length. Qed.
Lemma piece_nth k w x i : (i <= w)%nat -> nth i (piece k w x) 0 = nth (k + i) x 0.
Proof.
  intros H. unfold piece. rewrite nth_indep with (d' := nth 0%nat x 0) by (rewrite map_length, seq_length; lia).
  rewrite (map_nth (fun i => nth i x 0)). now rewrite seq_nth by lia.
Qed.

(** ** C94: the linear piece *)
(** The reported indices are [window_length + 1] consecutive ones, and no line through any such window has a smaller squared
    error than the reported line has on the reported window; among equally good windows it is the first. *)
Theorem C94_best_window polyfit x y w :
  polyfit_ok polyfit -> length x = length y -> (2 <= w < length x)%nat ->
  (forall k, (k + w < length x)%nat -> not_constant (piece k w x)) ->
  exists b p, identify_linear_piece polyfit x y w = Ok (seq b (w + 1), p) /\ (b + w < length x)%nat /\
    (forall k q, (k + w < length x)%nat ->
       squared_error p (piece b w x) (piece b w y) <= squared_error q (piece k w x) (piece k w y)) /\
    (forall k q, (k < b)%nat ->
       squared_error p (piece b w x) (piece b w y) < squared_error q (piece k w x) (piece k w y)).
Proof.
  intros HP L Hw Hc. unfold identify_linear_piece.
  destruct (Nat.ltb_spec (length x) w); [lia|].
  set (line := fun k => fst (polyfit (piece k w x) (piece k w y))).
  set (g := fun k => (sqrt (squared_error (line k) (piece k w x) (piece k w y)), line k)).
  assert (HF : forall k, (k + w < length x)%nat ->
     snd (polyfit (piece k w x) (piece k w y)) = [squared_error (line k) (piece k w x) (piece k w y)] /\
     forall q, squared_error (line k) (piece k w x) (piece k w y) <= squared_error q (piece k w x) (piece k w y)).
  { intros k Hk. destruct (HP (piece k w x) (piece k w y)) as [H1 _]; [now rewrite !piece_length|].
    apply H1; [rewrite piece_length; lia|auto]. }
  rewrite (mapM_ok _ _ _ g).
  2:{ intros k Hk. apply in_seq in Hk. rewrite !take_window. destruct (HF k ltac:(lia)) as [E _].
      unfold g, line in *. destruct (polyfit (piece k w x) (piece k w y)) as [po re]. simpl in *. now rewrite E. }
  simpl.
  assert (EL : length (map fst (map g (seq 0 (length x - w)))) = (length x - w)%nat) by now rewrite !map_length, seq_length.
  assert (EN : forall k, (k < length x - w)%nat -> nth k (map fst (map g (seq 0 (length x - w)))) 0 = fst (g k)).
  { intros k Hk. rewrite map_map. rewrite nth_indep with (d' := fst (g 0%nat)) by (rewrite map_length, seq_length; lia).
    rewrite (map_nth (fun k => fst (g k))). now rewrite seq_nth. }
  destruct (argmin_spec (map fst (map g (seq 0 (length x - w))))) as (b & E & Hb & Hmin & Hfst).
  { intros E. rewrite E in EL. simpl in EL. lia. }
  rewrite E. simpl. rewrite EL in *. exists b, (line b).
  assert (EB : snd (nth b (map g (seq 0 (length x - w))) (0, (0, 0))) = line b).
  { rewrite nth_indep with (d' := g 0%nat) by (rewrite map_length, seq_length; lia).
    rewrite map_nth, seq_nth by lia. reflexivity. }
  split; [now rewrite EB|]. split; [lia|]. split.
  - intros k q Hk. specialize (Hmin k ltac:(lia)). rewrite !EN in Hmin by lia. simpl in Hmin.
    apply Rle_trans with (squared_error (line k) (piece k w x) (piece k w y)); [|apply HF; auto].
    apply sqrt_le_0; auto using squared_error_nonneg.
  - intros k q Hk. specialize (Hfst k ltac:(lia)). rewrite !EN in Hfst by lia. simpl in Hfst.
    apply Rlt_le_trans with (squared_error (line k) (piece k w x) (piece k w y)); [|apply HF; lia].
    apply sqrt_lt_0_alt; auto.
Qed.

(** If some window lies on a line, the reported window is not after it and lies on the reported line. *)
Theorem C94_exact_piece polyfit x y w k q :
  polyfit_ok polyfit -> length x = length y -> (2 <= w < length x)%nat ->
  (forall k, (k + w < length x)%nat -> not_constant (piece k w x)) ->
  (k + w < length x)%nat ->
  (forall i, (k <= i <= k + w)%nat -> nth i y 0 = fst q * nth i x 0 + snd q) ->
  exists b p, identify_linear_piece polyfit x y w = Ok (seq b (w + 1), p) /\ (b <= k)%nat /\
    forall i, (b <= i <= b + w)%nat -> nth i y 0 = fst p * nth i x 0 + snd p.
Proof.
  intros HP L Hw Hc Hk Hq. destruct (C94_best_window _ _ _ _ HP L Hw Hc) as (b & p & E & Hb & Hmin & Hfst).
  assert (Z : squared_error q (piece k w x) (piece k w y) = 0).
  { apply squared_error_zero; [now rewrite !piece_length|]. intros i Hi. rewrite piece_length in Hi.
    rewrite !piece_nth by lia. apply Hq; lia. }
  assert (Zb : squared_error p (piece b w x) (piece b w y) = 0).
  { pose proof (Hmin k q Hk). pose proof (squared_error_nonneg p (piece b w x) (piece b w y)). lra. }
  exists b, p. split; [exact E|]. split.
  - destruct (Nat.le_gt_cases b k); auto. pose proof (Hfst k q H). lra.
  - intros i Hi. pose proof (proj1 (squared_error_zero p (piece b w x) (piece b w y) ltac:(now rewrite !piece_length)) Zb (i - b)%nat) as HH.
    rewrite piece_length, !piece_nth in HH by lia. replace (b + (i - b))%nat with i in HH by lia. apply HH; lia.
Qed.

(** If all points lie on one line, that line is reported: for errors [c * h^m] at the step sizes [h], plotted with
    logarithmic scales, the slope is [m]. *)
Theorem C94_line_recovered polyfit x y w q :
  polyfit_ok polyfit -> length x = length y -> (2 <= w < length x)%nat ->
  (forall k, (k + w < length x)%nat -> not_constant (piece k w x)) ->
  (forall i, (i < length x)%nat -> nth i y 0 = fst q * nth i x 0 + snd q) ->
  identify_linear_piece polyfit x y w = Ok (seq 0 (w + 1), q).
Proof.
  intros HP L Hw Hc Hq. destruct (C94_exact_piece polyfit x y w 0 q HP L Hw Hc) as (b & p & E & Hb & Hp).
  - lia. - intros; apply Hq; lia.
  - assert (b = 0)%nat by lia. subst b. rewrite E. f_equal. f_equal.
    destruct (Hc 0%nat ltac:(lia)) as (a1 & a2 & H1 & H2 & Hne).
    unfold piece in H1, H2. apply in_map_iff in H1. apply in_map_iff in H2.
    destruct H1 as (i & <- & Hi), H2 as (j & <- & Hj). apply in_seq in Hi. apply in_seq in Hj.
    pose proof (Hp i ltac:(lia)). pose proof (Hp j ltac:(lia)). pose proof (Hq i ltac:(lia)). pose proof (Hq j ltac:(lia)).
    destruct p as [s c], q as [s' c']. simpl in *.
    assert (s = s'). { apply Rminus_diag_uniq. apply (Rmult_eq_reg_r (nth i x 0 - nth j x 0)); lra. }
    subst s'. f_equal. lra.
Qed.

(** At most [window_length] points: no window fits. *)
Theorem C94_too_few polyfit x y w : (length x <= w)%nat -> identify_linear_piece polyfit x y w = Raise ValueError.
Proof.
  intros H. unfold identify_linear_piece. destruct (Nat.ltb_spec (length x) w); [reflexivity|].
  replace (length x - w)%nat with 0%nat by lia. reflexivity.
Qed.
(** Windows of length 0 and 1 never work, however many points there are: the fit through at most two points has no residual. *)
Theorem C94_short_window_refuted polyfit x y w : polyfit_ok polyfit -> (w <= 1)%nat ->
  identify_linear_piece polyfit x y w = Raise ValueError.
Proof.
  intros HP Hw. unfold identify_linear_piece. destruct (Nat.ltb_spec (length x) w); [reflexivity|].
  destruct (Nat.eq_dec (length x) w) as [e|].
  { rewrite e, Nat.sub_diag. reflexivity. }
  rewrite (mapM_raise _ _ _ ValueError); [reflexivity| |].
  - intros E. apply (f_equal (@length nat)) in E. rewrite seq_length in E. simpl in E. lia.
  - intros k _. rewrite !take_window.
    destruct (HP (piece k w x) (piece k w y)) as [_ H2]; [now rewrite !piece_length|].
    specialize (H2 ltac:(rewrite piece_length; lia)).
    destruct (polyfit (piece k w x) (piece k w y)) as [po re]. simpl in H2. now rewrite H2.
Qed.

(** The hypotheses are met: there is a fit as promised, and the points [0, 1, 2, 3] do not repeat. *)
Example C94_instance : exists polyfit, polyfit_ok polyfit /\
  identify_linear_piece polyfit [0; 1; 2; 3] [1; 3; 5; 7] 2 = Ok ([0; 1; 2]%nat, (2, 1)).
Proof.
  exists least_squares_polyfit. split; [apply least_squares_polyfit_ok|].
  apply (C94_line_recovered _ _ _ 2 (2, 1) least_squares_polyfit_ok); simpl; try lia; auto.
  - intros k Hk. exists (nth k [0; 1; 2; 3] 0), (nth (k + 1) [0; 1; 2; 3] 0).
    repeat split; try (unfold piece; apply (in_map (fun i => nth i [0; 1; 2; 3] 0)), in_seq; lia).
    destruct k as [|[|k]]; simpl; intros; first [lra|lia].
  - intros [|[|[|[|i]]]] Hi; simpl; try lra; lia.
Qed.

(** ** C95: directional derivatives *)
Arguments logspace : simpl never.
Lemma logspace_length a b n : length (logspace a b n) = n.
Proof. unfold logspace. now rewrite map_length, seq_length. Qed.
Lemma logspace_nth a b n k : (k < n)%nat -> nth k (logspace a b n) 0 = Rpower 10 (a + (b - a) * INR k / INR (n - 1)).
Proof.
  intros H. unfold logspace. set (f := fun k => Rpower 10 (a + (b - a) * INR k / INR (n - 1))).
  rewrite nth_indep with (d' := f 0%nat) by (rewrite map_length, seq_length; lia).
  rewrite map_nth. now rewrite seq_nth.
Qed.
Lemma step_range k : (k < 51)%nat -> 0 < nth k (logspace (-8) 0 51) 0 <= 1.
Proof.
  intros H. rewrite logspace_nth by auto. split; [apply exp_pos|].
  rewrite <- (Rpower_O 10) by lra. apply Rle_Rpower; [lra|].
  assert (INR k <= 50). { replace 50 with (INR 50) by (simpl; ring). apply le_INR. lia. }
  replace (INR (51 - 1)) with 50 by (simpl; ring). lra.
Qed.

Section Check.
Context {P T : Type}.
Variables (polyfit : list R -> list R -> (R * R) * list R).
Variables (scale : R -> T -> T) (add sub : T -> T -> T).
Variables (m_exp m_retraction : P -> T -> res P) (m_dist : P -> P -> res R) (m_to_tangent_space : P -> T -> res T).
Variables (inner : P -> T -> T -> R) (norm : P -> T -> R).
Variables (cost : P -> R) (gradient : P -> T) (hessian : P -> T -> T).
Local Notation check := (check_directional_derivative polyfit P T scale m_exp m_retraction inner cost gradient hessian).
Local Notation walk := (step P T scale m_exp m_retraction).
(** Where a step of size [h] arrives: the exponential map of the scaled vector, the retraction where there is none. *)
Definition arrives (x : P) (d : T) (h : R) (y : P) : Prop :=
  m_exp x (scale h d) = Ok y \/ (m_exp x (scale h d) = Raise NotImplementedError /\ m_retraction x (scale h d) = Ok y).
Lemma walkE x d h y : walk x d h = Ok y <-> arrives x d h y.
Proof.
  unfold step, arrives. destruct (m_exp x (scale h d)) as [z|e]; [|destruct e]; split; intros H;
    try (left; exact H); try (right; split; [reflexivity|exact H]); destruct H as [H|[H K]]; try discriminate; auto.
Qed.
Local Notation error_at := (approximation_error P T scale m_exp m_retraction inner cost gradient hessian).

(** the second order term that the Hessian check adds *)
Definition curvature (use_quadratic_model : bool) (x : P) (d : T) : R :=
  if use_quadratic_model then inner x (hessian x d) d else 0.

(** What is reported: fifty-one step sizes from [1e-8] to [1], evenly spaced in logarithmic scale, and for each of them the
    distance between the cost where one arrives and the Taylor polynomial. *)
Theorem C95_reported quadratic x d h error segment poly :
  check quadratic x d = Ok (h, error, segment, poly) ->
  length h = 51%nat /\ length error = 51%nat /\
  (forall k, (k < 51)%nat -> nth k h 0 = Rpower 10 (-8 + 8 * INR k / 50) /\
     exists y, arrives x d (nth k h 0) y /\
       nth k error 0 = Rabs (cost x + inner x (gradient x) d * nth k h 0
                             + curvature quadratic x d / 2 * (nth k h 0) ^ 2 - cost y)).
Proof.
  unfold check_directional_derivative. set (hs := logspace (-8) 0 51).
  destruct (mapM _ hs) as [es|] eqn:E; [|discriminate]. simpl.
  intros H. assert (h = hs /\ error = es) as [-> ->].
  { destruct (forallb _ es).
    - destruct (polyfit _ _) as [po re]. injection H as <- <- _ _. auto.
    - destruct (identify_linear_piece _ _ _ _) as [[s p]|]; [|discriminate]. simpl in H. injection H as <- <- _ _. auto. }
  clear H. apply mapM_inv in E. destruct E as [L E]. unfold hs in *. rewrite logspace_length in *.
  repeat split; auto.
  - rewrite logspace_nth by auto. f_equal. replace (INR (51 - 1)) with 50 by (simpl; ring). lra.
  - specialize (E k 0 0 H). unfold approximation_error in E. set (t := nth k (logspace (-8) 0 51) 0) in *. clearbody t.
    destruct (walk x d _) as [y|] eqn:Ey; [|discriminate]. cbn [bind] in E. exists y. split; [now apply walkE|].
    injection E as <-. f_equal. unfold taylor, curvature. destruct quadratic; cbv zeta; field.
Qed.

(** The check always ends with a report when the steps succeed. *)
Theorem C95_succeeds quadratic x d c : polyfit_ok polyfit -> (forall h, arrives x d h (c h)) ->
  exists h error segment poly, check quadratic x d = Ok (h, error, segment, poly) /\
    ((segment = seq 0 51 /\ forall e, In e error -> e < / 10 ^ 12) \/
     (exists b, (b + 10 < 51)%nat /\ segment = seq b 11)).
Proof.
  intros HP Hs0. assert (Hs := fun h => proj2 (walkE _ _ _ _) (Hs0 h)). unfold check_directional_derivative. set (hs := logspace (-8) 0 51).
  rewrite (mapM_ok _ _ _ (fun h => Rabs (taylor P T inner cost gradient hessian quadratic x d h - cost (c h)))).
  2:{ intros h _. unfold approximation_error. now rewrite Hs. }
  cbn [bind]. set (es := map (fun h => Rabs (taylor P T inner cost gradient hessian quadratic x d h - cost (c h))) hs). destruct (forallb _ es) eqn:F.
  - destruct (polyfit _ _) as [po re]. do 4 eexists. split; [reflexivity|]. left. split; [reflexivity|].
    intros e He. rewrite forallb_forall in F. specialize (F e He). destruct (Rlt_dec e (/ 10 ^ 12)); [auto|discriminate].
  - assert (Lh : length (map log10 hs) = 51%nat) by (rewrite map_length; apply logspace_length).
    assert (N : forall k, (k < 51)%nat -> nth k (map log10 hs) 0 = -8 + 8 * INR k / 50).
    { intros k Hk. rewrite nth_indep with (d' := log10 0) by lia. rewrite map_nth. unfold hs. rewrite logspace_nth by auto.
      rewrite log10_pow. replace (INR (51 - 1)) with 50 by (simpl; ring). lra. }
    destruct (C94_best_window polyfit (map log10 hs) (map (fun e => log10 (e + eps)) es) 10) as (b & p & E & Hb & _).
    + exact HP.
    + unfold es. now rewrite !map_length.
    + lia.
    + intros k Hk. rewrite Lh in Hk. exists (nth k (map log10 hs) 0), (nth (k + 1) (map log10 hs) 0).
      repeat split; try (unfold piece; apply (in_map (fun i => nth i (map log10 hs) 0)), in_seq; lia).
      rewrite !N by lia. rewrite plus_INR. simpl INR. intros; lra.
    + rewrite E. simpl. do 4 eexists. split; [reflexivity|]. right. exists b. rewrite Lh in Hb. split; [exact Hb|reflexivity].
Qed.

(** Errors of the manifold other than a missing exponential map end the check. *)
Theorem C95_errors quadratic x d e :
  ((forall h, m_exp x (scale h d) = Raise e) /\ e <> NotImplementedError) \/
  ((forall h, m_exp x (scale h d) = Raise NotImplementedError) /\ forall h, m_retraction x (scale h d) = Raise e) ->
  check quadratic x d = Raise e.
Proof.
  intros H. assert (W : forall h, walk x d h = Raise e).
  { intros h. unfold step. destruct H as [[H N]|[H K]]; rewrite H; [destruct e; congruence|apply K]. }
  unfold check_directional_derivative.
  assert (M : mapM (error_at quadratic x d) (logspace (-8) 0 51) = Raise e).
  { pose proof (logspace_length (-8) 0 51) as L. destruct (logspace (-8) 0 51) as [|h hs]; [discriminate L|].
    simpl. unfold approximation_error at 1. now rewrite W. }
  now rewrite M.
Qed.

(** First order: [phi] is the cost along the steps in direction [d] and [D] its derivative at zero.  A gradient with
    [inner (gradient x) d = D] makes the error vanish faster than the step size, any other makes it at least proportional. *)
Theorem C95_first_order x d c D :
  (forall h, arrives x d h (c h)) -> cost (c 0) = cost x ->
  derivable_pt_lim (fun h => cost (c h)) 0 D ->
  (inner x (gradient x) d = D ->
     forall e, 0 < e -> exists delta, 0 < delta /\ forall h, 0 < h < delta ->
       exists r, error_at false x d h = Ok r /\ r <= e * h) /\
  (inner x (gradient x) d <> D ->
     exists delta, 0 < delta /\ forall h, 0 < h < delta ->
       exists r, error_at false x d h = Ok r /\ Rabs (inner x (gradient x) d - D) / 2 * h <= r).
Proof.
  intros Hs0 H0 HD. assert (Hs := fun h => proj2 (walkE _ _ _ _) (Hs0 h)). split.
  - intros Hg e He. destruct (first_order _ _ _ HD He) as (delta & Hd & H). exists delta. split; [exact Hd|].
    intros h Hh. eexists. unfold approximation_error. rewrite Hs. simpl. split; [reflexivity|].
    specialize (H h Hh). cbv beta in H. rewrite H0 in H. unfold taylor. rewrite Hg, <- Rabs_Ropp.
    replace (- (D * h + cost x - cost (c h))) with (cost (c h) - cost x - D * h) by ring. exact H.
  - intros Hg. set (g := inner x (gradient x) d) in *.
    assert (Ha : 0 < Rabs (g - D)) by (apply Rabs_pos_lt; lra).
    destruct (first_order _ _ (Rabs (g - D) / 2) HD ltac:(lra)) as (delta & Hd & H). exists delta. split; [exact Hd|].
    intros h Hh. eexists. unfold approximation_error. rewrite Hs. simpl. split; [reflexivity|].
    specialize (H h Hh). cbv beta in H. rewrite H0 in H. unfold taylor. fold g.
    pose proof (Rabs_triang (g * h + cost x - cost (c h)) (cost (c h) - cost x - D * h)) as Tr.
    replace (g * h + cost x - cost (c h) + (cost (c h) - cost x - D * h)) with ((g - D) * h) in Tr by ring.
    rewrite Rabs_mult, (Rabs_right h) in Tr by lra. lra.
Qed.

(** Second order: with the right gradient, the error vanishes faster than the squared step size exactly for the right
    second derivative. *)
Theorem C95_second_order x d c dphi D2 r0 :
  (forall h, arrives x d h (c h)) -> cost (c 0) = cost x -> 0 < r0 ->
  (forall t, - r0 < t < r0 -> derivable_pt_lim (fun h => cost (c h)) t (dphi t)) -> derivable_pt_lim dphi 0 D2 ->
  inner x (gradient x) d = dphi 0 ->
  (inner x (hessian x d) d = D2 ->
     forall e, 0 < e -> exists delta, 0 < delta /\ forall h, 0 < h < delta ->
       exists r, error_at true x d h = Ok r /\ r <= e * h ^ 2) /\
  (inner x (hessian x d) d <> D2 ->
     exists delta, 0 < delta /\ forall h, 0 < h < delta ->
       exists r, error_at true x d h = Ok r /\ Rabs (inner x (hessian x d) d - D2) / 4 * h ^ 2 <= r).
Proof.
  intros Hs0 H0 Hr H1 H2 Hg. assert (Hs := fun h => proj2 (walkE _ _ _ _) (Hs0 h)). split.
  - intros Hh e He. destruct (second_order _ _ _ _ _ Hr H1 H2 He) as (delta & Hd & H). exists delta. split; [exact Hd|].
    intros h Hp. eexists. unfold approximation_error. rewrite Hs. simpl bind. split; [reflexivity|].
    specialize (H h Hp). cbv beta in H. rewrite H0 in H. unfold taylor. rewrite Hg, Hh, <- Rabs_Ropp.
    match goal with |- Rabs ?a <= _ => replace a with (cost (c h) - cost x - dphi 0 * h - D2 / 2 * h ^ 2) by field end. exact H.
  - intros Hn. set (b := inner x (hessian x d) d) in *.
    assert (Ha : 0 < Rabs (b - D2)) by (apply Rabs_pos_lt; lra).
    destruct (second_order _ _ _ _ (Rabs (b - D2) / 4) Hr H1 H2 ltac:(lra)) as (delta & Hd & H). exists delta. split; [exact Hd|].
    intros h Hp. eexists. unfold approximation_error. rewrite Hs. simpl bind. split; [reflexivity|].
    specialize (H h Hp). cbv beta in H. rewrite H0 in H. unfold taylor. fold b. rewrite Hg.
    pose proof (Rabs_triang ((1 / 2 * b * h + dphi 0) * h + cost x - cost (c h))
                            (cost (c h) - cost x - dphi 0 * h - D2 / 2 * h ^ 2)) as Tr.
    match type of Tr with Rabs ?a <= _ => replace a with ((b - D2) * (h ^ 2 / 2)) in Tr by field end.
    assert (0 < h ^ 2) by (simpl; nra).
    rewrite Rabs_mult, (Rabs_right (h ^ 2 / 2)) in Tr by lra. lra.
Qed.

(** At the reported step sizes themselves: with the derivative of [phi] Lipschitz with constant [M] along the step, a right
    gradient has errors at most [M/2 h^2], a wrong one at least [|g - D| h - M/2 h^2]. *)
Theorem C95_error_bounds x d c dphi M h error segment poly :
  (forall h, arrives x d h (c h)) -> cost (c 0) = cost x ->
  (forall t, 0 <= t <= 1 -> derivable_pt_lim (fun h => cost (c h)) t (dphi t)) ->
  (forall t, 0 <= t <= 1 -> Rabs (dphi t - dphi 0) <= M * t) ->
  check false x d = Ok (h, error, segment, poly) ->
  forall k, (k < 51)%nat ->
    Rabs (nth k error 0 - Rabs (inner x (gradient x) d - dphi 0) * nth k h 0) <= M / 2 * (nth k h 0) ^ 2.
Proof.
  intros Hs0 H0 H1 H2 HC k Hk. assert (Hs := fun h => proj2 (walkE _ _ _ _) (Hs0 h)). destruct (C95_reported _ _ _ _ _ _ _ HC) as (_ & _ & HR).
  destruct (HR k Hk) as (Eh & y & Ey & Ee). apply walkE in Ey. rewrite Hs in Ey. injection Ey as <-.
  assert (Hp : 0 < nth k h 0 <= 1).
  { pose proof (step_range k Hk) as B. rewrite logspace_nth in B by auto. rewrite Eh.
    replace (-8 + 8 * INR k / 50) with (-8 + (0 - -8) * INR k / INR (51 - 1)); [exact B|].
    replace (INR (51 - 1)) with 50 by (simpl; ring). lra. }
  set (t := nth k h 0) in *. rewrite Ee. unfold curvature.
  pose proof (first_order_bound _ _ M 1 H1 H2 t Hp) as B. cbv beta in B. rewrite H0 in B.
  set (g := inner x (gradient x) d).
  replace (cost x + g * t + 0 / 2 * t ^ 2 - cost (c t)) with ((g - dphi 0) * t - (cost (c t) - cost x - dphi 0 * t)) by field.
  set (e := cost (c t) - cost x - dphi 0 * t) in *.
  replace (Rabs (g - dphi 0) * t) with (Rabs ((g - dphi 0) * t)) by (rewrite Rabs_mult, (Rabs_right t) by lra; reflexivity).
  eapply Rle_trans; [apply Rabs_triang_inv2|].
  replace ((g - dphi 0) * t - e - (g - dphi 0) * t) with (- e) by ring. now rewrite Rabs_Ropp.
Qed.

(** Arguments: a direction without a point is refused; everything given is used as given. *)
Theorem C95_arguments (random_point : P) (random_tangent_vector : P -> T) :
  (forall d, resolve_arguments P T random_point random_tangent_vector None (Some d) = Raise ValueError) /\
  (forall x d, resolve_arguments P T random_point random_tangent_vector (Some x) (Some d) = Ok (x, d)) /\
  (forall x, exists d, resolve_arguments P T random_point random_tangent_vector (Some x) None = Ok (x, d)
                       /\ d = random_tangent_vector x).
Proof. repeat split; intros. eexists; split; reflexivity. Qed.

(** The tangency figure is zero exactly for vectors that the projection leaves alone, and absent exactly for manifolds
    without the projection. *)
Theorem C95_tangency x v :
  (forall u w, norm x (sub u w) = 0 <-> u = w) ->
  (tangency_residual P T sub m_to_tangent_space norm x v = Ok (Some 0) <-> m_to_tangent_space x v = Ok v) /\
  (tangency_residual P T sub m_to_tangent_space norm x v = Ok None <-> m_to_tangent_space x v = Raise NotImplementedError).
Proof.
  intros Hn. unfold tangency_residual. destruct (m_to_tangent_space x v) as [p|e]; split; split.
  - intros H. injection H as H. apply Hn in H. now rewrite <- H.
  - intros H. injection H as ->. do 2 f_equal. now apply Hn.
  - discriminate.
  - discriminate.
  - destruct e; discriminate.
  - discriminate.
  - destruct e; (discriminate || reflexivity).
  - intros H. injection H as ->. reflexivity.
Qed.

(** ** C96: Hessians and retractions *)
(** The figures for linearity and symmetry are zero for all draws exactly if the Hessian is linear and symmetric. *)
Theorem C96_hessian_figures x :
  (forall u w, norm x (sub u w) = 0 <-> u = w) ->
  (forall v, m_to_tangent_space x (hessian x v) = Ok (hessian x v)) ->
  (forall d a b s t, check_hessian_report P T scale add sub m_to_tangent_space inner norm hessian x d a b s t
                     = Ok (mkReport (Some 0) 0 0)) <->
  ((forall a b s t, hessian x (add (scale s a) (scale t b)) = add (scale s (hessian x a)) (scale t (hessian x b))) /\
   (forall a b, inner x a (hessian x b) = inner x (hessian x a) b)).
Proof.
  intros Hn Ht. unfold check_hessian_report. split.
  - intros H. split.
    + intros a b s t. specialize (H a a b s t). apply Hn.
      destruct (tangency_residual _ _ _ _ _ _ _); [|discriminate]. simpl in H. injection H as _ H _. exact H.
    + intros a b. specialize (H a a b 0 0).
      destruct (tangency_residual _ _ _ _ _ _ _); [|discriminate]. simpl in H. injection H as _ _ H. lra.
  - intros [HL HS] d a b s t. unfold tangency_residual. rewrite Ht. simpl. do 2 f_equal.
    + f_equal. now apply Hn.
    + now apply Hn.
    + rewrite HS. ring.
Qed.

(** A manifold without the exponential map or without a retraction is reported as such. *)
Theorem C96_retraction_missing x v :
  (m_exp x v = Raise NotImplementedError ->
     check_retraction polyfit P T scale m_exp m_retraction m_dist x v = Raise RuntimeError) /\
  (forall y, m_exp x v = Ok y -> m_retraction x v = Raise NotImplementedError ->
     check_retraction polyfit P T scale m_exp m_retraction m_dist x v = Raise RuntimeError).
Proof. unfold check_retraction. split; [intros ->; reflexivity|]. intros y -> ->. reflexivity. Qed.

(** A manifold with both but without a distance is not: the error of [dist] itself comes through. *)
Theorem C96_distance_missing_refuted x v :
  (forall t, exists y, m_exp x t = Ok y) -> (forall t, exists y, m_retraction x t = Ok y) ->
  (forall y z, m_dist y z = Raise NotImplementedError) ->
  check_retraction polyfit P T scale m_exp m_retraction m_dist x v = Raise NotImplementedError.
Proof.
  intros H1 H2 H3. unfold check_retraction. destruct (H1 v) as (y1 & ->), (H2 v) as (y2 & ->). cbn [bind].
  rewrite (mapM_raise _ _ _ NotImplementedError); [reflexivity| |].
  - intros E. apply (f_equal (@length R)) in E. rewrite logspace_length in E. discriminate.
  - intros t _. destruct (H1 (scale t v)) as (a & ->), (H2 (scale t v)) as (b & ->). simpl. apply H3.
Qed.

(** Otherwise: two hundred and fifty-one step sizes from [1e-12] to [1] and the distance between the two curves at each. *)
Theorem C96_retraction_reported x v h error segment poly :
  check_retraction polyfit P T scale m_exp m_retraction m_dist x v = Ok (h, error, segment, poly) ->
  length h = 251%nat /\ length error = 251%nat /\
  (forall k, (k < 251)%nat -> nth k h 0 = Rpower 10 (-12 + 12 * INR k / 250) /\
     exists y z, m_exp x (scale (nth k h 0) v) = Ok y /\ m_retraction x (scale (nth k h 0) v) = Ok z /\
                 m_dist y z = Ok (nth k error 0)).
Proof.
  unfold check_retraction. set (hs := logspace (-12) 0 251).
  destruct (match m_exp x v with Ok a => Ok a | Raise e => _ end) as [?|]; [|discriminate]. cbn [bind].
  destruct (match m_retraction x v with Ok a => Ok a | Raise e => _ end) as [?|]; [|discriminate]. cbn [bind].
  destruct (mapM _ hs) as [es|] eqn:E; [|discriminate]. cbn [bind].
  destruct (identify_linear_piece _ _ _ _) as [[s q]|]; [|discriminate]. simpl.
  intros H. injection H as <- <- _ _. apply mapM_inv in E. destruct E as [L E]. unfold hs in *.
  rewrite logspace_length in *. repeat split; auto.
  - rewrite logspace_nth by auto. f_equal. replace (INR (251 - 1)) with 250 by (simpl; ring). lra.
  - specialize (E k 0 0 H). cbv beta in E.
    destruct (m_exp x _) as [y|] eqn:E1; [|discriminate]. destruct (m_retraction x _) as [z|] eqn:E2; [|discriminate].
    exists y, z. auto.
Qed.

(** A tangent vector given without a point is replaced by a random one, without an error (contrast with
    [C95_arguments]). *)
Theorem C96_vector_ignored_refuted (random_point : P) (random_tangent_vector : P -> T) v :
  retraction_arguments P T random_point random_tangent_vector None (Some v)
  = retraction_arguments P T random_point random_tangent_vector None None.
Proof. reflexivity. Qed.
End Check.

(** The hypotheses are met: on the line with [cost x = x^2], gradient [2 x], Hessian [2 v]. *)
Section Line.
Definition line_exp (x v : R) : res R := Ok (x + v).
Definition line_inner (_ u v : R) : R := u * v.
Example C95_instance x d :
  exists h error segment poly,
    check_directional_derivative least_squares_polyfit R R Rmult line_exp line_exp line_inner
      (fun x => x ^ 2) (fun x => 2 * x) (fun _ v => 2 * v) false x d = Ok (h, error, segment, poly) /\
    forall k, (k < 51)%nat -> nth k error 0 <= d ^ 2 * (nth k h 0) ^ 2.
Proof.
  assert (Hs : forall h, arrives Rmult line_exp line_exp x d h (x + h * d)) by (left; reflexivity).
  destruct (C95_succeeds least_squares_polyfit Rmult line_exp line_exp line_inner (fun x => x ^ 2) (fun x => 2 * x)
              (fun _ v => 2 * v) false x d (fun h => x + h * d) least_squares_polyfit_ok Hs)
    as (h & e & s & p & E & _).
  exists h, e, s, p. split; [exact E|]. intros k Hk.
  pose proof (C95_error_bounds least_squares_polyfit Rmult line_exp line_exp line_inner (fun x => x ^ 2) (fun x => 2 * x)
              (fun _ v => 2 * v) x d (fun h => x + h * d) (fun t => 2 * d * (x + t * d)) (2 * d ^ 2) h e s p Hs) as B.
  cbv beta in B. specialize (B ltac:(ring)). assert (B1 := fun A => B A).
  assert (D1 : forall t, 0 <= t <= 1 -> derivable_pt_lim (fun h => (x + h * d) ^ 2) t (2 * d * (x + t * d))).
  { intros t _. replace (2 * d * (x + t * d)) with (INR 2 * (x + t * d) ^ 1 * (0 + 1 * d)) by (simpl; ring).
    apply (derivable_pt_lim_comp (fun h => x + h * d) (fun y => y ^ 2)).
    - apply (derivable_pt_lim_plus (fun _ => x) (fun h => h * d)); [apply derivable_pt_lim_const|].
      replace (1 * d) with (1 * d + t * 0) by ring.
      apply (derivable_pt_lim_mult id (fun _ => d)); [apply derivable_pt_lim_id|apply derivable_pt_lim_const].
    - apply derivable_pt_lim_pow. }
  assert (D2 : forall t, 0 <= t <= 1 -> Rabs (2 * d * (x + t * d) - 2 * d * (x + 0 * d)) <= 2 * d ^ 2 * t).
  { intros t Ht. replace (2 * d * (x + t * d) - 2 * d * (x + 0 * d)) with (2 * d ^ 2 * t) by ring.
    rewrite Rabs_right; [lra|]. pose proof (pow2_ge_0 d). nra. }
  specialize (B D1 D2 E k Hk). unfold line_inner in B.
  replace (2 * x * d - 2 * d * (x + 0 * d)) with 0 in B by ring. rewrite Rabs_R0, Rmult_0_l, Rminus_0_r in B.
  pose proof (Rle_abs (nth k e 0)). lra.
Qed.
Example C96_instance x : forall d a b s t,
  check_hessian_report R R Rmult Rplus Rminus (fun _ v => Ok v) line_inner (fun _ v => Rabs v) (fun _ v => 2 * v) x d a b s t
  = Ok (mkReport (Some 0) 0 0).
Proof.
  apply C96_hessian_figures.
  - intros u w. split; [intros H; apply Rminus_diag_uniq; destruct (Req_dec (u - w) 0); auto; now apply Rabs_no_R0 in H0|].
    intros ->. rewrite Rminus_diag_eq by auto. apply Rabs_R0.
  - reflexivity.
  - split; intros; unfold line_inner; ring.
Qed.
End Line.
