(** Least squares, the search for the best window, Taylor expansions. *)
From Coq Require Import Reals List Bool Arith Lia Lra Psatz.
From Verif Require Import Num_Model Diagnostics_Model Diagnostics_Spec.
Import ListNotations.
Local Open Scope R_scope.

(** ** A least squares fit exists *)
Definition pairsum (f : R -> R -> R) := fix go (x y : list R) : R :=
  match x, y with a :: x, b :: y => f a b + go x y | _, _ => 0 end.

Lemma pairsum_ext f g x y : (forall a b, f a b = g a b) -> pairsum f x y = pairsum g x y.
Proof. intros H. revert y; induction x as [|a x IH]; intros [|b y]; simpl; auto. now rewrite H, IH. Qed.
Lemma pairsum_plus f g x y : pairsum (fun a b => f a b + g a b) x y = pairsum f x y + pairsum g x y.
Proof. revert y; induction x as [|a x IH]; intros [|b y]; simpl; try lra. rewrite IH; lra. Qed.
Lemma pairsum_scal c f x y : pairsum (fun a b => c * f a b) x y = c * pairsum f x y.
Proof. revert y; induction x as [|a x IH]; intros [|b y]; simpl; try lra. rewrite IH; lra. Qed.
Lemma pairsum_pos f x y : (forall a b, 0 <= f a b) -> 0 <= pairsum f x y.
Proof. intros H. revert y; induction x as [|a x IH]; intros [|b y]; simpl; try lra. specialize (H a b); specialize (IH y); lra. Qed.
Lemma pairsum_zero f x y a : (forall a b, 0 <= f a b) -> length x = length y ->
  pairsum f x y = 0 -> In a x -> exists b, In b y /\ f a b = 0.
Proof.
  intros H. revert y; induction x as [|c x IH]; intros [|b y] L E Hi; simpl in *; try easy.
  pose proof (H c b). pose proof (pairsum_pos f x y H).
  destruct Hi as [->|Hi].
  - exists b. split; [auto|lra].
  - destruct (IH y ltac:(lia) ltac:(lra) Hi) as (b' & Hb & Hz). exists b'; auto.
Qed.
Lemma squared_errorE p x y : squared_error p x y = pairsum (fun a b => (fst p * a + snd p - b) ^ 2) x y.
Proof. revert y; induction x as [|a x IH]; intros [|b y]; simpl; auto. now rewrite IH. Qed.

(** the line of least squares in closed form *)
Definition best_line (x y : list R) : R * R :=
  let n := pairsum (fun _ _ => 1) x y in
  let mx := pairsum (fun a _ => a) x y / n in
  let my := pairsum (fun _ b => b) x y / n in
  let s := pairsum (fun a b => (a - mx) * (b - my)) x y / pairsum (fun a _ => (a - mx) ^ 2) x y in
  (s, my - s * mx).
Lemma least_squares x y : length x = length y -> (0 < length x)%nat -> not_constant x ->
  forall q, squared_error (best_line x y) x y <= squared_error q x y.
Proof.
  intros L Hn (a1 & a2 & H1 & H2 & Hne). unfold best_line. cbv zeta.
  set (n := pairsum (fun _ _ => 1) x y).
  assert (Hnp : 0 < n).
  { unfold n. clear -L Hn. revert y L Hn; induction x as [|a x IH]; intros [|b y] L Hn; simpl in *; try lia.
    pose proof (pairsum_pos (fun _ _ => 1) x y ltac:(intros; lra)). lra. }
  set (mx := pairsum (fun a _ => a) x y / n). set (my := pairsum (fun _ b => b) x y / n).
  set (sxx := pairsum (fun a _ => (a - mx) ^ 2) x y).
  set (sxy := pairsum (fun a b => (a - mx) * (b - my)) x y).
  assert (Hs : 0 < sxx).
  { assert (P : forall a b : R, 0 <= (a - mx) ^ 2) by (intros; apply pow2_ge_0).
    pose proof (pairsum_pos (fun a _ => (a - mx) ^ 2) x y P). unfold sxx in *.
    destruct H as [H|H]; [exact H|exfalso].
    destruct (pairsum_zero _ _ _ a1 P L (eq_sym H) H1) as (_ & _ & E1).
    destruct (pairsum_zero _ _ _ a2 P L (eq_sym H) H2) as (_ & _ & E2).
    apply Hne. assert (a1 - mx = 0) by nra. assert (a2 - mx = 0) by nra. lra. }
  set (s := sxy / sxx).
  intros q. rewrite !squared_errorE. simpl fst; simpl snd.
  assert (Zx : pairsum (fun a _ => a - mx) x y = 0).
  { rewrite (pairsum_ext _ (fun a b => a + (- mx) * 1)) by (intros; ring).
    rewrite pairsum_plus, pairsum_scal. fold n. unfold mx. field. lra. }
  assert (Zy : pairsum (fun _ b => b - my) x y = 0).
  { rewrite (pairsum_ext _ (fun a b => b + (- my) * 1)) by (intros; ring).
    rewrite pairsum_plus, pairsum_scal. fold n. unfold my. field. lra. }
  set (u := fst q - s). set (v := fst q * mx + snd q - my).
  rewrite (pairsum_ext (fun a b => (fst q * a + snd q - b) ^ 2)
    (fun a b => (s * a + (my - s * mx) - b) ^ 2 + ((u * (a - mx) + v) ^ 2
       + (2 * (v * s - u * v * 0) * (a - mx) + ((-2 * v) * (b - my)
       + ((2 * u * s) * (a - mx) ^ 2 + (-2 * u) * ((a - mx) * (b - my)))))))).
  2:{ intros a b. unfold u, v. ring. }
  rewrite !pairsum_plus, !pairsum_scal, Zx, Zy. fold sxx sxy.
  assert (s * sxx = sxy) by (unfold s; field; lra).
  pose proof (pairsum_pos (fun a _ => (u * (a - mx) + v) ^ 2) x y ltac:(intros; apply pow2_ge_0)).
  nra.
Qed.

Definition least_squares_polyfit (x y : list R) : (R * R) * list R :=
  let p := best_line x y in (p, if (2 <? length x)%nat then [squared_error p x y] else []).
Lemma least_squares_polyfit_ok : polyfit_ok least_squares_polyfit.
Proof.
  intros x y L. unfold least_squares_polyfit; simpl. split.
  - intros H Hc. destruct (Nat.ltb_spec 2 (length x)); [|lia]. split; [reflexivity|]. apply least_squares; auto; lia.
  - intros H. destruct (Nat.ltb_spec 2 (length x)); [lia|reflexivity].
Qed.
Lemma squared_error_nonneg p x y : 0 <= squared_error p x y.
Proof. rewrite squared_errorE. apply pairsum_pos; intros; apply pow2_ge_0. Qed.
Lemma squared_error_zero p x y : length x = length y ->
  (squared_error p x y = 0 <-> forall i, (i < length x)%nat -> nth i y 0 = fst p * nth i x 0 + snd p).
Proof.
  revert y; induction x as [|a x IH]; intros [|b y] L; try discriminate; simpl.
  - split; [intros; lia|auto].
  - pose proof (squared_error_nonneg p x y). pose proof (pow2_ge_0 (fst p * a + snd p - b)).
    destruct (IH y ltac:(simpl in L; lia)) as [I1 I2]. split.
    + intros H1 [|i] Hi; [nra|]. apply I1; [simpl in *; lra|lia].
    + intros H1. specialize (I2 (fun i Hi => H1 (S i) (proj1 (Nat.succ_lt_mono _ _) Hi))).
      specialize (H1 0%nat ltac:(lia)). simpl in H1. rewrite I2, H1. ring.
Qed.

(** ** The best window *)
Lemma argmin_from_spec l i0 v0 i all :
  (forall j, (j < length all)%nat -> nth j all 0 = nth j all 0) ->
  (i0 < i)%nat -> nth i0 all 0 = v0 -> skipn i all = l -> (i <= length all)%nat ->
  (forall j, (j < i)%nat -> v0 <= nth j all 0) -> (forall j, (j < i0)%nat -> v0 < nth j all 0) ->
  let b := argmin_from i0 v0 i l in
  (b < length all)%nat /\ (forall j, (j < length all)%nat -> nth b all 0 <= nth j all 0) /\
  (forall j, (j < b)%nat -> nth b all 0 < nth j all 0).
Proof.
  intros _. revert i0 v0 i. induction l as [|r l IH]; intros i0 v0 i Hi Hv Hs Hl Hmin Hfst; simpl.
  - assert (length all <= i)%nat.
    { destruct (Nat.le_gt_cases (length all) i); auto.
      assert (length (skipn i all) = (length all - i)%nat) by apply skipn_length. rewrite Hs in H0. simpl in H0. lia. }
    repeat split; [lia| |]; intros j Hj; rewrite Hv; [apply Hmin; lia|auto].
  - assert (E : nth i all 0 = r).
    { rewrite <- (firstn_skipn i all) at 1. rewrite Hs.
      rewrite app_nth2 by (rewrite firstn_length; lia).
      rewrite firstn_length, Nat.min_l by lia. now rewrite Nat.sub_diag. }
    assert (Hs' : skipn (S i) all = l).
    { replace (S i) with (1 + i)%nat by lia. rewrite <- (Nat.add_comm i 1).
      clear -Hs. revert all Hs. induction i; intros all Hs; destruct all; simpl in *; try discriminate.
      - now injection Hs.
      - apply IHi; assumption. }
    assert (Li : (S i <= length all)%nat).
    { assert (length (skipn i all) = (length all - i)%nat) by apply skipn_length. rewrite Hs in H. simpl in H. lia. }
    destruct (Rlt_dec r v0).
    + apply (IH i r (S i)); auto; intros j Hj.
      * destruct (Nat.eq_dec j i) as [->|]; [lra|]. specialize (Hmin j ltac:(lia)). lra.
      * specialize (Hmin j Hj). lra.
    + apply (IH i0 v0 (S i)); auto; intros j Hj.
      destruct (Nat.eq_dec j i) as [->|]; [lra|]. apply Hmin; lia.
Qed.
Lemma argmin_spec l : l <> [] -> exists b, argmin l = Ok b /\ (b < length l)%nat /\
  (forall j, (j < length l)%nat -> nth b l 0 <= nth j l 0) /\ (forall j, (j < b)%nat -> nth b l 0 < nth j l 0).
Proof.
  destruct l as [|r l]; intros Hn; [congruence|]. exists (argmin_from 0 r 1 l). split; [reflexivity|].
  apply argmin_from_spec; auto; simpl; try lia; intros j Hj.
  replace j with 0%nat by lia. simpl; lra.
Qed.

Lemma mapM_ok A B (f : A -> res B) (g : A -> B) l :
  (forall a, In a l -> f a = Ok (g a)) -> mapM f l = Ok (map g l).
Proof.
  induction l as [|a l IH]; intros H; simpl; [reflexivity|].
  rewrite (H a (or_introl eq_refl)). simpl. rewrite IH by (intros; apply H; now right). reflexivity.
Qed.
Lemma mapM_raise A B (f : A -> res B) e l : l <> [] -> (forall a, In a l -> f a = Raise e) -> mapM f l = Raise e.
Proof. destruct l as [|a l]; intros Hn H; [congruence|]. simpl. now rewrite (H a (or_introl eq_refl)). Qed.
Lemma mapM_inv A B (f : A -> res B) l bs : mapM f l = Ok bs ->
  length bs = length l /\ forall k d d', (k < length l)%nat -> f (nth k l d) = Ok (nth k bs d').
Proof.
  revert bs. induction l as [|a l IH]; intros bs H; simpl in H.
  - injection H as <-. split; [reflexivity|]. simpl; intros; lia.
  - destruct (f a) eqn:E; [|discriminate]. simpl in H. destruct (mapM f l) eqn:E2; [|discriminate]. simpl in H.
    injection H as <-. destruct (IH _ eq_refl) as (L & HH). split; [simpl; lia|].
    intros [|k] d d' Hk; simpl in *; [exact E|]. apply HH; lia.
Qed.

(** ** Taylor's theorem with a Peano remainder *)
Lemma first_order (phi : R -> R) (D e : R) : derivable_pt_lim phi 0 D -> 0 < e ->
  exists delta, 0 < delta /\ forall h, 0 < h < delta -> Rabs (phi h - phi 0 - D * h) <= e * h.
Proof.
  intros H He. destruct (H e He) as (delta & Hd). exists delta. split; [apply cond_pos|].
  intros h Hh. specialize (Hd h ltac:(lra)). rewrite Rabs_right in Hd by lra.
  specialize (Hd ltac:(lra)). rewrite Rplus_0_l in Hd.
  replace (phi h - phi 0 - D * h) with (((phi h - phi 0) / h - D) * h) by (field; lra).
  rewrite Rabs_mult, (Rabs_right h) by lra. nra.
Qed.
Lemma second_order (phi dphi : R -> R) (D2 r e : R) : 0 < r ->
  (forall t, -r < t < r -> derivable_pt_lim phi t (dphi t)) -> derivable_pt_lim dphi 0 D2 -> 0 < e ->
  exists delta, 0 < delta /\ forall h, 0 < h < delta ->
    Rabs (phi h - phi 0 - dphi 0 * h - D2 / 2 * h ^ 2) <= e * h ^ 2.
Proof.
  intros Hr H1 H2 He. destruct (first_order dphi D2 e H2 He) as (delta & Hd & H).
  exists (Rmin delta r). split; [apply Rmin_glb_lt; lra|].
  intros h Hh. assert (h < delta /\ h < r) by (split; eapply Rlt_le_trans; [apply Hh|apply Rmin_l|apply Hh|apply Rmin_r]).
  set (g := fun t => phi t - phi 0 - dphi 0 * t - D2 / 2 * t ^ 2).
  set (g' := fun t => dphi t - dphi 0 - D2 * t).
  assert (Hg : forall c, 0 <= c <= h -> derivable_pt_lim g c (g' c)).
  { intros c Hc. unfold g, g'.
    replace (dphi c - dphi 0 - D2 * c) with (dphi c - 0 - dphi 0 * 1 - D2 / 2 * (INR 2 * c ^ 1)) by (simpl; field).
    apply (derivable_pt_lim_minus (fun t => phi t - phi 0 - dphi 0 * t)).
    - apply (derivable_pt_lim_minus (fun t => phi t - phi 0)).
      + apply (derivable_pt_lim_minus phi (fun _ => phi 0)); [apply H1; lra|apply derivable_pt_lim_const].
      + apply (derivable_pt_lim_scal id). apply derivable_pt_lim_id.
    - apply (derivable_pt_lim_scal (fun t => t ^ 2)). apply derivable_pt_lim_pow. }
  destruct (MVT_cor2 g g' 0 h ltac:(lra) Hg) as (c & Ec & Hc).
  assert (G0 : g 0 = 0) by (unfold g; simpl; field).
  fold (g h). replace (g h) with (g' c * h) by (rewrite G0 in Ec; lra).
  rewrite Rabs_mult, (Rabs_right h) by lra.
  specialize (H c ltac:(lra)). fold (g' c) in H.
  apply Rle_trans with (e * c * h); [apply Rmult_le_compat_r; lra|].
  replace (e * h ^ 2) with (e * h * h) by ring. apply Rmult_le_compat_r; [lra|]. apply Rmult_le_compat_l; lra.
Qed.

Lemma first_order_bound (phi dphi : R -> R) (M r : R) :
  (forall t, 0 <= t <= r -> derivable_pt_lim phi t (dphi t)) -> (forall t, 0 <= t <= r -> Rabs (dphi t - dphi 0) <= M * t) ->
  forall h, 0 < h <= r -> Rabs (phi h - phi 0 - dphi 0 * h) <= M / 2 * h ^ 2.
Proof.
  intros H1 H2 h Hh.
  assert (B : forall s, s = 1 \/ s = -1 -> s * (phi h - phi 0 - dphi 0 * h) <= M / 2 * h ^ 2).
  { intros s Hs. set (g := fun t => s * (phi t - phi 0 - dphi 0 * t) - M / 2 * t ^ 2).
    set (g' := fun t => s * (dphi t - dphi 0) - M * t).
    assert (Hg : forall c, 0 <= c <= h -> derivable_pt_lim g c (g' c)).
    { intros c Hc. unfold g, g'.
      replace (s * (dphi c - dphi 0) - M * c) with (s * (dphi c - 0 - dphi 0 * 1) - M / 2 * (INR 2 * c ^ 1)) by (simpl; field).
      apply (derivable_pt_lim_minus (fun t => s * (phi t - phi 0 - dphi 0 * t))).
      - apply (derivable_pt_lim_scal (fun t => phi t - phi 0 - dphi 0 * t)).
        apply (derivable_pt_lim_minus (fun t => phi t - phi 0)).
        + apply (derivable_pt_lim_minus phi (fun _ => phi 0)); [apply H1; lra|apply derivable_pt_lim_const].
        + apply (derivable_pt_lim_scal id). apply derivable_pt_lim_id.
      - apply (derivable_pt_lim_scal (fun t => t ^ 2)). apply derivable_pt_lim_pow. }
    destruct (MVT_cor2 g g' 0 h ltac:(lra) Hg) as (c & Ec & Hc).
    assert (G0 : g 0 = 0) by (unfold g; simpl; field).
    assert (g' c <= 0).
    { unfold g'. specialize (H2 c ltac:(lra)). pose proof (Rle_abs (dphi c - dphi 0)). pose proof (Rle_abs (- (dphi c - dphi 0))) as H3. rewrite Rabs_Ropp in H3. destruct Hs; subst s; lra. }
    assert (Hgh : g h <= 0) by (rewrite G0 in Ec; nra). unfold g in Hgh. lra. }
  pose proof (B 1 (or_introl eq_refl)). pose proof (B (-1) (or_intror eq_refl)).
  apply Rabs_le. lra.
Qed.

Lemma log10_pow t : log10 (Rpower 10 t) = t.
Proof.
  unfold log10, Rpower. rewrite ln_exp. field.
  assert (0 < ln 10); [|lra]. rewrite <- ln_1. apply ln_increasing; lra.
Qed.
