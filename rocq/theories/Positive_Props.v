(** Property C64 (and C61, C80 for this manifold) of src/pymanopt/manifolds/positive.py *)
From Coq Require Import Reals Lra.
From mathcomp Require Import all_ssreflect all_algebra.
From Coq Require Import Ring Field.
From Verif Require Import Rstruct MCRing Mat_Base Geometry_Spec Calculus Components Sphere_Model Sphere_Proofs Connection.
From Verif Require Import Positive_Model.
Set Implicit Arguments.
Unset Strict Implicit.
Unset Printing Implicit Defensive.
Import GRing.Theory Num.Theory Order.TTheory.
Local Open Scope ring_scope.
Delimit Scope R_scope with Re.

(** ** Specification: positive entries; every array is a tangent vector. *)
Section Spec.
Variable n : nat.
Local Notation array := 'rV[RF]_n.
Definition positive_entries (x : array) : Prop := forall j, 0 < (x 0 j : RR).
(** the connection of the metric [sum_j a_j b_j / x_j^2]: see C64_connection *)
Definition positive_connection (x u v : array) : array := \row_j (- (u 0 j * v 0 j / x 0 j)).
End Spec.

Section Positive.
Variable n : nat.
Local Notation array := 'rV[RF]_n.
Local Notation scale := (@rscale RR RF 1 n).
Local Notation dot := (@inner RR RF 1 n).
Local Notation J := (@inner_ips RR RF 1 n).
Local Notation I := (@real_ips RR).
Local Notation rderives := (derives (@real_scale RR) (@real_dot RR)).
Implicit Types x y v w : array.
Add Ring RR_ring : (mc_ring RR).

Definition rentry (j : 'I_n) (u : array) : RR := u 0 j.
Lemma rentryB j (u v : array) : rentry j (u - v) = rentry j u - rentry j v. Proof. by rewrite /rentry !mxE. Qed.
Lemma rentryZ j a (u : array) : rentry j (scale a u) = real_scale a (rentry j u). Proof. by rewrite /rentry !mxE. Qed.
Lemma scale_entry (t : RR) v j : scale t v 0 j = t * (v 0 j : RR) :> RR. Proof. by rewrite mxE. Qed.
Lemma rentrydot (u v : array) : dot u v = \sum_j real_dot (rentry j u) (rentry j v).
Proof. by rewrite /inner big_ord1. Qed.
Lemma derives_entries (c : RR -> array) (d : array) : (forall j, rderives (fun t => c t 0 j) (d 0 j)) -> derives scale dot c d.
Proof. exact: (derives_comp I rentryB rentryZ rentrydot). Qed.
Lemma entry_derives j (c : RR -> array) (d : array) : derives scale dot c d -> rderives (fun t => c t 0 j) (d 0 j).
Proof. exact: (comp_derives I rentryB rentryZ rentrydot). Qed.
Lemma pos_neq0 x j : positive_entries x -> (x 0 j : RR) != 0. Proof. by move=> /(_ j); rewrite lt_def => /andP[]. Qed.
Arguments pos_neq0 [x] j _.
Lemma pos_neq x j : positive_entries x -> x 0 j <> 0%Re. Proof. by move=> /(pos_neq0 j)/eqP. Qed.
Arguments pos_neq [x] j _.

Theorem C64_metric x : positive_entries x ->
  inner_product_on scale everywhere (po_inner_product x) /\
  (forall v, po_norm x v = Num.sqrt (po_inner_product x v v)) /\
  (forall v, projects_to dot everywhere v (po_projection x v)) /\
  (forall v, po_to_tangent_space x v = po_projection x v) /\
  (forall g, represents_gradient dot everywhere (po_inner_product x) g (po_gradient x g)).
Proof.
move=> hx; split.
  split; first by move=> u v _ _; apply: eq_bigr => j _; rewrite mulrC.
  split; first by move=> u v w _ _ _; rewrite -big_split; apply: eq_bigr => j _; rewrite !mxE !mulrDl.
  split; first by move=> a u v _ _; rewrite big_distrr; apply: eq_bigr => j _; rewrite !mxE /= !mulrA.
  move=> u _ u0; have [j uj] : exists j, u 0 j != 0.
    by apply/existsP; apply: contraNT u0; rewrite negb_exists => /forallP H; apply/eqP/rowP => j; rewrite mxE; apply/eqP; have := H j; rewrite negbK.
  rewrite /po_inner_product (bigD1 j) //=; apply: ltr_paddr; first by apply: sumr_ge0 => i _; rewrite -expr2 sqr_ge0.
  by rewrite -expr2 exprn_even_gt0 //= mulf_neq0 // invr_eq0 pos_neq0.
split=> //; split; first by move=> v; split=> //; split=> // t _; rewrite subrr (dot0l J).
split=> // g; split=> // t _; rewrite rentrydot; apply: eq_bigr => j _; rewrite /real_dot /rentry mxE.
by have h := pos_neq j hx; Rify; field.
Qed.

(** ** Exponential map, retraction, logarithm *)
Lemma exp_pos' (a : R) : 0 < (exp a : RR). Proof. by apply/RltPx; apply: exp_pos. Qed.
Theorem C64_positive x v : positive_entries x -> positive_entries (po_exp x v) /\ positive_entries (po_retraction x v).
Proof.
move=> hx; split=> j; rewrite mxE; first by rewrite mulr_gt0 ?exp_pos'.
have p := hx j; have h := pos_neq j hx; move: (x 0 j : RR) (v 0 j : RR) p h => a b p h.
have -> : a + b + b ^+ 2 / a / 2%:R = ((a + b) ^+ 2 + a ^+ 2) / (2%:R * a) by Rify; field.
by rewrite divr_gt0 ?mulr_gt0 ?ltr0n // ltr_paddl ?sqr_ge0 // exprn_gt0.
Qed.
Theorem C64_exp_log x y v : positive_entries x -> positive_entries y ->
  po_exp x (po_log x y) = y /\ po_log x (po_exp x v) = v /\
  po_dist x y = po_norm x (po_log x y) /\ po_dist x (po_exp x v) = po_norm x v.
Proof.
move=> hx hy.
have L u : po_log x (po_exp x u) = u.
  apply/rowP => j; rewrite !mxE; have p := hx j; have h := pos_neq0 j hx.
  have E : ln ((x 0 j : RR) * exp (u 0 j / x 0 j)%R) = (ln (x 0 j) + (u 0 j : RR) / x 0 j)%R.
    by rewrite ln_mult ?ln_exp //; [apply/RltPx|apply: exp_pos].
  by rewrite E addrAC subrr add0r mulrC mulfVK.
have D z : positive_entries z -> po_dist x z = po_norm x (po_log x z).
  move=> hz; congr Num.sqrt; apply: eq_bigr => j _; rewrite !mxE; have h := pos_neq j hx.
  by Rify; field.
split.
  apply/rowP => j; rewrite !mxE; have p := hx j; have p' := hy j; have h := pos_neq0 j hx.
  move: (x 0 j : RR) (y 0 j : RR) p p' h => a b p p' h.
  have -> : a * ((ln b : RR) - ln a) / a = (ln b + - ln a)%Re by rewrite mulrAC mulfV // mul1r.
  rewrite exp_plus exp_Ropp !exp_ln; try exact/RltPx.
  by have h' : a <> 0%Re; [apply/eqP|Rify; field].
split=> //; split; first exact: D.
by rewrite D ?L //; apply: (C64_positive v hx).1.
Qed.
Theorem C64_dist_is_metric : metric_on (@positive_entries n) (@po_dist n).
Proof.
pose lg x : array := \row_j ln (x 0 j).
have E x y : po_dist x y = norm_of dot (lg x - lg y).
  by congr Num.sqrt; rewrite rentrydot; apply: eq_bigr => j _; rewrite /real_dot /rentry !mxE.
have [M0 [M1 [M2 M3]]] := norm_dist_metric J.
split; first by move=> x y _ _; rewrite E; apply: M0.
split.
  move=> x y hx hy; rewrite E; split=> [/M1 -/(_ Logic.I Logic.I) H|->]; last by apply/M1.
  apply/rowP => j; have := congr1 (fun u : array => u 0 j) H; rewrite /= !mxE => K.
  by apply: ln_inv => //; apply/RltPx.
split; first by move=> x y _ _; rewrite !E; apply: M2.
by move=> x y z _ _ _; rewrite !E; apply: M3.
Qed.
(** the connection used below is that of the metric *)
Theorem C64_connection :
  levi_civita scale dot (@positive_entries n) everywhere (@po_inner_product n) (@positive_connection n).
Proof.
split; first by move=> x u v _ _ _; split=> //; apply/rowP => j; rewrite !mxE [u 0 j * _]mulrC.
move=> c v A A' B B' hc _ _ Dc _ DA _ DB _.
have D j : rderives (fun t => (A t 0 j / c t 0 j) * (B t 0 j / c t 0 j)) _ :=
  derives_rmul (derives_rmul (entry_derives j DA) (derives_rinv (entry_derives j Dc) (pos_neq0 j (hc 0))))
               (derives_rmul (entry_derives j DB) (derives_rinv (entry_derives j Dc) (pos_neq0 j (hc 0)))).
have := derives_sum (index_enum [finType of 'I_n]) I D; rewrite /po_inner_product.
congr (derives _ _ _); rewrite -big_split /=; apply: eq_bigr => j _; rewrite !mxE.
move: (pos_neq j (hc 0)); move: (c 0 0 j : R) (A 0 0 j : R) (B 0 0 j : R) => a b d h.
by move: (A' 0 j : R) (B' 0 j : R) (v 0 j : R) => *; Rify; field.
Qed.
Definition inv_sum x : RR := \sum_j (x 0 j)^-1.
Lemma inv_sum_ge x j : positive_entries x -> 0 <= inv_sum x /\ (x 0 j : RR)^-1 <= inv_sum x.
Proof.
move=> hx; have p i : 0 <= (x 0 i : RR)^-1 by rewrite invr_ge0; apply: ltW.
split; first exact: sumr_ge0.
by rewrite /inv_sum (bigD1 j) //= ler_addl; apply: sumr_ge0.
Qed.
Lemma inv_sum_ge0 x : positive_entries x -> 0 <= inv_sum x.
Proof. by move=> hx; apply: sumr_ge0 => i _; rewrite invr_ge0; apply: ltW. Qed.
Lemma entry_quadratic x (rx : array -> array) : positive_entries x ->
  (forall j v, (Rabs (v 0 j / x 0 j)%R <= / 2)%Re -> `|rx v 0 j - (x 0 j + v 0 j)| <= 2%:R * (v 0 j ^+ 2 / x 0 j)) ->
  first_order dot everywhere x rx.
Proof.
move=> hx H; have S0 := inv_sum_ge0 hx.
have Q : 0 < 2%:R * (1 + inv_sum x) by rewrite mulr_gt0 ?ltr0n // ltr_paddr ?ltr01.
apply: (first_order_comp I J rentryB rentrydot (C := 2%:R * inv_sum x) (r := (2%:R * (1 + inv_sum x))^-1)) => //.
- by rewrite mulr_ge0 ?ler0n.
- by rewrite invr_gt0.
move=> j v _; rewrite !norm_real -[rentry j v]/(v 0 j : RR) => vr.
have [_ S] := inv_sum_ge j hx.
apply: le_trans (H j v _) _.
  apply/RlePx; rewrite -[Rabs _]/(`|v 0 j / x 0 j|) normrM normfV [X in _ * X^-1]ger0_norm ?(ltW (hx j)) //.
  apply: le_trans (_ : (2%:R * (1 + inv_sum x))^-1 * inv_sum x <= _); first by apply: ler_pmul; rewrite ?normr_ge0 ?invr_ge0 ?(ltW (hx j)).
  rewrite -RinvE invfM -mulrA -[X in _ <= X]mulr1 ler_wpmul2l ?invr_ge0 ?ler0n // mulrC ler_pdivr_mulr ?mul1r ?ler_addr ?ler01 //.
  by rewrite ltr_paddr ?ltr01.
rewrite -mulrA ler_wpmul2l ?ler0n // [X in _ <= X]mulrC real_normK ?num_real // ler_wpmul2l ?sqr_ge0 //.
Qed.
Lemma exp_quadratic (u : R) : (Rabs u <= / 2 -> Rabs (exp u - 1 - u) <= 2 * (u * u))%Re.
Proof.
move=> H; have [H1 H2] : (- / 2 <= u <= / 2)%Re by split; move: H; rewrite /Rabs; case: Rcase_abs => ? ?; lra.
have A := exp_ineq1_le u; have B := exp_ineq1_le (- u).
rewrite Rabs_pos_eq; last lra.
have P := exp_pos u; have E : (exp u * exp (- u) = 1)%Re by rewrite -exp_plus Rplus_opp_r exp_0.
have : (exp u * (1 - u) <= 1)%Re by rewrite -E; apply: Rmult_le_compat_l; lra.
nra.
Qed.
(** The exponential map follows geodesics: constant speed and no covariant acceleration; the retraction agrees with
    it to second order. *)
Theorem C64_geodesic x v : positive_entries x ->
  first_order dot everywhere x (po_exp x) /\
  exists velocity : RR -> array,
    velocity 0 = v /\
    (forall t, derives scale dot (fun h => po_exp x (scale (t + h) v)) (velocity t)) /\
    (forall t, po_inner_product (po_exp x (scale t v)) (velocity t) (velocity t) = po_inner_product x v v) /\
    (forall t, exists2 a, derives scale dot (fun h => velocity (t + h)) a &
       a + positive_connection (po_exp x (scale t v)) (velocity t) (velocity t) = 0).
Proof.
move=> hx; split.
  apply: entry_quadratic => // j w H; rewrite mxE; have := exp_quadratic H; have p := hx j; have h := pos_neq j hx.
  move: (x 0 j : R) (w 0 j : R) p h {H} => a b p h K.
  have E : (b = a * (b / a)%R)%Re by Rify; field.
  rewrite {2 3}E; move: ((b / a)%R) K => u K; Rify_in p; Rify.
  rewrite (_ : (a * exp u - (a + a * u) = a * (exp u - 1 - u))%Re); last by ring.
  rewrite Rabs_mult (Rabs_pos_eq a); last lra.
  have -> : (2 * ((a * u) ^ 2 * / a) = a * (2 * (u * u)))%Re by field.
  by apply: Rmult_le_compat_l => //; lra.
pose k j : R := (v 0 j / x 0 j)%R.
have E t j : po_exp x (scale t v) 0 j = ((x 0 j : RR) * exp (t * k j)%Re)%R.
  by have h := pos_neq j hx; rewrite mxE scale_entry; congr (_ * exp _); rewrite /k; Rify; field.
have L j t : derivable_pt_lim (fun s => exp (s * k j)) t (k j * exp (t * k j))%Re.
  have := derivable_pt_lim_comp (fun s => s * k j)%Re exp t _ _ (lin_lim (k j) t) (derivable_pt_lim_exp _).
  by rewrite /comp Rmult_comm.
have D (f : 'I_n -> R) t : derives scale dot (fun h => \row_j (f j * exp ((t + h) * k j))%Re : array) (\row_j (f j * (k j * exp (t * k j)))%Re).
  apply: derives_entries => j; rewrite mxE.
  by apply: derives_ext (derives_real (scal_lim (f j) (L j t))) => h; rewrite mxE.
exists (fun t => \row_j (v 0 j * exp (t * k j)%R)%R); split.
  by apply/rowP => j; rewrite mxE mul0r exp_0 mulr1.
split.
  move=> t; have := D (fun j => x 0 j) t.
  rewrite (_ : (\row_j _ : array) = \row_j (v 0 j * exp (t * k j)%R)%R); last first.
    by apply/rowP => j; rewrite !mxE /k; have h := pos_neq j hx; Rify; field.
  by apply: derives_ext => h; apply/rowP => j; rewrite E !mxE.
split.
  move=> t; apply: eq_bigr => j _; rewrite !E !mxE.
  have h := pos_neq j hx; have q : exp (t * k j)%R <> 0%Re by have := exp_pos (t * k j)%R; lra.
  move: (exp _) q => q q0; Rify; field.
  by [].
move=> t; exists (\row_j (v 0 j * (k j * exp (t * k j)%R)))%R; first by apply: derives_ext (D (fun j => v 0 j) t).
apply/rowP => j; rewrite mxE [positive_connection _ _ _ 0 j]mxE E !mxE.
have h := pos_neq j hx; have q : exp (t * k j)%R <> 0%Re by have := exp_pos (t * k j)%R; lra.
rewrite /k; move: (exp _) q => q q0; Rify; field.
by [].
Qed.
Lemma quad_lim (a b k t : R) : derivable_pt_lim (fun s => a + s * b + s * s * (k / 2))%Re t (b + t * k)%Re.
Proof.
have A := derivable_pt_lim_plus _ _ t _ _ (derivable_pt_lim_plus _ _ t _ _ (derivable_pt_lim_const a t) (lin_lim b t))
  (derivable_pt_lim_scal _ (k / 2)%Re t _ (derivable_pt_lim_mult _ _ t _ _ (derivable_pt_lim_id t) (derivable_pt_lim_id t))).
rewrite (_ : (b + t * k = 0 + b + k / 2 * (1 * id t + id t * 1))%Re); last by rewrite /id; field.
move=> e e0; have [d K] := A e e0; exists d => h h0 hd; have := K h h0 hd.
by rewrite /plus_fct /mult_real_fct /mult_fct /fct_cte /id !(Rmult_comm _ (k / 2)%Re).
Qed.
Theorem C64_retraction x v : positive_entries x ->
  first_order dot everywhere x (po_retraction x) /\
  exists velocity : RR -> array,
    velocity 0 = v /\
    (forall t, derives scale dot (fun h => po_retraction x (scale (t + h) v)) (velocity t)) /\
    (exists2 a, derives scale dot velocity a & a + positive_connection x v v = 0).
Proof.
move=> hx; split.
  apply: entry_quadratic => // j w _; rewrite mxE; have p := hx j; have h := pos_neq j hx.
  move: (x 0 j : R) (w 0 j : R) p h => a b p h.
  have -> : (a + b + b ^+ 2 / a / 2%:R - (a + b) = b ^+ 2 / a / 2%:R)%R by Rify; field.
  have q : 0 <= b ^+ 2 / a by rewrite divr_ge0 ?sqr_ge0 // ltW.
  rewrite ger0_norm; last by rewrite divr_ge0 ?ler0n.
  apply: le_trans (_ : b ^+ 2 / a <= _); first by rewrite ler_pdivr_mulr ?ltr0n // ler_pemulr // ler1n.
  by rewrite ler_pemull // ler1n.
pose k j : R := (v 0 j ^+ 2 / x 0 j)%R.
exists (fun t => \row_j (v 0 j + t * k j)%R); split; first by apply/rowP => j; rewrite mxE mul0r addr0.
split.
  move=> t; apply: derives_entries => j; rewrite mxE.
  have H := quad_lim (x 0 j) (v 0 j) (k j) t.
  apply: derives_ext (derives_real H) => h; rewrite mxE !scale_entry /k.
  by have q := pos_neq j hx; Rify; field.
exists (\row_j k j).
  apply: derives_entries => j; rewrite mxE.
  have := derives_line I (v 0 j : RR) (k j); apply: derives_ext => t; by rewrite mxE.
apply/rowP => j; rewrite !mxE /k; have h := pos_neq j hx; by Rify; field.
Qed.
(** With the parallel transport the metric is kept, and the vector is transported along the geodesic: its covariant
    derivative vanishes; without it the vector is returned as it is. *)
Theorem C64_transport x y u v : positive_entries x -> positive_entries y ->
  po_inner_product y (po_transport true x y u) (po_transport true x y v) = po_inner_product x u v /\
  po_transport false x y u = u /\
  po_transport true x x u = u /\
  (forall c c', (forall t, positive_entries (c t)) -> c 0 = y -> derives scale dot c c' ->
    exists2 a, derives scale dot (fun t => po_transport true x (c t) u) a &
      a + positive_connection y c' (po_transport true x y u) = 0).
Proof.
move=> hx hy; split.
  apply: eq_bigr => j _; rewrite !mxE; move: (pos_neq j hx) (pos_neq j hy).
  by move: (x 0 j : R) (y 0 j : R) (u 0 j : R) (v 0 j : R) => *; Rify; field.
split=> //; split; first by apply/rowP => j; rewrite !mxE mulfK // pos_neq0.
move=> c c' hc c0 Dc; exists (\row_j (u 0 j * c' 0 j / x 0 j)%R).
  apply: derives_entries => j; rewrite mxE.
  have := derives_rmul (derives_const I (u 0 j / x 0 j : RR)) (entry_derives j Dc).
  rewrite mul0r add0r mulrAC; apply: derives_ext => t; rewrite mxE; by rewrite mulrAC.
apply/rowP => j; rewrite !mxE; move: (pos_neq j hx) (pos_neq j hy).
by move: (x 0 j : R) (y 0 j : R) (u 0 j : R) (c' 0 j : R) => *; Rify; field.
Qed.

(** ** C61: the Hessian is the covariant derivative of the gradient, and symmetric. *)
Theorem C61_positive x g h v : positive_entries x ->
  (forall h' v', dot h v' = dot h' v ->
    po_inner_product x (po_hessian x g h v) v' = po_inner_product x (po_hessian x g h' v') v) /\
  (forall c e : RR -> array, c 0 = x -> derives scale dot c v -> e 0 = g -> derives scale dot e h ->
    exists2 w, derives scale dot (fun t => po_gradient (c t) (e t)) w &
      po_hessian x g h v = w + positive_connection x v (po_gradient x g)).
Proof.
move=> hx; split.
  move=> h' v' S.
  have P k w w' : po_inner_product x (po_hessian x g k w) w' = dot k w' + \sum_j (g 0 j * w 0 j * w' 0 j / x 0 j : RR).
    rewrite rentrydot -big_split; apply: eq_bigr => j _; rewrite /real_dot /rentry /= mxE; move: (pos_neq j hx).
    by move: (x 0 j : R) (g 0 j : R) (k 0 j : R) (w 0 j : R) (w' 0 j : R) => *; Rify; field.
  by rewrite !P S; congr (_ + _); apply: eq_bigr => j _; congr (_ / _); rewrite mulrAC.
move=> c e c0 Dc e0 De; exists (\row_j (h 0 j * x 0 j ^+ 2 + 2%:R * g 0 j * x 0 j * v 0 j)%R).
  apply: derives_entries => j; rewrite mxE.
  have D := derives_rmul (entry_derives j De) (derives_rmul (entry_derives j Dc) (entry_derives j Dc)).
  rewrite c0 e0 in D.
  rewrite (_ : (_ + _)%R = (h 0 j * (x 0 j * x 0 j) + g 0 j * (v 0 j * x 0 j + x 0 j * v 0 j))%R); last first.
    by Rify; ring.
  by apply: derives_ext D => t; rewrite mxE expr2.
apply/rowP => j; rewrite !mxE; move: (pos_neq j hx).
by move: (x 0 j : R) (g 0 j : R) (h 0 j : R) (v 0 j : R) => *; Rify; field.
Qed.

(** ** C80 *)
Theorem C80_positive x (draw : array) :
  positive_entries (po_random_point draw) /\
  (positive_entries x -> draw != 0 -> po_norm x (po_random_tangent_vector x draw) = 1).
Proof.
split; first by move=> j; rewrite mxE exp_pos'.
move=> hx d0; set w : array := \row_j (draw 0 j * x 0 j)%R.
have [M _] := C64_metric hx.
have N : po_norm x w != 0.
  have : norm_of (po_inner_product x) w != 0.
    rewrite (norm_eq0 M); apply: contra_neq d0 => E; apply/rowP => j.
    have := congr1 (fun u : array => u 0 j) E; rewrite /= !mxE => /eqP; rewrite mulf_eq0 (negbTE (pos_neq0 j hx)) orbF.
    by move/eqP.
  by [].
have -> : po_random_tangent_vector x draw = scale (po_norm x w)^-1 w.
  by apply/rowP => j; rewrite scale_entry mxE mulrC.
have := normZ M (po_norm x w)^-1 w; rewrite -[norm_of _ _]/(po_norm x _) => ->.
by rewrite ger0_norm ?invr_ge0 ?sqrtr_ge0 // -[norm_of _ _]/(po_norm x w) mulVf.
Qed.
End Positive.

(** ** Instance: the point [(1, 2)] and the tangent vector [(3, 0)] *)
Lemma positive_instance :
  positive_entries (\row_(j < 2) ((j : nat).+1%:R : RR)) /\ (\row_(j < 2) (if j == 0 then 3%:R else 0 : RR) : 'rV[RF]_2) != 0.
Proof.
split; first by move=> j; rewrite mxE ltr0n.
by apply/eqP => /rowP/(_ 0); rewrite !mxE /= => /eqP; rewrite pnatr_eq0.
Qed.
