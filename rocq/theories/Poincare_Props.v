(** Properties C71, C72, C90 (and C61, C80 for this manifold) of src/pymanopt/manifolds/hyperbolic.py *)
From Coq Require Import Reals Lra.
From mathcomp Require Import all_ssreflect all_algebra.
From Coq Require Import Ring Field.
From Verif Require Import Rstruct MCRing Mat_Base Geometry_Spec Calculus Components Sphere_Model Sphere_Proofs Connection.
From Verif Require Import Poincare_Model Poincare_Proofs.
Set Implicit Arguments.
Unset Strict Implicit.
Unset Printing Implicit Defensive.
Import GRing.Theory Num.Theory Order.TTheory.
Local Open Scope ring_scope.
Delimit Scope R_scope with Re.

(** ** Specification: every row lies in the open unit ball; every array is a tangent vector. *)
Section Spec.
Variables k n : nat.
Local Notation array := 'M[RF]_(k, n).
Definition inside_balls (x : array) : Prop := forall i, \sum_j (x i j : RR) ^+ 2 < 1.
(** the product of the metrics [4 <u, v> / (1 - |x|^2)^2] *)
Definition poincare_metric (x u v : array) : RR :=
  \sum_i (4%:R * (\sum_j (u i j : RR) * v i j) / (1 - \sum_j (x i j : RR) ^+ 2) ^+ 2).
(** its connection: see C90_connection *)
Definition poincare_connection (x u v : array) : array :=
  \matrix_(i, j) (2%:R / (1 - \sum_l (x i l : RR) ^+ 2) *
    ((\sum_l (x i l : RR) * u i l) * v i j + (\sum_l (x i l : RR) * v i l) * u i j
     - (\sum_l (u i l : RR) * v i l) * x i j))%R.
End Spec.

Section Rows.
Variables k n : nat.
Local Notation array := 'M[RF]_(k, n).
Local Notation scale := (@rscale RR RF k n).
Local Notation dot := (@inner RR RF k n).
Local Notation J := (@inner_ips RR RF k n).
Local Notation rsc := (@rscale RR RF 1 n).
Local Notation rdot := (@inner RR RF 1 n).
Local Notation I := (@inner_ips RR RF 1 n).
Local Notation rderives := (derives (@real_scale RR) (@real_dot RR)).
Local Notation inside := (@inside_balls k n).
Implicit Types x y z u v w : array.
Add Ring RR_ring : (mc_ring RR).

(** *** Rows *)
Lemma rowB i u v : row i (u - v) = row i u - row i v. Proof. by apply/rowP => j; rewrite !mxE. Qed.
Lemma rowN i u : row i (- u) = - row i u. Proof. by apply/rowP => j; rewrite !mxE. Qed.
Lemma rowZ i a u : row i (scale a u) = rsc a (row i u). Proof. by apply/rowP => j; rewrite !mxE. Qed.
Lemma rdotE i u v : rdot (row i u) (row i v) = \sum_j (u i j : RR) * v i j.
Proof. by rewrite /inner big_ord1; apply: eq_bigr => j _; rewrite !mxE. Qed.
Lemma rowdot u v : dot u v = \sum_i rdot (row i u) (row i v).
Proof. by apply: eq_bigr => i _; rewrite rdotE. Qed.
Lemma row_dotsE u v i : row_dots u v i = rdot (row i u) (row i v). Proof. by rewrite rdotE. Qed.
Lemma row_normsE u i : row_norms u i = norm_of rdot (row i u).
Proof. by rewrite /row_norms /norm_of rdotE; congr Num.sqrt; apply: eq_bigr => j _; rewrite expr2. Qed.
Lemma sqE x i : \sum_j (x i j : RR) ^+ 2 = rdot (row i x) (row i x).
Proof. by rewrite rdotE; apply: eq_bigr => j _; rewrite expr2. Qed.
Lemma insideP x : inside x <-> forall i, in_ball rdot (row i x).
Proof. by split=> H i; have := H i; rewrite /in_ball sqE. Qed.
Lemma factorE x i : pb_conformal_factor x i = lam rdot (row i x).
Proof. by rewrite /pb_conformal_factor row_dotsE. Qed.
Lemma innerpE x u v : pb_inner_product x u v = \sum_i (lam rdot (row i x) ^+ 2 * rdot (row i u) (row i v)).
Proof.
apply: eq_bigr => i _; rewrite rdotE big_distrr; apply: eq_bigr => j _; rewrite factorE /=.
by rewrite [RHS]mulrC mulrA.
Qed.
Lemma mobiusE x y i : row i (pb_mobius_addition x y) = madd rsc rdot (row i x) (row i y).
Proof.
apply/rowP => j; rewrite mxE mxE !row_dotsE /madd /mden /rscale mxE mxE !mxE.
rewrite -[RHS]/((_ : RR) * _)%R.
by rewrite mulrC [X in _ * (X + _)]mulrC [X in _ * (_ + X)]mulrC.
Qed.
Lemma expE x v i : row i (pb_exp x v) = bexp rsc rdot (row i x) (row i v).
Proof.
rewrite /pb_exp mobiusE /bexp; congr (madd _ _ _ _); apply/rowP => j.
by rewrite !mxE row_normsE factorE mulrC.
Qed.
Lemma distE x y : pb_dist x y = l2 (fun i => bdist rdot (row i x) (row i y)).
Proof.
congr Num.sqrt; apply: eq_bigr => i _; rewrite /bdist !row_normsE rowB.
by rewrite !(Geometry_Spec.norm_sqr I).
Qed.
Lemma logE x y i : inside x -> inside y ->
  pb_log x y i = if row i x == row i y then None else Some (blog rsc rdot (row i x) (row i y)).
Proof.
move=> /insideP hx /insideP hy; rewrite /pb_log row_normsE mobiusE rowN (madd_neq0 I) //.
case: eqP => // _; congr Some; apply/rowP => j; rewrite mxE factorE.
have -> : pb_mobius_addition (- x) y i j = row i (pb_mobius_addition (- x) y) 0 j by rewrite [RHS]mxE.
rewrite mobiusE rowN /blog; set w := madd _ _ _ _.
rewrite /rscale [in RHS]mxE -[sf_real _]/((_ : RR) / _ / _).
have E (A q l b : RR) : A * b / q / l = A / q / l * b by mcring RR.
exact: E.
Qed.
Lemma row_inj u v : (forall i, row i u = row i v) -> u = v. Proof. exact: (row_matrixP _ _).1. Qed.
Lemma metricE x u v : inside x -> poincare_metric x u v = \sum_i (lam rdot (row i x) ^+ 2 * rdot (row i u) (row i v)).
Proof.
move=> /insideP hx; apply: eq_bigr => i _; rewrite -rdotE sqE /lam.
have := ball_neq (hx i); move: (rdot _ _ : R) (rdot _ _ : R) => p a; Rify => b0; Rify; field.
by [].
Qed.
Lemma connectionE x u v i : row i (poincare_connection x u v) = bgamma rsc rdot (row i x) (row i u) (row i v).
Proof.
apply/rowP => j; rewrite mxE mxE sqE -!rdotE /bgamma /rscale mxE !mxE.
by [].
Qed.

End Rows.

Section Poincare.
Variables k n : nat.
Local Notation array := 'M[RF]_(k, n).
Local Notation scale := (@rscale RR RF k n).
Local Notation dot := (@inner RR RF k n).
Local Notation J := (@inner_ips RR RF k n).
Local Notation rsc := (@rscale RR RF 1 n).
Local Notation rdot := (@inner RR RF 1 n).
Local Notation I := (@inner_ips RR RF 1 n).
Local Notation rderives := (derives (@real_scale RR) (@real_dot RR)).
Local Notation inside := (@inside_balls k n).
Implicit Types x y z u v w : array.
Add Ring RR_ring : (mc_ring RR).

(** ** C71 *)
Theorem C71_inside x y v : inside x -> inside y ->
  inside (pb_mobius_addition x y) /\ inside (pb_exp x v) /\ inside (pb_retraction x v).
Proof.
move=> hx hy; have E : inside (pb_exp x v).
  by apply/insideP => i; rewrite expE; apply: (bexp_ball I); move/insideP: hx.
split; last by split.
by apply/insideP => i; rewrite mobiusE; apply: (madd_ball I); [move/insideP: hx|move/insideP: hy].
Qed.
(** Moebius addition: zero is neutral, left addition of the opposite undoes addition, and additions on the left are
    isometries. *)
Theorem C71_mobius a x y : inside a -> inside x -> inside y ->
  pb_mobius_addition a 0 = a /\ pb_mobius_addition 0 a = a /\ pb_mobius_addition (- a) (pb_mobius_addition a x) = x /\
  pb_dist (pb_mobius_addition a x) (pb_mobius_addition a y) = pb_dist x y.
Proof.
move=> /insideP ha /insideP hx /insideP hy.
have r0 i : row i (0 : array) = 0 by apply/rowP => j; rewrite !mxE.
split; first by apply: row_inj => i; rewrite mobiusE r0 (madd0 I).
split.
  apply: row_inj => i; rewrite mobiusE r0 /madd /mden !(dot0l I) !mul0r mulr0 !addr0 invr1 subr0.
  by rewrite (ipsZ0r I) add0r !(ipsZ1 I).
split; first by apply: row_inj => i; rewrite mobiusE rowN mobiusE (madd_cancel I).
by rewrite !distE; congr Num.sqrt; apply: eq_bigr => i _; rewrite !mobiusE (madd_dist I).
Qed.
Theorem C71_metric x : inside x ->
  inner_product_on scale everywhere (pb_inner_product x) /\
  (forall u v, pb_inner_product x u v = poincare_metric x u v) /\
  (forall u, pb_norm x u ^+ 2 = pb_inner_product x u u /\ 0 <= pb_norm x u) /\
  (forall v, projects_to dot everywhere v (pb_projection x v) /\ pb_to_tangent_space x v = v) /\
  (forall g, represents_gradient dot everywhere (pb_inner_product x) g (pb_gradient x g)).
Proof.
move=> hx; have /insideP hb := hx.
have M : inner_product_on scale everywhere (pb_inner_product x).
  split; first by move=> u v _ _; rewrite !innerpE; apply: eq_bigr => i _; rewrite (dotC I).
  split; first by move=> u v w _ _ _; rewrite !innerpE -big_split; apply: eq_bigr => i _; rewrite (compD (@rowB k n)) (dotDl I) mulrDr.
  split; first by move=> a u v _ _; rewrite !innerpE big_distrr; apply: eq_bigr => i _; rewrite rowZ (dotZl I) mulrCA.
  move=> u _ u0; have [i ui] : exists i, row i u != 0.
    apply/existsP; apply: contraNT u0; rewrite negb_exists => /forallP H; apply/eqP; apply: row_inj => i.
    by have := H i; rewrite negbK => /eqP ->; apply/rowP => j; rewrite !mxE.
  rewrite innerpE (bigD1 i) //=; apply: ltr_paddr.
    by apply: sumr_ge0 => l _; rewrite mulr_ge0 ?sqr_ge0 ?(dot_ge0 I).
  by rewrite mulr_gt0 ?(dot_gt0 I) // exprn_gt0 // lam_pos.
split=> //; split; first by move=> u v; rewrite metricE // innerpE.
split; first by move=> u; split; [rewrite sqr_sqrtr // (dot_ge0 M)|apply: sqrtr_ge0].
split; first by move=> v; do 2!split=> //; split=> // t _; rewrite subrr (dot0l J).
move=> g; split=> // t _; rewrite innerpE rowdot; apply: eq_bigr => i _.
have -> : row i (pb_gradient x g) = rsc (lam rdot (row i x) ^+ 2)^-1 (row i g).
  by apply/rowP => j; rewrite !mxE factorE mul1r mulrC.
by rewrite (dotZl I) mulVKf // expf_neq0 // (lam_neq (hb i)).
Qed.
(** ** C72 *)
Theorem C72_dist_is_metric : metric_on inside (@pb_dist k n).
Proof.
have M : metric_on (in_ball rdot) (bdist rdot).
  split; first by move=> x y hx hy; apply/RlePx; apply: (bdist_ge0 I).
  split; first by move=> x y hx hy; split=> [|->]; [apply: (bdist_eq0 I)|apply: (bdistxx I)].
  split; first by move=> x y _ _; apply: (bdistC I).
  by move=> x y z hx hy hz; apply/RlePx; apply: (bdist_tri I).
have [M0 [M1 [M2 M3]]] := metric_comp J (@rowdot k n) M.
split; first by move=> x y /insideP hx /insideP hy; rewrite distE; apply: M0.
split; first by move=> x y /insideP hx /insideP hy; rewrite distE; apply: M1.
split; first by move=> x y /insideP hx /insideP hy; rewrite !distE; apply: M2.
by move=> x y z /insideP hx /insideP hy /insideP hz; rewrite !distE; apply: M3.
Qed.
Lemma norm_sum x v : inside x -> pb_norm x v = l2 (fun i => lam rdot (row i x) * norm_of rdot (row i v)).
Proof.
move=> hx; rewrite /pb_norm innerpE; congr Num.sqrt; apply: eq_bigr => i _.
by rewrite [RHS]exprMn (Geometry_Spec.norm_sqr I).
Qed.
Theorem C72_dist_exp x v : inside x -> pb_dist x (pb_exp x v) = pb_norm x v /\ pb_exp x 0 = x.
Proof.
move=> hx; have /insideP hb := hx; split.
  rewrite distE norm_sum //; congr Num.sqrt; apply: eq_bigr => i _; by rewrite expE (bexp_dist I).
by apply: row_inj => i; rewrite expE (comp0 (@rowB k n)) (bexp0 I).
Qed.
(** where the points differ in every ball, the logarithm inverts the exponential map and the mean is the midpoint *)
Theorem C72_exp_log x y : inside x -> inside y -> (forall i, row i x != row i y) ->
  exists v m, (forall i, pb_log x y i = Some (row i v)) /\ pb_exp x v = y /\ pb_dist x y = pb_norm x v /\
    (forall i, pb_pair_mean x y i = Some (row i m)) /\ inside m /\
    pb_dist x m = pb_dist x y / 2%:R /\ pb_dist m y = pb_dist x y / 2%:R.
Proof.
move=> hx hy xy; have /insideP bx := hx; have /insideP bY := hy.
pose v : array := \matrix_(i, j) blog rsc rdot (row i x) (row i y) 0 j.
have rv i : row i v = blog rsc rdot (row i x) (row i y) by apply/rowP => j; rewrite !mxE.
have ve : pb_exp x v = y by apply: row_inj => i; rewrite expE rv (bexp_log I).
pose m := pb_exp x (scale 2%:R^-1 v).
have mE i : row i m = bexp rsc rdot (row i x) (rsc 2%:R^-1 (row i v)) by rewrite /m expE rowZ.
have L i : pb_log x y i = Some (row i v) by rewrite logE // (negbTE (xy i)) rv.
have h0 : 0 <= (2%:R^-1 : RR) by rewrite invr_ge0 ler0n.
have half (a b : array) : (forall i, bdist rdot (row i a) (row i b) = 2%:R^-1 * bdist rdot (row i x) (row i y)) -> pb_dist a b = pb_dist x y / 2%:R.
  move=> H; rewrite !distE [RHS]mulrC -l2Z //; congr Num.sqrt; apply: eq_bigr => i _; by rewrite H.
have D i (s t : RR) : bdist rdot (bexp rsc rdot (row i x) (rsc s (row i v))) (bexp rsc rdot (row i x) (rsc t (row i v))) = `|s - t| * bdist rdot (row i x) (row i y).
  by rewrite (bexp_dist2 I) // -[in RHS]ve expE (bexp_dist I).
exists v, m; split=> //; split=> //; split; first by rewrite -{1}ve (C72_dist_exp v hx).1.
split.
  move=> i; rewrite /pb_pair_mean L; congr Some; rewrite mE.
  have -> : pb_exp (row i x) (\row_j (row i v 0 j / 2%:R)) = row 0 (pb_exp (row i x) (\row_j (row i v 0 j / 2%:R))).
    by apply/rowP => j; rewrite [RHS]mxE.
  have R0 (u : 'rV[RF]_n) : row 0 u = u by apply/rowP => j; rewrite mxE.
  have rc (a : 'rV[RF]_n) (b : 'rV[RF]_n) : pb_exp a b = bexp rsc rdot a b.
    by rewrite -[LHS]R0 expE !R0.
  by rewrite R0 rc; congr (bexp _ _ _ _); apply/rowP => j; rewrite !mxE mulrC.
split; first by apply/insideP => i; rewrite mE; apply: (bexp_ball I).
split; apply: half => i; rewrite mE.
  have := D i 0 2%:R^-1; rewrite (ipsZ0l I) (bexp0 I) sub0r normrN ger0_norm //.
have := D i 2%:R^-1 1; rewrite (ipsZ1 I) rv (bexp_log I) // -rv => ->; congr (_ * _).
have -> : (2%:R^-1 - 1 : RR) = - 2%:R^-1 by Rify; field.
by rewrite normrN ger0_norm.
Qed.

Theorem C72_log_exp x v : inside x -> (forall i, row i v != 0) -> forall i, pb_log x (pb_exp x v) i = Some (row i v).
Proof.
move=> hx v0 i; have /insideP hb := hx; have [_ [he _]] := C71_inside v hx hx.
by rewrite logE // expE (blog_exp I) // (negbTE (bexp_neq I _ _)).
Qed.
(** exactly where two points agree, the logarithm and the mean are not a number *)
Theorem C72_log_domain x y i : inside x -> inside y ->
  (pb_log x y i = None <-> row i x = row i y) /\ (pb_pair_mean x y i = None <-> row i x = row i y).
Proof.
move=> hx hy; rewrite /pb_pair_mean logE //; case: eqP => // N; split; by split.
Qed.
(** so the logarithm of a point at itself is never the zero vector *)
Theorem C72_log_self_refuted x i : inside x -> pb_log x x i = None /\ pb_pair_mean x x i = None.
Proof. by move=> hx; have [[_ H] [_ H']] := C72_log_domain i hx hx; split; [apply: H|apply: H']. Qed.

(** ** C90 *)
Lemma drow (c : RR -> array) v i : derives scale dot c v -> derives rsc rdot (fun t => row i (c t)) (row i v).
Proof. exact: (comp_derives I (@rowB k n) (@rowZ k n) (@rowdot k n)). Qed.
Lemma drows (c : RR -> array) v : (forall i, derives rsc rdot (fun t => row i (c t)) (row i v)) -> derives scale dot c v.
Proof. exact: (derives_comp I (@rowB k n) (@rowZ k n) (@rowdot k n)). Qed.
Theorem C90_connection :
  levi_civita scale dot inside everywhere (@pb_inner_product k n) (@poincare_connection k n).
Proof.
split.
  move=> x u v _ _ _; split=> //; apply: row_inj => i; rewrite !connectionE /bgamma (dotC I (row i u)).
  by rewrite [rsc (rdot _ _) _ + _]addrC.
move=> c v A A' B B' hc _ _ Dc _ DA _ DB _.
have hb t i : in_ball rdot (row i (c t)) by have /insideP := hc t.
have D i : rderives _ _ := metric_derives I (hb 0 i) (drow i Dc) (drow i DA) (drow i DB).
have := derives_sum (index_enum [finType of 'I_k]) (@real_ips RR) D.
rewrite !innerpE -big_split /= (_ : \sum_(i <- _) _ = \sum_i (lam rdot (row i (c 0)) ^+ 2 * rdot (row i (A' + poincare_connection (c 0) v (A 0))) (row i (B 0)) +
   lam rdot (row i (c 0)) ^+ 2 * rdot (row i (A 0)) (row i (B' + poincare_connection (c 0) v (B 0))))); last first.
  by apply: eq_bigr => i _; rewrite !(compD (@rowB k n)) !connectionE.
by apply: derives_ext => t; rewrite innerpE.
Qed.
Lemma lam_sum x : inside x -> forall i, (1 - rdot (row i x) (row i x))^-1 <= \sum_i (1 - rdot (row i x) (row i x))^-1.
Proof.
move=> /insideP hx i; rewrite [X in _ <= X](bigD1 i) //= ler_addl; apply: sumr_ge0 => l _.
by rewrite invr_ge0 subr_ge0 ltW //; apply: hx.
Qed.
(** exp follows geodesics, at constant speed, and is a retraction *)
Theorem C90_geodesic x v : inside x ->
  first_order dot everywhere x (pb_exp x) /\ first_order dot everywhere x (pb_retraction x) /\
  exists velocity : RR -> array,
    velocity 0 = v /\
    (forall t, derives scale dot (fun h => pb_exp x (scale (t + h) v)) (velocity t)) /\
    (forall t, pb_inner_product (pb_exp x (scale t v)) (velocity t) (velocity t) = pb_inner_product x v v) /\
    (forall t, exists2 a, derives scale dot (fun h => velocity (t + h)) a &
       a + poincare_connection (pb_exp x (scale t v)) (velocity t) (velocity t) = 0).
Proof.
move=> hx; have /insideP hb := hx.
have F : first_order dot everywhere x (pb_exp x).
  pose K := 1 + \sum_i (1 - rdot (row i x) (row i x))^-1.
  have K1 : 1 <= K.
    by rewrite ler_addl; apply: sumr_ge0 => l _; rewrite invr_ge0 subr_ge0 ltW //; apply: hb.
  have K0 : 0 < K by apply: lt_le_trans K1; rewrite ltr01.
  apply: (first_order_comp I J (@rowB k n) (@rowdot k n) (C := 34%:R * K ^+ 2) (r := (8%:R * K)^-1)) => //.
  - by rewrite mulr_ge0 ?sqr_ge0 ?ler0n.
  - by rewrite invr_gt0 mulr_gt0 ?ltr0n.
  move=> i w _ wr; rewrite expE; apply: (bexp_quadratic I) => //.
  by apply: le_trans (lam_sum hx i) _; rewrite ler_addr ler01.
split=> //; split=> //.
pose vel t : array := \matrix_(i, j) bvel rsc rdot (row i x) (row i v) t 0 j.
have vE t i : row i (vel t) = bvel rsc rdot (row i x) (row i v) t by apply/rowP => j; rewrite !mxE.
have eE t i : row i (pb_exp x (scale t v)) = bexp rsc rdot (row i x) (rsc t (row i v)) by rewrite expE rowZ.
exists vel; split; first by apply: row_inj => i; rewrite vE (bvel0 I).
split.
  move=> t; apply: drows => i; rewrite vE; apply: derives_ext (bexp_velocity I (row i v) t (hb i)) => h.
  by rewrite eE.
split; first by move=> t; rewrite !innerpE; apply: eq_bigr => i _; rewrite eE vE (bvel_speed I).
move=> t; have H i : exists a : 'rV[RF]_n, derives rsc rdot (fun h => bvel rsc rdot (row i x) (row i v) (t + h)) a /\
   a + bgamma rsc rdot (bexp rsc rdot (row i x) (rsc t (row i v))) (bvel rsc rdot (row i x) (row i v) t) (bvel rsc rdot (row i x) (row i v) t) = 0.
  by have [a A1 A2] := bvel_acceleration I (row i v) t (hb i); exists a.
have [a Ha] := fin_all_exists H.
exists (\matrix_(i, j) a i 0 j).
  apply: drows => i; have [A1 _] := Ha i.
  rewrite (_ : row i _ = a i); last by apply/rowP => j; rewrite !mxE.
  by apply: derives_ext A1 => h; rewrite vE.
apply: row_inj => i; rewrite (compD (@rowB k n)) connectionE eE vE (_ : row i (\matrix_(i0, j) a i0 0 j) = a i); last by apply/rowP => j; rewrite !mxE.
by have [_ ->] := Ha i; rewrite (comp0 (@rowB k n)).
Qed.

(** ** C61: the Hessian is the covariant derivative of the gradient, and symmetric. *)
Lemma gradE x g i : row i (pb_gradient x g) = rsc (lam rdot (row i x) ^+ 2)^-1 (row i g).
Proof. by apply/rowP => j; rewrite !mxE factorE mul1r mulrC. Qed.
Lemma hessE x g h v i : row i (pb_hessian x g h v) =
  rsc (lam rdot (row i x))^-1 (rsc (rdot (row i g) (row i x)) (row i v) - rsc (rdot (row i x) (row i v)) (row i g)
    - rsc (rdot (row i g) (row i v)) (row i x) + rsc (lam rdot (row i x))^-1 (row i h)).
Proof.
apply/rowP => j; rewrite mxE mxE !row_dotsE factorE /rscale mxE !mxE mulrC.
by congr (_ * (_ + _)); rewrite mulrC.
Qed.
Theorem C61_poincare x g h v : inside x ->
  (forall h' v', dot h v' = dot h' v ->
    pb_inner_product x (pb_hessian x g h v) v' = pb_inner_product x (pb_hessian x g h' v') v) /\
  (forall c e : RR -> array, c 0 = x -> derives scale dot c v -> e 0 = g -> derives scale dot e h ->
    exists2 w, derives scale dot (fun t => pb_gradient (c t) (e t)) w &
      pb_hessian x g h v = w + poincare_connection x v (pb_gradient x g)).
Proof.
move=> hx; have /insideP hb := hx; split.
  move=> h' v' S.
  have P q w w' : pb_inner_product x (pb_hessian x g q w) w' = dot q w' + \sum_i (lam rdot (row i x) *
      (rdot (row i g) (row i x) * rdot (row i w) (row i w') - rdot (row i x) (row i w) * rdot (row i g) (row i w')
       - rdot (row i g) (row i w) * rdot (row i x) (row i w'))).
    rewrite innerpE rowdot -big_split; apply: eq_bigr => i _ /=.
    rewrite hessE (dotZl I) !(dotDl I, dotNl I, dotZl I); have /eqP := lam_neq (hb i).
    move: (lam _ _ : R) (rdot (row i g) (row i x) : R) (rdot (row i w) (row i w') : R) (rdot (row i x) (row i w) : R) (rdot (row i g) (row i w') : R) => l a1 a2 a3 a4.
    by move: (rdot (row i g) (row i w) : R) (rdot (row i x) (row i w') : R) (rdot (row i q) (row i w') : R) => *; Rify; field.
  rewrite !P S; congr (_ + _); apply: eq_bigr => i _; congr (_ * _); rewrite (dotC I (row i v') (row i v)).
  by move: (rdot _ _) (rdot _ _) (rdot _ _) (rdot _ _) (rdot _ _) (rdot _ _) => *; mcring RR.
move=> c e c0 Dc e0 De.
exists (\matrix_(i, j) (rsc (lam rdot (row i x) ^+ 2)^-1 (row i h) - rsc (2%:R * rdot (row i x) (row i v) / lam rdot (row i x)) (row i g)) 0 j).
  apply: drows => i; rewrite (_ : row i _ = rsc (lam rdot (row i x) ^+ 2)^-1 (row i h) - rsc (2%:R * rdot (row i x) (row i v) / lam rdot (row i x)) (row i g)); last first.
    by apply/rowP => j; rewrite mxE mxE.
  have ci : row i (c 0) = row i x by rewrite c0.
  have ei : row i (e 0) = row i g by rewrite e0.
  apply: derives_ext (gradient_derives I (c := fun t => row i (c t)) (e := fun t => row i (e t)) (hb i) ci (drow i Dc) ei (drow i De)) => t.
  by rewrite gradE.
apply: row_inj => i; rewrite (compD (@rowB k n)) hessE connectionE gradE.
rewrite (_ : row i (\matrix_(_, _) _) = rsc (lam rdot (row i x) ^+ 2)^-1 (row i h) - rsc (2%:R * rdot (row i x) (row i v) / lam rdot (row i x)) (row i g)); last first.
  by apply/rowP => j; rewrite mxE mxE.
apply: (dot_inj I) => w; rewrite /bgamma !(dotDl I, dotNl I, dotZl I, dotZr I) (dotC I (row i v) (row i g)) (dotC I (row i x) (row i g)).
have /eqP := lam_neq (hb i).
move: (lam _ _ : R) (rdot (row i g) (row i x) : R) (rdot (row i g) (row i v) : R) (rdot (row i x) (row i v) : R) => l a1 a2 a3.
by move: (rdot (row i g) w : R) (rdot (row i x) w : R) (rdot (row i h) w : R) (rdot (row i v) w : R) => *; Rify; field.
Qed.

(** ** C80 *)
Lemma root_bounds (u : RR) : (0 < n)%N -> 0 <= u -> u < 1 -> 0 <= np_root n u /\ np_root n u < 1.
Proof.
move=> n0 u0 u1; rewrite /np_root; case: eqP => [_|/eqP un]; first by rewrite ltr01.
have up : (0 < u)%Re by apply/RltPx; rewrite lt_def un u0.
have q : (0 < / INR n)%Re by apply: Rinv_0_lt_compat; apply: lt_0_INR; apply/ssrnat.ltP.
split; first by apply/RlePx; left; apply: exp_pos.
apply/RltPx; rewrite -[1]/(1%Re) -exp_0 /Rpower; apply: exp_increasing.
have L : (ln u < 0)%Re by rewrite -ln_1; apply: ln_increasing => //; apply/RltPx.
nra.
Qed.
Theorem C80_poincare x (draw : array) (uniform : 'I_k -> RR) :
  ((0 < n)%N -> (forall i, row i draw != 0) -> (forall i, 0 <= uniform i < 1) -> inside (pb_random_point draw uniform)) /\
  (inside x -> draw != 0 -> pb_norm x (pb_random_tangent_vector x draw) = 1).
Proof.
split.
  move=> n0 d0 U; apply/insideP => i; have /andP[u0 u1] := U i.
  have [r0 r1] := root_bounds n0 u0 u1.
  have nz : norm_of rdot (row i draw) != 0 by rewrite (norm_eq0 I).
  rewrite (_ : row i _ = rsc (np_root n (uniform i) / norm_of rdot (row i draw)) (row i draw)); last first.
    apply/rowP => j; rewrite !mxE row_normsE -[LHS]mulrA mulrC; congr (_ * _); exact: mulrC.
  rewrite /in_ball (dotZl I) (dotZr I) -(Geometry_Spec.norm_sqr I) mulrA -expr2 -exprMn mulfVK //.
  by rewrite expr_lt1.
move=> hx d0; have [M _] := C71_metric hx.
have N : pb_norm x draw != 0 by have := norm_eq0 M draw; rewrite (negbTE d0) => /negbT.
have -> : pb_random_tangent_vector x draw = scale (pb_norm x draw)^-1 draw.
  by apply/matrixP => i j; rewrite !mxE mulrC.
have := normZ M (pb_norm x draw)^-1 draw; rewrite -[norm_of _ _]/(pb_norm x _) => ->.
by rewrite ger0_norm ?invr_ge0 ?sqrtr_ge0 // -[norm_of _ _]/(pb_norm x draw) mulVf.
Qed.
End Poincare.

(** ** Instance: two points of two balls of dimension two that differ in both balls, and a tangent vector. *)
Lemma poincare_instance :
  let x : 'M[RF]_(2, 2) := \matrix_(i, j) (if i == j then 2%:R^-1 else 0 : RR) in
  inside_balls x /\ inside_balls (- x) /\ (forall i, row i x != row i (- x)) /\ (forall i, row i x != 0).
Proof.
have h0 : (2%:R^-1 : RR) <> 0 by apply/eqP; rewrite invr_eq0 pnatr_eq0.
have h1 : (2%:R^-1 : RR) <> - 2%:R^-1 by Rify; lra.
have h2 : (2%:R^-1 : RR) ^+ 2 < 1 by Rify; lra.
move=> x; split.
  move=> i; rewrite (bigD1 i) //= big1 ?addr0 => [|j ji]; first by rewrite mxE eqxx.
  by rewrite mxE eq_sym (negbTE ji) expr0n.
split.
  move=> i; rewrite (bigD1 i) //= big1 ?addr0 => [|j ji]; first by rewrite mxE mxE eqxx sqrrN.
  by rewrite mxE mxE eq_sym (negbTE ji) oppr0 expr0n.
split=> i; apply/eqP => /rowP/(_ i); rewrite !mxE eqxx //.
Qed.
