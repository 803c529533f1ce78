(** One Poincare ball in an inner product space over the reals. *)
From Coq Require Import Reals Lra Psatz.
From mathcomp Require Import all_ssreflect all_algebra.
From Coq Require Import Ring Field.
From Verif Require Import Rstruct MCRing Mat_Base Geometry_Spec Calculus Components Sphere_Model Sphere_Proofs Connection Poincare_Model.
Set Implicit Arguments.
Unset Strict Implicit.
Unset Printing Implicit Defensive.
Import GRing.Theory Num.Theory Order.TTheory.
Local Open Scope ring_scope.
Delimit Scope R_scope with Re.

(** ** Hyperbolic functions *)
Section Hyperbolic.
Local Open Scope R_scope.
Lemma cosh_ge1 x : 1 <= cosh x.
Proof.
rewrite /cosh; have P := exp_pos x; have Q := exp_pos (- x).
have E : (exp x * exp (- x) = 1) by rewrite -exp_plus Rplus_opp_r exp_0.
have S : 0 <= (exp x - exp (- x)) * (exp x - exp (- x)) by apply: Rle_0_sqr.
nra.
Qed.
Lemma cosh_sinh x : cosh x * cosh x - sinh x * sinh x = 1.
Proof.
rewrite /cosh /sinh; have E : (exp x * exp (- x) = 1) by rewrite -exp_plus Rplus_opp_r exp_0.
nra.
Qed.
Lemma sinh_ge0 x : 0 <= x -> 0 <= sinh x.
Proof.
move=> x0; rewrite /sinh; have H : exp (- x) <= exp x.
  by case: (Req_dec x 0) => [->|n0]; [rewrite Ropp_0; lra|left; apply: exp_increasing; lra].
lra.
Qed.
Lemma exp_cosh_sinh x : exp x = cosh x + sinh x. Proof. rewrite /cosh /sinh; field. Qed.
Lemma cosh_add x y : cosh (x + y) = cosh x * cosh y + sinh x * sinh y.
Proof. rewrite /cosh /sinh Ropp_plus_distr !exp_plus; field. Qed.
Lemma cosh_neg x : cosh (- x) = cosh x. Proof. rewrite /cosh Ropp_involutive; field. Qed.
Lemma sinh_neg x : sinh (- x) = - sinh x. Proof. rewrite /sinh Ropp_involutive; field. Qed.
Lemma tanh_sqr x : tanh x * tanh x = 1 - / (cosh x * cosh x).
Proof.
rewrite /tanh; have H := cosh_sinh x; have H' := cosh_ge1 x.
have -> : sinh x / cosh x * (sinh x / cosh x) = (sinh x * sinh x) / (cosh x * cosh x) by field; lra.
have -> : sinh x * sinh x = cosh x * cosh x - 1 by lra.
field; lra.
Qed.
Lemma tanh_lt1 x : tanh x * tanh x < 1.
Proof.
rewrite tanh_sqr; have H := cosh_ge1 x; have : 0 < / (cosh x * cosh x) by apply: Rinv_0_lt_compat; nra.
lra.
Qed.
Lemma tanh_ge0 x : 0 <= x -> 0 <= tanh x.
Proof.
move=> /sinh_ge0 H; have H' := cosh_ge1 x; rewrite /tanh; apply: Rmult_le_pos => //.
by left; apply: Rinv_0_lt_compat; lra.
Qed.
Lemma tanh_neg x : tanh (- x) = - tanh x.
Proof. rewrite /tanh sinh_neg cosh_neg; field; have := cosh_ge1 x; lra. Qed.
Lemma tanh_bounds x : -1 < tanh x < 1. Proof. have := tanh_lt1 x; nra. Qed.
Lemma tanh_exp x : tanh x = (exp (2 * x) - 1) / (exp (2 * x) + 1).
Proof.
rewrite /tanh /sinh /cosh; have P := exp_pos x; have Q := exp_pos (- x).
have -> : (exp (2 * x) = exp x * exp x) by rewrite -exp_plus; congr exp; ring.
have E : exp (- x) = / exp x by rewrite exp_Ropp.
rewrite E; field; nra.
Qed.
Lemma tanh_0 : tanh 0 = 0. Proof. by rewrite /tanh sinh_0 /Rdiv Rmult_0_l. Qed.
Lemma arctanh_tanh x : np_arctanh (tanh x) = x.
Proof.
rewrite /np_arctanh tanh_exp; have P := exp_pos (2 * x).
have -> : (1 + (exp (2 * x) - 1) / (exp (2 * x) + 1)) / (1 - (exp (2 * x) - 1) / (exp (2 * x) + 1)) = exp (2 * x).
  by field; lra.
rewrite ln_exp; field.
Qed.
Lemma tanh_arctanh y : -1 < y < 1 -> tanh (np_arctanh y) = y.
Proof.
move=> [a b]; rewrite tanh_exp /np_arctanh.
have -> : 2 * (ln ((1 + y) / (1 - y)) / 2) = ln ((1 + y) / (1 - y)) by field.
rewrite exp_ln; first by field; lra.
by apply: Rdiv_lt_0_compat; lra.
Qed.
Lemma arctanh_ge0 y : 0 <= y < 1 -> 0 <= np_arctanh y.
Proof.
move=> [a b]; case: (Rle_lt_dec 0 (np_arctanh y)) => // H.
have T : tanh (np_arctanh y) = y by apply: tanh_arctanh; lra.
have N : 0 <= tanh (- np_arctanh y) by apply: tanh_ge0; lra.
rewrite tanh_neg T in N; have y0 : y = 0 by lra.
move: H; rewrite /np_arctanh y0 (_ : (1 + 0) / (1 - 0) = 1); last by field.
rewrite ln_1; lra.
Qed.
Lemma arccosh_cosh x : 0 <= x -> np_arccosh (cosh x) = x.
Proof.
move=> x0; rewrite /np_arccosh.
have -> : cosh x * cosh x - 1 = sinh x * sinh x by have := cosh_sinh x; lra.
by rewrite sqrt_square; [rewrite -exp_cosh_sinh ln_exp|exact: sinh_ge0].
Qed.
Lemma arccosh_ge0 y : 1 <= y -> 0 <= np_arccosh y.
Proof.
move=> y1; rewrite /np_arccosh -ln_1.
have S := sqrt_pos (y * y - 1).
case: (Req_dec 1 (y + sqrt (y * y - 1))) => [<-|N]; first lra.
left; apply: ln_increasing; lra.
Qed.
Lemma cosh_arccosh y : 1 <= y -> cosh (np_arccosh y) = y.
Proof.
move=> y1; have S := sqrt_pos (y * y - 1); have S2 : sqrt (y * y - 1) * sqrt (y * y - 1) = y * y - 1 by apply: sqrt_sqrt; nra.
rewrite /cosh /np_arccosh exp_Ropp exp_ln; last lra.
set s := sqrt (y * y - 1) in S S2 *.
have -> : / (y + s) = y - s by apply: (Rmult_eq_reg_l (y + s)); [rewrite Rinv_r; lra|lra].
field.
Qed.
Lemma cosh_mono x y : 0 <= x -> x <= y -> cosh x <= cosh y.
Proof.
move=> x0 xy; have -> : y = x + (y - x) by ring.
rewrite cosh_add; have A := cosh_ge1 x; have B := cosh_ge1 (y - x).
have C : 0 <= sinh x by apply: sinh_ge0.
have D : 0 <= sinh (y - x) by apply: sinh_ge0; lra.
nra.
Qed.
Lemma arccosh_le y z : 1 <= y -> 0 <= z -> y <= cosh z -> np_arccosh y <= z.
Proof.
move=> y1 z0 yz; case: (Rle_lt_dec (np_arccosh y) z) => // H.
have A : cosh z <= cosh (np_arccosh y) by apply: cosh_mono; lra.
rewrite cosh_arccosh // in A; have E : y = cosh z by lra.
by move: H; rewrite E arccosh_cosh //; lra.
Qed.
Lemma arccosh_eq0 y : 1 <= y -> np_arccosh y = 0 -> y = 1.
Proof. by move=> y1 H; rewrite -(cosh_arccosh y1) H /cosh Ropp_0 exp_0; field. Qed.
Lemma tanh_quadratic r : 0 <= r <= / 2 -> Rabs (tanh r - r) <= 2 * (r * r).
Proof.
move=> [r0 r1]; have A := exp_ineq1_le (2 * r); have B := exp_ineq1_le (- (2 * r)).
have P := exp_pos (2 * r).
have E : exp (2 * r) * exp (- (2 * r)) = 1 by rewrite -exp_plus Rplus_opp_r exp_0.
have L : exp (2 * r) * (1 - 2 * r) <= 1 by nra.
set q := exp (2 * r) in A P E L; rewrite tanh_exp -/q.
have -> : (q - 1) / (q + 1) - r = ((q - 1) - r * (q + 1)) / (q + 1) by field; lra.
rewrite /Rdiv Rabs_mult Rabs_inv (Rabs_pos_eq (q + 1)); last lra.
apply: (Rmult_le_reg_r (q + 1)); first lra.
rewrite Rmult_assoc Rinv_l; last lra.
rewrite Rmult_1_r; apply: Rabs_le; split; nra.
Qed.
Lemma tanh_lim (r t : R) : derivable_pt_lim (fun s => tanh (s * r)) t (r * (1 - tanh (t * r) * tanh (t * r))).
Proof.
have D : derivable_pt_lim tanh (t * r) (1 - tanh (t * r) * tanh (t * r)).
  have := derivable_pt_lim_div sinh cosh (t * r) _ _ (derivable_pt_lim_sinh _) (derivable_pt_lim_cosh _).
  have C := cosh_ge1 (t * r); rewrite /div_fct => /(_ ltac:(lra)).
  by rewrite (_ : (cosh (t * r) * cosh (t * r) - sinh (t * r) * sinh (t * r)) / Rsqr (cosh (t * r)) = 1 - tanh (t * r) * tanh (t * r)) //;
     rewrite /tanh /Rsqr; field; lra.
have := derivable_pt_lim_comp (fun s => s * r) tanh t _ _ (lin_lim r t) D.
by rewrite Rmult_comm.
Qed.
End Hyperbolic.

(** ** The ball *)
Section Ball.
Variables (V : zmodType) (scale : RR -> V -> V) (dot : V -> V -> RR).
Hypothesis I : inner_product_on scale everywhere dot.
Local Notation norm := (norm_of dot).
Add Ring RR_ring : (mc_ring RR).
Implicit Types x y z u v w e g : V.
Local Notation n2 x := (dot x x).
Definition in_ball x : Prop := n2 x < 1.
Definition mden x y : RR := 1 + 2%:R * dot x y + n2 x * n2 y.
Definition madd x y : V := scale (mden x y)^-1 (scale (1 + 2%:R * dot x y + n2 y) x + scale (1 - n2 x) y).
Definition bdist x y : RR := np_arccosh (1 + 2%:R * n2 (x - y) / ((1 - n2 x) * (1 - n2 y)))%R.
Definition lam x : RR := 2%:R / (1 - n2 x).

Lemma bilin_l a b x y z : dot (scale a x + scale b y) z = a * dot x z + b * dot y z.
Proof. by rewrite (dotDl I) !(dotZl I). Qed.
Lemma bilin_r a b x y z : dot z (scale a x + scale b y) = a * dot z x + b * dot z y.
Proof. by rewrite (dotDr I) !(dotZr I). Qed.
Lemma n2_ge0 x : (0 <= n2 x)%Re. Proof. by apply/RlePx; apply: (dot_ge0 I). Qed.
Lemma cs2 x y : (dot x y * dot x y <= n2 x * n2 y)%Re.
Proof. by apply/RlePx; have := cauchy_schwarz_sqr I x y; rewrite expr2. Qed.
Lemma in_ballR x : in_ball x -> (n2 x < 1)%Re. Proof. by move=> h; apply/RltPx. Qed.
Lemma den_pos (a b c : R) : (0 <= a -> 0 <= b -> a < 1 -> b < 1 -> c * c <= a * b -> 0 < 1 + 2 * c + a * b)%Re.
Proof.
move=> a0 b0 a1 b1 H; case: (Rlt_le_dec 0 (1 + 2 * c + a * b)) => // N.
have P : (0 <= a * b)%Re by nra.
have Q : (a * b < 1)%Re by nra.
have S : ((1 + a * b) * (1 + a * b) <= 4 * (c * c))%Re by nra.
nra.
Qed.
Lemma mden_pos x y : in_ball x -> in_ball y -> (0 < mden x y)%Re.
Proof.
move=> /in_ballR hx /in_ballR hy; rewrite /mden; Rify; apply: den_pos; try exact: n2_ge0; try assumption.
exact: cs2.
Qed.
Lemma mden_neq x y : in_ball x -> in_ball y -> mden x y <> 0%Re.
Proof. by move=> hx hy; have := mden_pos hx hy; lra. Qed.
Lemma ball_neq x : in_ball x -> (1 - n2 x <> 0)%Re. Proof. by move=> /in_ballR; lra. Qed.

Lemma madd_dot x y z : in_ball x -> in_ball y -> in_ball z ->
  dot (madd x y) (madd x z) = ((1 + 2%:R * dot x y + n2 y) * (1 + 2%:R * dot x z + n2 z) * n2 x
    + (1 + 2%:R * dot x y + n2 y) * (1 - n2 x) * dot x z + (1 - n2 x) * (1 + 2%:R * dot x z + n2 z) * dot x y
    + (1 - n2 x) ^+ 2 * dot y z) / (mden x y * mden x z).
Proof.
move=> hx hy hz; have d1 := mden_neq hx hy; have d2 := mden_neq hx hz.
rewrite /madd !(dotZl I, dotZr I) !(bilin_l, bilin_r) (dotC I y x).
move: (mden x y : R) (mden x z : R) (dot x y : R) (dot x z : R) (dot y z : R) (n2 x : R) (n2 y : R) (n2 z : R) d1 d2 => *.
by Rify; field.
Qed.
Lemma madd_n2 x y : in_ball x -> in_ball y -> 1 - n2 (madd x y) = (1 - n2 x) * (1 - n2 y) / mden x y.
Proof.
move=> hx hy; have d1 := mden_neq hx hy; rewrite madd_dot // /mden in d1 *.
move: (dot x y : R) (n2 x : R) (n2 y : R) d1 => c a b; Rify => d1; Rify; field; try split; try exact: d1.
Qed.
Lemma ball_opp x : in_ball x -> in_ball (- x). Proof. by rewrite /in_ball (dotNl I) (dotNr I) opprK. Qed.
Lemma madd_ball x y : in_ball x -> in_ball y -> in_ball (madd x y).
Proof.
move=> hx hy; rewrite /in_ball -subr_gt0 madd_n2 // divr_gt0 ?mulr_gt0 ?subr_gt0 //.
by apply/RltPx; apply: mden_pos.
Qed.
Lemma zero_ball : in_ball 0. Proof. by rewrite /in_ball (dot0l I) ltr01. Qed.
Lemma madd0 x : madd x 0 = x.
Proof. by rewrite /madd /mden !(dot0l I, dot0r I) !mulr0 !addr0 invr1 !(ipsZ1 I) (ipsZ0r I) addr0. Qed.
Lemma mden_cancel x y : in_ball x -> in_ball y -> mden (- x) (madd x y) = (1 - n2 x) ^+ 2 / mden x y.
Proof.
move=> hx hy; have d1 := mden_neq hx hy; have := madd_n2 hx hy.
rewrite [mden (- x) _]/mden (dotNl I x (madd x y)) (dotNl I) (dotNr I) opprK (_ : dot x (madd x y) = ((1 + 2%:R * dot x y + n2 y) * n2 x + (1 - n2 x) * dot x y) / mden x y); last first.
  by rewrite /madd (dotZr I) bilin_r mulrC.
move=> /eqP; rewrite subr_eq addrC -subr_eq => /eqP <-; rewrite /mden in d1 *.
move: (dot x y : R) (n2 x : R) (n2 y : R) d1 => c a b; Rify => d1; Rify; field; try split; try exact: d1.
Qed.
Lemma madd_cancel x y : in_ball x -> in_ball y -> madd (- x) (madd x y) = y.
Proof.
move=> hx hy; have d1 := mden_neq hx hy; have b1 := ball_neq hx.
rewrite {1}/madd mden_cancel // (dotNl I) (dotNl I) (dotNr I) opprK.
have -> : dot x (madd x y) = ((1 + 2%:R * dot x y + n2 y) * n2 x + (1 - n2 x) * dot x y) / mden x y.
  by rewrite /madd (dotZr I) bilin_r mulrC.
have -> : n2 (madd x y) = 1 - (1 - n2 x) * (1 - n2 y) / mden x y.
  by rewrite -madd_n2 // opprB addrC subrK.
apply: (dot_inj I) => w; rewrite /madd !(dotZl I) bilin_l (dotNl I) (dotZl I) bilin_l.
rewrite /mden in d1 *.
move: (dot x y : R) (n2 x : R) (n2 y : R) (dot x w : R) (dot y w : R) d1 b1 => c a b p q; Rify => d1 b1; Rify; field; try split => //.
Qed.
Lemma madd_cancel' x y : in_ball x -> in_ball y -> madd x (madd (- x) y) = y.
Proof. by move=> hx hy; rewrite -{1}[x]opprK madd_cancel //; apply: ball_opp. Qed.
(** translations are isometries *)
Definition bdelta x y : RR := n2 (x - y) / ((1 - n2 x) * (1 - n2 y)).
Lemma n2B x y : n2 (x - y) = n2 x - 2%:R * dot x y + n2 y.
Proof. by rewrite (dotBl I) !(dotBr I) (dotC I y x); mcring RR. Qed.
Lemma madd_delta x y z : in_ball x -> in_ball y -> in_ball z -> bdelta (madd x y) (madd x z) = bdelta y z.
Proof.
move=> hx hy hz; have d1 := mden_neq hx hy; have d2 := mden_neq hx hz.
have [b1 b2 b3] : [/\ (1 - n2 x <> 0)%Re, (1 - n2 y <> 0)%Re & (1 - n2 z <> 0)%Re] by split; apply: ball_neq.
rewrite /bdelta !madd_n2 // !n2B (madd_dot hx hy hz).
have E u : in_ball u -> n2 (madd x u) = 1 - (1 - n2 x) * (1 - n2 u) / mden x u.
  by move=> hu; rewrite -madd_n2 // opprB addrC subrK.
rewrite !E // /mden in d1 d2 *.
move: (dot x y : R) (dot x z : R) (dot y z : R) (n2 x : R) (n2 y : R) (n2 z : R) d1 d2 b1 b2 b3 => c d f a b h; Rify => *; Rify; field.
by [].
Qed.
Lemma bdistE x y : bdist x y = np_arccosh (1 + 2%:R * bdelta x y)%R.
Proof. by rewrite /bdist /bdelta; congr np_arccosh; congr (_ + _); rewrite mulrA. Qed.
Lemma madd_dist x y z : in_ball x -> in_ball y -> in_ball z -> bdist (madd x y) (madd x z) = bdist y z.
Proof. by move=> *; rewrite !bdistE madd_delta. Qed.

(** ** Distance *)
Lemma delta_ge0 x y : in_ball x -> in_ball y -> (0 <= bdelta x y)%Re.
Proof.
move=> hx hy; apply/RlePx; rewrite /bdelta divr_ge0 ?(dot_ge0 I) // mulr_ge0 // subr_ge0 ltW //.
Qed.
Lemma bdist_ge0 x y : in_ball x -> in_ball y -> (0 <= bdist x y)%Re.
Proof. move=> hx hy; rewrite bdistE; apply: arccosh_ge0; have := delta_ge0 hx hy; Rify; lra. Qed.
Lemma bdistC x y : bdist x y = bdist y x.
Proof. by rewrite /bdist -opprB (dotNl I) (dotNr I) opprK [(1 - n2 x) * _]mulrC. Qed.
Lemma bdistxx x : bdist x x = 0.
Proof.
rewrite bdistE /bdelta subrr (dot0l I) mul0r mulr0 addr0 /np_arccosh; Rify.
by rewrite (_ : (1 * 1 - 1 = 0)%Re) ?sqrt_0 ?Rplus_0_r ?ln_1 //; lra.
Qed.
Lemma bdist_eq0 x y : in_ball x -> in_ball y -> bdist x y = 0 -> x = y.
Proof.
move=> hx hy; rewrite bdistE => E.
have D := delta_ge0 hx hy.
have : (1 + 2 * bdelta x y = 1)%Re by apply: arccosh_eq0; [lra | move: E; Rify].
move=> F; have {}F : bdelta x y = 0 by Rify; lra.
move/eqP: F; rewrite /bdelta mulf_eq0 invr_eq0 mulf_eq0 => /orP [| /orP [] /eqP E0]; first by rewrite (dot_eq0 I) subr_eq0 => /eqP.
  by have := ball_neq hx.
by have := ball_neq hy.
Qed.
(** the distance from the centre *)
Lemma norm_sqr x : (norm x * norm x = n2 x)%Re.
Proof. by have : norm x ^+ 2 = n2 x := Geometry_Spec.norm_sqr I x; rewrite expr2. Qed.
Lemma norm_nn x : (0 <= norm x)%Re. Proof. by apply/RlePx; apply: (Geometry_Spec.norm_ge0). Qed.
Lemma norm_lt1 x : in_ball x -> (norm x < 1)%Re.
Proof. by move=> /in_ballR h; have := norm_sqr x; have := norm_nn x; nra. Qed.

Lemma sinh_sub (p q : R) : (sinh (p - q) = sinh p * cosh q - cosh p * sinh q)%Re.
Proof. rewrite /cosh /sinh /Rminus Ropp_plus_distr !exp_plus Ropp_involutive; field. Qed.
Lemma tanh_cosh (p q : R) :
  (1 + 2 * ((tanh p - tanh q) * (tanh p - tanh q) / ((1 - tanh p * tanh p) * (1 - tanh q * tanh q))) = cosh (2 * (p - q)))%Re.
Proof.
have C := cosh_ge1 p; have C' := cosh_ge1 q.
rewrite !tanh_sqr (_ : (2 * (p - q) = (p - q) + (p - q))%Re); last lra.
rewrite cosh_add (_ : (cosh (p - q) * cosh (p - q) = 1 + sinh (p - q) * sinh (p - q))%Re); last by have := cosh_sinh (p - q); lra.
rewrite sinh_sub /tanh; field; lra.
Qed.
(** points on a diameter, and what a translation makes of them *)
Lemma diam_ball e (p : R) : dot e e = 1 -> in_ball (scale (tanh p : RR) e).
Proof.
move=> e1; rewrite /in_ball (dotZl I) (dotZr I) e1 mulr1; apply/RltPx; exact: tanh_lt1.
Qed.
Lemma diam_dist e (p q : R) : dot e e = 1 -> bdist (scale (tanh p : RR) e) (scale (tanh q : RR) e) = (2 * Rabs (p - q))%Re.
Proof.
move=> e1; rewrite bdistE /bdelta (_ : scale (tanh p : RR) e - scale (tanh q : RR) e = scale ((tanh p : RR) - tanh q)%R e); last by vring I RR.
rewrite !(dotZl I) !(dotZr I) e1 !mulr1; Rify.
rewrite tanh_cosh -(@arccosh_cosh (2 * Rabs (p - q))%Re); last by have := Rabs_pos (p - q); lra.
congr np_arccosh; case: (Rle_dec 0 (p - q)) => h; first by rewrite Rabs_pos_eq.
rewrite Rabs_left; last lra.
by rewrite -cosh_neg; congr cosh; lra.
Qed.
Lemma geo_dist x e (p q : R) : in_ball x -> dot e e = 1 ->
  bdist (madd x (scale (tanh p : RR) e)) (madd x (scale (tanh q : RR) e)) = (2 * Rabs (p - q))%Re.
Proof. by move=> hx e1; rewrite madd_dist ?diam_dist //; apply: diam_ball. Qed.
(** polar form of a vector *)
Definition dirn v : V := scale (norm v)^-1 v.
Lemma dirn1 v : v != 0 -> dot (dirn v) (dirn v) = 1.
Proof.
move=> v0; rewrite /dirn (dotZl I) (dotZr I) -(Geometry_Spec.norm_sqr I) expr2.
by rewrite mulKf ?mulVf // (norm_eq0 I).
Qed.
Lemma dirnE v : v != 0 -> v = scale (norm v) (dirn v).
Proof. by move=> v0; rewrite /dirn (ipsZA I) divff ?(ipsZ1 I) // (norm_eq0 I). Qed.
Lemma polar x : in_ball x -> x != 0 -> x = scale (tanh (np_arctanh (norm x)) : RR) (dirn x).
Proof.
move=> hx x0; rewrite {1}(dirnE x0) tanh_arctanh //.
have := norm_lt1 hx; have := norm_nn x; lra.
Qed.
Lemma dist0 x : in_ball x -> bdist 0 x = (2 * np_arctanh (norm x))%Re.
Proof.
move=> hx; case: (eqVneq x 0) => [->|x0].
  by rewrite bdistxx (norm0 I) /np_arctanh; Rify; rewrite (_ : ((1 + 0) / (1 - 0) = 1)%Re) ?ln_1; field.
have A : (0 <= np_arctanh (norm x))%Re by apply: arctanh_ge0; have := norm_lt1 hx; have := norm_nn x; lra.
rewrite {1}(polar hx x0) (_ : 0 = scale (tanh 0 : RR) (dirn x)); last first.
  by rewrite tanh_0 (ipsZ0l I).
rewrite diam_dist ?dirn1 // Rminus_0_l Rabs_Ropp Rabs_pos_eq //.
Qed.
(** the triangle inequality *)
Lemma dist0_tri x z : in_ball x -> in_ball z -> (bdist x z <= bdist x 0 + bdist 0 z)%Re.
Proof.
move=> hx hz; rewrite [bdist x 0]bdistC !dist0 // bdistE.
have [a0 a1] : (0 <= norm x < 1)%Re by have := norm_lt1 hx; have := norm_nn x; lra.
have [b0 b1] : (0 <= norm z < 1)%Re by have := norm_lt1 hz; have := norm_nn z; lra.
have A := @arctanh_ge0 (norm x) ltac:(lra); have B := @arctanh_ge0 (norm z) ltac:(lra).
have := tanh_cosh (np_arctanh (norm x)) (- np_arctanh (norm z)).
rewrite tanh_neg !tanh_arctanh; try lra.
rewrite (_ : (2 * (np_arctanh (norm x) - - np_arctanh (norm z)) = 2 * np_arctanh (norm x) + 2 * np_arctanh (norm z))%Re); last ring.
move=> T; apply: arccosh_le; [by have := delta_ge0 hx hz; Rify; lra | lra | rewrite -T].
rewrite /bdelta n2B -!norm_sqr; Rify.
have cs := cs2 x z; have := norm_sqr x; have := norm_sqr z.
move: (norm x : R) (norm z : R) (dot x z : R) (n2 x : R) (n2 z : R) a0 a1 b0 b1 cs => r s c A2 B2 a0 a1 b0 b1 cs E1 E2.
have cc : (- c <= r * s)%Re.
  have {}cs : (c * c <= (r * s) * (r * s))%Re by rewrite -E1 -E2 in cs; lra.
  have rs : (0 <= r * s)%Re by nra.
  by case: (Rle_lt_dec (- c) (r * s)) => // h; nra.
apply: Rplus_le_compat_l; apply: Rmult_le_compat_l; first lra.
rewrite (_ : ((1 - - s * - s) = (1 - s * s))%Re); last ring.
apply: Rmult_le_compat_r; last first.
  have ->: ((r - - s) * (r - - s) = r * r + 2 * (r * s) + s * s)%Re by ring.
  lra.
by left; apply: Rinv_0_lt_compat; apply: Rmult_lt_0_compat; nra.
Qed.
Lemma bdist_tri x y z : in_ball x -> in_ball y -> in_ball z -> (bdist x z <= bdist x y + bdist y z)%Re.
Proof.
move=> hx hy hz; have hn := ball_opp hy.
rewrite -(madd_dist hn hx hz) -(madd_dist hn hx hy) -(madd_dist hn hy hz).
have -> : madd (- y) y = 0 by rewrite -{2}[y]madd0 madd_cancel //; apply: zero_ball.
by apply: dist0_tri; apply: madd_ball.
Qed.

(** ** Exponential map and logarithm *)
Definition bexp x v : V := madd x (scale ((tanh (norm v * lam x / 2%:R)%R : RR) / (norm v + (norm v == 0)%:R)) v).
Definition blog x y : V :=
  let w := madd (- x) y in scale ((np_arctanh (norm w) : RR) / norm w / (lam x / 2%:R)) w.
Lemma lam_pos x : in_ball x -> 0 < lam x. Proof. by move=> hx; rewrite /lam divr_gt0 ?ltr0n // subr_gt0. Qed.
Lemma lam_neq x : in_ball x -> lam x != 0. Proof. by move=> hx; rewrite gt_eqF // lam_pos. Qed.
Lemma two0 : (2%:R : RR) != 0. Proof. by rewrite pnatr_eq0. Qed.
Lemma bexp0 x : bexp x 0 = x. Proof. by rewrite /bexp (ipsZ0r I) madd0. Qed.
Lemma bexp_geo x e (r : RR) : dot e e = 1 -> bexp x (scale r e) = madd x (scale (tanh (r * lam x / 2%:R)%R : RR) e).
Proof.
move=> e1; have ne : norm e = 1 by rewrite /norm_of e1 sqrtr1.
rewrite /bexp (normZ I) ne mulr1 (ipsZA I); congr (madd x (scale _ e)).
case: (eqVneq r 0) => [->|r0].
  by rewrite mulr0 !mul0r tanh_0.
rewrite normr_eq0 (negbTE r0) addr0; case: (ltrgt0P r) (r0) => [p|p|E] r1; last by rewrite E eqxx in r0.
  by rewrite mulfVK.
rewrite !mulNr -[X in tanh X]/(Ropp _) tanh_neg.
by rewrite -[Ropp _]/(- (tanh (r * lam x / 2%:R)%R : RR)) invrN mulrNN mulfVK.
Qed.
Lemma bexp_dir x v : v != 0 -> bexp x v = madd x (scale (tanh (norm v * lam x / 2%:R)%R : RR) (dirn v)).
Proof. by move=> v0; rewrite {1}(dirnE v0) bexp_geo // dirn1. Qed.
Lemma bexp_ball x v : in_ball x -> in_ball (bexp x v).
Proof.
move=> hx; case: (eqVneq v 0) => [->|v0]; first by rewrite bexp0.
by rewrite bexp_dir //; apply: madd_ball => //; apply: diam_ball; apply: dirn1.
Qed.
Lemma bexp_dist2 x v (s t : RR) : in_ball x -> bdist (bexp x (scale s v)) (bexp x (scale t v)) = `|s - t| * (lam x * norm v).
Proof.
move=> hx; case: (eqVneq v 0) => [->|v0].
  by rewrite !(ipsZ0r I) bdistxx (norm0 I) !mulr0.
have E q : scale q v = scale (q * norm v) (dirn v) by rewrite -(ipsZA I) -(dirnE v0).
rewrite !E !bexp_geo ?dirn1 // geo_dist ?dirn1 //.
rewrite (_ : (_ - _)%Re = (s - t) * (lam x * norm v / 2%:R)); last first.
  by move: (norm v) (lam x) => a b; Rify; field.
rewrite -[Rabs _]/(`|(s - t) * (lam x * norm v / 2%:R)|) normrM [X in _ * X]ger0_norm; last first.
  by rewrite divr_ge0 ?ler0n // mulr_ge0 ?(Geometry_Spec.norm_ge0) // ltW // lam_pos.
by move: (norm v) (lam x) (`|s - t|) => a b c; Rify; field.
Qed.
Lemma bexp_dist x v : in_ball x -> bdist x (bexp x v) = lam x * norm v.
Proof.
move=> hx; have := @bexp_dist2 x v 0 1 hx.
by rewrite (ipsZ0l I) bexp0 (ipsZ1 I) sub0r normrN normr1 mul1r.
Qed.
Lemma madd_neq0 x y : in_ball x -> in_ball y -> (norm (madd (- x) y) == 0) = (x == y).
Proof.
move=> hx hy; rewrite (norm_eq0 I); apply/eqP/eqP => [E|->].
  by have := madd_cancel' hx hy; rewrite E madd0.
by rewrite -{2}[y]madd0 madd_cancel //; apply: zero_ball.
Qed.
Lemma bexp_log x y : in_ball x -> in_ball y -> x != y -> bexp x (blog x y) = y.
Proof.
move=> hx hy xy; rewrite /blog; set w := madd (- x) y.
have hw : in_ball w by apply: madd_ball => //; apply: ball_opp.
have n0 : norm w != 0 by rewrite madd_neq0.
have w0 : w != 0 by rewrite -(norm_eq0 I).
rewrite (_ : scale _ w = scale ((np_arctanh (norm w) : RR) / (lam x / 2%:R)) (dirn w)); last first.
  by rewrite /dirn (ipsZA I); congr scale; rewrite mulrAC.
rewrite bexp_geo ?dirn1 //.
rewrite (_ : (_ * lam x / 2%:R)%R = np_arctanh (norm w)); last first.
  by rewrite -mulrA mulfVK // mulf_neq0 ?lam_neq // invr_eq0 two0.
by rewrite -(polar hw w0) madd_cancel'.
Qed.
Lemma bexp_neq x v : in_ball x -> v != 0 -> x != bexp x v.
Proof.
move=> hx v0; apply/eqP => E; have := bexp_dist v hx; rewrite -E bdistxx => /esym/eqP.
by rewrite mulf_eq0 (negbTE (lam_neq hx)) (norm_eq0 I) (negbTE v0).
Qed.
Lemma blog_exp x v : in_ball x -> v != 0 -> blog x (bexp x v) = v.
Proof.
move=> hx v0; have e1 := dirn1 v0; rewrite /blog bexp_dir // madd_cancel //; last exact: diam_ball.
have nv : 0 < norm v by rewrite lt_def (norm_eq0 I) v0 (Geometry_Spec.norm_ge0).
have q0 : 0 < norm v * lam x / 2%:R by rewrite divr_gt0 ?ltr0n // mulr_gt0 // lam_pos.
set q := norm v * lam x / 2%:R in q0 *.
have T0 : 0 <= (tanh q : RR) by apply/RlePx; apply: tanh_ge0; apply/RlePx; apply: ltW.
have ne : norm (dirn v) = 1 by rewrite /norm_of e1 sqrtr1.
rewrite (normZ I) ger0_norm // ne mulr1 arctanh_tanh (ipsZA I).
have T1 : (tanh q : RR) != 0.
  by apply/eqP => E; have := arctanh_tanh q; rewrite E /np_arctanh; Rify; rewrite (_ : ((1 + 0) / (1 - 0) = 1)%Re) ?ln_1; [move=> K; move/eqP: (lt0r_neq0 q0); rewrite -K; Rify; lra|field].
rewrite {2}(dirnE v0); congr scale.
rewrite mulrAC mulfVK // /q.
by rewrite -[norm v * _ / _]mulrA mulfK // mulf_neq0 ?lam_neq // invr_eq0 two0.
Qed.
Lemma blog_dist x y : in_ball x -> in_ball y -> x != y -> bdist x y = lam x * norm (blog x y).
Proof. by move=> hx hy xy; rewrite -{1}(bexp_log hx hy xy) bexp_dist. Qed.

(** ** The exponential map is a retraction *)
Lemma madd_quadratic x w : in_ball x -> norm w <= 4%:R^-1 ->
  norm (madd x w - (x + scale (1 - n2 x) w)) <= 8%:R * norm w ^+ 2.
Proof.
move=> hx sw; have [a0 a1] : (0 <= n2 x < 1)%Re by have := n2_ge0 x; have := in_ballR hx; lra.
have w0 := norm_nn w; have x0 := norm_nn x; have x1 := norm_lt1 hx; have S := norm_sqr w.
have sw' : (norm w <= / 4)%Re by Rify_in sw.
have C : (Rabs (dot x w) <= norm w)%Re.
  have : (Rabs (dot x w) <= norm x * norm w)%Re by apply/RlePx; apply: (cauchy_schwarz I).
  nra.
have [C1 C2] : (- norm w <= dot x w <= norm w)%Re by move: C; rewrite /Rabs; case: Rcase_abs => *; lra.
have D0 : (/ 2 <= mden x w)%Re.
  by rewrite /mden; Rify; rewrite -S; nra.
have D1 : mden x w != 0 by apply/eqP; Rify; lra.
have -> : madd x w - (x + scale (1 - n2 x) w) =
   scale ((1 - n2 x) / mden x w) (scale (n2 w) x + scale (1 - mden x w) w).
  have E : 1 + 2%:R * dot x w + n2 w = mden x w + n2 w * (1 - n2 x) by rewrite /mden; mcring RR.
  rewrite /madd E; apply: (dot_inj I) => u; rewrite (dotBl I) (dotDl I) !(dotZl I) ?bilin_l ?(dotZl I).
  move: D1 => /eqP; move: (mden x w : R) (dot x u : R) (dot w u : R) (n2 x : R) (n2 w : R) => d p q a b; Rify => D1; Rify; field.
  by [].
rewrite (normZ I); apply: le_trans (_ : 2%:R * (norm w ^+ 2 + 3%:R * norm w ^+ 2) <= _); last first.
  by rewrite le_eqVlt; apply/orP; left; apply/eqP; mcring RR.
apply: ler_pmul; rewrite ?normr_ge0 ?(Geometry_Spec.norm_ge0) //.
  rewrite ger0_norm; last first.
    by rewrite divr_ge0 // ?subr_ge0 ?ltW //; apply/RltPx; Rify; lra.
  rewrite ler_pdivr_mulr; last by apply/RltPx; Rify; lra.
  by apply/RlePx; Rify; lra.
apply: le_trans (normD I _ _) _; rewrite !(normZ I); apply: ler_add.
  rewrite ger0_norm ?(dot_ge0 I) // -(Geometry_Spec.norm_sqr I) ler_pimulr ?sqr_ge0 //.
  by apply/RlePx; Rify; lra.
rewrite expr2 mulrA ler_wpmul2r ?(Geometry_Spec.norm_ge0) // distrC.
apply/RlePx; rewrite -[`|_|]/(Rabs (mden x w - 1)%R) /mden; Rify; rewrite -S; apply: Rabs_le; split; nra.
Qed.
Lemma bexp_quadratic x v (K : RR) : in_ball x -> (1 - n2 x)^-1 <= K -> norm v <= (8%:R * K)^-1 ->
  norm (bexp x v - (x + v)) <= 34%:R * K ^+ 2 * norm v ^+ 2.
Proof.
move=> hx hK vs.
case: (eqVneq v 0) => [->|v0].
  by rewrite bexp0 addr0 subrr (norm0 I) expr0n mulr0.
have b0 : 0 < 1 - n2 x by rewrite subr_gt0.
have bn : 1 - n2 x != 0 by rewrite gt_eqF.
have k0 : 0 < (1 - n2 x)^-1 by rewrite invr_gt0.
have K0 : 0 < K := lt_le_trans k0 hK.
rewrite bexp_dir //; set e := dirn v; have e1 : dot e e = 1 by apply: dirn1.
have ne : norm e = 1 by rewrite /norm_of e1 sqrtr1.
have [r rE] : exists r : RR, r == norm v / (1 - n2 x) by eexists.
have -> : norm v * lam x / 2%:R = r by rewrite /lam (eqP rE) [2%:R * _]mulrC mulrA mulfK ?two0.
have n0 := Geometry_Spec.norm_ge0 dot v.
have r0 : (0 <= r)%Re by apply/RlePx; rewrite (eqP rE) divr_ge0 // ltW.
have rK : r <= K * norm v by rewrite (eqP rE) mulrC ler_wpmul2r.
have r8 : (r <= / 8)%Re.
  have vs' : K * norm v <= 8%:R^-1 by rewrite mulrC -ler_pdivl_mulr // -invfM.
  by have := le_trans rK vs' => /RlePx; Rify.
have Hr : (0 <= r <= / 2)%Re by move: r0 r8; clear => *; lra.
have T := @tanh_quadratic r Hr.
have T0 := tanh_ge0 r0.
have T2 : (tanh r <= 2 * r)%Re by move: r0 r8 T; clear => r0 r8; rewrite /Rabs; case: Rcase_abs => *; nra.
set w := scale (tanh r : RR) e.
have nw : norm w = tanh r by rewrite /w (normZ I) ne mulr1 ger0_norm //; apply/RlePx.
have -> : madd x w - (x + v) = (madd x w - (x + scale (1 - n2 x) w)) + (scale (1 - n2 x) w - v) by vring I RR.
apply: le_trans (normD I _ _) _.
have Q : 34%:R * r ^+ 2 <= 34%:R * K ^+ 2 * norm v ^+ 2.
  by rewrite -mulrA -exprMn ler_wpmul2l ?ler0n // ler_sqr ?nnegrE ?mulr_ge0 ?(ltW K0) //; apply/RlePx.
apply: le_trans Q; apply: le_trans (_ : 32%:R * r ^+ 2 + 2%:R * r ^+ 2 <= _); last by rewrite -mulrDl -natrD.
apply: ler_add.
  apply: le_trans (madd_quadratic hx _) _; rewrite nw; first by move: r8 T2; clear => *; apply/RlePx; Rify; lra.
  by move: T0 T2; clear => *; apply/RlePx; Rify; nra.
have -> : scale (1 - n2 x) w - v = scale ((1 - n2 x) * ((tanh r : RR) - r)) e.
  have Ev : norm v = (1 - n2 x) * r by rewrite (eqP rE) mulrCA mulfV // mulr1.
  have E2 : v = scale ((1 - n2 x) * r) e by rewrite -Ev -dirnE.
  by rewrite {1}E2 /w; vring I RR.
rewrite (normZ I) ne mulr1 normrM; apply: le_trans (_ : 1 * `|(tanh r : RR) - r| <= _).
  by apply: ler_wpmul2r; rewrite ?normr_ge0 // ger0_norm ?(ltW b0) // ler_subl_addr ler_addl (dot_ge0 I).
by rewrite mul1r; apply/RlePx; rewrite expr2.
Qed.

(** ** Covariant derivative *)
Local Notation rderives := (derives (@real_scale RR) (@real_dot RR)).
Definition bgamma x u w : V := scale (lam x) (scale (dot x u) w + scale (dot x w) u - scale (dot u w) x).
Lemma ball_neq0 x : in_ball x -> 1 - n2 x != 0. Proof. by move=> /ball_neq H; apply/eqP. Qed.
Lemma lam_derives c v : in_ball (c 0) -> derives scale dot c v -> rderives (fun t => lam (c t)) (lam (c 0) ^+ 2 * dot (c 0) v).
Proof.
move=> h0 D; have b0 := ball_neq0 h0.
have D1 := derives_rinv (derives_sub (@real_ips RR) (derives_const (@real_ips RR) (1 : RR)) (derives_dot I D D)) b0.
have := derives_rmul (derives_const (@real_ips RR) (2%:R : RR)) D1.
congr (derives _ _ _); rewrite /lam (dotC I v).
by move/eqP: b0; move: (n2 (c 0) : R) (dot (c 0) v : R) => a p; Rify => b0; Rify; field.
Qed.
Lemma metric_derives c v A A' B B' : in_ball (c 0) -> derives scale dot c v -> derives scale dot A A' -> derives scale dot B B' ->
  rderives (fun t => lam (c t) ^+ 2 * dot (A t) (B t))
    (lam (c 0) ^+ 2 * dot (A' + bgamma (c 0) v (A 0)) (B 0) + lam (c 0) ^+ 2 * dot (A 0) (B' + bgamma (c 0) v (B 0))).
Proof.
move=> h0 D DA DB; have L := lam_derives h0 D.
have := derives_rmul (derives_rmul L L) (derives_dot I DA DB); congr (derives _ _ _).
rewrite /bgamma !(dotDl I, dotNl I, dotZl I, dotDr I, dotNr I, dotZr I).
rewrite (dotC I v (B 0)) (dotC I (A 0) v) (dotC I (A 0) (c 0)).
by move: (lam (c 0)) (dot (c 0) v) (dot A' (B 0)) (dot (A 0) B') (dot (A 0) (B 0)) (dot v (A 0)) (dot (B 0) v) (dot (c 0) (A 0)) (dot (c 0) (B 0)) => *; mcring RR.
Qed.
Lemma gradient_derives c (e : RR -> V) v g h x : in_ball x -> c 0 = x -> derives scale dot c v -> e 0 = g -> derives scale dot e h ->
  derives scale dot (fun t => scale (lam (c t) ^+ 2)^-1 (e t))
    (scale (lam x ^+ 2)^-1 h - scale (2%:R * dot x v / lam x) g).
Proof.
move=> hx c0 D e0 De; have hc : in_ball (c 0) by rewrite c0.
have L := lam_derives hc D.
have l0 : lam (c 0) * lam (c 0) != 0 by rewrite c0 mulf_neq0 // lam_neq.
have := derives_scale I (derives_rinv (derives_rmul L L) l0) De.
rewrite c0 e0 => K; rewrite (_ : _ - _ = scale (- ((lam x ^+ 2 * dot x v * lam x + lam x * (lam x ^+ 2 * dot x v)) / (lam x * lam x) ^+ 2)) g + scale (lam x * lam x)^-1 h).
  by apply: derives_ext K => t; rewrite expr2.
apply: (dot_inj I) => w; rewrite (dotBl I) (dotDl I) !(dotZl I).
have /eqP := lam_neq hx; move: (lam x : R) (dot x v : R) (dot h w : R) (dot g w : R) => *; by Rify; field.
Qed.
(** ** Geodesics *)
Definition bsig x v (t : RR) : RR :=
  if v == 0 then t / (1 - n2 x) else (tanh (t * (norm v / (1 - n2 x)))%R : RR) / norm v.
Definition bvel x v (t : RR) : V :=
  let s := bsig x v t in
  scale ((1 - n2 v * s ^+ 2) / (1 + 2%:R * s * dot x v + s ^+ 2 * (n2 x * n2 v)) ^+ 2)
    (scale (2%:R * s * n2 v * (1 + s * dot x v)) x + scale (1 - s ^+ 2 * (n2 x * n2 v)) v).
Lemma bsig0 x v : bsig x v 0 = 0.
Proof. by rewrite /bsig !mul0r tanh_0 mul0r if_same. Qed.
Lemma bsig_lt1 x v t : 0 < 1 - n2 v * bsig x v t ^+ 2.
Proof.
rewrite /bsig; case: eqP => [->|/eqP v0]; first by rewrite (dot0l I) mul0r subr0 ltr01.
have n0 : norm v != 0 by rewrite (norm_eq0 I).
rewrite -(Geometry_Spec.norm_sqr I) -exprMn mulrCA mulfV // mulr1 expr2 subr_gt0.
by apply/RltPx; apply: tanh_lt1.
Qed.
Lemma bsig_derives x v t : in_ball x ->
  rderives (fun h => bsig x v (t + h)) ((1 - n2 v * bsig x v t ^+ 2) / (1 - n2 x)).
Proof.
move=> hx; have b0 := ball_neq0 hx; rewrite /bsig; case: eqP => [->|/eqP v0].
  rewrite (dot0l I) mul0r subr0.
  have := derives_line (@real_ips RR) (t / (1 - n2 x) : RR) (1 / (1 - n2 x)).
  by apply: derives_ext => h; rewrite /real_scale mulrDl mul1r.
have n0 : norm v != 0 by rewrite (norm_eq0 I).
pose q := norm v / (1 - n2 x).
have T : rderives (fun h => (tanh ((t + h) * q)%R : RR)) (q * (1 - (tanh (t * q)%R : RR) * tanh (t * q)%R))%R := derives_real (tanh_lim q t).
have := derives_rmul T (derives_const (@real_ips RR) (norm v)^-1); rewrite mulr0 addr0.
rewrite (_ : _ * (norm v)^-1 = (1 - n2 v * (tanh (t * (norm v / (1 - n2 x)))%R / norm v)%R ^+ 2) / (1 - n2 x)); last first.
  rewrite -(Geometry_Spec.norm_sqr I) -/q; move: b0 n0 => /eqP b0 /eqP n0.
  move: (tanh (t * q)%R) => T1; rewrite /q; move: b0 n0; move: (n2 x : R) (norm v : R) => a b; Rify => b0 n0; Rify; field; by [].
by apply: derives_ext.
Qed.
Lemma bexp_sig x v t : in_ball x -> bexp x (scale t v) = madd x (scale (bsig x v t) v).
Proof.
move=> hx; rewrite /bsig; case: eqP => [->|/eqP v0]; first by rewrite !(ipsZ0r I) bexp0 madd0.
have E q : scale q v = scale (q * norm v) (dirn v) by rewrite -(ipsZA I) -(dirnE v0).
have n0 : norm v != 0 by rewrite (norm_eq0 I).
rewrite !E bexp_geo ?dirn1 // mulfVK //; congr (madd x (scale (tanh _) _)).
by rewrite /lam -!mulrA; congr (_ * (_ * _)); rewrite [_^-1 * _]mulrC mulrA mulfV ?two0 // mul1r.
Qed.
(** the point as a combination of [x] and [v] *)
Lemma bexp_comb x v t : in_ball x -> let s := bsig x v t in
  let D := 1 + 2%:R * s * dot x v + s ^+ 2 * (n2 x * n2 v) in
  D <> 0%Re /\ 1 - n2 (bexp x (scale t v)) = (1 - n2 x) * (1 - n2 v * s ^+ 2) / D /\
  bexp x (scale t v) = scale ((1 + 2%:R * s * dot x v + s ^+ 2 * n2 v) / D) x + scale ((1 - n2 x) * s / D) v.
Proof.
move=> hx s D; have sb : in_ball (scale s v).
  by rewrite /in_ball (dotZl I) (dotZr I) mulrA -expr2 mulrC -subr_gt0 bsig_lt1.
have E : mden x (scale s v) = D by rewrite /mden /D !(dotZl I) !(dotZr I); mcring RR.
split; first by rewrite -E; apply: mden_neq.
rewrite bexp_sig // -/s madd_n2 // E; split; first by rewrite !(dotZl I) !(dotZr I) mulrA -expr2 [s ^+ 2 * _]mulrC.
by rewrite /madd E !(dotZl I) !(dotZr I); vring I RR.
Qed.

Lemma derives_comb (f g : RR -> RR) (f' g' : RR) x v : rderives f f' -> rderives g g' ->
  derives scale dot (fun h => scale (f h) x + scale (g h) v) (scale f' x + scale g' v).
Proof.
move=> Df Dg.
have := derives_add I (derives_scale I Df (derives_const I x)) (derives_scale I Dg (derives_const I v)).
by rewrite !(ipsZ0r I) !addr0.
Qed.
Lemma derives_cadd (a : RR) f f' : rderives f f' -> rderives (fun h => a + f h) f'.
Proof. by move=> D; have := derives_add (@real_ips RR) (derives_const (@real_ips RR) a) D; rewrite add0r. Qed.
Lemma derives_cmul (a : RR) f f' : rderives f f' -> rderives (fun h => a * f h) (a * f').
Proof. by move=> D; have := derives_rmul (derives_const (@real_ips RR) a) D; rewrite mul0r add0r. Qed.
Lemma bvel0 x v : bvel x v 0 = v.
Proof. by rewrite /bvel bsig0; rewrite !(mulr0, mul0r, expr0n, addr0, subr0) /= ?(mulr0, mul0r, addr0, subr0) expr1n invr1 mulr1; vring I RR. Qed.
Lemma bexp_velocity x v t : in_ball x -> derives scale dot (fun h => bexp x (scale (t + h) v)) (bvel x v t).
Proof.
move=> hx; have b0 := ball_neq0 hx.
have [d0 _] := bexp_comb v t hx; have S := bsig_derives v t hx.
set k := (1 - n2 v * _) / _ in S; set p := dot x v in d0; set a := n2 x in d0 b0 k S; set b := n2 v in d0 k S.
pose s h := bsig x v (t + h); have s0 : s 0 = bsig x v t by rewrite /s addr0.
have {}S : rderives s k by [].
have S2 : rderives (fun h => s h * s h) (k * s 0 + s 0 * k) := derives_rmul S S.
have SA : rderives (fun h => 1 + (2%:R * p * s h + b * (s h * s h))) _ :=
  derives_cadd 1 (derives_add (@real_ips RR) (derives_cmul (2%:R * p) S) (derives_cmul b S2)).
have SD : rderives (fun h => 1 + (2%:R * p * s h + a * b * (s h * s h))) _ :=
  derives_cadd 1 (derives_add (@real_ips RR) (derives_cmul (2%:R * p) S) (derives_cmul (a * b) S2)).
have D0 : 1 + (2%:R * p * s 0 + a * b * (s 0 * s 0)) != 0.
  apply/eqP; rewrite (_ : _ + _ = 1 + 2%:R * bsig x v t * p + bsig x v t ^+ 2 * (a * b)) // s0; mcring RR.
have := derives_comb x v (derives_rmul SA (derives_rinv SD D0)) (derives_rmul (derives_cmul (1 - a) S) (derives_rinv SD D0)).
rewrite (_ : (_ + _ : V) = bvel x v t); last first.
  rewrite /bvel s0 /k -/p -/a -/b; apply: (dot_inj I) => w; rewrite (dotDl I) !(dotZl I) (dotDl I) !(dotZl I).
  move: d0 b0 => d0 /eqP; move: d0; clearbody p a b; move: (bsig x v t : R) (dot x w : R) (dot v w : R) => r p1 p2.
  by clear -p; move: p a b => p a b; Rify => d0 b0; Rify; field.
apply: derives_ext => h; have [d1 [_ ->]] := bexp_comb v (t + h) hx; rewrite -/(s h) -/p -/a -/b in d1 *.
congr (scale _ x + scale _ v).
  by move: d1; clearbody p a b; move: (s h : R) => r; clear -p; move: p a b => p a b; Rify => d1; Rify; field.
by move: d1; clearbody p a b; move: (s h : R) => r; clear -p; move: p a b => p a b; Rify => d1; Rify; field.
Qed.

Lemma bvel_speed x v t : in_ball x -> lam (bexp x (scale t v)) ^+ 2 * n2 (bvel x v t) = lam x ^+ 2 * n2 v.
Proof.
move=> hx; have b0 := ball_neq hx; have [d0 [E _]] := bexp_comb v t hx; have S := bsig_lt1 x v t.
have s1 : 1 - n2 v * bsig x v t ^+ 2 != 0 by rewrite gt_eqF.
rewrite {1}/lam E /bvel !(dotZl I) !(dotZr I) bilin_l !bilin_r (dotC I v x) /lam {E S}.
move: s1 => /eqP; move: (bsig x v t : R) (dot x v : R) (n2 x : R) (n2 v : R) b0 d0 => s p a b; Rify => b0 d0 s1; Rify; field.
by [].
Qed.
Lemma bvel_acceleration x v t : in_ball x ->
  exists2 a, derives scale dot (fun h => bvel x v (t + h)) a & a + bgamma (bexp x (scale t v)) (bvel x v t) (bvel x v t) = 0.
Proof.
move=> hx; have b0 := ball_neq0 hx.
have [d0 [EN EC]] := bexp_comb v t hx; have S := bsig_derives v t hx; have s1 := lt0r_neq0 (bsig_lt1 x v t).
have LE : lam (bexp x (scale t v)) = 2%:R / ((1 - n2 x) * (1 - n2 v * bsig x v t ^+ 2) / (1 + 2%:R * bsig x v t * dot x v + bsig x v t ^+ 2 * (n2 x * n2 v))) by rewrite /lam EN.
rewrite /bgamma LE EC {EN EC LE}.
set k := (1 - n2 v * _) / _ in S.
have [s sE] : exists s, s = fun h => bsig x v (t + h) by eexists.
have s0 : bsig x v t = s 0 by rewrite sE addr0.
have {}S : rderives s k by rewrite sE.
have S2 : rderives (fun h => s h * s h) (k * s 0 + s 0 * k) := derives_rmul S S.
set p := dot x v in d0 *; set a := n2 x in d0 b0 k S S2 *; set b := n2 v in s1 d0 k S S2 *.
have SD : rderives (fun h => 1 + (2%:R * p * s h + a * b * (s h * s h))) _ :=
  derives_cadd 1 (derives_add (@real_ips RR) (derives_cmul (2%:R * p) S) (derives_cmul (a * b) S2)).
have SU : rderives (fun h => 1 + (- b) * (s h * s h)) _ := derives_cadd 1 (derives_cmul (- b) S2).
have SX : rderives (fun h => 2%:R * b * (s h + p * (s h * s h))) _ :=
  derives_cmul (2%:R * b) (derives_add (@real_ips RR) S (derives_cmul p S2)).
have SV : rderives (fun h => 1 + (- (a * b)) * (s h * s h)) _ := derives_cadd 1 (derives_cmul (- (a * b)) S2).
have D0 : 1 + (2%:R * p * s 0 + a * b * (s 0 * s 0)) != 0.
  apply/eqP; rewrite (_ : _ + _ = 1 + 2%:R * bsig x v t * p + bsig x v t ^+ 2 * (a * b)) // s0; mcring RR.
have SI := derives_rinv SD D0; have SQ := derives_rmul SU (derives_rmul SI SI).
have SF := derives_comb x v (derives_rmul SQ SX) (derives_rmul SQ SV).
eexists; first by apply: derives_ext SF => h; rewrite /bvel -[bsig x v (t + h)]/((fun h => bsig x v (t + h)) h) -sE -/p -/a -/b;
  set D := 1 + (_ + _); have -> : 1 + 2%:R * s h * p + s h ^+ 2 * (a * b) = D; [by rewrite /D; mcring RR|];
  rewrite !(ipsZDr I) !(ipsZA I) -exprVn; congr (scale _ x + scale _ v); mcring RR.
rewrite /bvel s0 /k -/p -/a -/b s0 in d0 s1 *.
apply: (dot_inj I) => w; rewrite (dot0l I).
rewrite !(dotDl I, dotNl I, dotZl I, dotDr I, dotNr I, dotZr I) (dotC I v x) -/p -/a -/b.
move: d0 s1 b0 => d0 /eqP s1 /eqP; move: d0 s1; clearbody p a b; move: (s 0 : R) (dot x w : R) (dot v w : R) => r p1 p2.
by clear -p; move: p a b => p a b; Rify => d0 s1 b0; Rify; field.
Qed.
End Ball.
