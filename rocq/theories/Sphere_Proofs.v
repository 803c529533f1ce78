(** The unit sphere of an inner product space over the reals. *)
From Coq Require Import Reals Lra Psatz.
From mathcomp Require Import all_ssreflect all_algebra.
From Coq Require Import Ring Field.
From Verif Require Import Rstruct MCRing Mat_Base Geometry_Spec Calculus Sphere_Model.
Set Implicit Arguments.
Unset Strict Implicit.
Unset Printing Implicit Defensive.
Import GRing.Theory Num.Theory Order.TTheory.
Local Open Scope ring_scope.
Delimit Scope R_scope with Re.

(** ** Real functions *)
Lemma PI_neq0' : (PI : RR) != 0. Proof. by apply/eqP; apply: PI_neq0. Qed.
Lemma np_sincE (a : RR) : a * np_sinc (a / PI) = sin a.
Proof.
rewrite /np_sinc mulf_eq0 invr_eq0 (negbTE PI_neq0') orbF.
have [->|a0] := eqVneq a 0; first by rewrite mul0r; symmetry; apply: sin_0.
have -> : PI * (a / PI) = a by rewrite mulrC mulfVK // PI_neq0'.
have -> : Rmult PI (a / PI)%R = a by rewrite RmultE mulrC mulfVK // PI_neq0'.
by rewrite mulrC mulfVK.
Qed.
Lemma np_sinc0 : np_sinc 0 = 1. Proof. by rewrite /np_sinc eqxx. Qed.
Lemma cos2sin2 (a : RR) : (cos a : RR) ^+ 2 + (sin a : RR) ^+ 2 = 1.
Proof. by have := sin2_cos2 a; rewrite /Rsqr => H; Rify; lra. Qed.
Lemma one_minus_cos (a : R) : (0 <= 1 - cos a <= a ^ 2 / 2)%Re.
Proof.
have -> : (1 - cos a = 2 * (sin (a / 2) * sin (a / 2)))%Re.
  have -> : (a = 2 * (a / 2))%Re by field.
  rewrite cos_2a_sin (_ : 2 * (a / 2) / 2 = a / 2)%Re; first by ring.
  by field.
have H (x : R) : (0 <= x -> sin x * sin x <= x * x)%Re.
  move=> x0; case: (Rle_lt_dec x 1) => x1.
    have [x00|x00] := Req_EM_T x 0%Re; first by rewrite x00 sin_0; lra.
    have P1 := PI2_1; have L : (sin x < x)%Re by apply: sin_lt_x; lra.
    have G : (0 <= sin x)%Re by apply: sin_ge_0; lra.
    nra.
  have := SIN_bound x; nra.
have G : (sin (a / 2) * sin (a / 2) <= a / 2 * (a / 2))%Re.
  case: (Rle_lt_dec 0 (a / 2)) => a0; first exact: H.
  have := H (- (a / 2))%Re; rewrite sin_neg; nra.
by split; nra.
Qed.
Lemma sin_cubic (a : R) : (0 <= a <= 1 -> a - a ^ 3 / 6 <= sin a <= a)%Re.
Proof.
move=> [a0 a1]; have P1 := PI2_1.
have [L _] : (sin_approx a (2 * 0 + 1) <= sin a <= sin_approx a (2 * (0 + 1)))%Re by apply: sin_bound; lra.
split.
  by move: L; rewrite /sin_approx /sin_term /=; lra.
have [->|H] := Req_EM_T a 0%Re; first by rewrite sin_0; lra.
by apply: Rlt_le; apply: sin_lt_x; lra.
Qed.
(** 1-Lipschitz *)
Lemma derives_real (f : R -> R) t l : derivable_pt_lim f t l ->
  derives (@real_scale RR) (@real_dot RR) (fun h => f (t + h)) l.
Proof.
move=> H e e0; have [[r r0] K] := H e (RltPx _ _ e0).
exists (r / 2)%Re; first by apply/RltPx; Rify; lra.
move=> h hr; rewrite norm_real /real_scale addr0.
have [->|h0] := eqVneq h 0; first by rewrite addr0 subrr mul0r subr0 normr0 mulr0.
have h0' : h <> 0%Re by apply/eqP.
have {}hr : (Rabs h < r)%Re by Rify_in hr; simpl; lra.
have {}K := K h h0' hr; Rify.
have -> : (f (t + h) - f t - h * l = h * ((f (t + h) - f t) / h - l))%Re by field.
rewrite Rabs_mult [X in Rle _ X]Rmult_comm; apply: Rmult_le_compat_l; [exact: Rabs_pos|exact: Rlt_le].
Qed.

Section Sphere.
Variables (V : zmodType) (scale : RR -> V -> V) (dot : V -> V -> RR).
Hypothesis I : inner_product_on scale everywhere dot.
Add Ring RR_ring : (mc_ring RR).
Local Notation norm := (norm_of dot).
Implicit Types x y z v w : V.
Definition uproj x v := v - scale (dot x v) x.
Definition uexp x v := scale (cos (norm v)) x + scale (np_sinc (norm v / PI)) v.
Definition unormalize v := scale (norm v)^-1 v.

Lemma dot_unit x y : dot x x = 1 -> dot y y = 1 -> (-1 <= dot x y <= 1)%Re.
Proof.
move=> hx hy; have := cauchy_schwarz_sqr I x y; rewrite hx hy mulr1 => H.
by Rify_in H; split; nra.
Qed.
Lemma clamp1_id (c : RR) : (-1 <= c <= 1)%Re -> clamp1 c = c.
Proof.
move=> [H1 H2]; rewrite /clamp1 min_l ?max_l //; Rify; lra.
Qed.
(** angle *)
Lemma angle_unique (c d : RR) : (0 <= d <= PI)%Re -> cos d = c -> acos c = d.
Proof. by move=> H <-; apply: acos_cos. Qed.
Lemma acos_le (a b : R) : (-1 <= a)%Re -> (a <= b)%Re -> (b <= 1)%Re -> (acos b <= acos a)%Re.
Proof.
move=> H1 H2 H3; case: (Rle_lt_dec (acos b) (acos a)) => // H.
have B1 := acos_bound a; have B2 := acos_bound b.
have := cos_decreasing_1 (acos a) (acos b); rewrite !cos_acos; lra.
Qed.
Lemma cos_angle x y : dot x x = 1 -> dot y y = 1 -> cos (acos (dot x y)) = dot x y.
Proof. by move=> hx hy; apply: cos_acos; apply: dot_unit. Qed.
Lemma uproj_sqr x y : dot x x = 1 -> dot y y = 1 -> dot (uproj x y) (uproj x y) = 1 - dot x y ^+ 2.
Proof.
move=> hx hy; rewrite /uproj (dotBl I) !(dotBr I) !(dotZl I) !(dotZr I) hx hy (dotC I y x); mcring RR.
Qed.
Lemma uproj_norm x y : dot x x = 1 -> dot y y = 1 -> norm (uproj x y) = sin (acos (dot x y)).
Proof.
move=> hx hy; rewrite sin_acos; last exact: dot_unit.
by rewrite /norm_of uproj_sqr // RsqrtE; congr sqrt; rewrite /Rsqr; Rify; ring.
Qed.
Lemma uproj_tangent x v : dot x x = 1 -> dot x (uproj x v) = 0.
Proof. by move=> hx; rewrite (dotBr I) (dotZr I) hx mulr1 subrr. Qed.
Lemma uproj_cross x y z : dot y y = 1 -> dot (uproj y x) (uproj y z) = dot x z - dot x y * dot y z.
Proof.
move=> hy; rewrite /uproj (dotBl I) !(dotBr I) !(dotZl I) !(dotZr I) hy (dotC I x y); mcring RR.
Qed.
Lemma angle_triangle x y z : dot x x = 1 -> dot y y = 1 -> dot z z = 1 ->
  (acos (dot x z) <= acos (dot x y) + acos (dot y z))%Re.
Proof.
move=> hx hy hz.
have B1 := acos_bound (dot x y); have B2 := acos_bound (dot y z); have B3 := acos_bound (dot x z).
case: (Rle_lt_dec PI (acos (dot x y) + acos (dot y z))) => H; first lra.
rewrite -[X in (_ <= X)%Re](acos_cos (_ + _)); last lra.
apply: acos_le; [have := COS_bound (acos (dot x y) + acos (dot y z)); lra | | by have := dot_unit hx hz; lra].
rewrite cos_plus !cos_angle // (dotC I x y) -!uproj_norm // (dotC I y x).
have := cauchy_schwarz I (uproj y x) (uproj y z); rewrite uproj_cross // => K; Rify_in K.
have := Rabs_def2 _ _ (Rle_lt_trans _ _ _ K (Rlt_plus_1 _)).
have L := Rle_abs (- (dot x z - dot x y * dot y z)); rewrite Rabs_Ropp in L.
lra.
Qed.
Lemma angle_eq0 x y : dot x x = 1 -> dot y y = 1 -> (acos (dot x y) = 0 <-> x = y).
Proof.
move=> hx hy; split; last by move=> ->; rewrite hy; apply: acos_1.
move=> H; have := cos_angle hx hy; rewrite H cos_0 => /esym E.
apply/eqP; rewrite -subr_eq0 -(dot_eq0 I) (dotBl I) !(dotBr I) hx hy (dotC I y x) E.
by apply/eqP; Rify; ring.
Qed.
(** ** The exponential map *)
Lemma norm_unit x : dot x x = 1 -> norm x = 1. Proof. by rewrite /norm_of => ->; rewrite sqrtr1. Qed.
Lemma uexp0 x : uexp x 0 = x.
Proof. by rewrite /uexp (norm0 I) mul0r np_sinc0 (ipsZ0r I) addr0 cos_0 (ipsZ1 I). Qed.
Lemma uexp_dot x v : dot x x = 1 -> dot x v = 0 -> dot x (uexp x v) = cos (norm v).
Proof. by move=> hx hv; rewrite (dotDr I) !(dotZr I) hx hv mulr0 mulr1 addr0. Qed.
Lemma uexp_unit x v : dot x x = 1 -> dot x v = 0 -> dot (uexp x v) (uexp x v) = 1.
Proof.
move=> hx hv; rewrite (dotDl I) !(dotDr I) !(dotZl I) !(dotZr I) hx (dotC I v x) hv -(norm_sqr I v).
have := cos2sin2 (norm v); rewrite -np_sincE => E; rewrite -[RHS]E; mcring RR.
Qed.
Lemma uexp_angle x v : dot x x = 1 -> dot x v = 0 -> (norm v <= PI)%Re -> acos (dot x (uexp x v)) = norm v.
Proof.
move=> hx hv H; rewrite uexp_dot // acos_cos //; split=> //.
by apply/RlePx; apply: (norm_ge0 dot).
Qed.
Lemma uexp_quadratic x v : dot x x = 1 -> norm v <= 1 -> norm (uexp x v - (x + v)) <= 1 * norm v ^+ 2.
Proof.
move=> hx v1; set a := norm v.
have a0 : 0 <= a := norm_ge0 dot v.
have -> : uexp x v - (x + v) = scale (cos a - 1) x + scale (np_sinc (a / PI) - 1) v by rewrite /uexp -/a; vring I RR.
apply: le_trans (normD I _ _) _; rewrite !(normZ I) (norm_unit hx) mulr1 -/a.
have -> : `|np_sinc (a / PI) - 1| * a = `|sin a - a|.
  by rewrite -{2}(ger0_norm a0) -normrM mulrBl mulrC np_sincE mul1r.
Rify_in a0; rewrite -/a in v1; Rify_in v1; Rify.
have := one_minus_cos a; have := sin_cubic (conj a0 v1) => H1 H2.
rewrite !Rabs_left1; nra.
Qed.
(** ** Normalisation *)
Lemma unormalize_unit v : v != 0 -> dot (unormalize v) (unormalize v) = 1.
Proof.
move=> v0; rewrite /unormalize (dotZl I) (dotZr I) -(norm_sqr I v).
have N : norm v != 0 by rewrite (norm_eq0 I).
by rewrite expr2 mulKf // mulVf.
Qed.
Lemma add_tangent_neq0 x v : dot x x = 1 -> dot x v = 0 -> x + v != 0.
Proof.
move=> hx hv; apply/eqP => H; have := dotDr I x x v; rewrite H (dot0r I) hx hv addr0 => /eqP.
by rewrite eq_sym oner_eq0.
Qed.
Lemma unormalize_quadratic x v : dot x x = 1 -> dot x v = 0 ->
  norm (unormalize (x + v) - (x + v)) <= 1 * norm v ^+ 2.
Proof.
move=> hx hv; set n := norm (x + v).
have E : n ^+ 2 = 1 + norm v ^+ 2.
  by rewrite /n !(norm_sqr I) (dotDl I) !(dotDr I) hx (dotC I v x) hv addr0 add0r.
have n0 : 0 <= n := norm_ge0 dot _.
have a0 : 0 <= norm v := norm_ge0 dot _.
have n1 : (1 <= n)%Re by Rify_in E; Rify_in n0; Rify_in a0; nra.
have nn : n != 0 by apply/eqP; Rify; lra.
have -> : unormalize (x + v) - (x + v) = scale (n^-1 - 1) (x + v) by rewrite /unormalize -/n; vring I RR.
rewrite (normZ I) -/n -{2}(ger0_norm n0) -normrM mulrBl mulVf // mul1r mul1r.
Rify_in E; Rify; rewrite Rabs_left1; nra.
Qed.
(** normalisation of the sum of two points *)
Lemma pair_mean_cos x y : dot x x = 1 -> dot y y = 1 -> x + y != 0 ->
  dot x (unormalize (x + y)) = cos (acos (dot x y) / 2).
Proof.
move=> hx hy h; set c := dot x y; have B := dot_unit hx hy; rewrite -/c in B.
have E : dot (x + y) (x + y) = 2%:R * (1 + c).
  by rewrite (dotDl I) !(dotDr I) hx hy (dotC I y x) -/c; Rify; ring.
have p : 0 < dot (x + y) (x + y) by apply: (dot_gt0 I).
have c1 : (0 < 1 + c)%Re by rewrite E in p; Rify_in p; lra.
rewrite /unormalize (dotZr I) (dotDr I) hx -/c /norm_of E.
have B2 := acos_bound c.
have P0 := PI_RGT_0.
have C0 : (0 <= cos (acos c / 2))%Re by apply: cos_ge_0; lra.
have S : (cos (acos c / 2) * cos (acos c / 2) = (1 + c) / 2)%Re.
  have := cos_2a_cos (acos c / 2); rewrite (_ : 2 * (acos c / 2) = acos c)%Re; last by field.
  by rewrite cos_acos // => H; lra.
rewrite -(sqrt_square (cos (acos c / 2))) // S.
have n0 : Num.sqrt (2%:R * (1 + c) : RR) <> 0%Re.
  by apply/eqP; rewrite sqrtr_eq0 -ltNge; apply/RltPx; Rify; lra.
apply: (Rmult_eq_reg_l _ _ _ _ n0).
have -> : (Num.sqrt (2%:R * (1 + c)) * GRing.mul (GRing.inv (Num.sqrt (2%:R * (1 + c) : RR))) (1 + c) = 1 + c)%Re.
  by rewrite RmultE mulVKf //; apply/eqP.
rewrite RsqrtE -sqrt_mult; [|Rify; lra|lra].
have -> : (GRing.mul 2%:R (1 + c)%R * ((1 + c) / 2) = (1 + c) * (1 + c))%Re by Rify; field.
by rewrite sqrt_square //; lra.
Qed.
Lemma pair_mean_angle x y : dot x x = 1 -> dot y y = 1 -> x + y != 0 ->
  acos (dot x (unormalize (x + y))) = (acos (dot x y) / 2)%Re.
Proof.
move=> hx hy h; rewrite pair_mean_cos // acos_cos //.
by have := acos_bound (dot x y); have := PI_RGT_0; lra.
Qed.
(** ** Logarithm *)
Definition ulog (e : RR) x y :=
  let v := uproj x (y - x) in scale ((acos (dot x y) + e) / (norm v + e)) v.
Lemma uproj_self x y : dot x x = 1 -> uproj x (y - x) = uproj x y.
Proof. by move=> hx; rewrite /uproj (dotBr I) hx; vring I RR. Qed.
Lemma ulog_tangent e x y : dot x x = 1 -> dot x (ulog e x y) = 0.
Proof. by move=> hx; rewrite (dotZr I) uproj_tangent // mulr0. Qed.
Lemma angle_sin_ge0 c : (0 <= sin (acos c))%Re.
Proof. by have := acos_bound c; move=> [? ?]; apply: sin_ge_0. Qed.
Lemma ulog_norm e x y : dot x x = 1 -> dot y y = 1 -> 0 < e -> let d := acos (dot x y) in
  norm (ulog e x y) = ((d + e) / (sin d + e) * sin d)%Re.
Proof.
move=> hx hy e0 d; rewrite /ulog uproj_self // (normZ I) uproj_norm // -/d.
have s0 := angle_sin_ge0 (dot x y); rewrite -/d in s0.
have [d0 _] := acos_bound (dot x y); rewrite -/d in d0.
Rify_in e0; Rify; rewrite Rabs_pos_eq //.
by apply: Rmult_le_pos; [lra|apply: Rlt_le; apply: Rinv_0_lt_compat; lra].
Qed.
Lemma sin_le_self (d : R) : (0 <= d)%Re -> (sin d <= d)%Re.
Proof.
case=> [d0|<-]; last by rewrite sin_0; lra.
by apply: Rlt_le; apply: sin_lt_x.
Qed.
(** the norm of the logarithm is below the angle by this much *)
Lemma ulog_defect e x y : dot x x = 1 -> dot y y = 1 -> 0 < e -> let d := acos (dot x y) in
  (d - norm (ulog e x y) = e * (d - sin d) / (sin d + e))%Re.
Proof.
move=> hx hy e0 d; rewrite ulog_norm // -/d.
have s0 := angle_sin_ge0 (dot x y); rewrite -/d in s0; Rify_in e0.
by field; lra.
Qed.
Lemma chord (a b : R) : ((cos a - cos b) * (cos a - cos b) + (sin a - sin b) * (sin a - sin b) <= (a - b) * (a - b))%Re.
Proof.
have := one_minus_cos (a - b); rewrite cos_minus.
have := sin2_cos2 a; have := sin2_cos2 b; rewrite /Rsqr; nra.
Qed.
Lemma uexp_ulog e x y : dot x x = 1 -> dot y y = 1 -> 0 < e -> let d := acos (dot x y) in
  (norm (uexp x (ulog e x y) - y) <= e * (d - sin d) / (sin d + e))%Re.
Proof.
move=> hx hy e0 d.
have s0 := angle_sin_ge0 (dot x y); rewrite -/d in s0.
have [d0 d1] := acos_bound (dot x y); rewrite -/d in d0 d1.
have e0' := e0; Rify_in e0'.
set w := ulog e x y; set L := norm w.
have D : (d - L = e * (d - sin d) / (sin d + e))%Re by rewrite /L /w ulog_defect.
rewrite -D.
have Ld : (L <= d)%Re.
  have : (0 <= e * (d - sin d) / (sin d + e))%Re; last lra.
  have := sin_le_self d0 => H.
  apply: Rmult_le_pos; first by apply: Rmult_le_pos; lra.
  by apply: Rlt_le; apply: Rinv_0_lt_compat; lra.
have E : dot (uexp x w - y) (uexp x w - y) = 2%:R - 2%:R * dot (uexp x w) y.
  rewrite (dotBl I) !(dotBr I) uexp_unit ?ulog_tangent // hy (dotC I y); mcring RR.
have G : dot w y = L * sin d.
  rewrite /L ulog_norm // -/d /w /ulog uproj_self // (dotZl I) uproj_norm // -/d.
  have -> : dot (uproj x y) y = (sin d * sin d)%Re.
    rewrite -(uproj_norm hx hy) RmultE -expr2 (norm_sqr I).
    by rewrite {3}/uproj (dotBr I) (dotZr I) (dotC I _ x) uproj_tangent // mulr0 subr0.
  by Rify; rewrite /Rdiv; ring.
have F : dot (uexp x w) y = cos (L - d).
  rewrite cos_minus cos_angle // /uexp (dotDl I) 2!(dotZl I) G -/L; congr (_ + _).
  rewrite -[in RHS]np_sincE; Rify; ring.
have K : (norm (uexp x w - y) * norm (uexp x w - y) <= (d - L) * (d - L))%Re.
  have -> : (norm (uexp x w - y) * norm (uexp x w - y) = 2 - 2 * cos (L - d))%Re.
    by rewrite RmultE -expr2 (norm_sqr I) E F; Rify; ring.
  by have := one_minus_cos (L - d); nra.
have n0 := norm_ge0 dot (uexp x w - y); Rify_in n0.
by apply: Rsqr_incr_0_var => //; lra.
Qed.
(** the logarithm is exact only for equal points *)
Lemma uexp_ulog_exact e x y : dot x x = 1 -> dot y y = 1 -> 0 < e -> uexp x (ulog e x y) = y -> x = y.
Proof.
move=> hx hy e0 H; apply/(angle_eq0 hx hy).
have [d0 d1] := acos_bound (dot x y).
have s0 := angle_sin_ge0 (dot x y).
have D := ulog_defect hx hy e0; have := uexp_dot hx (ulog_tangent e y hx); rewrite H => C.
move: D; cbv zeta; set d := acos (dot x y) in d0 d1 s0 C *; set L := norm _ => D.
have {}C : cos L = cos d by rewrite /d cos_angle.
have [//|d0'] := Req_EM_T d 0%Re; exfalso.
have sd : (sin d < d)%Re by apply: sin_lt_x; lra.
Rify_in e0.
have : (0 < d - L)%Re.
  rewrite D; apply: Rmult_lt_0_compat; first by apply: Rmult_lt_0_compat; lra.
  by apply: Rinv_0_lt_compat; lra.
have L0 : (0 <= L)%Re by apply/RlePx; apply: (norm_ge0 dot).
move=> Ld; have := cos_decreasing_1 L d; lra.
Qed.
Lemma ulog_self e x : dot x x = 1 -> ulog e x x = 0.
Proof. by move=> hx; rewrite /ulog subrr /uproj (dot0r I); vring I RR. Qed.
(** ** The curves of the exponential map are geodesics *)
Definition uvel x v (t : RR) : V := scale (- (norm v * sin (t * norm v)%R)) x + scale (cos (t * norm v)%R) v.
Lemma uexp_curve x v t : v != 0 -> uexp x (scale t v) = scale (cos (t * norm v)%R) x +
  scale (sin (t * norm v)%R / norm v) v.
Proof.
move=> v0; have n0 : norm v != 0 by rewrite (norm_eq0 I).
rewrite /uexp (normZ I) (ipsZA I); move: (norm v) n0 => a n0.
have C (s : RR) : cos (`|s| * a)%R = cos (s * a)%R.
  case: (ler0P s) => // s0; rewrite mulNr; exact: cos_neg.
rewrite C; congr (_ + scale _ _).
apply: (mulIf n0); rewrite mulfVK // -mulrA.
case: (ler0P t) => t0; last by rewrite mulrC np_sincE.
transitivity (- ((- t * a) * np_sinc (- t * a / PI))); first by mcring RR.
by rewrite np_sincE mulNr; have /= -> := sin_neg (t * a)%R; apply: opprK.
Qed.
Lemma lin_lim (a t : R) : derivable_pt_lim (fun s => s * a)%Re t a.
Proof.
move=> e e0; exists (mkposreal 1 Rlt_0_1) => h h0 _.
by rewrite (_ : ((t + h) * a - t * a) / h - a = 0)%Re ?Rabs_R0 //; field.
Qed.
Lemma cos_lin (a t : R) : derivable_pt_lim (fun s => cos (s * a)) t (- (a * sin (t * a)))%Re.
Proof.
have H := derivable_pt_lim_comp (fun s => s * a)%Re cos t _ _ (lin_lim a t) (derivable_pt_lim_cos _).
by move: H; rewrite /comp (_ : - sin (t * a) * a = - (a * sin (t * a)))%Re //; ring.
Qed.
Lemma sin_lin (a t : R) : derivable_pt_lim (fun s => sin (s * a)) t (a * cos (t * a))%Re.
Proof.
have H := derivable_pt_lim_comp (fun s => s * a)%Re sin t _ _ (lin_lim a t) (derivable_pt_lim_sin _).
by move: H; rewrite /comp (_ : cos (t * a) * a = a * cos (t * a))%Re //; ring.
Qed.
Lemma scal_lim (f : R -> R) c t l : derivable_pt_lim f t l -> derivable_pt_lim (fun s => c * f s)%Re t (c * l)%Re.
Proof. exact: derivable_pt_lim_scal. Qed.
(** real multiples of fixed vectors *)
Lemma derives_two (f g : R -> R) f' g' t u v : derivable_pt_lim f t f' -> derivable_pt_lim g t g' ->
  derives scale dot (fun h => scale (f (t + h)) u + scale (g (t + h)) v) (scale f' u + scale g' v).
Proof.
move=> H H'; have := derives_add I (derives_scale I (derives_real H) (derives_const I u)) (derives_scale I (derives_real H') (derives_const I v)).
by rewrite !(ipsZ0r I) !addr0.
Qed.
Lemma uexp_velocity x v t : derives scale dot (fun h => uexp x (scale (t + h) v)) (uvel x v t).
Proof.
have [->|v0] := eqVneq v 0.
  have -> : uvel x 0 t = 0 by rewrite /uvel (norm0 I) mul0r oppr0; vring I RR.
  by apply: (derives_ext _ (derives_const I x)) => h; rewrite (ipsZ0r I) uexp0.
have n0 : norm v != 0 by rewrite (norm_eq0 I).
apply: (derives_ext (c := fun h => scale (cos ((t + h) * norm v)%R) x + scale (Rmult (norm v)^-1 (sin ((t + h) * norm v)%R)) v)).
  by move=> h; rewrite uexp_curve //; congr (_ + scale _ _); rewrite RmultE mulrC.
have -> : uvel x v t = scale (- (norm v * sin (t * norm v)))%Re x + scale ((norm v)^-1 * (norm v * cos (t * norm v)))%Re v.
  by congr (_ + scale _ _); rewrite RmultE RmultE mulKf.
exact: (derives_two x v (cos_lin (norm v) t) (scal_lim _ (sin_lin (norm v) t))).
Qed.
Lemma uexp_acceleration x v t : derives scale dot (fun h => uvel x v (t + h)) (scale (- (norm v ^+ 2)) (uexp x (scale t v))).
Proof.
have [->|v0] := eqVneq v 0.
  have -> : scale (- norm 0 ^+ 2) (uexp x (scale t 0)) = 0 by rewrite (norm0 I) expr0n oppr0 (ipsZ0l I).
  by apply: (derives_ext _ (derives_const I 0)) => h; rewrite /uvel (norm0 I) mul0r oppr0; vring I RR.
have n0 : norm v != 0 by rewrite (norm_eq0 I).
apply: (derives_ext (c := fun h => scale (Rmult (- norm v) (sin ((t + h) * norm v)%R)) x + scale (cos ((t + h) * norm v)%R) v)).
  by move=> h; rewrite /uvel; congr (scale _ _ + _); rewrite RmultE mulNr.
have -> : scale (- (norm v ^+ 2)) (uexp x (scale t v)) =
  scale (- norm v * (norm v * cos (t * norm v)))%Re x + scale (- (norm v * sin (t * norm v)))%Re v.
  rewrite uexp_curve // (ipsZDr I) !(ipsZA I); congr (scale _ _ + scale _ _); first by Rify; ring.
  have n1 : norm v <> 0%Re by apply/eqP.
  by Rify; field.
exact: (derives_two x v (scal_lim _ (sin_lin (norm v) t)) (cos_lin (norm v) t)).
Qed.
Lemma uvel_norm x v t : dot x x = 1 -> dot x v = 0 -> dot (uvel x v t) (uvel x v t) = dot v v.
Proof.
move=> hx hv; rewrite /uvel (dotDl I) !(dotDr I) !(dotZl I) !(dotZr I) hx (dotC I v x) hv -(norm_sqr I v).
set c : RR := cos _; set s : RR := sin _.
have E : c ^+ 2 + s ^+ 2 = 1 by apply: cos2sin2.
transitivity (norm v ^+ 2 * (c ^+ 2 + s ^+ 2)); last by rewrite E mulr1.
mcring RR.
Qed.
Lemma uvel0 x v : uvel x v 0 = v.
Proof. by rewrite /uvel mul0r sin_0 cos_0 mulr0 oppr0 (ipsZ0l I) add0r (ipsZ1 I). Qed.
End Sphere.
