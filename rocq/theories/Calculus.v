(** Derivatives of curves in inner product spaces over a real closed field, by epsilon and delta. *)
From mathcomp Require Import all_ssreflect all_algebra.
From Coq Require Import Ring Field.
From Verif Require Import MCRing Mat_Base Geometry_Spec.
Set Implicit Arguments.
Unset Strict Implicit.
Unset Printing Implicit Defensive.
Import GRing.Theory Num.Theory Order.TTheory.
Local Open Scope ring_scope.

(** [d] is the derivative of the curve [c] at [0]. *)
Definition derives (R : rcfType) (V : zmodType) (scale : R -> V -> V) (dot : V -> V -> R) (c : R -> V) (d : V) :=
  forall e : R, 0 < e -> exists2 r : R, 0 < r &
    forall t, `|t| <= r -> norm_of dot (c t - c 0 - scale t d) <= e * `|t|.

Section Scale.
Variables (R : rcfType) (V : zmodType) (scale : R -> V -> V) (dot : V -> V -> R).
Hypothesis I : inner_product_on scale everywhere dot.
Implicit Types u v w : V.
Lemma dot_inj u v : (forall w, dot u w = dot v w) -> u = v.
Proof.
move=> H; apply/eqP; rewrite -subr_eq0 -(dot_eq0 I) (dotBl I) H subrr; exact: eqxx.
Qed.
Lemma ipsZDl a b u : scale (a + b) u = scale a u + scale b u.
Proof. by apply: dot_inj => w; rewrite (dotDl I) !(dotZl I) mulrDl. Qed.
Lemma ipsZDr a u v : scale a (u + v) = scale a u + scale a v.
Proof. by apply: dot_inj => w; rewrite (dotDl I) !(dotZl I) (dotDl I) mulrDr. Qed.
Lemma ipsZA a b u : scale a (scale b u) = scale (a * b) u.
Proof. by apply: dot_inj => w; rewrite !(dotZl I) mulrA. Qed.
Lemma ipsZ1 u : scale 1 u = u.
Proof. by apply: dot_inj => w; rewrite (dotZl I) mul1r. Qed.
Lemma ipsZ0l u : scale 0 u = 0.
Proof. by apply: dot_inj => w; rewrite (dotZl I) (dot0l I) mul0r. Qed.
Lemma ipsZ0r a : scale a 0 = 0.
Proof. by apply: dot_inj => w; rewrite (dotZl I) (dot0l I) mulr0. Qed.
Lemma ipsZN a u : scale a (- u) = - scale a u.
Proof. by apply: dot_inj => w; rewrite (dotZl I) !(dotNl I) (dotZl I) mulrN. Qed.
Lemma ipsNZ a u : scale (- a) u = - scale a u.
Proof. by apply: dot_inj => w; rewrite (dotZl I) !(dotNl I) (dotZl I) mulNr. Qed.
Lemma ipsZB a u v : scale a (u - v) = scale a u - scale a v.
Proof. by rewrite ipsZDr ipsZN. Qed.
Lemma normD3 u v w : norm_of dot (u + v + w) <= norm_of dot u + norm_of dot v + norm_of dot w.
Proof. by apply: le_trans (normD I _ _) _; rewrite ler_add2r; apply: (normD I). Qed.
End Scale.

(** Decides linear identities in an inner product space over [R], by pairing with every vector. *)
Ltac vring I R := apply: (dot_inj I) => ?; rewrite ?(dotDl I, dotBl I, dotNl I, dotZl I, dot0l I); mcring R.

Section Rules.
Variables (R : rcfType).
Variables (V : zmodType) (scale : R -> V -> V) (dot : V -> V -> R).
Hypothesis I : inner_product_on scale everywhere dot.
Local Notation norm := (norm_of dot).
Local Notation derives := (derives scale dot).
Add Ring R_ring : (mc_ring R).

Lemma derives_const x : derives (fun _ => x) 0.
Proof.
move=> e e0; exists 1; first exact: ltr01.
move=> t _; rewrite (ipsZ0r I) subr0 subrr (norm0 I).
by rewrite mulr_ge0 ?normr_ge0 // ltW.
Qed.
Lemma derives_line x v : derives (fun t => x + scale t v) v.
Proof.
move=> e e0; exists 1; first exact: ltr01.
move=> t _; have -> : x + scale t v - (x + scale 0 v) - scale t v = 0 by vring I R.
by rewrite (norm0 I) mulr_ge0 ?normr_ge0 // ltW.
Qed.
Lemma derives_add c d c' d' : derives c d -> derives c' d' -> derives (fun t => c t + c' t) (d + d').
Proof.
move=> H H' e e0; have e2 : 0 < e / 2%:R by rewrite divr_gt0 // ltr0n.
have [r r0 Hr] := H _ e2; have [r' r0' Hr'] := H' _ e2.
exists (Num.min r r'); first by rewrite lt_minr r0 r0'.
move=> t; rewrite le_minr => /andP[t1 t2].
have -> : c t + c' t - (c 0 + c' 0) - scale t (d + d') = (c t - c 0 - scale t d) + (c' t - c' 0 - scale t d').
  by vring I R.
apply: le_trans (normD I _ _) _.
rewrite [e](_ : e = e / 2%:R + e / 2%:R) ?mulrDl ?ler_add ?Hr ?Hr' //.
by rewrite -mulr2n -mulr_natr mulfVK // pnatr_eq0.
Qed.
Lemma derives_lipschitz c d : derives c d -> exists2 K : R, 0 <= K & exists2 r : R, 0 < r &
  forall t, `|t| <= r -> norm (c t - c 0) <= K * `|t|.
Proof.
move=> /(_ 1 ltr01)[r r0 H]; exists (1 + norm d); first by rewrite addr_ge0 ?ler01 // (norm_ge0 dot).
exists r => // t /H Ht; have -> : c t - c 0 = (c t - c 0 - scale t d) + scale t d by rewrite subrK.
apply: le_trans (normD I _ _) _; rewrite mulrDl ler_add // (normZ I) mulrC; exact: lexx.
Qed.
Lemma derives_unique c d d' : derives c d -> derives c d' -> d = d'.
Proof.
move=> H H'; apply/eqP; rewrite -subr_eq0; apply: contraT => N.
have p : 0 < norm (d - d') by rewrite lt_def (norm_ge0 dot) (norm_eq0 I) N.
have e2 : 0 < norm (d - d') / 4%:R by rewrite divr_gt0 // ltr0n.
have [r r0 Hr] := H _ e2; have [r' r0' Hr'] := H' _ e2.
pose t := Num.min r r'.
have t0 : 0 < t by rewrite lt_minr r0 r0'.
have at0 : `|t| = t by rewrite ger0_norm // ltW.
have t1 : `|t| <= r by rewrite at0 le_minl lexx.
have t2 : `|t| <= r' by rewrite at0 le_minl lexx orbT.
have K : `|t| * norm (d - d') <= norm (d - d') / 4%:R * `|t| + norm (d - d') / 4%:R * `|t|.
  rewrite -(normZ I).
  have -> : scale t (d - d') = (c t - c 0 - scale t d') - (c t - c 0 - scale t d) by vring I R.
  by apply: le_trans (normD I _ _) _; rewrite (normN I); apply: ler_add; [exact: Hr'|exact: Hr].
rewrite at0 in K.
move: K; rewrite -mulrDl mulrC ler_pmul2r // -mulr2n -[X in _ <= X]mulr_natr.
rewrite -mulrA ler_pmulr // => K; exfalso; move: K; apply/negP; rewrite -ltNge.
by rewrite ltr_pdivr_mull ?ltr0n // mulr1 ltr_nat.
Qed.
Lemma derives_ext c c' d : (forall t, c t = c' t) -> derives c d -> derives c' d.
Proof. by move=> E H e e0; have [r r0 K] := H e e0; exists r => // t /K; rewrite !E. Qed.
(** A quadratic error bound gives a retraction. *)
Lemma first_order_quadratic (T : V -> Prop) x (rx : V -> V) (C r : R) : T 0 -> 0 <= C -> 0 < r ->
  (forall v, T v -> norm v <= r -> norm (rx v - (x + v)) <= C * norm v ^+ 2) ->
  first_order dot T x rx.
Proof.
move=> T0 C0 r0 H; split.
  have := H 0 T0; rewrite (norm0 I) => /(_ (ltW r0)); rewrite expr0n mulr0 addr0 => K.
  by apply/eqP; rewrite -subr_eq0 -(norm_eq0 I); apply/eqP/le_anti; rewrite K (norm_ge0 dot).
move=> e e0; have C1 : 0 < C + 1 by rewrite ltr_paddl ?ltr01.
exists (Num.min r (e / (C + 1))); first by rewrite lt_minr r0 divr_gt0.
move=> v Tv; rewrite le_minr => /andP[vr ve]; apply: le_trans (H v Tv vr) _.
rewrite expr2 mulrA ler_wpmul2r ?(norm_ge0 dot) //.
apply: le_trans (ler_wpmul2l C0 ve) _; rewrite mulrA ler_pdivr_mulr // mulrC ler_wpmul2l ?(ltW e0) //.
by rewrite ler_addl ler01.
Qed.
End Rules.

Section Linear.
Variables (R : rcfType).
Variables (V : zmodType) (scale : R -> V -> V) (dot : V -> V -> R).
Hypothesis I : inner_product_on scale everywhere dot.
Variables (V' : zmodType) (scale' : R -> V' -> V') (dot' : V' -> V' -> R).
Hypothesis I' : inner_product_on scale' everywhere dot'.
(** bounded linear maps *)
Lemma derives_linear (L : V -> V') (C : R) c d : additive L -> (forall a u, L (scale a u) = scale' a (L u)) ->
  (forall u, norm_of dot' (L u) <= C * norm_of dot u) -> 0 <= C ->
  derives scale dot c d -> derives scale' dot' (fun t => L (c t)) (L d).
Proof.
move=> LB LZ LC C0 H e e0.
have C1 : 0 < C + 1 by rewrite ltr_paddl // ltr01.
have [r r0 K] := H (e / (C + 1)) (divr_gt0 e0 C1); exists r => // t /K {K} K.
have -> : L (c t) - L (c 0) - scale' t (L d) = L (c t - c 0 - scale t d) by rewrite LB LB LZ.
apply: le_trans (LC _) _; apply: le_trans (ler_wpmul2l C0 K) _.
rewrite mulrA ler_wpmul2r ?normr_ge0 // mulrA ler_pdivr_mulr // mulrC ler_wpmul2l ?(ltW e0) //.
by rewrite ler_addl ler01.
Qed.
End Linear.

Section Bilinear.
Variables (R : rcfType).
Variables (V1 : zmodType) (scale1 : R -> V1 -> V1) (dot1 : V1 -> V1 -> R).
Hypothesis I1 : inner_product_on scale1 everywhere dot1.
Variables (V2 : zmodType) (scale2 : R -> V2 -> V2) (dot2 : V2 -> V2 -> R).
Hypothesis I2 : inner_product_on scale2 everywhere dot2.
Variables (V3 : zmodType) (scale3 : R -> V3 -> V3) (dot3 : V3 -> V3 -> R).
Hypothesis I3 : inner_product_on scale3 everywhere dot3.
Variables (B : V1 -> V2 -> V3) (C : R).
Hypotheses (BDl : forall u v w, B (u - v) w = B u w - B v w) (BDr : forall u v w, B u (v - w) = B u v - B u w).
Hypotheses (BZl : forall a u w, B (scale1 a u) w = scale3 a (B u w)) (BZr : forall a u w, B u (scale2 a w) = scale3 a (B u w)).
Hypothesis (C0 : 0 <= C) (BC : forall u v, norm_of dot3 (B u v) <= C * (norm_of dot1 u * norm_of dot2 v)).
Add Ring R_ring : (mc_ring R).
(** The product rule. *)
Lemma derives_bilinear c d c' d' : derives scale1 dot1 c d -> derives scale2 dot2 c' d' ->
  derives scale3 dot3 (fun t => B (c t) (c' t)) (B d (c' 0) + B (c 0) d').
Proof.
move=> H H' e e0.
have [K K0 [k k0 HK]] := derives_lipschitz I1 H; have [L L0 [l l0 HL]] := derives_lipschitz I2 H'.
pose M := C * (norm_of dot1 (c 0) + norm_of dot2 (c' 0) + K * L) + 1.
have N0 := norm_ge0 dot1 (c 0); have N0' := norm_ge0 dot2 (c' 0).
have M0 : 0 < M by rewrite /M ltr_paddl ?ltr01 // mulr_ge0 // !addr_ge0 // mulr_ge0.
have eM : 0 < e / M by rewrite divr_gt0.
have [r r0 Hr] := H _ eM; have [s s0 Hs] := H' _ eM.
exists (Num.min (Num.min r s) (Num.min (Num.min k l) (e / M))).
  by rewrite !lt_minr r0 s0 k0 l0 eM.
move=> t; rewrite !le_minr -!andbA => /and5P[tr ts tk tl tM].
pose p := c t - c 0 - scale1 t d; pose q := c' t - c' 0 - scale2 t d'.
have -> : B (c t) (c' t) - B (c 0) (c' 0) - scale3 t (B d (c' 0) + B (c 0) d') =
  B p (c' 0) + B (c 0) q + B (c t - c 0) (c' t - c' 0).
  by rewrite /p /q !BDl !BDr !BZl !BZr; vring I3 R.
apply: le_trans (normD3 I3 _ _ _) _.
have T0 := normr_ge0 t.
have b1 : norm_of dot3 (B p (c' 0)) <= C * (e / M * `|t| * norm_of dot2 (c' 0)).
  by apply: le_trans (BC _ _) _; rewrite ler_wpmul2l // ler_wpmul2r // Hr.
have b2 : norm_of dot3 (B (c 0) q) <= C * (norm_of dot1 (c 0) * (e / M * `|t|)).
  by apply: le_trans (BC _ _) _; rewrite ler_wpmul2l // ler_wpmul2l // Hs.
have b3 : norm_of dot3 (B (c t - c 0) (c' t - c' 0)) <= C * (K * `|t| * (L * (e / M))).
  apply: le_trans (BC _ _) _; rewrite ler_wpmul2l //.
  apply: le_trans (ler_pmul (norm_ge0 _ _) (norm_ge0 _ _) (HK _ tk) (HL _ tl)) _.
  by rewrite ler_wpmul2l ?mulr_ge0 // ler_wpmul2l.
apply: le_trans (ler_add (ler_add b1 b2) b3) _.
have -> : C * (e / M * `|t| * norm_of dot2 (c' 0)) + C * (norm_of dot1 (c 0) * (e / M * `|t|)) + C * (K * `|t| * (L * (e / M))) = (e / M * (M - 1)) * `|t|.
  by rewrite /M; mcring R.
rewrite ler_wpmul2r // -mulrA ler_pimulr ?(ltW e0) // mulrC mulrBl mulfV ?gt_eqF // ler_subl_addr ler_addl mul1r invr_ge0.
exact: ltW.
Qed.
End Bilinear.

(** ** Instances *)
Section Instances.
Variables (R : rcfType).
(** real functions *)
Definition real_scale (a u : R) : R := a * u.
Definition real_dot (u v : R) : R := u * v.
Lemma real_ips : inner_product_on real_scale everywhere real_dot.
Proof.
split; first by move=> *; rewrite /real_dot mulrC.
split; first by move=> *; rewrite /real_dot mulrDl.
split; first by move=> *; rewrite /real_dot /real_scale mulrA.
by move=> u _ u0; rewrite /real_dot -expr2 exprn_even_gt0.
Qed.
Lemma norm_real (u : R) : norm_of real_dot u = `|u|.
Proof. by rewrite /norm_of /real_dot -expr2 sqrtr_sqr. Qed.

Variables (V : zmodType) (scale : R -> V -> V) (dot : V -> V -> R).
Hypothesis I : inner_product_on scale everywhere dot.
Lemma derives_dot c d c' d' : derives scale dot c d -> derives scale dot c' d' ->
  derives real_scale real_dot (fun t => dot (c t) (c' t)) (dot d (c' 0) + dot (c 0) d').
Proof.
apply: (derives_bilinear I I real_ips (C := 1)); try by move=> *; rewrite ?(dotBl I, dotBr I, dotZl I, dotZr I).
  exact: ler01.
by move=> u v; rewrite norm_real mul1r; apply: (cauchy_schwarz I).
Qed.
Lemma derives_scale (a : R -> R) (a' : R) c d : derives real_scale real_dot a a' -> derives scale dot c d ->
  derives scale dot (fun t => scale (a t) (c t)) (scale a' (c 0) + scale (a 0) d).
Proof.
apply: (derives_bilinear real_ips I I (C := 1)).
- by move=> *; rewrite (ipsZDl I) (ipsNZ I).
- by move=> *; rewrite (ipsZB I).
- by move=> *; rewrite (ipsZA I).
- by move=> *; rewrite !(ipsZA I) mulrC.
- exact: ler01.
- by move=> u v; rewrite norm_real mul1r (normZ I).
Qed.
Lemma derives_opp c d : derives scale dot c d -> derives scale dot (fun t => - c t) (- d).
Proof.
move=> H; apply: (derives_linear (scale := scale) (dot := dot) (L := fun u => - u) (C := 1) _ _ _ _ H).
- by move=> u v; rewrite opprB addrC opprK.
- by move=> *; rewrite (ipsZN I).
- by move=> u; rewrite (normN I) mul1r.
- exact: ler01.
Qed.
Lemma derives_sub c d c' d' : derives scale dot c d -> derives scale dot c' d' ->
  derives scale dot (fun t => c t - c' t) (d - d').
Proof. by move=> H H'; apply: (derives_add I H (derives_opp H')). Qed.
End Instances.

(** ** Matrices *)
Section Matrices.
Variables (R : rcfType) (F : starField R).
Local Notation mderives := (derives (@rscale R F _ _) (@inner R F _ _)).
Lemma abs2_inner n (r : 'rV[F]_n) (c : 'cV[F]_n) : abs2 ((r *m c) 0 0) <= inner r r * inner c c.
Proof.
set s := (r *m c) 0 0.
have [->|s0] := eqVneq s 0.
  by rewrite /abs2 mulr0 raddf0 mulr_ge0 ?inner_ge0.
have p : 0 < abs2 s by rewrite lt_def abs2_eq0 s0 abs2_ge0.
have := cauchy_schwarz_sqr (@inner_ips R F n 1) (s *: r^H) c.
have -> : inner (s *: r^H) c = abs2 s.
  by rewrite innerE adjmxZ adjmxK -scalemxAl linearZ /= /mxtrace big_ord1 -/s.
have -> : inner (s *: r^H) (s *: r^H) = abs2 s * inner r r.
  rewrite -[in RHS](inner_adj r r) !innerE adjmxZ -scalemxAl -scalemxAr !linearZ /= mulrA.
  by rewrite -abs2E sf_reZ.
by rewrite expr2 -mulrA ler_pmul2l.
Qed.
Lemma inner_entries m n (A : 'M[F]_(m, n)) : inner A A = \sum_i \sum_j abs2 (A i j).
Proof. by []. Qed.
Lemma fnorm_mul m n p (A : 'M[F]_(m, n)) (B : 'M[F]_(n, p)) : fnorm (A *m B) <= fnorm A * fnorm B.
Proof.
rewrite -(@ler_sqr _ _ (_ * _)) ?nnegrE ?mulr_ge0 ?fnorm_ge0 // exprMn !fnorm_sqr.
rewrite inner_entries [inner A A](_ : _ = \sum_i inner (row i A) (row i A)); last first.
  by apply: eq_bigr => i _; rewrite inner_entries big_ord1; apply: eq_bigr => j _; rewrite mxE.
rewrite [inner B B](_ : _ = \sum_j inner (col j B) (col j B)); last first.
  rewrite inner_entries exchange_big; apply: eq_bigr => j _; rewrite inner_entries.
  by apply: eq_bigr => i _; rewrite big_ord1 mxE.
rewrite mulr_suml ler_sum // => i _; rewrite mulr_sumr ler_sum // => j _.
apply: le_trans (abs2_inner _ _); rewrite le_eqVlt; apply/orP; left; apply/eqP; congr abs2.
by rewrite !mxE; apply: eq_bigr => k _; rewrite !mxE.
Qed.
Lemma derives_mul m n p c d c' d' : derives (@rscale R F m n) (@inner R F m n) c d ->
  derives (@rscale R F n p) (@inner R F n p) c' d' ->
  derives (@rscale R F m p) (@inner R F m p) (fun t => c t *m c' t) (d *m c' 0 + c 0 *m d').
Proof.
apply: (derives_bilinear (@inner_ips R F _ _) (@inner_ips R F _ _) (@inner_ips R F _ _) (C := 1)).
- by move=> *; rewrite mulmxBl.
- by move=> *; rewrite mulmxBr.
- by move=> *; rewrite /rscale -scalemxAl.
- by move=> *; rewrite /rscale -scalemxAr.
- exact: ler01.
- by move=> u v; rewrite mul1r; apply: fnorm_mul.
Qed.
Lemma derives_adj m n c d : derives (@rscale R F m n) (@inner R F m n) c d ->
  derives (@rscale R F n m) (@inner R F n m) (fun t => (c t)^H) d^H.
Proof.
move=> H; apply: (derives_linear (L := fun u => u^H) (C := 1) _ _ _ _ H).
- exact: adjmx_is_additive.
- by move=> *; rewrite /rscale adjmxZreal.
- by move=> u; rewrite mul1r /norm_of inner_adj.
- exact: ler01.
Qed.
End Matrices.
