(** Property C63 (and C61, C80 for this manifold) of src/pymanopt/manifolds/complex_circle.py *)
From Coq Require Import Reals Lra.
From mathcomp Require Import all_ssreflect all_algebra.
From mathcomp.real_closed Require Import complex.
From Coq Require Import Ring Field.
From Verif Require Import Rstruct MCRing Mat_Base Geometry_Spec Calculus Components Sphere_Model Sphere_Proofs.
From Verif Require Import ComplexCircle_Model.
Set Implicit Arguments.
Unset Strict Implicit.
Unset Printing Implicit Defensive.
Import GRing.Theory Num.Theory Order.TTheory.
Local Open Scope ring_scope.
Delimit Scope R_scope with Re.

(** ** Specification: all entries [a + b i] have [a^2 + b^2 = 1]; a vector is tangent if every entry, as a vector
    of the plane, is orthogonal to the entry of the point. *)
Section Spec.
Variable n : nat.
Local Notation array := 'rV[CF]_n.
Definition unit_modulus (x : array) : Prop :=
  forall j, complex.Re (x 0 j) ^+ 2 + complex.Im (x 0 j) ^+ 2 = 1.
Definition circle_tangent (x v : array) : Prop :=
  forall j, complex.Re (x 0 j) * complex.Re (v 0 j) + complex.Im (x 0 j) * complex.Im (v 0 j) = 0.
End Spec.

(** ** The plane as an inner product space *)
Section Plane.
Local Notation conj := (@sf_conj RR CF).
Local Notation re := (@sf_re RR CF).
Local Notation real := (@sf_real RR CF).
Definition cscale (a : RR) (z : CF) : CF := real a * z.
Definition cdot (a b : CF) : RR := re (conj a * b).
Lemma cips : inner_product_on cscale everywhere cdot.
Proof.
split; first by move=> u v _ _; rewrite /cdot re_conjM mulrC.
split; first by move=> u v w _ _ _; rewrite /cdot rmorphD mulrDl sf_reD.
split; first by move=> a u v _ _; rewrite /cdot /cscale rmorphM sf_conj_real -mulrA sf_reZ.
by move=> u _ u0; rewrite (_ : cdot u u = abs2 u) // lt_def abs2_eq0 u0 abs2_ge0.
Qed.
Lemma cdotE a b : cdot a b = complex.Re a * complex.Re b + complex.Im a * complex.Im b.
Proof. by case: a b => [a1 a2] [b1 b2]; rewrite /cdot /= mulNr opprK. Qed.
Lemma np_absE z : np_abs z = norm_of cdot z. Proof. by []. Qed.
End Plane.

Section ComplexCircle.
Variable n : nat.
Local Notation array := 'rV[CF]_n.
Local Notation scale := (@rscale RR CF 1 n).
Local Notation dot := (@inner RR CF 1 n).
Local Notation J := (@inner_ips RR CF 1 n).
Local Notation I := cips.
Local Notation real := (@sf_real RR CF).
Implicit Types x y v w : array.
Add Ring RR_ring : (mc_ring RR).
Add Ring CF_ring : (mc_ring CF).

Definition entry (j : 'I_n) (u : array) : CF := u 0 j.
Lemma entryB j (u v : array) : entry j (u - v) = entry j u - entry j v. Proof. by rewrite /entry !mxE. Qed.
Lemma entryD j (u v : array) : entry j (u + v) = entry j u + entry j v. Proof. by rewrite /entry !mxE. Qed.
Lemma entryZ j a (u : array) : entry j (scale a u) = cscale a (entry j u). Proof. by rewrite /entry !mxE. Qed.
Lemma entrydot (u v : array) : dot u v = \sum_j cdot (entry j u) (entry j v).
Proof. by rewrite /inner big_ord1. Qed.
Lemma entry_inj (u v : array) : (forall j, entry j u = entry j v) -> u = v.
Proof. by move=> H; apply/rowP => j; apply: H. Qed.
Lemma unit_modulusE x : unit_modulus x <-> forall j, cdot (entry j x) (entry j x) = 1.
Proof. by split=> H j; have := H j; rewrite cdotE -!expr2. Qed.
Lemma circle_tangentE x v : circle_tangent x v <-> forall j, cdot (entry j x) (entry j v) = 0.
Proof. by split=> H j; have := H j; rewrite cdotE. Qed.
Lemma entry_projection j x v : entry j (cc_projection x v) = uproj cscale cdot (entry j x) (entry j v).
Proof. by rewrite /entry mxE /uproj (dotC I). Qed.
Lemma entry_normalize j x : entry j (cc_normalize x) = unormalize cscale cdot (entry j x).
Proof. by rewrite /entry mxE /unormalize /cscale np_absE fmorphV mulrC. Qed.
Lemma cc_innerE x a b : cc_inner_product x a b = dot a b.
Proof. by rewrite entrydot /cc_inner_product raddf_sum. Qed.
Lemma cc_normE x v : cc_norm x v = norm_of dot v.
Proof. by rewrite /cc_norm /norm_of entrydot. Qed.
Lemma cc_distE x y : cc_dist x y = l2 (fun j => acos (cdot (entry j x) (entry j y))).
Proof. by []. Qed.

Lemma tangent_cc_subspace x : real_subspace scale (circle_tangent x).
Proof.
split; first by apply/circle_tangentE => j; rewrite (comp0 entryB) (dot0r I).
split.
  move=> u v /circle_tangentE hu /circle_tangentE hv; apply/circle_tangentE => j.
  by rewrite entryD (dotDr I) hu hv addr0.
by move=> a u /circle_tangentE hu; apply/circle_tangentE => j; rewrite entryZ (dotZr I) hu mulr0.
Qed.
Lemma cc_projects x v : unit_modulus x -> projects_to dot (circle_tangent x) v (cc_projection x v).
Proof.
move=> /unit_modulusE hx; split; first by apply/circle_tangentE => j; rewrite entry_projection (uproj_tangent I).
split.
  move=> /circle_tangentE hv; apply: entry_inj => j; rewrite entry_projection /uproj hv.
  by apply: (dot_inj I) => w; rewrite (dotBl I) (dotZl I) mul0r subr0.
move=> t /circle_tangentE ht; rewrite entrydot big1 // => j _; rewrite entryB entry_projection /uproj opprB addrC subrK.
by rewrite (dotZl I) ht mulr0.
Qed.
Theorem C63_projection x v : unit_modulus x ->
  projects_to dot (circle_tangent x) v (cc_projection x v) /\
  nearest_in dot (circle_tangent x) v (cc_projection x v) /\
  cc_to_tangent_space x v = cc_projection x v /\
  inner_product_on scale (circle_tangent x) (cc_inner_product x) /\
  (forall u, cc_norm x u = Num.sqrt (cc_inner_product x u u)) /\
  represents_gradient dot (circle_tangent x) (cc_inner_product x) v (cc_gradient x v) /\
  (forall y, unit_modulus y -> projects_to dot (circle_tangent y) v (cc_transport x y v)).
Proof.
move=> hx; have P := cc_projects v hx; split=> //; split.
  apply: (projects_to_nearest J (tangent_cc_subspace x) _ P) => u /circle_tangentE hu.
  by apply/circle_tangentE => j; rewrite (compN entryB) (dotNr I) hu oppr0.
split=> //; split.
  split; first by move=> a b _ _; rewrite !cc_innerE; apply: (dotC J).
  split; first by move=> a b c _ _ _; rewrite !cc_innerE; apply: (dotDl J).
  split; first by move=> a b c _ _; rewrite !cc_innerE; apply: (dotZl J).
  by move=> u _; rewrite cc_innerE; apply: (dot_gt0 J).
split; first by move=> u; rewrite cc_innerE cc_normE.
split; last by move=> y hy; apply: cc_projects.
by have [T K] := projection_represents J (T := circle_tangent x) P; split=> // t Tt; rewrite cc_innerE; apply: K.
Qed.
Theorem C63_retraction x v : unit_modulus x -> circle_tangent x v ->
  unit_modulus (cc_retraction x v) /\ first_order dot (circle_tangent x) x (cc_retraction x).
Proof.
move=> /unit_modulusE hx /circle_tangentE hv; split.
  apply/unit_modulusE => j; rewrite entry_normalize entryD (unormalize_unit I) //.
  exact: (add_tangent_neq0 I (hx j) (hv j)).
apply: (first_order_comp I J entryB entrydot (C := 1) (r := 1)); try exact: ler01; try exact: ltr01.
  by case: (tangent_cc_subspace x).
move=> j w /circle_tangentE hw _; rewrite entry_normalize entryD.
exact: (unormalize_quadratic I (hx j) (hw j)).
Qed.
(** ** The exponential map returns the real parts of the right values only. *)
Theorem C63_exp_refuted x v : unit_modulus x -> circle_tangent x v ->
  exists p : array,
    (* the point at time one of the geodesic: it starts at [x] with velocity [v], has constant speed and normal
       acceleration *)
    (unit_modulus p /\ exists curve velocity : RR -> array,
      curve 0 = x /\ curve 1 = p /\ velocity 0 = v /\
      (forall t, derives scale dot (fun h => curve (t + h)) (velocity t)) /\
      (forall t j, np_abs (velocity t 0 j) = np_abs (v 0 j)) /\
      (forall t, unit_modulus (curve t) /\ exists2 a, derives scale dot (fun h => velocity (t + h)) a &
         forall w, circle_tangent (curve t) w -> cc_inner_product x a w = 0)) /\
    (* what the code returns *)
    (forall j, cc_exp x v 0 j = complex.Re (p 0 j)) /\
    (forall j, (cc_exp x v 0 j) ^+ 2 = 1 <-> complex.Im (p 0 j) = 0).
Proof.
move=> /unit_modulusE hx /circle_tangentE hv.
pose curve t : array := \row_j uexp cscale cdot (entry j x) (cscale t (entry j v)).
pose vel t : array := \row_j uvel cscale cdot (entry j x) (entry j v) t.
have EC t j : entry j (curve t) = uexp cscale cdot (entry j x) (cscale t (entry j v)) by rewrite /entry mxE.
have EV t j : entry j (vel t) = uvel cscale cdot (entry j x) (entry j v) t by rewrite /entry mxE.
have UC t : unit_modulus (curve t).
  by apply/unit_modulusE => j; rewrite EC (uexp_unit I) // (dotZr I) hv mulr0.
exists (curve 1).
have E j : cc_exp x v 0 j = complex.Re (curve 1 0 j).
  rewrite !mxE /uexp (ipsZ1 I) -np_absE /cscale.
  case: ltP => [a0|a0].
    have -> : (sin (np_abs (v 0 j)) : RR) / np_abs (v 0 j) = np_sinc (np_abs (v 0 j) / PI).
      by rewrite -np_sincE mulrAC mulfV ?mul1r // gt_eqF.
    by rewrite [x 0 j * _]mulrC [v 0 j * _]mulrC.
  have -> : entry j v = 0.
    by apply/eqP; rewrite -(norm_eq0 I) -np_absE eq_le a0 np_absE (norm_ge0 cdot).
  rewrite mulr0 addr0 np_absE.
  by rewrite (norm0 I) cos_0 rmorph1 mul1r.
split.
  split=> //; exists curve, vel; split; first by apply: entry_inj => j; rewrite EC (ipsZ0l I) (uexp0 I).
  split=> //; split; first by apply: entry_inj => j; rewrite EV (uvel0 I).
  split.
    move=> t; apply: (derives_comp I entryB entryZ entrydot) => j; rewrite EV.
    by apply: (derives_ext _ (uexp_velocity I (entry j x) (entry j v) t)) => h; rewrite EC.
  split.
    by move=> t j; rewrite !np_absE -/(entry j (vel t)) EV /norm_of (uvel_norm I).
  move=> t; split=> //; exists (\row_j (cscale (- (norm_of cdot (entry j v) ^+ 2)) (entry j (curve t)))).
    apply: (derives_comp I entryB entryZ entrydot) => j; rewrite {2}/entry mxE EC.
    by apply: (derives_ext _ (uexp_acceleration I (entry j x) (entry j v) t)) => h; rewrite EV.
  move=> w /circle_tangentE hw; rewrite cc_innerE entrydot big1 // => j _.
  by rewrite {1}/entry mxE (dotZl I) hw mulr0.
split=> // j; rewrite E; have := UC 1 j; set a := complex.Re _; set b := complex.Im _ => U.
split=> [A|B]; last by rewrite -U B expr0n addr0.
by move: U; rewrite A => /eqP; rewrite eq_sym addrC -subr_eq subrr eq_sym sqrf_eq0 => /eqP.
Qed.
(** Even for the zero vector the point is not returned unless it is real. *)
Theorem C63_exp_of_zero_refuted x j : cc_exp x (cc_zero_vector x) 0 j = complex.Re (x 0 j).
Proof. by rewrite !mxE /np_abs /abs2 mulr0 raddf0 sqrtr0 ltxx. Qed.

(** ** Distance, mean, logarithm *)
Theorem C63_metric : metric_on (@unit_modulus n) (@cc_dist n).
Proof.
have M : metric_on (fun z => cdot z z = 1) (fun a b => acos (cdot a b) : RR).
  split; first by move=> a b _ _; apply/RlePx; case: (acos_bound (cdot a b)).
  split; first by move=> a b; apply: (angle_eq0 I).
  split; first by move=> a b _ _; rewrite (dotC I).
  by move=> a b c ha hb hc; apply/RlePx; apply: (angle_triangle I).
have [M0 [M1 [M2 M3]]] := metric_comp J entrydot M.
split; first by move=> x y hx hy; rewrite cc_distE //; apply: M0; apply/unit_modulusE.
split; first by move=> x y hx hy; rewrite cc_distE //; apply: M1; apply/unit_modulusE.
split; first by move=> x y hx hy; rewrite !cc_distE //; apply: M2; apply/unit_modulusE.
by move=> x y z hx hy hz; rewrite !cc_distE //; apply: M3; apply/unit_modulusE.
Qed.
Theorem C63_pair_mean x y : unit_modulus x -> unit_modulus y -> (forall j, x 0 j != - y 0 j) ->
  unit_modulus (cc_pair_mean x y) /\ cc_dist x (cc_pair_mean x y) = cc_dist x y / 2%:R /\
  cc_dist y (cc_pair_mean x y) = cc_dist x y / 2%:R.
Proof.
move=> /unit_modulusE hx /unit_modulusE hy N.
have N' j : entry j x + entry j y != 0 by rewrite addr_eq0; apply: N.
split; first by apply/unit_modulusE => j; rewrite entry_normalize entryD (unormalize_unit I).
have h0 : 0 <= 2%:R^-1 :> RR by rewrite invr_ge0 ler0n.
rewrite !cc_distE mulrC -l2Z //; split; congr Num.sqrt; apply: eq_bigr => j _; rewrite entry_normalize entryD.
  by rewrite (pair_mean_angle I) // [in RHS]mulrC -RdivE.
by rewrite addrC (pair_mean_angle I) // ?(dotC I (entry j y) (entry j x)) // 1?addrC // [in RHS]mulrC -RdivE.
Qed.
(** The logarithm is tangent, and its entries have the lengths of the geodesics, except for entries closer than
    [1e-6], where it is the projection of the difference, and antipodal ones, where it divides by zero. *)
Theorem C63_log x y : unit_modulus x -> unit_modulus y ->
  circle_tangent x (cc_log x y) /\
  (forall j, let d : RR := acos (cdot (x 0 j) (y 0 j)) in
     (10%:R ^- 6 < d < PI -> np_abs (cc_log x y 0 j) = d /\ uexp cscale cdot (x 0 j) (cc_log x y 0 j) = y 0 j) /\
     (d <= 10%:R ^- 6 -> np_abs (cc_log x y 0 j) = sin d)).
Proof.
move=> /unit_modulusE hx /unit_modulusE hy.
pose f j : RR := let di : RR := acos (cdot (entry j x) (entry j y)) in
  if di <= 10%:R ^- 6 then 1 else di / norm_of cdot (uproj cscale cdot (entry j x) (entry j y)).
have L j : entry j (cc_log x y) = cscale (f j) (uproj cscale cdot (entry j x) (entry j y)).
  have E : entry j (cc_projection x (y - x)) = uproj cscale cdot (entry j x) (entry j y).
    by rewrite entry_projection entryB (uproj_self I).
  rewrite /entry mxE /= -/(entry j (cc_projection x (y - x))) E mulrC /cscale /f.
  by rewrite np_absE.
split; first by apply/circle_tangentE => j; rewrite L (dotZr I) (uproj_tangent I) // mulr0.
move=> j d; rewrite -[x 0 j]/(entry j x) -[y 0 j]/(entry j y) -[cc_log x y 0 j]/(entry j (cc_log x y)) L np_absE.
have s0 := angle_sin_ge0 (cdot (entry j x) (entry j y)); rewrite -/d in s0.
have n0 := uproj_norm I (hx j) (hy j); rewrite -/d in n0.
rewrite (normZ I) n0 /f -/d n0; split.
  move=> /andP[d1 /RltPx d2]; rewrite leNgt d1 /=.
  have d0 : 0 < d by apply: le_lt_trans d1; rewrite invr_ge0 exprn_ge0 ?ler0n.
  have sp : 0 < (sin d : RR) by apply/RltPx; apply: sin_gt_0 => //; apply/RltPx.
  have D : `|d / sin d| * sin d = d by rewrite ger0_norm ?mulfVK ?divr_ge0 ?(ltW d0) ?(ltW sp) ?gt_eqF.
  split=> //; rewrite /uexp (normZ I) n0 D (ipsZA I).
  have -> : np_sinc (d / PI) * (d / sin d) = 1.
    by rewrite mulrCA mulrA np_sincE mulfV // gt_eqF.
  have cd : cos d = cdot (entry j x) (entry j y) := cos_angle I (hx j) (hy j).
  rewrite (ipsZ1 I) cd /uproj addrC.
  by rewrite subrK.
by move=> ->; rewrite normr1 mul1r.
Qed.

(** ** C61 *)
Theorem C61_complex_circle x g h v : unit_modulus x -> circle_tangent x v ->
  circle_tangent x (cc_hessian x g h v) /\
  (forall h' v', circle_tangent x v' -> dot h v' = dot h' v ->
    cc_inner_product x (cc_hessian x g h v) v' = cc_inner_product x (cc_hessian x g h' v') v) /\
  (forall c e : RR -> array, c 0 = x -> derives scale dot c v -> e 0 = g -> derives scale dot e h ->
    exists2 w, derives scale dot (fun t => cc_gradient (c t) (e t)) w & cc_hessian x g h v = cc_projection x w).
Proof.
move=> hx' hv'; have /unit_modulusE hx := hx'; have /circle_tangentE hv := hv'.
have EH j k u : entry j (cc_hessian x g k u) =
  uproj cscale cdot (entry j x) (entry j k - cscale (cdot (entry j x) (entry j g)) (entry j u)).
  by rewrite entry_projection {2}/entry mxE -re_conjM.
split; first by apply/circle_tangentE => j; rewrite EH (uproj_tangent I).
split.
  move=> h' v' /circle_tangentE hv'' S.
  have P k u u' : circle_tangent x u' -> cc_inner_product x (cc_hessian x g k u) u' =
      dot k u' - \sum_j cdot (entry j x) (entry j g) * cdot (entry j u) (entry j u').
    move=> /circle_tangentE hu'; rewrite cc_innerE !entrydot -sumrB; apply: eq_bigr => j _.
    by rewrite EH /uproj !(dotBl I) !(dotZl I) hu' mulr0 subr0.
  rewrite !P //; last by apply/circle_tangentE.
  by rewrite S; congr (_ - _); apply: eq_bigr => j _; congr (_ * _); apply: (dotC I).
move=> c e c0 Dc e0 De.
pose z j := entry j h - (cscale (cdot (entry j v) (entry j g) + cdot (entry j x) (entry j h)) (entry j x) + cscale (cdot (entry j x) (entry j g)) (entry j v)).
exists (\row_j z j).
  apply: (derives_comp I entryB entryZ entrydot) => j; rewrite {2}/entry mxE.
  have Dc' := comp_derives I entryB entryZ entrydot j Dc; have De' := comp_derives I entryB entryZ entrydot j De.
  have D := derives_sub I De' (derives_scale I (derives_dot I Dc' De') Dc').
  by move: D; rewrite c0 e0; apply: derives_ext => t; rewrite /cc_gradient entry_projection.
have Ez j : entry j (\row_j z j) = z j by rewrite /entry mxE.
apply: entry_inj => j; rewrite EH entry_projection Ez /z /uproj.
rewrite !(dotBr I) (dotDr I) !(dotZr I) hx hv; apply: (dot_inj I) => w.
by rewrite ?(dotDl I, dotBl I, dotNl I, dotZl I); mcring RR.
Qed.

(** ** C80 *)
Theorem C80_complex_circle x (draw draw' : 'rV[RF]_n) : unit_modulus x ->
  ((forall j, draw 0 j != 0 \/ draw' 0 j != 0) -> unit_modulus (cc_random_point draw draw')) /\
  (draw != 0 ->
    circle_tangent x (cc_random_tangent_vector x draw) /\ cc_norm x (cc_random_tangent_vector x draw) = 1).
Proof.
move=> /unit_modulusE hx; split.
  move=> H; apply/unit_modulusE => j; rewrite entry_normalize (unormalize_unit I) //.
  rewrite /entry mxE; apply/eqP => E; case: (H j) => /eqP; apply.
    by move: (congr1 (@complex.Re _) E) => /=; rewrite mul0r mul1r oppr0 ?subr0 ?addr0.
  by move: (congr1 (@complex.Im _) E) => /=; rewrite mul0r mul1r ?add0r ?addr0.
move=> H; set tv := \row_j (real (draw 0 j) * 'i%C * x 0 j) : array.
have TV j : entry j tv = real (draw 0 j) * ('i%C * x 0 j) by rewrite /entry mxE mulrA.
have T : circle_tangent x tv.
  apply/circle_tangentE => j; rewrite TV cdotE.
  by case: (entry j x) (x 0 j) (erefl (entry j x) : x 0 j = entry j x) => a b [c d] [-> ->] /=; Rify; ring.
have N : norm_of dot tv != 0.
  rewrite (norm_eq0 J); apply: contra_neq H => E; apply/rowP => j; rewrite mxE.
  have /eqP := congr1 (entry j) E; rewrite TV (comp0 entryB) mulf_eq0 fmorph_eq0 => /orP[/eqP //|].
  have U : x 0 j != 0 by apply/eqP => X; have := hx j; rewrite /entry X (dot0l I) => /eqP; rewrite eq_sym oner_eq0.
  rewrite mulf_eq0 (negbTE U) orbF => /eqP /(congr1 (@complex.Im _)) /= /eqP.
  by rewrite oner_eq0.
have -> : cc_random_tangent_vector x draw = scale (norm_of dot tv)^-1 tv.
  by apply: entry_inj => j; rewrite entryZ /entry mxE cc_normE /cscale fmorphV mulrC.
have [_ [_ Z]] := tangent_cc_subspace x; split; first exact: Z.
by rewrite cc_normE (normZ J) ger0_norm ?invr_ge0 ?(norm_ge0 dot) // mulVf.
Qed.
End ComplexCircle.

(** ** Instance: the point [(i, 1)], a non-zero tangent vector [(1, i)], another point [(1, i)]; the exponential of
    the zero vector at [(i, 1)] is [(0, 1)], which is not on the manifold. *)
Definition cc_x : 'rV[CF]_2 := \row_j (if j == 0 then 'i%C else 1).
Definition cc_v : 'rV[CF]_2 := \row_j (if j == 0 then 1 else 'i%C).
Lemma complex_circle_instance :
  unit_modulus cc_x /\ unit_modulus cc_v /\ circle_tangent cc_x cc_v /\ cc_v != 0 /\ (forall j, cc_x 0 j != - cc_v 0 j) /\
  cc_exp cc_x (cc_zero_vector cc_x) 0 0 = 0 /\ ~ unit_modulus (map_mx (@sf_real RR CF) (cc_exp cc_x (cc_zero_vector cc_x))).
Proof.
have U : unit_modulus cc_x by move=> j; rewrite mxE; case: eqP => _ /=; Rify; ring.
have E : cc_exp cc_x (cc_zero_vector cc_x) 0 0 = 0 by rewrite C63_exp_of_zero_refuted mxE.
split=> //; split; first by move=> j; rewrite mxE; case: eqP => _ /=; Rify; ring.
split; first by move=> j; rewrite !mxE; case: eqP => _ /=; Rify; ring.
split.
  apply/eqP => /rowP/(_ 0); rewrite !mxE /= => /(congr1 (@complex.Re _)) /= /eqP; by rewrite oner_eq0.
split.
  move=> j; rewrite !mxE; apply/eqP; case: eqP => _ /(congr1 (@complex.Im _)) /= /eqP.
    by rewrite oppr0 oner_eq0.
  by rewrite eq_sym oppr_eq0 oner_eq0.
split=> // /(_ 0); rewrite mxE E /= expr0n add0r => /eqP; by rewrite eq_sym oner_eq0.
Qed.
