(** Properties C55 and C56 (and C80 for these manifolds) of src/pymanopt/manifolds/euclidean.py *)
From mathcomp Require Import all_ssreflect all_algebra.
From mathcomp.real_closed Require Import complex.
From Coq Require Import Ring Field.
From Verif Require Import MCRing Mat_Base Geometry_Spec Linalg_Spec Multi_Model Multi_Proofs Multi_Props Euclidean_Model.
Set Implicit Arguments.
Unset Strict Implicit.
Unset Printing Implicit Defensive.
Import GRing.Theory Num.Theory Order.TTheory.
Local Open Scope ring_scope.

Section Euclidean.
Variables (R : rcfType) (F : starField R) (k m n : nat).
Local Notation array := (stack F k m n).
Local Notation scale := (@sscale R F k m n).
Local Notation dot := (@sinner R F k m n).

Lemma eu_innerE (x a b : array) : eu_inner_product x a b = dot a b.
Proof.
rewrite /eu_inner_product raddf_sum; apply: eq_bigr => i _.
by rewrite raddf_sum; apply: eq_bigr => r _; rewrite raddf_sum.
Qed.
Lemma np_normE (a : array) : np_norm a = norm_of dot a. Proof. by []. Qed.
Lemma np_divE (a : array) c : np_div a c = scale c^-1 a.
Proof.
by apply/ffunP => i; apply/matrixP => r s; rewrite !ffunE !mxE fmorphV mulrC.
Qed.
Lemma scale_half_add (x y : array) : scale 2%:R^-1 (x + y) = scale 2%:R^-1 x + scale 2%:R^-1 y.
Proof. by apply/ffunP => i; rewrite !ffunE scalerDr. Qed.

(** ** C55: the inner product is a real inner product, [norm] is its square root, [dist] is a metric and the norm of
    the logarithm. *)
Theorem C55_metric (x : array) :
  inner_product_on scale everywhere (eu_inner_product x) /\
  (forall v, eu_norm x v = Num.sqrt (eu_inner_product x v v)) /\
  metric_on everywhere (@eu_dist R F k m n) /\
  (forall y, eu_dist x y = eu_norm x (eu_log x y)).
Proof.
split.
  split; first by move=> *; rewrite !eu_innerE; apply: sinnerC.
  split; first by move=> *; rewrite !eu_innerE; apply: sinnerDl.
  split; first by move=> *; rewrite !eu_innerE; apply: sinnerZl.
  by move=> u _ u0; rewrite eu_innerE; apply: (dot_gt0 (@sinner_ips R F k m n)).
split; first by move=> v; rewrite eu_innerE.
split; first exact: (norm_dist_metric (@sinner_ips R F k m n)).
by move=> y; rewrite /eu_dist /eu_norm /eu_log !np_normE (normBC (@sinner_ips R F k m n)).
Qed.

(** Exponential and logarithm are inverse, the retraction is the exponential map and has derivative
    identity; the pair mean is half way between the points; transport is the identity. *)
Theorem C55_flat (x y v : array) :
  eu_exp x (eu_log x y) = y /\ eu_log x (eu_exp x v) = v /\ eu_retraction x v = eu_exp x v /\
  first_order dot everywhere x (eu_retraction x) /\
  eu_dist x (eu_pair_mean x y) = eu_dist x y / 2%:R /\
  eu_dist (eu_pair_mean x y) y = eu_dist x y / 2%:R /\
  eu_transport x y v = v /\ eu_exp x (eu_zero_vector x) = x.
Proof.
split; first by rewrite /eu_exp /eu_log addrC subrK.
split; first by rewrite /eu_exp /eu_log addrC addKr.
split=> //; split.
  split; first by rewrite /eu_retraction /eu_exp addr0.
  move=> e e0; exists 1; first exact: ltr01.
  move=> w _ _.
  rewrite /eu_retraction /eu_exp subrr (norm0 (@sinner_ips R F k m n)).
  by rewrite mulr_ge0 // ?(norm_ge0 dot) // ltW.
have S (z : array) : z - scale 2%:R^-1 z = scale 2%:R^-1 z.
  have H : 1 - sf_real 2%:R^-1 = sf_real 2%:R^-1 :> F.
    by rewrite -half_real -[X in X - _](half2 F) addrK.
  by apply/ffunP => i; rewrite !ffunE -{1}[z i]scale1r -scalerBl H.
have N (z : array) : np_norm (scale 2%:R^-1 z) = np_norm z / 2%:R.
  by rewrite !np_normE (normZ (@sinner_ips R F k m n)) mulrC ger0_norm // invr_ge0 ler0n.
rewrite /eu_dist /eu_pair_mean np_divE.
have E1 : x - scale 2%:R^-1 (x + y) = scale 2%:R^-1 (x - y).
  rewrite scale_half_add opprD addrA S.
  by apply/ffunP => i; rewrite !ffunE scalerBr.
have E2 : scale 2%:R^-1 (x + y) - y = scale 2%:R^-1 (x - y).
  rewrite scale_half_add -addrA -[X in _ + X]opprB S.
  by apply/ffunP => i; rewrite !ffunE scalerBr.
by rewrite E1 E2 !N; split=> //; split=> //; split=> //; rewrite /eu_exp addr0.
Qed.

(** Random tangent vectors have unit norm unless every draw is zero. *)
Lemma unit_np_div (a : array) : a != 0 -> np_norm (np_div a (np_norm a)) = 1.
Proof.
move=> a0; rewrite np_divE np_normE (normZ (@sinner_ips R F k m n)) -np_normE.
have p : 0 <= np_norm a by apply: sqrtr_ge0.
rewrite ger0_norm ?invr_ge0 // mulVf //.
by rewrite np_normE (norm_eq0 (@sinner_ips R F k m n)).
Qed.
Theorem C80_euclidean (x draw : array) : draw != 0 -> eu_norm x (eu_random_tangent_vector x draw) = 1.
Proof. exact: unit_np_div. Qed.
End Euclidean.

(** An instance with complex entries: the pair mean of [0] and [2 i] is [i]. *)
Example C55_instance (R : rcfType) :
  let i := (@Complex R 0 1) : complex_star R in
  let A (z : complex_star R) : stack (complex_star R) 1 1 1 := [ffun _ => z%:M] in
  eu_pair_mean (A 0) (A (i + i)) = A i /\ eu_dist (A 0) (A i) = 1.
Proof.
move=> i A; split.
  apply/ffunP => l; apply/matrixP => r c; rewrite !ord1 !ffunE !mxE !eqxx !mulr1n.
  have E : i + i = i * 2%:R by rewrite mulr_natr.
  rewrite add0r E rmorph_nat mulfK //; exact: (natF_neq0 (complex_star R)).
rewrite /eu_dist /np_norm !big_ord1 !ffunE !mxE !eqxx !mulr1n sub0r.
rewrite -[RHS]sqrtr1; congr Num.sqrt; rewrite /abs2 /i /= !mulNr !mulrN !mulr1 !mulr0.
by rewrite ?opprK ?oppr0 ?add0r ?addr0.
Qed.

(** ** C56 *)
Section Symmetric.
Variables (R : rcfType) (k n : nat).
Local Notation F := (real_star R).
Local Notation array := (stack F k n n).
Local Notation scale := (@sscale R F k n n).
Local Notation dot := (@sinner R F k n n).
(** arrays whose matrices are all symmetric (skew-symmetric) *)
Definition sym_array (A : array) := forall i, (A i)^T = A i.
Definition skew_array (A : array) := forall i, (A i)^T = - A i.

Lemma real_adj p q (A : 'M[F]_(p, q)) : A^H = A^T.
Proof. by apply/matrixP => i j; rewrite !mxE. Qed.
Lemma sym_skew_orthogonal (A B : array) : sym_array A -> skew_array B -> dot A B = 0.
Proof.
move=> SA SB; rewrite /sinner big1 // => i _.
by apply: inner_herm_skew; rewrite real_adj ?SA ?SB.
Qed.
Lemma sym_mean (x y : array) : sym_array x -> sym_array y -> sym_array (eu_pair_mean x y).
Proof.
by move=> Sx Sy i; rewrite /eu_pair_mean np_divE !ffunE linearZ /= linearD /= Sx Sy.
Qed.
Lemma skew_mean (x y : array) : skew_array x -> skew_array y -> skew_array (eu_pair_mean x y).
Proof.
move=> Sx Sy i; rewrite /eu_pair_mean np_divE !ffunE linearZ /= linearD /= Sx Sy.
by rewrite -opprD scalerN.
Qed.

(** [projection] is the orthogonal projection on the symmetric arrays, hence the nearest one; the gradient
    conversion represents the differential; the Hessian conversion gives symmetric arrays that represent the same
    bilinear form. *)
Theorem C56_symmetric (x egrad ehess v : array) :
  projects_to dot sym_array v (sym_projection x v) /\
  nearest_in dot sym_array v (sym_projection x v) /\
  represents_gradient dot sym_array (eu_inner_product x) egrad (sym_gradient x egrad) /\
  sym_array (sym_hessian x egrad ehess v) /\
  (forall u, sym_array u -> eu_inner_product x (sym_hessian x egrad ehess v) u = dot ehess u).
Proof.
have P w : projects_to dot sym_array w (multisym w).
  have [S [K [D [E _]]]] := C52_symmetric_and_skew w.
  split=> //; split; first by move=> H; apply/E.
  move=> t St; have -> : w - multisym w = multiskew w by rewrite -{1}D addrC addKr.
  by rewrite sinnerC; apply: sym_skew_orthogonal.
have sub : real_subspace scale sym_array.
  split; first by move=> i; rewrite ffunE trmx0.
  split; first by move=> a b Sa Sb i; rewrite ffunE linearD /= Sa Sb.
  by move=> a b Sb i; rewrite ffunE linearZ /= Sb.
split; first exact: P.
split.
  apply: (projects_to_nearest (@sinner_ips R F k n n) sub _ (P v)).
  by move=> u Su i; rewrite ffunE linearN /= Su.
have G g : represents_gradient dot sym_array (eu_inner_product x) g (multisym g).
  have [a b] := projection_represents (@sinner_ips R F k n n) (P g).
  by split=> // t St; rewrite eu_innerE b.
split; first exact: G.
have [a b] := G ehess; split=> // u Su; exact: b.
Qed.
Theorem C56_skew_symmetric (x egrad ehess v : array) :
  projects_to dot skew_array v (skew_projection x v) /\
  nearest_in dot skew_array v (skew_projection x v) /\
  represents_gradient dot skew_array (eu_inner_product x) egrad (skew_gradient x egrad) /\
  skew_array (skew_hessian x egrad ehess v) /\
  (forall u, skew_array u -> eu_inner_product x (skew_hessian x egrad ehess v) u = dot ehess u).
Proof.
have P w : projects_to dot skew_array w (multiskew w).
  have [S [K [D [_ [E _]]]]] := C52_symmetric_and_skew w.
  split=> //; split; first by move=> H; apply/E.
  move=> t St; have -> : w - multiskew w = multisym w by rewrite -{1}D addrK.
  exact: sym_skew_orthogonal.
have sub : real_subspace scale skew_array.
  split; first by move=> i; rewrite ffunE trmx0 oppr0.
  split; first by move=> a b Sa Sb i; rewrite ffunE linearD /= Sa Sb opprD.
  by move=> a b Sb i; rewrite ffunE linearZ /= Sb scalerN.
split; first exact: P.
split.
  apply: (projects_to_nearest (@sinner_ips R F k n n) sub _ (P v)).
  by move=> u Su i; rewrite ffunE linearN /= Su.
have G g : represents_gradient dot skew_array (eu_inner_product x) g (multiskew g).
  have [a b] := projection_represents (@sinner_ips R F k n n) (P g).
  by split=> // t St; rewrite eu_innerE b.
split; first exact: G.
have [a b] := G ehess; split=> // u Su; exact: b.
Qed.

(** Points and tangent vectors produced from valid ones are valid: exponential (retraction), logarithm, transport,
    pair mean, and random draws. *)
Theorem C56_closed (x y v draw : array) :
  (sym_array x -> sym_array y -> sym_array v ->
     sym_array (eu_exp x v) /\ sym_array (eu_log x y) /\ sym_array (eu_transport x y v) /\
     sym_array (eu_pair_mean x y)) /\
  (skew_array x -> skew_array y -> skew_array v ->
     skew_array (eu_exp x v) /\ skew_array (eu_log x y) /\ skew_array (eu_transport x y v) /\
     skew_array (eu_pair_mean x y)) /\
  sym_array (eu_zero_vector x) /\ skew_array (eu_zero_vector x).
Proof.
split=> [Sx Sy Sv|].
  split; first by move=> i; rewrite ffunE linearD /= Sx Sv.
  split; first by move=> i; rewrite !ffunE linearB /= Sx Sy.
  by split=> //; apply: sym_mean.
split=> [Sx Sy Sv|].
  split; first by move=> i; rewrite ffunE linearD /= Sx Sv opprD.
  split; first by move=> i; rewrite !ffunE linearB /= Sx Sy opprD.
  by split=> //; apply: skew_mean.
by split=> i; rewrite ffunE trmx0 ?oppr0.
Qed.
Theorem C80_symmetric (x draw : array) :
  sym_array (sym_random_point draw) /\ skew_array (skew_random_point draw) /\
  (sym_random_point draw != 0 ->
     sym_array (sym_random_tangent_vector x draw) /\ eu_norm x (sym_random_tangent_vector x draw) = 1) /\
  (skew_random_point draw != 0 ->
     skew_array (skew_random_tangent_vector x draw) /\ eu_norm x (skew_random_tangent_vector x draw) = 1).
Proof.
have [S [K _]] := C52_symmetric_and_skew draw.
split=> //; split=> //; split=> d0.
  have S' c : sym_array (np_div (multisym draw) c) by move=> i; rewrite np_divE ffunE linearZ /= S.
  have E : sym_random_tangent_vector x draw = np_div (multisym draw) (np_norm (multisym draw)).
    by have [_ [_ [_ [[_ H] _]]]] := C52_symmetric_and_skew (np_div (multisym draw) (np_norm (multisym draw))); exact: (H (S' _)).
  by rewrite E; split=> //; apply: unit_np_div.
have S' c : skew_array (np_div (multiskew draw) c) by move=> i; rewrite np_divE ffunE linearZ /= K scalerN.
have E : skew_random_tangent_vector x draw = np_div (multiskew draw) (np_norm (multiskew draw)).
  by have [_ [_ [_ [_ [[_ H] _]]]]] := C52_symmetric_and_skew (np_div (multiskew draw) (np_norm (multiskew draw))); exact: (H (S' _)).
by rewrite E; split=> //; apply: unit_np_div.
Qed.

(** [to_tangent_space] returns its argument, so it is tangent only if the argument was ... *)
Theorem C56_to_tangent_space_exact (x v : array) :
  (sym_array (sym_to_tangent_space x v) <-> sym_array v) /\
  (skew_array (skew_to_tangent_space x v) <-> skew_array v).
Proof. by []. Qed.
End Symmetric.
(** ... contrary to what it is for. *)
Theorem C56_to_tangent_space_refuted (R : rcfType) k n :
  ~ (forall x v : stack (real_star R) k.+1 n.+2 n.+2, sym_array (sym_to_tangent_space x v)) /\
  ~ (forall x v : stack (real_star R) k.+1 n.+2 n.+2, skew_array (skew_to_tangent_space x v)).
Proof.
pose A : stack (real_star R) k.+1 n.+2 n.+2 := [ffun _ => delta_mx ord0 (lift ord0 ord0)].
split=> [/(_ 0 A ord0)|/(_ 0 A ord0)] /matrixP/(_ ord0 (lift ord0 ord0))/eqP; rewrite /sym_to_tangent_space /eu_to_tangent_space /eu_projection !ffunE !mxE /=.
  by rewrite eq_sym oner_eq0.
by rewrite ?eqxx /= eq_sym oppr_eq0 oner_eq0.
Qed.
Example C56_instance (R : rcfType) :
  let A : stack (real_star R) 1 2 2 := [ffun _ => delta_mx ord0 (lift ord0 ord0)] in
  sym_projection 0 A <> A /\ skew_projection 0 A <> A /\ sym_projection 0 A <> 0 /\ skew_projection 0 A <> 0.
Proof.
move=> A.
have N1 : ~ sym_array A.
  move=> /(_ ord0)/matrixP/(_ ord0 (lift ord0 ord0))/eqP; rewrite !ffunE !mxE /=.
  by rewrite eq_sym oner_eq0.
have N2 : ~ skew_array A.
  move=> /(_ ord0)/matrixP/(_ ord0 (lift ord0 ord0))/eqP; rewrite !ffunE !mxE /=.
  by rewrite ?eqxx /= eq_sym oppr_eq0 oner_eq0.
have [_ [_ [_ [E1 [E2 [E3 E4]]]]]] := C52_symmetric_and_skew A.
by split; [move=> /E1|split; [move=> /E2|split; [move=> /E3|move=> /E4]]].
Qed.
