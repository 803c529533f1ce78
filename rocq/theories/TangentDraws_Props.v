(** C105: which tangent vectors [random_tangent_vector] can return.  The normal draws range over all real numbers. *)
From Coq Require Import Reals Lra.
From mathcomp Require Import all_ssreflect all_fingroup all_algebra.
From mathcomp Require Import complex.
From Coq Require Import Ring Field.
From Verif Require Import Rstruct MCRing Mat_Base Geometry_Spec Linalg_Spec Linalg_Exist Calculus Multi_Model Multi_Proofs
  Euclidean_Model Euclidean_Props Sphere_Model Sphere_Proofs Sphere_Props Oblique_Model Oblique_Props ComplexCircle_Model ComplexCircle_Props
  Positive_Model Positive_Props Poincare_Model Poincare_Proofs Poincare_Props Psd_Model Psd_Props Stiefel_Model Stiefel_Props
  Grassmann_Model Grassmann_Props Stiefel_Proofs Group_Model Group_Props PosDef_Model PosDef_Proofs PosDef_Special PosDef_Props FixedRank_Model FixedRank_Props.
Set Implicit Arguments.
Unset Strict Implicit.
Unset Printing Implicit Defensive.
Import GRing.Theory Num.Theory Order.TTheory.
Local Open Scope ring_scope.
Delimit Scope R_scope with Re.
Add Ring RR_ring : (mc_ring RR).

Lemma np_div1 (R : rcfType) (F : starField R) k m n (a : stack F k m n) : np_div a 1 = a.
Proof. by rewrite np_divE invr1; apply/ffunP => i; apply/matrixP => r s; rewrite !ffunE !mxE rmorph1 mul1r. Qed.
Lemma half_twice (R : rcfType) m n (a : 'M[real_star R]_(m, n)) : half (real_star R) *: (a + a) = a.
Proof. by rewrite -mulr2n -scaler_nat scalerA mulVf ?scale1r // pnatr_eq0. Qed.

(** ** Every tangent vector of norm one *)
Theorem C105_flat (R : rcfType) (F : starField R) k m n (x v : stack F k m n) : eu_norm x v = 1 ->
  exists draw, eu_random_tangent_vector x draw = v.
Proof. by move=> h; exists v; rewrite /eu_random_tangent_vector h; apply: np_div1. Qed.
Theorem C105_symmetric (R : rcfType) k n (x v : stack (real_star R) k n n) : eu_norm x v = 1 ->
  (sym_array v -> exists draw, sym_random_tangent_vector x draw = v) /\
  (skew_array v -> exists draw, skew_random_tangent_vector x draw = v).
Proof.
move=> h; split=> H; exists v.
  have E : multisym v = v by apply/ffunP => i; rewrite Multi_Props.multisymE H half_twice.
  by rewrite /sym_random_tangent_vector /sym_random_point E h np_div1.
have E : multiskew v = v by apply/ffunP => i; rewrite Multi_Props.multiskewE H opprK half_twice.
by rewrite /skew_random_tangent_vector /skew_random_point E h np_div1.
Qed.
Lemma sphere_unit m n (x v : 'M[RF]_(m, n)) : sp_norm x v = 1 -> sp_normalize v = v.
Proof. by move=> h; rewrite /sp_normalize (_ : np_fnorm v = 1) // invr1; apply: scale1r. Qed.
Theorem C105_sphere m n (x v : 'M[RF]_(m, n)) : on_sphere x -> sphere_tangent x v -> sp_norm x v = 1 ->
  exists draw, sp_random_tangent_vector (@sp_projection m n) x draw = v.
Proof.
move=> hx /sphere_tangentE T h; exists v; have E : sp_projection x v = v.
  by rewrite /sp_projection sp_innerE T scale0r subr0.
by rewrite /sp_random_tangent_vector E; apply: sphere_unit h.
Qed.
Theorem C105_sphere_subspace n (P : 'M[RF]_n) x v : orthogonal_projector P -> ss_point P x -> ss_tangent P x v -> sp_norm x v = 1 ->
  exists draw, ss_random_tangent_vector P x draw = v.
Proof.
move=> HP hx T h; exists v; rewrite /ss_random_tangent_vector /sp_random_tangent_vector.
have [[_ [E _]] _] := C62_projection HP v hx; rewrite (E T) (sphere_unit h).
by have [_ ->] := T; apply: sphere_unit h.
Qed.
Theorem C105_oblique m n (x v : 'M[RF]_(m, n)) : unit_columns x -> columns_tangent x v -> ob_norm x v = 1 ->
  exists draw, ob_random_tangent_vector x draw = v.
Proof.
move=> hx T h; exists v; have [_ [E _]] := ob_projects v hx.
by rewrite /ob_random_tangent_vector (E T); apply/matrixP => i j; rewrite mxE h divr1.
Qed.
Lemma circle_algebra (a b c d : RR) : a ^+ 2 + b ^+ 2 = 1 -> a * c + b * d = 0 ->
  - ((a * d - b * c) * b) = c /\ (a * d - b * c) * a = d.
Proof.
move=> N O; split.
  transitivity ((a ^+ 2 + b ^+ 2) * c - a * (a * c + b * d)); first by mcring RR.
  by rewrite N O mul1r mulr0 subr0.
transitivity ((a ^+ 2 + b ^+ 2) * d - b * (a * c + b * d)); first by mcring RR.
by rewrite N O mul1r mulr0 subr0.
Qed.
Theorem C105_complex_circle n (x v : 'rV[CF]_n) : unit_modulus x -> circle_tangent x v -> cc_norm x v = 1 ->
  exists draw, cc_random_tangent_vector x draw = v.
Proof.
move=> hx T h; exists (\row_j (complex.Re (x 0 j) * complex.Im (v 0 j) - complex.Im (x 0 j) * complex.Re (v 0 j))).
have E : \row_j ((@sf_real RR CF) ((\row_j (complex.Re (x 0 j) * complex.Im (v 0 j) - complex.Im (x 0 j) * complex.Re (v 0 j))) 0 j) * 'i%C * x 0 j) = v.
  apply/rowP => j; rewrite !mxE; have := T j; have := hx j; case: (x 0 j) => a b; case: (v 0 j) => c d /= N O.
  apply/eqP; rewrite eq_complex /= ?(mul0r, mulr0, mul1r, mulr1, subr0, sub0r, addr0, add0r, oppr0).
  by have [-> ->] := circle_algebra N O; rewrite !eqxx.
by rewrite /cc_random_tangent_vector E; apply/rowP => j; rewrite mxE h rmorph1 divr1.
Qed.
Theorem C105_positive n (x v : 'rV[RF]_n) : positive_entries x -> po_norm x v = 1 -> exists draw, po_random_tangent_vector x draw = v.
Proof.
move=> hx h; exists (\row_j (v 0 j / x 0 j)).
have E : \row_j ((\row_j (v 0 j / x 0 j)) 0 j * x 0 j) = v.
  by apply/rowP => j; rewrite !mxE divfK // gt_eqF //; apply: hx.
by rewrite /po_random_tangent_vector E; apply/rowP => j; rewrite mxE h divr1.
Qed.
Theorem C105_poincare k n (x v : 'M[RF]_(k, n)) : pb_norm x v = 1 -> exists draw, pb_random_tangent_vector x draw = v.
Proof. by move=> h; exists v; apply/matrixP => i j; rewrite mxE h divr1. Qed.
Theorem C105_stiefel (R : rcfType) k n p (x v : stack (real_star R) k n p) : on_stiefel x -> stiefel_tangent x v -> st_norm x v = 1 ->
  exists draw, st_random_tangent_vector x draw = v.
Proof.
move=> hx T h; exists v; rewrite /st_random_tangent_vector; have [_ [E _]] := stiefel_projects v hx.
by rewrite E // (_ : np_norm v = 1) ?np_div1.
Qed.
Theorem C105_grassmann (R : rcfType) (F : starField R) k n p (x v : stack F k n p) : on_grassmann x -> grassmann_horizontal x v ->
  gr_norm x v = 1 -> exists draw, gr_random_tangent_vector x draw = v.
Proof.
move=> hx T h; exists v; rewrite /gr_random_tangent_vector; have [_ [E _]] := grassmann_projects v hx.
by rewrite E // (_ : np_norm v = 1) ?np_div1.
Qed.
Theorem C105_psd n k (F : starField RR) lyapunov (x v : 'M[F]_(n, k)) : solves_lyapunov lyapunov -> full_rank x -> psd_horizontal x v ->
  psd_norm x v = 1 -> exists draw, psd_random_tangent_vector lyapunov x draw = v.
Proof.
move=> lP hx T h; exists v; rewrite /psd_random_tangent_vector; have [_ [E _]] := psd_projects lP v hx.
by rewrite E // h invr1 rmorph1; apply: scale1r.
Qed.
(** The vector that is projected is a random point here, so its rows have length one. *)
Theorem C105_elliptope n k lyapunov (x v : 'M[RF]_(n, k)) : solves_lyapunov lyapunov -> on_elliptope x -> el_horizontal x v ->
  el_norm x v = 1 -> exists draw, el_random_tangent_vector lyapunov x draw = v.
Proof.
move=> lP hx T h; have [hr fr] := hx; have [Tr Th] := T.
have S1 : \sum_i \sum_j v i j ^+ 2 = 1.
  have := h; rewrite /el_norm => /(congr1 (fun a : RR => a ^+ 2)); rewrite sqr_sqrtr ?expr1n.
    by move=> <-; apply: eq_bigr => i _; apply: eq_bigr => j _; rewrite expr2.
  by apply: sumr_ge0 => i _; apply: sumr_ge0 => j _; rewrite -expr2 sqr_ge0.
have S i : \sum_j v i j ^+ 2 <= 1.
  rewrite -S1 (bigD1 i) //= ler_addl; apply: sumr_ge0 => l _; apply: sumr_ge0 => j _; exact: sqr_ge0.
pose c i := Num.sqrt (1 - \sum_j v i j ^+ 2).
pose y : 'M[RF]_(n, k) := \matrix_(i, j) (c i * x i j + v i j).
have Y : unit_rows y.
  move=> i; transitivity (c i ^+ 2 * (\sum_j x i j ^+ 2) + c i *+ 2 * (\sum_j x i j * v i j) + \sum_j v i j ^+ 2).
    rewrite !mulr_sumr -!big_split /=; apply: eq_bigr => j _; rewrite mxE sqrrD exprMn; congr (_ + _ + _).
    by rewrite mulrnAl -mulrA.
  by rewrite hr (Tr i) mulr0 addr0 mulr1 sqr_sqrtr ?subrK // subr_ge0.
have P : el_project_rows x y = v.
  apply/matrixP => i j; rewrite !mxE.
  have -> : \sum_j0 x i j0 * y i j0 = c i * (\sum_j0 x i j0 ^+ 2) + \sum_j0 x i j0 * v i j0.
    rewrite mulr_sumr -big_split /=; apply: eq_bigr => l _; rewrite mxE mulrDr; congr (_ + _).
    by rewrite mulrCA expr2.
  by rewrite hr (Tr i) mulr1 addr0 [x i j * _]mulrC addrC addrA addNr add0r.
exists y; rewrite /el_random_tangent_vector.
have -> : el_random_point y = y by apply/matrixP => i j; rewrite mxE Y sqrtr1 divr1.
have E := el_projectionE lP y hx; rewrite /= P in E.
have [_ [EP _]] := psd_projects lP v fr.
by rewrite E (EP Th) subrr addr0 h invr1; apply: scale1r.
Qed.
Lemma random_skew_id (R : rcfType) k n (v : stack (real_star R) k n n) : skew_symmetric v -> random_skew_symmetric v = v.
Proof.
move=> T; apply/ffunP => i; apply/matrixP => r c.
have Trc : v i c r = - v i r c by have := congr1 (fun A : 'M[real_star R]_n => A r c) (T i); rewrite !mxE.
have D : r = c -> v i r c = 0.
  move=> rc; apply/eqP; move: Trc; rewrite rc => /eqP; rewrite -addr_eq0 -mulr2n (mulrn_eq0 (v i c c : R)) /= //.
rewrite /random_skew_symmetric; case: eqP => [n1|_].
  rewrite D ?(ffunE, mxE) //; apply/ord_inj; have L (q : 'I_n) : q = 0%N :> nat by have := ltn_ord q; move: (nat_of_ord q) => m; rewrite n1; case: m.
  by rewrite !L.
rewrite !(ffunE, mxE); case: (ltngtP r c) => [_|_|/val_inj rc].
- by rewrite oppr0 addr0.
- by rewrite add0r Trc opprK.
- by rewrite D // oppr0 addr0.
Qed.
Lemma random_sym_id (R : rcfType) k n (v : stack (real_star R) k n n) : sym_array v -> random_symmetric v v = v.
Proof.
move=> T; apply/ffunP => i; apply/matrixP => r c.
have Trc : v i c r = v i r c by have := congr1 (fun A : 'M[real_star R]_n => A r c) (T i); rewrite !mxE.
rewrite /random_symmetric; case: eqP => // _; rewrite !(ffunE, mxE); case: eqP => // rc.
case: (ltngtP r c) => [_|_|/val_inj //]; first by rewrite addr0.
by rewrite add0r Trc.
Qed.
Theorem C105_so (R : rcfType) k n (x v : stack (real_star R) k n n) : skew_symmetric v -> un_norm x v = 1 ->
  exists draw, so_random_tangent_vector x draw = v.
Proof. by move=> T h; exists v; rewrite /so_random_tangent_vector (random_skew_id T) h np_div1. Qed.
Theorem C105_unitary (R : rcfType) k n (x v : stack (complex_star R) k n n) : lie_vector v -> un_norm x v = 1 ->
  exists draw1 draw2 diagonal, u_random_tangent_vector x draw1 draw2 diagonal = v.
Proof.
move=> T h; pose s : R := Num.sqrt 2%:R; have s0 : s != 0 by rewrite sqrtr_eq0 -ltNge ltr0n.
pose A : stack (real_star R) k n n := [ffun i => \matrix_(r, c) (s * complex.Re (v i r c))].
pose B : stack (real_star R) k n n := [ffun i => \matrix_(r, c) (s * complex.Im (v i r c))].
have Tv i r c : conjc (v i c r) = - v i r c.
  by have := congr1 (fun A : 'M[complex_star R]_n => A r c) (T i); rewrite !mxE.
have SA : skew_symmetric A.
  move=> i; apply/matrixP => r c; rewrite !(ffunE, mxE); have := Tv i r c.
  by case: (v i r c) (v i c r) => a b [a' b'] /= [-> _]; rewrite mulrN.
have SB : sym_array B.
  move=> i; apply/matrixP => r c; rewrite !(ffunE, mxE); have := Tv i r c.
  by case: (v i r c) (v i c r) => a b [a' b'] /= [_ /oppr_inj ->].
exists A, B, B; rewrite /u_random_tangent_vector (random_skew_id SA) (random_sym_id SB).
have -> : [ffun i => \matrix_(r, c) ((A i r c +i* B i r c)%C / (Num.sqrt 2%:R)%:C%C)] = v :> stack (complex_star R) k n n.
  apply/ffunP => i; apply/matrixP => r c; rewrite !(ffunE, mxE); case: (v i r c) => a b /=.
  have -> : ((s * a) +i* (s * b))%C = (s%:C * (a +i* b))%C :> complex_star R by rewrite /GRing.mul /= !mul0r subr0 addr0.
  by rewrite mulrAC divff ?mul1r // fmorph_eq0.
by rewrite h np_div1.
Qed.
Theorem C105_posdef (F : starField RR) k n (x v : stack F k n n) : (forall i, (v i)^H = v i) -> pd_norm x v = 1 ->
  exists draw, pd_random_tangent_vector x draw = v.
Proof.
move=> T h; exists v; rewrite /pd_random_tangent_vector.
by have -> : multiherm v = v; [apply/ffunP => i; rewrite hermE hsym_id|rewrite h np_div1].
Qed.
Theorem C105_shpd k n (x v : stack (complex_star RR) k n n) : (0 < n)%N -> on_shpd x -> shpd_tangent x v -> pd_norm x v = 1 ->
  exists draw, shpd_random_tangent_vector x draw = v.
Proof.
move=> n0 hx T h; exists v; have Tv : multiherm v = v.
  by apply/ffunP => i; rewrite hermE hsym_id //; case: (T i).
have E : pd_random_tangent_vector x v = v by rewrite /pd_random_tangent_vector Tv h np_div1.
have P : shpd_projection x v = v.
  apply/ffunP => i; rewrite shpd_projE; have [P _] := hx i; have [_ [-> //]] := sproj_projects n0 (v i) P; exact: T i.
by rewrite /shpd_random_tangent_vector E P h np_div1.
Qed.
Theorem C105_fixed_rank (R : rcfType) m n k (x : fr_point R m n k) v : on_fixed_rank x -> fr_valid x v -> fr_norm x v = 1 ->
  exists draw, fr_random_tangent_vector x draw = v.
Proof.
move=> hx T h; exists v; have [_ [E _]] := C78_to_tangent_space v hx.
rewrite /fr_random_tangent_vector (E T) h; case: v {T h E} => Up M Vp; rewrite /fr_div /=; congr FrVector.
all: by rewrite invr1 scale1r.
Qed.

(** The hypotheses on the elliptope are met: at the identity matrix, the direction that turns both rows towards each other. *)
Example C105_instance : let x : 'M[RF]_2 := 1%:M in let v : 'M[RF]_2 := \matrix_(i, j) if i == j then 0 else (Num.sqrt 2%:R)^-1 in
  on_elliptope x /\ el_horizontal x v /\ el_norm x v = 1.
Proof.
move=> x v; have F : full_rank x by exact: mxrank1.
have U : unit_rows x.
  by move=> i; rewrite !big_ord_recl big_ord0 !mxE; case: i => -[|[|]] //= ?; rewrite ?expr1n ?expr0n /= ?addr0 ?add0r.
split=> //; split; last first.
  rewrite /el_norm /el_inner_product !big_ord_recl !big_ord0 !mxE /= !mul0r !add0r !addr0.
  by rewrite -invfM -expr2 sqr_sqrtr ?ler0n // -mulr2n -mulr_natl divff ?sqrtr1 // pnatr_eq0.
split; first by move=> i; rewrite !big_ord_recl big_ord0 !mxE; case: i => -[|[|]] //= ?; rewrite ?mul0r ?mulr0 ?addr0.
move=> w; rewrite /vertical adjmx1 mulmx1 mul1mx => W.
have A : w ord0 (lift ord0 ord0) + w (lift ord0 ord0) ord0 = 0.
  have := congr1 (fun A : 'M[RF]_2 => A ord0 (lift ord0 ord0)) W; by rewrite !mxE.
rewrite /inner !big_ord_recl !big_ord0 !addr0 /v ![(\matrix_(i, j) _) _ _]mxE /= !mul0r add0r addr0 -mulrDr A mulr0 //.
Qed.
