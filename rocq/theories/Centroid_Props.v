(** C113: the centroid of [nelder_mead.py]. *)
From Coq Require Import Reals ZArith List Lra Sorted.
From mathcomp Require Import all_ssreflect all_algebra.
From Coq Require Import Ring Field.
From Verif Require Import Rstruct MCRing Mat_Base Geometry_Spec Linalg_Spec Calculus Components Num_Model Num_Spec Num_Instances
  LineSearch_Model Optimizer_Model Optimizer_Spec Optimizer_Props NelderMead_Model Euclid1
  Sphere_Model Euclidean_Model Euclidean_Props Stiefel_Proofs Stack_Proofs Positive_Model Positive_Props Multi_Model Symmetry_Model Isometry_Model.
Set Implicit Arguments.
Unset Strict Implicit.
Unset Printing Implicit Defensive.
Import GRing.Theory Num.Theory Order.TTheory.
Local Open Scope ring_scope.
Delimit Scope R_scope with Re.

(** ** The sum of squared distances never gets larger than at the random point the descent starts from. *)
Theorem C113_descends (N : NumOps) (L : OrderLaws N) (M : Mfd N) (LS : LineSearcher M) ls0 sp clock x0 points c :
  builtin_searcher LS -> (forall y, nisnan N (karcher_cost points y) = false) ->
  compute_centroid LS ls0 sp clock x0 points = Ok c ->
  nle N (karcher_cost points c) (karcher_cost points x0) = true.
Proof.
move=> HB HN; rewrite /compute_centroid; set sp' := mkStop _ _ _ _ _ _ _.
case E : (sd_run _ _ _ _ _ _) => [[r ls]|e] //= [<-].
have [rc _] := C08_steepest_descent_result _ _ _ _ _ _ _ _ _ _ E.
have := C07_steepest_descent_monotone _ L _ _ _ _ _ _ _ _ _ HB E (fun p _ => HN p); rewrite rc /=.
move=> S; have [_ H] := Sorted.StronglySorted_inv S; move: H; rewrite Forall_forall; apply.
by apply: in_or_app; right; left.
Qed.

(** ** Where the manifold is flat: what the descent minimises *)
Section Flat.
Variables (V : zmodType) (scale : RR -> V -> V) (dot : V -> V -> RR).
Hypothesis I : inner_product_on scale everywhere dot.
Add Ring RR_ring : (mc_ring RR).
Lemma sum_diff (ps : seq V) m y : \sum_(p <- ps) p = scale (size ps)%:R m -> \sum_(p <- ps) (p - y) = scale (size ps)%:R (m - y).
Proof.
move=> e; have -> : \sum_(p <- ps) (p - y) = \sum_(p <- ps) p - scale (size ps)%:R y.
  rewrite big_split /=; congr (_ + _); elim: (ps) => [|p l IH]; first by rewrite big_nil; vring I RR.
  by rewrite big_cons IH /= mulrSr; vring I RR.
by rewrite e; vring I RR.
Qed.
Lemma dot_sumr (l : seq V) u : dot u (\sum_(p <- l) p) = \sum_(p <- l) dot u p.
Proof. by elim: l => [|p l IH]; rewrite ?big_nil ?(dot0r I) // !big_cons (dotDr I) IH. Qed.
Lemma sum_squares (ps : seq V) m y : \sum_(p <- ps) p = scale (size ps)%:R m ->
  \sum_(p <- ps) dot (y - p) (y - p) = \sum_(p <- ps) dot (m - p) (m - p) + (size ps)%:R * dot (y - m) (y - m).
Proof.
move=> e; have z : \sum_(p <- ps) dot (y - m) (p - m) = 0.
  rewrite -(big_map (fun p => p - m) xpredT (fun q => dot (y - m) q)) -dot_sumr big_map (sum_diff m e) subrr.
  by rewrite (dotZr I) (dot0r I) mulr0.
have -> : \sum_(p <- ps) dot (y - p) (y - p) =
  \sum_(p <- ps) (dot (m - p) (m - p) + (dot (y - m) (y - m) - 2%:R * dot (y - m) (p - m))).
  apply: eq_bigr => p _; have -> : y - p = (y - m) - (p - m) by vring I RR.
  have -> : m - p = - (p - m) by vring I RR.
  move: (y - m) (p - m) => a b.
  by rewrite (dotNl I) (dotNr I) opprK (dotBl I) !(dotBr I) (dotC I b a); mcring RR.
rewrite big_split /= sumrB -mulr_sumr z mulr0 subr0; congr (_ + _).
elim: (ps) => [|p l IH]; first by rewrite big_nil mul0r.
by rewrite big_cons IH /= mulrSr mulrDl mul1r addrC.
Qed.
End Flat.
Lemma fold_sum (V : zmodType) (A : Type) (g : A -> V) l a : fold_left (fun acc p => acc + g p) l a = a + \sum_(p <- l) g p.
Proof. by elim: l a => [|p l IH] a; rewrite ?big_nil ?addr0 // big_cons /= IH addrA. Qed.
Lemma karcher_costE (M : Mfd Rnum) (points : list (pt M)) y :
  karcher_cost points y = (\sum_(p <- points) (m_dist M y p : RR) ^+ 2 : RR) / 2%:R.
Proof.
rewrite /karcher_cost /=.
have -> : fold_left (fun acc p => Rplus acc (Rmult (m_dist M y p) (m_dist M y p))) points (IZR 0) =
  \sum_(p <- points) (m_dist M y p : RR) ^+ 2.
  by have := fold_sum (fun p => (m_dist M y p : RR) ^+ 2) points 0; rewrite add0r => <-.
rewrite /Rdiv_res; case: Req_EM_T => [e|_]; first by exfalso; lra.
by symmetry; rewrite RdivE.
Qed.

Section Euclidean.
Variables (F : starField RR) (k m n : nat) (dimension : Z).
Local Notation array := (stack F k m n).
Local Notation M := (@euclidean_mfd F k m n dimension).
Local Notation scale := (@sscale RR F k m n).
Local Notation dot := (@sinner RR F k m n).
Local Notation I := (@sinner_ips RR F k m n).
Implicit Types (points : list array) (mean y : array).
(** On Euclidean spaces: the sum of squares exceeds the one of the arithmetic mean by half the number of points times the squared
    distance from it; the norm of the gradient is the number of points times that distance; a step against the gradient of the
    right length ends there; and the centroid that is computed is never farther from it than the random starting point. *)
Theorem C113_euclidean points mean : points <> [::] -> \sum_(p <- points) p = scale (size points)%:R mean ->
  (forall y, karcher_cost (M := M) points y = karcher_cost (M := M) points mean + (size points)%:R / 2%:R * eu_dist y mean ^+ 2) /\
  (forall y, eu_norm y (karcher_gradient (M := M) points y) = (size points)%:R * eu_dist y mean) /\
  (forall y, eu_retraction y (scale (size points)%:R^-1 (- karcher_gradient (M := M) points y)) = mean) /\
  (forall (LS : LineSearcher M) ls0 sp clock x0 c, builtin_searcher LS -> compute_centroid LS ls0 sp clock x0 points = Ok c ->
    eu_dist c mean <= eu_dist x0 mean).
Proof.
move=> p0 e; have s0 : 0 < (size points)%:R :> RR by rewrite ltr0n; case: (points) p0.
have dE y z : eu_dist y z ^+ 2 = dot (y - z) (y - z) by rewrite /eu_dist np_normE (norm_sqr I).
have C y : karcher_cost (M := M) points y = karcher_cost (M := M) points mean + (size points)%:R / 2%:R * eu_dist y mean ^+ 2.
  rewrite !karcher_costE /=; have := sum_squares I y e.
  under eq_bigr do rewrite -dE; under [X in _ = X + _ -> _]eq_bigr do rewrite -dE.
  by move=> ->; rewrite -dE mulrDl mulrAC.
have G y : karcher_gradient (M := M) points y = - scale (size points)%:R (mean - y).
  rewrite /karcher_gradient -(sum_diff I y e) /=; congr (- _).
  by have := fold_sum (fun p : array => p - y) points 0; rewrite add0r => <-.
split=> //; split.
  move=> y; rewrite G /eu_norm np_normE (normN I) (normZ I) ger0_norm ?ler0n //; congr (_ * _).
  by rewrite /eu_dist np_normE (normBC I).
split.
  move=> y; rewrite G opprK /eu_retraction /eu_exp.
  have -> : scale (size points)%:R^-1 (scale (size points)%:R (mean - y)) = mean - y.
    apply/ffunP => i; rewrite !stackZ scalerA -rmorphM mulVf ?rmorph1 ?scale1r // gt_eqF //.
  by rewrite addrC subrK.
move=> LS ls0 sp clock x0 c HB E; have h0 : 0 < (size points)%:R / 2%:R :> RR by rewrite divr_gt0 // ltr0n.
have := C113_descends Rnum_laws HB (fun _ => erefl) E => /Rleb_spec/(introT (RlePx _ _)); rewrite (C c) (C x0) ler_add2l (ler_pmul2l h0).
by rewrite ler_sqr ?nnegrE /eu_dist ?np_normE ?(norm_ge0 dot).
Qed.
End Euclidean.

(** On positive matrices the same holds with the geometric mean. *)
Section Positive.
Variables (n : nat) (dimension : Z) (use_parallel_transport : bool).
Local Notation array := 'rV[RF]_n.
Local Notation M := (@positive_mfd n dimension use_parallel_transport).
Local Notation scale := (@rscale RR RF 1 n).
Local Notation dot := (@inner RR RF 1 n).
Local Notation I := (@inner_ips RR RF 1 n).
Implicit Types (points : list array) (mean y : array).
Definition logs (x : array) : array := \row_j (ln (x 0 j) : RR).
Lemma rdot (u : array) : dot u u = \sum_j (u 0 j : RR) * u 0 j.
Proof. by rewrite /inner big_ord1. Qed.
Lemma po_distE x y : po_dist x y = norm_of dot (logs x - logs y).
Proof. by rewrite /po_dist /norm_of rdot; congr Num.sqrt; apply: eq_bigr => j _; rewrite !mxE. Qed.
Lemma ln_exp_nat (a : RR) q : 0 < a -> (ln (a ^+ q)%R : RR) = q%:R * ln a.
Proof.
move=> /RltPx a0; elim: q => [|q IH]; first by rewrite expr0 mul0r; exact: ln_1.
rewrite exprS mulrSr mulrDl mul1r -IH addrC; apply: ln_mult => //.
by apply: elimT (RltPx _ _) _; apply: exprn_gt0; apply/RltPx.
Qed.
Lemma ln_prod (points : list array) j : (forall p, List.In p points -> positive_entries p) ->
  0 < \prod_(p <- points) (p 0 j : RR) /\ (ln (\prod_(p <- points) (p 0 j : RR))%R : RR) = \sum_(p <- points) (ln (p 0 j) : RR).
Proof.
elim: points => [|p l IH] H; first by rewrite !big_nil; split; [exact: ltr01|exact: ln_1].
have [l0 E] := IH (fun q hq => H q (or_intror hq)); have p0 := H p (or_introl erefl) j.
rewrite !big_cons; split; first exact: mulr_gt0.
rewrite -E; apply: ln_mult; apply: elimT (RltPx _ _) _ => //.
Qed.
Theorem C113_positive points mean : points <> [::] -> (forall p, List.In p points -> positive_entries p) -> positive_entries mean ->
  (forall j, (mean 0 j : RR) ^+ size points = \prod_(p <- points) (p 0 j : RR)) ->
  (forall y, karcher_cost (M := M) points y = karcher_cost (M := M) points mean + (size points)%:R / 2%:R * po_dist y mean ^+ 2) /\
  (forall y, positive_entries y -> po_norm y (karcher_gradient (M := M) points y) = (size points)%:R * po_dist y mean) /\
  (forall y, positive_entries y -> po_exp y (scale (size points)%:R^-1 (- karcher_gradient (M := M) points y)) = mean) /\
  (forall (LS : LineSearcher M) ls0 sp clock x0 c, builtin_searcher LS -> compute_centroid LS ls0 sp clock x0 points = Ok c ->
    po_dist c mean <= po_dist x0 mean).
Proof.
move=> p0 hp hm hprod; have s0 : 0 < (size points)%:R :> RR by rewrite ltr0n; case: (points) p0.
have e : \sum_(q <- [seq logs p | p <- points]) q = scale (size [seq logs p | p <- points])%:R (logs mean).
  apply/rowP => j; rewrite size_map big_map summxE [RHS]mxE [logs mean 0 j]mxE.
  transitivity (\sum_(p <- points) (ln (p 0 j) : RR)); first by apply: eq_bigr => p _; rewrite mxE.
  by have [_ <-] := ln_prod j hp; rewrite -hprod (ln_exp_nat _ (hm j)).
have dE x y : po_dist x y ^+ 2 = dot (logs x - logs y) (logs x - logs y) by rewrite po_distE (norm_sqr I).
have C y : karcher_cost (M := M) points y = karcher_cost (M := M) points mean + (size points)%:R / 2%:R * po_dist y mean ^+ 2.
  rewrite !karcher_costE /=; have := sum_squares I (logs y) e; rewrite size_map !big_map.
  under eq_bigr do rewrite -dE; under [X in _ = X + _ -> _]eq_bigr do rewrite -dE.
  by move=> ->; rewrite -dE mulrDl mulrAC.
have G y j : karcher_gradient (M := M) points y 0 j = - ((y 0 j : RR) * ((size points)%:R * (logs mean 0 j - logs y 0 j : RR))).
  have -> : karcher_gradient (M := M) points y = - \sum_(p <- points) po_log y p.
    by rewrite /karcher_gradient /=; congr (- _); have := fold_sum (fun p : array => po_log y p) points 0; rewrite add0r => <-.
  have := congr1 (fun u : array => u 0 j) (sum_diff I (logs y) e); rewrite size_map big_map [RHS]mxE summxE => E.
  have e2 : (logs mean - logs y : array) 0 j = (logs mean 0 j - logs y 0 j : RR) by rewrite !mxE.
  rewrite [LHS]mxE summxE; congr (- _); rewrite e2 in E.
  transitivity ((y 0 j : RR) * \sum_(p <- points) ((logs p - logs y) 0 j : RR)); last by rewrite E.
  by rewrite mulr_sumr; apply: eq_bigr => p _; rewrite !mxE.
split=> //; split.
  move=> y hy; rewrite po_distE -[X in X * _]ger0_norm ?ler0n // -(normZ I) /po_norm /norm_of rdot /po_inner_product; congr Num.sqrt.
  apply: eq_bigr => j _; rewrite !G; have yj := pos_neq0 j hy.
  have -> : - ((y 0 j : RR) * ((size points)%:R * (logs mean 0 j - logs y 0 j))) / y 0 j = (scale (size points)%:R (logs y - logs mean) 0 j : RR).
    by rewrite mulNr mulrAC mulfV // mul1r -mulrN opprB !mxE.
  by [].
split.
  move=> y hy; apply/rowP => j; have yj := pos_neq0 j hy; have sE (a : RR) (u : array) : scale a (- u) 0 j = a * - (u 0 j : RR) by rewrite !mxE.
  rewrite [LHS]mxE sE G opprK.
  have -> : (((size points)%:R^-1 : RR) * ((y 0 j : RR) * ((size points)%:R * (logs mean 0 j - logs y 0 j : RR))) / y 0 j)%R =
     Rminus (ln (mean 0 j)) (ln (y 0 j)).
    by rewrite mulrCA mulrAC mulfV // mul1r mulrA mulVf ?mul1r ?gt_eqF // !mxE.
  have /RltPx y0 := hy j; have /RltPx m0 := hm j.
  rewrite /Rminus exp_plus exp_Ropp !exp_ln //.
  have Q (a b : R) : a <> 0%Re -> (a * (b * / a))%Re = b by move=> a0; field.
  move/eqP: yj => a0.
  exact: (Q (y 0 j) (mean 0 j) a0).
move=> LS ls0 sp clock x0 c HB E; have h0 : 0 < (size points)%:R / 2%:R :> RR by rewrite divr_gt0 // ltr0n.
have := C113_descends Rnum_laws HB (fun _ => erefl) E => /Rleb_spec/(introT (RlePx _ _)); rewrite (C c) (C x0) ler_add2l (ler_pmul2l h0).
by rewrite ler_sqr ?nnegrE !po_distE ?(norm_ge0 dot).
Qed.
End Positive.

(** ** The descent tests its stopping criterion only after the next line search (C09): from a start whose first step ends exactly
    on the centroid, the result is not a number.  Two points of the line, default parameters, binary64. *)
Theorem C113_refuted : exists (x0 p q : F),
  compute_centroid (M := E1 F) (bt_searcher (E1 F) bt_default) None (stop_default F 15) (still F) x0 [:: p; q] = Ok SpecFloat.S754_nan /\
  nisnan F x0 = false /\ nisnan F p = false /\ nisnan F q = false.
Proof. exists (n_of_Z F 1), (n_of_Z F 0), (n_of_Z F 3); split; [vm_compute; reflexivity|by []]. Qed.
(** Another start gives a number close to the mean of 0 and 3. *)
Example C113_instance : exists c : F,
  compute_centroid (M := E1 F) (bt_searcher (E1 F) bt_default) None (stop_default F 15) (still F) (lit 7 2) [:: n_of_Z F 0; n_of_Z F 3] = Ok c /\
  nlt F (nabs F (nsub F c (lit 3 2))) (lit 1 1000) = true.
Proof. by eexists; split; [vm_compute; reflexivity|vm_compute; reflexivity]. Qed.
