(** C108: the costs of the packing example. *)
From Coq Require Import Reals Lra.
From mathcomp Require Import all_ssreflect all_algebra.
From Verif Require Import Rstruct Mat_Base Sphere_Model Packing_Model.
Set Implicit Arguments.
Unset Strict Implicit.
Unset Printing Implicit Defensive.
Import GRing.Theory Num.Theory Order.TTheory.
Local Open Scope ring_scope.
Local Delimit Scope R_scope with Re.

(** * The specification *)
(** The inner product of two of the points. *)
Definition product n d (X : 'M[RF]_(n, d)) i j : RR := \sum_k X i k * X j k.
(** All points are on the sphere. *)
Definition on_sphere n d (X : 'M[RF]_(n, d)) : Prop := forall i, product X i i = 1.
(** [M] is the largest inner product of two different points, which the packing is to make small. *)
Definition largest n d (X : 'M[RF]_(n, d)) (M : RR) : Prop :=
  (exists i j, i != j /\ product X i j = M) /\ forall i j, i != j -> product X i j <= M.

(** * Proofs *)
Section Packing.
Variables (n d : nat).
Local Notation points := 'M[RF]_(n.+1, d).
Local Notation square := 'M[RF]_n.+1.
Implicit Types X Y : points.

Lemma productE X i j : (X *m X^T) i j = product X i j.
Proof. by rewrite mxE; apply: eq_bigr => k _; rewrite mxE. Qed.
Lemma productC X i j : product X i j = product X j i.
Proof. by apply: eq_bigr => k _; rewrite mulrC. Qed.
Lemma entry_maxP (Y : square) : (exists i j, Y i j = entry_max Y) /\ forall i j, (Y i j : RR) <= entry_max Y.
Proof.
rewrite /entry_max; case: arg_maxP => // ij _ H; split; first by exists ij.1, ij.2.
by move=> i j; apply: (H (i, j)).
Qed.
Lemma exp_gt0 (x : RR) : 0 < (exp x : RR). Proof. by apply/RltPx; apply: exp_pos. Qed.

(** The shift by [s] does not matter. *)
Theorem C108_cost (epsilon : RR) X : 0 < epsilon -> (0 < n)%N ->
  cost epsilon X = epsilon * (ln (\sum_(i < n.+1) \sum_(j < n.+1 | (i < j)%N) (exp (product X i j / epsilon) : RR))%R : RR).
Proof.
move=> e0 n0; rewrite /cost; have := productE X; move: (X *m X^T) => Y YE; set s := entry_max _.
have -> : entry_sum (triu 1 (\matrix_(i, j) exp ((Y i j - s) / epsilon) - diag_part (\matrix_(i, j) exp ((Y i j - s) / epsilon)))) =
  (exp (- s / epsilon) : RR) * \sum_(i < n.+1) \sum_(j < n.+1 | (i < j)%N) (exp (product X i j / epsilon) : RR).
  rewrite mulr_sumr; apply: eq_bigr => i _; rewrite mulr_sumr [RHS]big_mkcond; apply: eq_bigr => j _.
  rewrite !mxE addn1; case: ifP => // ij; rewrite (_ : (i == j) = false) ?mulr0n ?subr0; last first.
    by apply/negbTE; rewrite neq_ltn ij.
  by rewrite YE -[RHS]/(Rmult _ _) -exp_plus; congr exp; rewrite /Rdiv; ring.
have S0 : 0 < \sum_(i < n.+1) \sum_(j < n.+1 | (i < j)%N) (exp (product X i j / epsilon) : RR).
  rewrite (bigD1 ord0) //= ltr_paddr //; first by apply: sumr_ge0 => i _; apply: sumr_ge0 => j _; apply: ltW; apply: exp_gt0.
  rewrite (bigD1 ord_max) //= ltr_paddr ?exp_gt0 //; by apply: sumr_ge0 => j _; apply: ltW; apply: exp_gt0.
rewrite -[_ * \sum_i _]/(Rmult _ _) ln_mult; [|exact: exp_pos|exact/RltPx].
have e1 : epsilon <> 0%Re by apply/eqP; rewrite gt_eqF.
by rewrite ln_exp; move: (ln _) => L; Rify; field.
Qed.

Lemma pairs_sum (f : 'I_n.+1 -> 'I_n.+1 -> RR) : (forall i j, f i j = f j i) ->
  2%:R * (\sum_(i < n.+1) \sum_(j < n.+1 | (i <= j)%N) f i j) = \sum_i \sum_j f i j + \sum_i f i i.
Proof.
move=> fC; set u := (X in 2%:R * X).
have E : \sum_i \sum_j f i j = u + \sum_(i < n.+1) \sum_(j < n.+1 | (i < j)%N) f i j.
  have -> : \sum_(i < n.+1) \sum_(j < n.+1 | (i < j)%N) f i j = \sum_(i < n.+1) \sum_(j < n.+1 | (j < i)%N) f i j.
    rewrite (exchange_big_dep xpredT) //=; apply: eq_bigr => i _; apply: eq_bigr => j _; exact: fC.
  rewrite -big_split /=; apply: eq_bigr => i _; rewrite [LHS](bigID (fun j : 'I_n.+1 => (i <= j)%N)) /=; congr (_ + _).
  by apply: eq_bigl => j; rewrite ltnNge.
have D : u = \sum_i f i i + \sum_(i < n.+1) \sum_(j < n.+1 | (i < j)%N) f i j.
  rewrite -big_split /=; apply: eq_bigr => i _; rewrite (bigD1 i) //=; congr (_ + _).
  by apply: eq_bigl => j; rewrite ltn_neqAle andbC eq_sym.
rewrite E; move: D => -> ; move: (\sum_i f i i) (\sum_(i < n.+1) \sum_(j < n.+1 | (i < j)%N) f i j) => a b; Rify; ring.
Qed.
Lemma pairs_count : \sum_(i < n.+1) \sum_(j < n.+1 | (i < j)%N) (1 : RR) = 'C(n.+1, 2)%:R.
Proof.
rewrite (exchange_big_dep xpredT) //= -triangular_sum -(big_mkord xpredT (fun j => \sum_(i < n.+1 | (i < j)%N) (1 : RR))).
rewrite natr_sum !big_mkord; apply: eq_bigr => j _.
by rewrite (big_ord_narrow (ltnW (ltn_ord j))) sumr_const card_ord.
Qed.

(** The cost is the largest inner product up to [epsilon] times the logarithm of the number of pairs. *)
Theorem C108_bounds (epsilon : RR) X M : 0 < epsilon -> largest X M ->
  M <= cost epsilon X <= M + epsilon * (ln 'C(n.+1, 2)%:R : RR).
Proof.
move=> e0 [[i0 [j0 [ij0 E]]] H].
have n0 : (0 < n)%N.
  by move: i0 j0 ij0 {E}; case: n X H => // X H i0 j0; rewrite !ord1 eqxx.
have N0 : 0 < ('C(n.+1, 2)%:R : RR) by rewrite ltr0n bin_gt0 ltnS.
rewrite C108_cost //; set S := \sum_(i < n.+1) _.
have e1 : (0 < epsilon)%Re by apply/RltPx.
have e2 : epsilon <> 0%Re by apply/eqP; rewrite gt_eqF.
have L : (exp (M / epsilon) : RR) <= S.
  wlog ij : i0 j0 ij0 E / (i0 < j0)%N.
    move=> W; move: (ij0); rewrite neq_ltn => /orP[ij|ij]; first exact: (W i0 j0).
    by apply: (W j0 i0) => //; [rewrite eq_sym | rewrite productC].
  rewrite /S (bigD1 i0) //= (bigD1 j0) //= E -addrA ler_addl addr_ge0 //.
    by apply: sumr_ge0 => j _; apply: ltW; apply: exp_gt0.
  by apply: sumr_ge0 => i _; apply: sumr_ge0 => j _; apply: ltW; apply: exp_gt0.
have U : S <= 'C(n.+1, 2)%:R * (exp (M / epsilon) : RR).
  rewrite -pairs_count mulr_suml ler_sum // => i _; rewrite mulr_suml ler_sum // => j ij; rewrite mul1r.
  have /RlePx h : product X i j <= M by apply: H; rewrite neq_ltn ij.
  apply/RlePx; case: h => [h|->]; last exact: Rle_refl.
  by apply: Rlt_le; apply: exp_increasing; apply: Rmult_lt_compat_r => //; apply: Rinv_0_lt_compat.
have lnle a b : 0 < a -> a <= b -> (ln a : RR) <= ln b.
  move=> /RltPx a0 /RlePx ab; apply/RlePx; case: ab => [ab|->]; last exact: Rle_refl.
  by apply: Rlt_le; apply: ln_increasing.
have S0 : 0 < S by apply: lt_le_trans L; apply: exp_gt0.
have E1 : M = epsilon * (ln (exp (M / epsilon)) : RR) by rewrite ln_exp; symmetry; Rify; field.
apply/andP; split; first by rewrite {1}E1 ler_pmul2l //; apply: lnle => //; apply: exp_gt0.
have -> : M + epsilon * (ln 'C(n.+1, 2)%:R : RR) = epsilon * (ln ('C(n.+1, 2)%:R * (exp (M / epsilon) : RR))%R : RR).
  rewrite -[('C(n.+1, 2)%:R * _)%R]/(Rmult _ _) ln_mult; [|exact/RltPx|exact: exp_pos].
  by rewrite ln_exp; move: (ln _) => l; Rify; field.
by rewrite ler_pmul2l //; apply: lnle.
Qed.

(** What is printed: negative values are replaced by zero. *)
Theorem C108_printed X M : largest X M -> maxdot X = Num.max 0 M.
Proof.
move=> [[i0 [j0 [ij0 E]]] H]; rewrite /maxdot; have [[i [j A]] B] := entry_maxP (triu 1 (X *m X^T)).
apply/eqP; rewrite eq_le; apply/andP; split.
  rewrite -A mxE; case: ifP => ij; last by rewrite le_maxr lexx.
  rewrite productE le_maxr H ?orbT // neq_ltn; by rewrite addn1 in ij; rewrite ij.
rewrite le_maxl; apply/andP; split.
  by apply: le_trans (B ord0 ord0); rewrite mxE.
wlog ij : i0 j0 ij0 E / (i0 < j0)%N.
  move=> W; move: (ij0); rewrite neq_ltn => /orP[ij|ij]; first exact: (W i0 j0).
  by apply: (W j0 i0) => //; [rewrite eq_sym | rewrite productC].
by apply: le_trans (B i0 j0); rewrite mxE addn1 ij productE E.
Qed.

(** The cost of the TensorFlow backend on the sphere: it depends only on the length of the sum of the points. *)
Theorem C108_tensorflow (epsilon : RR) X : on_sphere X ->
  cost_tensorflow epsilon X = 1 + epsilon * (ln ((n.+1%:R + \sum_k (\sum_i (X i k : RR)) ^+ 2) / 2%:R)%R : RR).
Proof.
move=> O; rewrite /cost_tensorflow /=.
have -> : entry_max (triu 0 (X *m X^T)) = 1.
  have [[i [j A]] B] := entry_maxP (triu 0 (X *m X^T)); apply/eqP; rewrite eq_le; apply/andP; split.
    rewrite -A mxE; case: ifP => _; rewrite ?ler01 // productE.
    have : 0 <= \sum_k (X i k - X j k : RR) ^+ 2 by apply: sumr_ge0 => k _; apply: sqr_ge0.
    have -> : \sum_k (X i k - X j k : RR) ^+ 2 = product X i i + product X j j - 2%:R * product X i j.
      rewrite /product mulr_sumr -big_split -sumrB /=; apply: eq_bigr => k _.
      by move: (X i k : R) (X j k : R) => a b; Rify; ring.
    rewrite !O => h; Rify_in h; Rify; lra.
  by apply: le_trans (B ord0 ord0); rewrite mxE addn0 leqnn productE O.
congr (_ + _ * (ln _ : RR)).
have -> : entry_sum (triu 0 (X *m X^T)) = \sum_(i < n.+1) \sum_(j < n.+1 | (i <= j)%N) product X i j.
  by apply: eq_bigr => i _; rewrite [RHS]big_mkcond; apply: eq_bigr => j _; rewrite mxE addn0 productE.
have h : (2%:R : RR) != 0 by rewrite pnatr_eq0.
apply: (mulfI h); rewrite (pairs_sum (@productC X)) mulrC mulfVK // addrC; congr (_ + _).
  by rewrite (eq_bigr (fun=> 1)) ?sumr_const ?card_ord // => i _; apply: O.
have -> : \sum_i \sum_j product X i j = \sum_k \sum_i \sum_j ((X i k : RR) * X j k).
  rewrite [RHS]exchange_big /=; apply: eq_bigr => i _; by rewrite [RHS]exchange_big.
apply: eq_bigr => k _; rewrite expr2 mulr_suml; apply: eq_bigr => i _; by rewrite mulr_sumr.
Qed.
End Packing.

(** Its minima are the families of points with sum zero, whether or not they are spread out: with two points twice each the cost is
    minimal among all families of four points, and the largest inner product is as large as it can be.  Two opposite points,
    whose inner product is -1, are reported as 0. *)
Definition doubled : 'M[RF]_(4, 1) := \matrix_(i, j) (if (i < 2)%N then 1 else -1).
Definition opposite : 'M[RF]_(2, 1) := \matrix_(i, j) (if (i < 1)%N then 1 else -1).
Theorem C108_tensorflow_refuted (epsilon : RR) : 0 < epsilon ->
  (forall n d (X Y : 'M[RF]_(n.+1, d)), on_sphere X -> on_sphere Y -> (forall k, \sum_i (X i k : RR) = 0) ->
     cost_tensorflow epsilon X <= cost_tensorflow epsilon Y) /\
  on_sphere doubled /\ largest doubled 1 /\ forall Y : 'M[RF]_(4, 1), on_sphere Y -> cost_tensorflow epsilon doubled <= cost_tensorflow epsilon Y.
Proof.
move=> e0.
have K : forall n d (X Y : 'M[RF]_(n.+1, d)), on_sphere X -> on_sphere Y -> (forall k, \sum_i (X i k : RR) = 0) ->
     cost_tensorflow epsilon X <= cost_tensorflow epsilon Y.
  move=> n d X Y OX OY Z; rewrite !C108_tensorflow // ler_add2l ler_pmul2l //.
  rewrite [\sum_k (\sum_i (X i k : RR)) ^+ 2]big1 ?addr0; last by move=> k _; rewrite Z expr0n.
  set q := \sum_k _; have q0 : 0 <= q by apply: sumr_ge0 => k _; apply: sqr_ge0.
  have N0 : 0 < (n.+1%:R / 2%:R : RR) by rewrite divr_gt0 ?ltr0n.
  have /RlePx L : n.+1%:R / 2%:R <= (n.+1%:R + q) / 2%:R by rewrite ler_pmul2r ?invr_gt0 ?ltr0n // ler_addl.
  apply/RlePx; case: L => [L|->]; last exact: Rle_refl.
  by apply: Rlt_le; apply: ln_increasing => //; apply/RltPx.
have O : on_sphere doubled by move=> i; rewrite /product big_ord1 !mxE; case: ifP => _; rewrite ?mulrNN mulr1.
split=> //; split=> //; split; last first.
  move=> Y OY; apply: K => // k; rewrite 4!big_ord_recl big_ord0 !mxE /=; Rify; ring.
split.
  by exists (Ordinal (isT : (0 < 4)%N)), (Ordinal (isT : (1 < 4)%N)); split=> //; rewrite /product big_ord1 !mxE /= mulr1.
by move=> i j _; rewrite /product big_ord1 !mxE; do 2!case: ifP => _; Rify; lra.
Qed.
Theorem C108_printed_refuted : on_sphere opposite /\ largest opposite (-1) /\ maxdot opposite = 0.
Proof.
have L : largest opposite (-1).
  split; first by exists ord0, ord_max; split=> //; rewrite /product big_ord1 !mxE /= mul1r.
  move=> i j ij; rewrite /product big_ord1 !mxE.
  by case: i j ij => [[|[|i]] hi] [[|[|j]] hj] //= _; Rify; lra.
split; first by move=> i; rewrite /product big_ord1 !mxE; case: ifP => _; rewrite ?mulrNN mulr1.
split=> //; rewrite (C108_printed L); apply/max_idPl; by rewrite lerN10.
Qed.
(** The hypotheses of the bounds are met: two orthogonal points. *)
Example C108_instance : exists (X : 'M[RF]_(2, 2)), on_sphere X /\ largest X 0.
Proof.
exists 1%:M; split=> [i|].
  by rewrite -productE trmx1 mulmx1 mxE eqxx.
split; first by exists ord0, ord_max; split=> //; rewrite -productE trmx1 mulmx1 mxE.
by move=> i j /negbTE ij; rewrite -productE trmx1 mulmx1 mxE ij.
Qed.
