(** C101: which points [random_point] can return.  The normal draws range over all real numbers, the uniform draws over [0, 1). *)
From Coq Require Import Reals Lra.
From mathcomp Require Import all_ssreflect all_fingroup all_algebra.
From mathcomp Require Import complex.
From Coq Require Import Ring Field.
From Verif Require Import Rstruct MCRing Mat_Base Geometry_Spec Linalg_Spec Linalg_Exist Calculus Multi_Model Multi_Proofs
  Euclidean_Model Euclidean_Props Sphere_Model Sphere_Proofs Sphere_Props Oblique_Model Oblique_Props ComplexCircle_Model ComplexCircle_Props
  Positive_Model Positive_Props Poincare_Model Poincare_Proofs Poincare_Props Psd_Model Psd_Props Stiefel_Model Stiefel_Props
  Grassmann_Model Grassmann_Props Group_Model Group_Props PosDef_Model PosDef_Proofs PosDef_Special PosDef_Props FixedRank_Model FixedRank_Props.
Set Implicit Arguments.
Unset Strict Implicit.
Unset Printing Implicit Defensive.
Import GRing.Theory Num.Theory Order.TTheory.
Local Open Scope ring_scope.
Delimit Scope R_scope with Re.

(** ** Every point *)
Theorem C101_flat (R : rcfType) k m n (p : stack (real_star R) k m n) (c : stack (complex_star R) k m n)
    (s : stack (real_star R) k n n) :
  (exists draw, eu_random_point draw = p) /\ (exists draw draw', ceu_random_point draw draw' = c) /\
  (sym_array s -> exists draw, sym_random_point draw = s) /\ (skew_array s -> exists draw, skew_random_point draw = s).
Proof.
split; first by exists p.
split.
  exists [ffun i => \matrix_(r, q) complex.Re (c i r q)], [ffun i => \matrix_(r, q) complex.Im (c i r q)].
  by apply/ffunP => i; apply/matrixP => r q; rewrite !(ffunE, mxE); case: (c i r q).
have hh (a : 'M[real_star R]_n) : half (real_star R) *: (a + a) = a.
  by rewrite -mulr2n -scaler_nat scalerA mulVf ?scale1r // pnatr_eq0.
split=> H; exists s; apply/ffunP => i.
  by rewrite /sym_random_point Multi_Props.multisymE H hh.
by rewrite /skew_random_point Multi_Props.multiskewE H opprK hh.
Qed.
Theorem C101_sphere m n (p : 'M[RF]_(m, n)) : on_sphere p -> exists2 draw, draw != 0 & sp_random_point draw = p.
Proof.
move=> /on_sphereE h; exists p; last first.
  by rewrite /sp_random_point normalizeE /unormalize /norm_of h sqrtr1 invr1; apply: scale1r.
by apply/eqP => p0; move: h; rewrite p0 inner0l => /esym/eqP; rewrite oner_eq0.
Qed.
Theorem C101_sphere_subspace n (P : 'M[RF]_n) p : ss_point P p -> exists2 draw, draw != 0 & ss_random_point P draw = p.
Proof.
move=> [h Pp]; have [d d0 E] := C101_sphere h; exists d => //; rewrite /ss_random_point E Pp.
by have /on_sphereE h' := h; rewrite normalizeE /unormalize /norm_of h' sqrtr1 invr1; apply: scale1r.
Qed.
Theorem C101_oblique m n (p : 'M[RF]_(m, n)) : unit_columns p -> exists draw, ob_random_point draw = p.
Proof. by move=> h; exists p; apply/matrixP => i j; rewrite !mxE h sqrtr1 divr1. Qed.
Theorem C101_complex_circle n (p : 'rV[CF]_n) : unit_modulus p -> exists draw draw', cc_random_point draw draw' = p.
Proof.
move=> h; exists (\row_j complex.Re (p 0 j)), (\row_j complex.Im (p 0 j)).
have E : \row_j ((@sf_real RR CF) ((\row_j complex.Re (p 0 j)) 0 j) + 'i%C * (@sf_real RR CF) ((\row_j complex.Im (p 0 j)) 0 j)) = p.
  apply/rowP => j; rewrite !mxE; case: (p 0 j) => a b; apply/eqP; rewrite eq_complex /=.
  by rewrite ?(mul0r, mulr0, mul1r, subr0, addr0, add0r, oppr0) !eqxx.
apply/rowP => j; rewrite /cc_random_point E; have /unit_modulusE/(_ j) h1 := h.
have := entry_normalize j p; rewrite /entry => ->.
rewrite /unormalize /norm_of h1 sqrtr1 invr1 /cscale rmorph1 mul1r //.
Qed.
Theorem C101_positive n (p : 'rV[RF]_n) : positive_entries p -> exists draw, po_random_point draw = p.
Proof.
move=> h; exists (\row_j (ln (p 0 j) : RF)); apply/rowP => j; rewrite !mxE exp_ln //.
by apply/RltPx; apply: h.
Qed.
Theorem C101_poincare k n (p : 'M[RF]_(k, n)) : (0 < n)%N -> inside_balls p ->
  exists (draw : 'M[RF]_(k, n)) (uniform : 'I_k -> RR),
    (forall i, row i draw != 0) /\ (forall i, 0 <= uniform i < 1) /\ pb_random_point draw uniform = p.
Proof.
move=> n0 h; pose rho i : RR := Num.sqrt (\sum_j p i j ^+ 2).
have S0 i : 0 <= \sum_j p i j ^+ 2 by apply: sumr_ge0 => j _; apply: sqr_ge0.
have r0 i : 0 <= rho i by apply: sqrtr_ge0.
have r1 i : rho i < 1.
  by rewrite -ltr_sqr ?nnegrE ?ler01 // expr1n sqr_sqrtr //; apply: h.
have rz i : rho i = 0 -> forall j, p i j = 0.
  move=> /eqP; rewrite sqrtr_eq0 => H j; have /eqP : \sum_j p i j ^+ 2 = 0 by apply/eqP; rewrite eq_le H S0.
  rewrite psumr_eq0 => [/allP /(_ j (mem_index_enum j))|l _]; last exact: sqr_ge0.
  by rewrite /= sqrf_eq0 => /eqP.
have root i : np_root n (rho i ^+ n) = rho i.
  rewrite /np_root; case: eqP => [/eqP|/eqP].
    by rewrite expf_eq0 n0 /= => /eqP ->.
  rewrite expf_eq0 n0 /= => rn; have rp : (0 < rho i)%Re by apply/RltPx; rewrite lt_def rn r0.
  have np : INR n <> 0%Re by apply: not_0_INR => e; rewrite e in n0.
  rewrite RpowE -Rpower_pow // Rpower_mult Rinv_r // Rpower_1 //.
exists (\matrix_(i, j) if rho i == 0 then 1 else p i j), (fun i => rho i ^+ n); split; [|split].
- move=> i; apply/eqP => /rowP H; have := H (Ordinal n0); rewrite !mxE; case: eqP => [_ /eqP|/eqP rn _].
    by rewrite oner_eq0.
  have Z j : p i j = 0 by have := H j; rewrite !mxE (negPf rn).
  by move/eqP: rn; apply; rewrite /rho big1 ?sqrtr0 // => j _; rewrite Z expr0n.
- by move=> i; rewrite exprn_ge0 // exprn_ilt1 // -lt0n.
- apply/matrixP => i j; rewrite !mxE root; case: eqP => [z|/eqP rn].
    by rewrite z mulr0 rz.
  have -> : row_norms (\matrix_(i, j) (if rho i == 0 then 1 else p i j)) i = rho i.
    by rewrite /row_norms /rho; congr Num.sqrt; apply: eq_bigr => l _; rewrite mxE (negPf rn).
  by rewrite mulfVK.
Qed.
Theorem C101_psd (R : rcfType) (F : starField R) n k (p : 'M[F]_(n, k)) : exists draw, psd_random_point draw = p.
Proof. by exists p. Qed.
Theorem C101_elliptope n k (p : 'M[RF]_(n, k)) : unit_rows p -> exists draw, el_random_point draw = p.
Proof.
move=> h; exists p; apply/matrixP => i j; rewrite mxE h sqrtr1 divr1 //.
Qed.
Theorem C101_stiefel (R : rcfType) k n p qr (x : stack (real_star R) k n p) : (forall A, valid_qr A (qr A)) -> on_stiefel x ->
  exists draw, st_random_point qr draw = x.
Proof.
move=> qrP O; exists x; apply/ffunP => i; apply: (multiqr_id qrP).
by have := O i; rewrite (FixedRank_Props.adjT (x i)).
Qed.
Theorem C101_grassmann (R : rcfType) (F : starField R) k n p qr (x : stack F k n p) : (forall A, valid_qr A (qr A)) -> on_grassmann x ->
  exists draw, gr_random_point qr draw = x.
Proof. by move=> qrP O; exists x; apply/ffunP => i; apply: (multiqr_id qrP); apply: O. Qed.
Theorem C101_so (R : rcfType) k n qr (x : stack (real_star R) k n n) : (0 < n)%N -> (forall A, valid_qr A (qr A)) -> on_so x ->
  exists draw, so_random_point qr draw = x.
Proof.
case: n qr x => [|[|n]] // qr x _ qrP O; exists x; apply/ffunP => i; have [Oi Di] := O i.
  rewrite /so_random_point ffunE; apply/matrixP => r c; rewrite mxE [r]ord1 [c]ord1.
  by move: Di; rewrite (mx11_scalar (x i)) det_scalar1 !mxE => ->.
have E : (multiqr_tall qr x).1 i = x i by apply: (multiqr_id qrP); rewrite /orthonormal -FixedRank_Props.adjT.
by rewrite /so_random_point ffunE E Di ltNge ler01.
Qed.
Theorem C101_unitary (R : rcfType) k n qr (x : stack (complex_star R) k n n) : (1 < n)%N -> (forall A, valid_qr A (qr A)) -> on_unitary x ->
  exists draw, u_random_point qr draw = x.
Proof.
move=> n1 qrP O; exists x; rewrite /u_random_point ifN ?gtn_eqF //.
by apply/ffunP => i; apply: (multiqr_id qrP); apply: O.
Qed.

(** ** Not every point *)
(** [UnitaryGroup(1)]: all draws lead to the number [(1 + i) / sqrt 2], not to 1 for example. *)
Theorem C101_unitary_refuted (R : rcfType) k (qr qr' : 'M[complex_star R]_1 -> 'M[complex_star R]_1 * 'M[complex_star R]_1)
    (draw draw' : stack (complex_star R) k 1 1) : (0 < k)%N ->
  u_random_point qr draw = u_random_point qr' draw' /\
  let one : stack (complex_star R) k 1 1 := [ffun _ => 1%:M] in on_unitary one /\ u_random_point qr draw <> one.
Proof.
move=> k0; split=> // one; split; first by move=> i; rewrite ffunE adjmx1 mulmx1.
move=> /ffunP /(_ (Ordinal k0)); rewrite /u_random_point eqxx !ffunE => /matrixP /(_ ord0 ord0); rewrite !mxE eqxx mulr1n.
move=> /(congr1 (fun z => z * modulus ((1 +i* 1)%C : complex_star R))).
rewrite mul1r mulfVK; last first.
  rewrite /modulus fmorph_eq0 sqrtr_eq0 -ltNge /abs2 /=; rewrite !mulr1 opprK; apply: addr_gt0; apply: ltr01.
by move=> /(congr1 (@complex.Im R)) /= /eqP; rewrite oner_eq0.
Qed.

(** [FixedRankEmbedded]: exactly the points with singular values in decreasing order and below one. *)
Lemma sort_down_id (R : rcfType) k (s : 'rV[R]_k) : decreasing s -> sort_down s = s.
Proof.
move=> D; set L := [seq s ord0 j | j <- enum 'I_k]; have sL : size L = k by rewrite size_map size_enum_ord.
have nL (i : 'I_k) : nth 0 L i = s ord0 i.
  by rewrite (nth_map i) ?size_enum_ord // nth_ord_enum.
have S : sorted <=%O (rev L).
  rewrite rev_sorted; apply/(sortedP 0) => i; rewrite sL => hi.
  by have := D (Ordinal (ltnW hi)) (Ordinal hi) (leqnSn _); rewrite -!nL.
apply/rowP => i; rewrite mxE -/L -nL; congr nth.
by rewrite -[RHS]revK; congr rev; apply: (sorted_eq le_trans le_anti) => //; rewrite ?sort_le_sorted // perm_sort perm_sym perm_rev.
Qed.
Theorem C101_fixed_rank (R : rcfType) m n k qr_m qr_n (x : fr_point R m n k) :
  (forall A, valid_qr A (qr_m A)) -> (forall A, valid_qr A (qr_n A)) ->
  (exists draw_u (draw_s : 'rV[R]_k) draw_v, (forall i, 0 <= draw_s ord0 i < 1) /\ fr_random_point qr_m qr_n draw_u draw_s draw_v = x) <->
  ((fr_u x)^T *m fr_u x = 1%:M /\ fr_vt x *m (fr_vt x)^T = 1%:M /\ decreasing (fr_s x) /\ forall i, 0 <= fr_s x ord0 i < 1).
Proof.
move=> qmP qnP; split.
  move=> [du [ds [dv [H <-]]]]; have [D [p E]] := sort_downP ds; split; [|split; [|split=> [//|i]]]; last by rewrite /= E.
    by rewrite /= (FixedRank_Props.adjT (st_random_point qr_m du ord0)); apply: (multiqr_orthonormal qmP).
  by rewrite /= trmxK (FixedRank_Props.adjT (st_random_point qr_n dv ord0)); apply: (multiqr_orthonormal qnP).
case: x => u s vt /= [Ou [Ov [D H]]]; exists [ffun _ => u], s, [ffun _ => vt^T]; split=> //.
rewrite /fr_random_point sort_down_id //; congr FrPoint.
  rewrite [LHS](multiqr_id qmP) ffunE //; rewrite /orthonormal -FixedRank_Props.adjT //.
by rewrite /st_random_point (multiqr_id qnP) ffunE ?trmxK // /orthonormal -FixedRank_Props.adjT trmxK.
Qed.
Theorem C101_fixed_rank_refuted (R : rcfType) : let x := FrPoint 1%:M (const_mx 1) 1%:M : fr_point R 1 1 1 in
  on_fixed_rank x /\ forall qr_m qr_n draw_u (draw_s : 'rV[R]_1) draw_v, (forall A, valid_qr A (qr_m A)) -> (forall A, valid_qr A (qr_n A)) ->
    (forall i, 0 <= draw_s ord0 i < 1) -> fr_random_point qr_m qr_n draw_u draw_s draw_v <> x.
Proof.
split; first by split; [|split=> [|i]] => /=; rewrite ?trmx1 ?mulmx1 // mxE ltr01.
move=> qm qn du ds dv qmP qnP H E.
have [/(_ (ex_intro _ du (ex_intro _ ds (ex_intro _ dv (conj H E)))))] := C101_fixed_rank (FrPoint 1%:M (const_mx 1) 1%:M : fr_point R 1 1 1) qmP qnP.
by move=> [_ [_ [_ /(_ ord0)]]]; rewrite /= mxE ltxx andbF.
Qed.

(** [HermitianPositiveDefinite]: exactly the stacks of matrices with eigenvalues in [1, 2) and common eigenvectors. *)
Section HPD.
Variables (R : rcfType) (k n : nat).
Local Notation C := (complex_star R).
Variable qr : 'M[C]_n -> 'M[C]_n * 'M[C]_n.
Hypothesis qrP : forall A, valid_qr A (qr A).
Theorem C101_hpd (x : stack C k n n) :
  (exists (uniform : 'I_k -> 'I_n -> R) draw, (forall i j, 0 <= uniform i j < 1) /\ pd_random_point qr uniform draw = x) <->
  (exists (q : 'M[C]_n) (w : 'I_k -> 'rV[R]_n), orthonormal q /\ (forall i j, 1 <= w i ord0 j < 2%:R) /\
     forall i, x i = q *m real_diag C (w i) *m q^H).
Proof.
split.
  move=> [u [d [H <-]]]; exists (qr_normalise (leqnn n) (qr d).1 (qr d).2).1, (fun i => \row_r (1 + u i r)).
  split; first by have [[_ [O _]] _] := multiqr_positive qrP d.
  split=> i; last by rewrite pd_randomE eigfun_id.
  by move=> j; rewrite mxE ler_addl -[2%:R]/(1 + 1) ltr_add2l.
move=> [q [w [O [H E]]]]; exists (fun i j => w i ord0 j - 1), q; split.
  by move=> i j; rewrite subr_ge0 ltr_subl_addr.
have Q : (qr_normalise (leqnn n) (qr q).1 (qr q).2).1 = q.
  by have := multiqr_id qrP (A := [ffun _ : 'I_1 => q]) (i := ord0); rewrite !ffunE; apply.
apply/ffunP => i; rewrite pd_randomE eigfun_id Q E /=.
suff -> : \row_r (1 + (w i ord0 r - 1)) = w i by [].
by apply/rowP => j; rewrite mxE addrC subrK.
Qed.
Theorem C101_hpd_refuted (uniform : 'I_k -> 'I_n -> R) draw (i j : 'I_k) : let x := pd_random_point qr uniform draw in
  x i *m x j = x j *m x i.
Proof.
rewrite /= !pd_randomE !eigfun_id.
set q : 'M[C]_n := (qr_normalise (leqnn n) (qr draw).1 (qr draw).2).1.
cbv beta iota delta [fst snd]; rewrite -/q.
have O : q^H *m q = 1%:M by have [[_ [O _]] _] := multiqr_positive qrP draw.
have M (A B : 'M[C]_n) : q *m A *m q^H *m (q *m B *m q^H) = q *m (A *m B) *m q^H.
  by rewrite !mulmxA -(mulmxA _ q^H q) O mulmx1.
by rewrite !M; congr (_ *m _ *m _); rewrite /real_diag !mulmx_diag; congr diag_mx; apply/rowP => l; rewrite !mxE mulrC.
Qed.
(** [SymmetricPositiveDefinite]: the eigenvalues are in [1, 2). *)
Lemma eigfun_shift f wv (c : R) : orthonormal wv.2 -> eigfun f wv - (sf_real c)%:M = eigfun (fun t => f t - c) wv :> 'M[C]_n.
Proof.
move=> O; rewrite /eigfun; have -> : real_diag C (map_mx (fun t => f t - c) wv.1) = real_diag C (map_mx f wv.1) - (sf_real c)%:M.
  by apply/matrixP => r s; rewrite !mxE; case: eqP => [->|_]; rewrite ?mulr1n ?mulr0n ?subr0 // rmorphB.
by rewrite mulmxBr mulmxBl mul_mx_scalar -scalemxAl orthonormalC // scalemx1.
Qed.
Lemma eigfun_below f wv (c : R) : orthonormal wv.2 -> (sf_real c)%:M - eigfun f wv = eigfun (fun t => c - f t) wv :> 'M[C]_n.
Proof.
move=> O; rewrite /eigfun; have -> : real_diag C (map_mx (fun t => c - f t) wv.1) = (sf_real c)%:M - real_diag C (map_mx f wv.1).
  by apply/matrixP => r s; rewrite !mxE; case: eqP => [->|_]; rewrite ?mulr1n ?mulr0n ?subr0 // rmorphB.
by rewrite mulmxBr mulmxBl mul_mx_scalar -scalemxAl orthonormalC // scalemx1.
Qed.
Lemma re_shift (A : 'M[C]_n) (c : R) : \matrix_(r, s) complex.Re ((A - (sf_real c)%:M) r s) = \matrix_(r, s) complex.Re (A r s) - c%:M :> 'M[real_star R]_n.
Proof. by apply/matrixP => r s; rewrite !mxE; case: (A r s) => a b; case: eqP => _ /=; rewrite ?subr0 ?mulr1n ?mulr0n. Qed.
Lemma re_below (A : 'M[C]_n) (c : R) : \matrix_(r, s) complex.Re (((sf_real c)%:M - A) r s) = c%:M - \matrix_(r, s) complex.Re (A r s) :> 'M[real_star R]_n.
Proof. by apply/matrixP => r s; rewrite !mxE; case: (A r s) => a b; case: eqP => _ /=; rewrite ?subr0 ?mulr1n ?mulr0n. Qed.
Theorem C101_spd (x : stack (real_star R) k n n) :
  ((exists (uniform : 'I_k -> 'I_n -> R) draw, (forall i j, 0 <= uniform i j < 1) /\ spd_random_point qr uniform draw = x) ->
    forall i, (forall c : R, c < 1 -> posdef (x i - c%:M)) /\ posdef (2%:R%:M - x i)) /\
  (forall (q : 'M[real_star R]_n) (w : 'I_k -> 'rV[R]_n), orthonormal q -> (forall i j, 1 <= w i ord0 j < 2%:R) ->
     (forall i, x i = q *m real_diag (real_star R) (w i) *m q^H) ->
    exists (uniform : 'I_k -> 'I_n -> R) draw, (forall i j, 0 <= uniform i j < 1) /\ spd_random_point qr uniform draw = x).
Proof.
split.
  move=> [u [d [H <-]]] i; rewrite /spd_random_point ffunE pd_randomE.
  have O : orthonormal (qr_normalise (leqnn n) (qr d).1 (qr d).2).1 by have [[_ [O _]] _] := multiqr_positive qrP d.
  split=> [c c1|].
    rewrite -re_shift; apply: posdef_re; rewrite eigfun_shift //; apply: posdef_eigfun => // j.
    by have /andP[u0 _] := H i j; rewrite mxE subr_gt0 (lt_le_trans c1) // ler_addl.
  rewrite -re_below; apply: posdef_re; rewrite eigfun_below //; apply: posdef_eigfun => // j.
  by have /andP[_ u1] := H i j; rewrite mxE subr_gt0 -[2%:R]/(1 + 1) ltr_add2l.
move=> q w O H E; pose q' : 'M[C]_n := map_mx (real_complex R) q.
have aE : q'^H = map_mx (real_complex R) q^H.
  by apply/matrixP => r c; rewrite !mxE /=; apply/eqP; rewrite eq_complex /= oppr0 !eqxx.
have O' : orthonormal q' by rewrite /orthonormal aE -map_mxM O map_mx1.
have [_ Z] := C101_hpd [ffun i => q' *m real_diag C (w i) *m q'^H].
have [] := Z; first by exists q', w; split=> //; split=> // i; rewrite ffunE.
move=> u [d [Hu Ed]]; exists u, d; split=> //; rewrite /spd_random_point Ed.
apply/ffunP => i; rewrite !ffunE E aE.
have -> : real_diag C (w i) = map_mx (real_complex R) (real_diag (real_star R) (w i)).
  by rewrite /real_diag map_diag_mx; congr diag_mx; apply/rowP => j; rewrite !mxE.
by rewrite -!map_mxM; apply/matrixP => r c; rewrite !mxE.
Qed.
End HPD.

(** [SpecialHermitianPositiveDefinite]: exactly the stacks of matrices with determinant one, common eigenvectors and condition number
    below two. *)
Theorem C101_shpd k n (qr : 'M[complex_star RR]_n -> 'M[complex_star RR]_n * 'M[complex_star RR]_n) (x : stack (complex_star RR) k n n) :
  (0 < n)%N -> (forall A, valid_qr A (qr A)) ->
  (exists (uniform : 'I_k -> 'I_n -> RR) draw, (forall i j, 0 <= uniform i j < 1) /\ shpd_random_point qr uniform draw = x) <->
  (exists (q : 'M[complex_star RR]_n) (w : 'I_k -> 'rV[RR]_n), orthonormal q /\
     (forall i j l, 0 < w i ord0 j < 2%:R * w i ord0 l) /\
     forall i, x i = q *m real_diag (complex_star RR) (w i) *m q^H /\ \det (x i) = 1).
Proof.
move=> n0 qrP; have EV := @complex_has_eigenvectors RR; split.
  move=> [u [d [H <-]]]; set y := pd_random_point qr u d.
  have [q [w [O [W E]]]] : exists (q : 'M[complex_star RR]_n) (w : 'I_k -> 'rV[RR]_n), orthonormal q /\
     (forall i j, 1 <= w i ord0 j < 2%:R) /\ forall i, y i = q *m real_diag (complex_star RR) (w i) *m q^H.
    by apply/(C101_hpd qrP); exists u, d.
  have P i : posdef (y i) by apply: C80_hpd_point => // a b; have /andP[] := H a b.
  pose c i := (np_root_det (y i))^-1.
  have c0 i : 0 < c i by rewrite invr_gt0; apply/RltPx; apply: exp_pos.
  exists q, (fun i => \row_j (c i * w i ord0 j)); split=> //; split.
    move=> i j l; have /andP[a1 a2] := W i j; have /andP[b1 b2] := W i l; rewrite !mxE.
    rewrite mulr_gt0 ?(lt_le_trans ltr01 a1) // (mulrCA 2%:R) ltr_pmul2l // (lt_le_trans a2) //; apply: ler_pemulr => //; exact: ler0n.
  move=> i; split; last by rewrite /shpd_random_point unit_detE; apply: sdet_det.
  rewrite /shpd_random_point ffunE -/(c i) -/y E scalemxAl scalemxAr; congr (_ *m _ *m _).
  by apply/matrixP => r s; rewrite !mxE rmorphM mulrnAr.
move=> [q [w [O [W E]]]]; pose m i := w i ord0 [arg min_(j < Ordinal n0) w i ord0 j]%O.
have m0 i : 0 < m i by have /andP[] := W i [arg min_(j < Ordinal n0) w i ord0 j]%O (Ordinal n0).
have mle i j : m i <= w i ord0 j by rewrite /m; case: arg_minP => //= a _; apply.
have [_ Z] := C101_hpd qrP [ffun i => sf_real (m i)^-1 *: x i].
have [] := Z.
  exists q, (fun i => \row_j ((m i)^-1 * w i ord0 j)); split=> //; split.
    move=> i j; rewrite mxE mulrC ler_pdivl_mulr // mul1r mle /= ltr_pdivr_mulr //.
    by have /andP[] := W i j [arg min_(j < Ordinal n0) w i ord0 j]%O.
  move=> i; rewrite ffunE {1}(proj1 (E i)) scalemxAl scalemxAr; congr (_ *m _ *m _).
  by apply/matrixP => r s; rewrite !mxE rmorphM mulrnAr.
move=> u [d [H Ed]]; exists u, d; split=> //; rewrite /shpd_random_point.
have P i : posdef (pd_random_point qr u d i) by apply: C80_hpd_point => // a b; have /andP[] := H a b.
rewrite Ed in P *; apply/ffunP => i; rewrite unit_detE; have Pi := P i; rewrite ffunE in Pi *.
have /eqP := root_pow n0 EV Pi; rewrite detZ (proj2 (E i)) mulr1 -rmorphX re_real.
rewrite eqr_expn2 ?ltW ?invr_gt0 ?root_pos //.
by move=> /eqP rE; rewrite /sdet rE scalerA -rmorphM invrK mulfV ?gt_eqF // rmorph1 scale1r.
Qed.
(** ... so three times the identity is never returned, although it is a point. *)
Theorem C101_spd_refuted (R : rcfType) k n (qr : 'M[complex_star R]_n -> 'M[complex_star R]_n * 'M[complex_star R]_n) :
  (0 < k)%N -> (0 < n)%N -> (forall A, valid_qr A (qr A)) ->
  let three : stack (real_star R) k n n := [ffun _ => 3%:R%:M] in on_pd three /\
  forall (uniform : 'I_k -> 'I_n -> R) draw, (forall i j, 0 <= uniform i j < 1) -> spd_random_point qr uniform draw <> three.
Proof.
move=> k0 n0 qrP three; split.
  move=> i; rewrite ffunE; have := @posdefZ _ (real_star R) n 3%:R 1%:M; rewrite scalemx1; apply; first by rewrite ltr0n.
  exact: posdef1.
move=> u d H E; have [/(_ (ex_intro _ u (ex_intro _ d (conj H E))) (Ordinal k0)) [_ P] _] := C101_spd qrP three.
pose z : 'cV[real_star R]_n := delta_mx (Ordinal n0) ord0.
have z0 : z != 0 by apply/eqP => /matrixP /(_ (Ordinal n0) ord0); rewrite !mxE !eqxx => /eqP; rewrite oner_eq0.
have [_ /(_ z z0)] := P; rewrite ffunE -raddfB /= mul_mx_scalar -scalemxAl mxE.
have -> : 2%:R - 3%:R = -1 :> R by rewrite (natrD R 2 1 : 3%:R = _) opprD addrA subrr add0r.
rewrite mulN1r; apply/negP; rewrite -leNgt.
rewrite mxE oppr_le0; apply: sumr_ge0 => i _; rewrite !mxE; exact: sqr_ge0.
Qed.
Print Assumptions C101_poincare. Print Assumptions C101_unitary. Print Assumptions C101_fixed_rank. Print Assumptions C101_shpd. Print Assumptions C101_spd_refuted.
(** Concrete points of the two exact descriptions: a fixed-rank point of rank two that is returned, and a decomposition with
    common eigenvectors and eigenvalues one and three halves. *)
Example C101_instance :
  (let x := FrPoint 1%:M (\row_j (1 / (j.+2)%:R)) 1%:M : fr_point RR 2 2 2 in decreasing (fr_s x) /\ forall i, 0 <= fr_s x ord0 i < 1) /\
  (let w : 'rV[RR]_2 := \row_j (if j == ord0 then 1 else 3%:R / 2%:R) in (forall j, 1 <= w ord0 j < 2%:R) /\ forall j l, 0 < w ord0 j < 2%:R * w ord0 l).
Proof.
split=> /=; split.
- by move=> i j ij; rewrite !mxE !div1r lef_pinv ?posrE ?ltr0n // ler_nat !ltnS.
- by move=> i; rewrite mxE div1r invr_ge0 ler0n invf_lt1 ?ltr0n // ltr1n.
- move=> j; rewrite mxE; case: eqP => _; first by rewrite lexx ltr1n.
  by rewrite ler_pdivl_mulr ?ltr0n // mul1r ler_nat ltr_pdivr_mulr ?ltr0n // -natrM ltr_nat.
- move=> j l; rewrite !mxE; case: eqP => _; case: eqP => _.
  + by rewrite ltr01 mulr1 ltr1n.
  + by rewrite ltr01 mulrCA mulfV ?mulr1 ?pnatr_eq0 // ltr1n.
  + by rewrite divr_gt0 ?ltr0n // mulr1 ltr_pdivr_mulr ?ltr0n // -natrM ltr_nat.
  + by rewrite divr_gt0 ?ltr0n // ltr_pmull ?divr_gt0 ?ltr0n // ltr1n.
Qed.
