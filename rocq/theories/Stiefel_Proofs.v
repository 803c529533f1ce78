(** Matrices with orthonormal columns: projection, QR and polar retractions. *)
From mathcomp Require Import all_ssreflect all_algebra.
From Coq Require Import Ring Field.
From Verif Require Import MCRing Mat_Base Geometry_Spec Linalg_Spec Multi_Model Multi_Proofs Calculus.
Set Implicit Arguments.
Unset Strict Implicit.
Unset Printing Implicit Defensive.
Import GRing.Theory Num.Theory Order.TTheory.
Local Open Scope ring_scope.

Section Triangular.
Variables (R : rcfType) (F : starField R) (n : nat).
Implicit Types r W : 'M[F]_n.
Lemma upper_left W r r' : upper_triangular r -> upper_triangular r' -> (forall i, r i i != 0) -> W *m r = r' ->
  upper_triangular W /\ forall i, W i i * r i i = r' i i.
Proof.
move=> U U' d W1.
have TW : upper_triangular W.
  have H (l : nat) : forall (i j : 'I_n), (j < l)%N -> (j < i)%N -> W i j = 0.
    elim: l => // l IH i j jl ji.
    have : (W *m r) i j = 0 by rewrite W1 U'.
    rewrite [LHS]mxE (bigD1 j) //= big1 ?addr0; last first.
      move=> p pj; have [jp|pj'] := ltnP j p; first by rewrite (U p j) // mulr0.
      have {}pj' : (p < j)%N by rewrite ltn_neqAle pj' andbT; move: pj; rewrite -val_eqE.
      rewrite IH ?mul0r //; first exact: leq_trans pj' jl.
      exact: ltn_trans pj' ji.
    by move/eqP; rewrite mulf_eq0 (negPf (d j)) orbF => /eqP.
  by move=> i j; apply: (H n).
split=> // i; rewrite -W1 [RHS]mxE (bigD1 i) //= big1 ?addr0 // => p pi.
have [ip|] := ltnP i p; first by rewrite (U p i) // mulr0.
by rewrite leq_eqVlt => /orP[|pi']; [move: pi; rewrite -val_eqE => /negPf ->|rewrite TW ?mul0r].
Qed.
End Triangular.

Section Stiefel.
Variables (R : rcfType) (F : starField R).
Add Ring R_ring : (mc_ring R).
Add Ring F_ring : (mc_ring F).

Lemma adjmxD m q (A B : 'M[F]_(m, q)) : (A + B)^H = A^H + B^H. Proof. exact: raddfD. Qed.
Lemma adjmxB m q (A B : 'M[F]_(m, q)) : (A - B)^H = A^H - B^H. Proof. exact: raddfB. Qed.
Lemma adjmxN m q (A : 'M[F]_(m, q)) : (- A)^H = - A^H. Proof. exact: raddfN. Qed.
Lemma adjmx0 m q : (0 : 'M[F]_(m, q))^H = 0. Proof. exact: raddf0. Qed.
(** ** Hermitian and skew-Hermitian parts *)
Definition hsym n (A : 'M[F]_n) : 'M[F]_n := half F *: (A + A^H).
Definition hskew n (A : 'M[F]_n) : 'M[F]_n := half F *: (A - A^H).
Lemma hsym_herm n (A : 'M[F]_n) : (hsym A)^H = hsym A.
Proof. by rewrite /hsym adjmxZ conj_half adjmxD adjmxK addrC. Qed.
Lemma hskew_skew n (A : 'M[F]_n) : (hskew A)^H = - hskew A.
Proof. by rewrite /hskew adjmxZ conj_half adjmxB adjmxK -scalerN opprB. Qed.
Lemma hsym_skew n (A : 'M[F]_n) : hsym A + hskew A = A.
Proof. by rewrite -scalerDr addrACA subrr addr0 scale_half2. Qed.
Lemma hsym_id n (A : 'M[F]_n) : A^H = A -> hsym A = A.
Proof. by move=> h; rewrite /hsym h scale_half2. Qed.
Lemma hskew_id n (A : 'M[F]_n) : A^H = - A -> hskew A = A.
Proof. by move=> h; rewrite /hskew h opprK scale_half2. Qed.
Lemma hsym_of_skew n (A : 'M[F]_n) : A^H = - A -> hsym A = 0.
Proof. by move=> h; rewrite /hsym h subrr scaler0. Qed.
Lemma hskew_of_herm n (A : 'M[F]_n) : A^H = A -> hskew A = 0.
Proof. by move=> h; rewrite /hskew h subrr scaler0. Qed.
Lemma hsym_double n (A : 'M[F]_n) : hsym A + hsym A = A + A^H.
Proof. by rewrite -scalerDr scale_half2. Qed.
Lemma hsymD n (A B : 'M[F]_n) : hsym (A + B) = hsym A + hsym B.
Proof. by rewrite /hsym adjmxD addrACA scalerDr. Qed.
Lemma hsymN n (A : 'M[F]_n) : hsym (- A) = - hsym A.
Proof. by rewrite /hsym adjmxN -opprD scalerN. Qed.
Lemma hsymB n (A B : 'M[F]_n) : hsym (A - B) = hsym A - hsym B.
Proof. by rewrite hsymD hsymN. Qed.
Lemma hskewD n (A B : 'M[F]_n) : hskew (A + B) = hskew A + hskew B.
Proof. by rewrite /hskew adjmxD opprD addrACA scalerDr. Qed.
Lemma hskewN n (A : 'M[F]_n) : hskew (- A) = - hskew A.
Proof. by rewrite /hskew adjmxN -opprD scalerN. Qed.
Lemma hsymZ n a (A : 'M[F]_n) : hsym (sf_real a *: A) = sf_real a *: hsym A.
Proof. by rewrite /hsym adjmxZreal -scalerDr !scalerA mulrC. Qed.
Lemma hskewZ n a (A : 'M[F]_n) : hskew (sf_real a *: A) = sf_real a *: hskew A.
Proof. by rewrite /hskew adjmxZreal -scalerBr !scalerA mulrC. Qed.

Variables (n p : nat).
Implicit Types (X V W Q : 'M[F]_(n, p)).
Local Notation dot := (@inner R F n p).
Local Notation scale := (@rscale R F n p).
Local Notation J := (@inner_ips R F n p).

Definition st_tangent X V : Prop := X^H *m V + V^H *m X = 0.
Lemma st_tangentE X V : st_tangent X V <-> (X^H *m V)^H = - (X^H *m V).
Proof. by rewrite /st_tangent adjmxM adjmxK; split=> [/eqP|->]; rewrite ?subrr // addr_eq0 => /eqP ->; rewrite opprK. Qed.
Definition st_proj X V := V - X *m hsym (X^H *m V).
Lemma st_projects X V : orthonormal X -> projects_to dot (st_tangent X) V (st_proj X V).
Proof.
move=> O; split.
  rewrite /st_tangent /st_proj mulmxBr mulmxA O mul1mx adjmxB adjmxM hsym_herm mulmxBl -mulmxA O mulmx1.
  by rewrite addrACA -opprD hsym_double adjmxM adjmxK subrr.
split; first by move=> /st_tangentE T; rewrite /st_proj hsym_of_skew // mulmx0 subr0.
move=> t /st_tangentE T; rewrite /st_proj opprB addrC subrK inner_mull.
exact: inner_herm_skew (hsym_herm _) T.
Qed.
Lemma st_subspace X : real_subspace scale (st_tangent X).
Proof.
split; first by rewrite /st_tangent mulmx0 adjmx0 mul0mx addr0.
split.
  move=> u v hu hv; rewrite /st_tangent mulmxDr adjmxD mulmxDl addrACA.
  by rewrite -/(st_tangent X u) in hu; rewrite [X in X + _]hu [X in _ + X]hv addr0.
move=> a v hv; rewrite /st_tangent /rscale adjmxZreal -scalemxAr -scalemxAl -scalerDr.
by rewrite [X in _ *: X]hv scaler0.
Qed.
Lemma st_tangentN X V : st_tangent X V -> st_tangent X (- V).
Proof. by rewrite /st_tangent mulmxN adjmxN mulNmx -opprD => ->; rewrite oppr0. Qed.

(** ** The Gram matrix of [X + V] *)
Lemma st_gram X V : orthonormal X -> st_tangent X V -> (X + V)^H *m (X + V) = 1%:M + V^H *m V.
Proof.
move=> O T; rewrite adjmxD mulmxDl !mulmxDr O -addrA; congr (_ + _).
by rewrite addrA [X in X + _](T : _ = _) add0r.
Qed.
Lemma st_rank X V : orthonormal X -> st_tangent X V -> \rank (X + V)%R = p.
Proof.
move=> O T; apply/eqP; rewrite eqn_leq rank_leq_col /=.
have : row_free (X + V)^T.
  apply/inj_row_free => v; move=> H.
  have H2 : (X + V) *m v^T = 0 by rewrite -[LHS]trmxK trmx_mul trmxK H trmx0.
  have : inner (v^T) (v^T) + inner (V *m v^T) (V *m v^T) = 0.
    have := congr1 (fun M => inner v^T ((X + V)^H *m M)) H2.
    rewrite mulmxA st_gram // mulmxDl mul1mx innerDr mulmx0 inner0r => <-.
    by rewrite inner_mull !mulmxA.
  move/eqP; rewrite paddr_eq0 ?inner_ge0 // => /andP[/eqP/inner_eq0 E _].
  by rewrite -[v]trmxK E trmx0.
by rewrite /row_free mxrank_tr => /eqP ->.
Qed.
Lemma inner_gram m q (A : 'M[F]_(m, q)) : sf_re (\tr (A^H *m A)) = inner A A. Proof. by rewrite innerE. Qed.
Lemma fnorm_adj m q (A : 'M[F]_(m, q)) : fnorm A^H = fnorm A. Proof. by rewrite /fnorm inner_adj. Qed.
Lemma fnorm_orthonormal m q (Z : 'M[F]_(m, q)) k (A : 'M[F]_(q, k)) : orthonormal Z -> fnorm (Z *m A) = fnorm A.
Proof. by move=> O; rewrite /fnorm inner_orthonormal. Qed.
Lemma fnormD' m q (A B : 'M[F]_(m, q)) : fnorm (A + B) <= fnorm A + fnorm B.
Proof. exact: (normD (@inner_ips R F m q)). Qed.

(** ** QR *)
Section QR.
Variables (X V Q : 'M[F]_(n, p)) (r : 'M[F]_p).
Hypothesis (O : orthonormal X) (T : st_tangent X V) (E : X + V = Q *m r) (OQ : orthonormal Q).
Hypothesis (U : upper_triangular r) (P : forall i, exists2 a : R, 0 <= a & r i i = sf_real a).
Lemma qr_gram : r^H *m r = 1%:M + V^H *m V.
Proof. by rewrite -(st_gram O T) E adjmxM mulmxA -(mulmxA r^H) OQ mulmx1. Qed.
Lemma qr_unit : r \in unitmx.
Proof.
rewrite -row_full_unit -col_leq_rank -[X in (X <= _)%N](st_rank O T) E; exact: mxrankM_maxr.
Qed.
Lemma qr_diag_ge1 i : exists2 a : R, 1 <= a & r i i = sf_real a.
Proof.
have d := upper_diag_neq0 U qr_unit; have [a a0 ra] := P i; exists a; last exact: ra.
have U1 : upper_triangular (1%:M : 'M[F]_p) by move=> k j jk; rewrite mxE -val_eqE /= gtn_eqF.
have [_ /(_ i)] := upper_left U U1 d (mulVmx qr_unit).
rewrite mxE eqxx ra => W1.
have G : (invmx r)^H *m invmx r + (V *m invmx r)^H *m (V *m invmx r) = 1%:M.
  have H : (invmx r)^H *m (r^H *m r) *m invmx r = 1%:M.
    by rewrite -mulmxA mulmxK ?qr_unit // -adjmxM mulmxV ?qr_unit // adjmx1.
  by move: H; rewrite qr_gram mulmxDr mulmx1 mulmxDl adjmxM !mulmxA.
have D q (A : 'M[F]_(q, p)) : sf_re ((A^H *m A) i i) = \sum_k abs2 (A k i).
  by rewrite mxE raddf_sum; apply: eq_bigr => k _; rewrite !mxE.
have := congr1 (fun M : 'M[F]_p => sf_re (M i i)) G; rewrite /= [X in sf_re X]mxE raddfD /= !D mxE eqxx sf_re1 => S.
have : abs2 (invmx r i i) <= 1.
  rewrite -S (bigD1 i) //= -addrA ler_addl addr_ge0 //; apply: sumr_ge0 => *; exact: abs2_ge0.
have a1 : 0 < a by rewrite lt_def a0 andbT; apply: contraNneq (d i) => H; rewrite ra H rmorph0.
have -> : invmx r i i = sf_real a^-1.
  by apply: (mulIf (d i)); rewrite ra W1 -rmorphM mulVf ?rmorph1 // gt_eqF.
rewrite /abs2 sf_conj_real -rmorphM re_real -expr2 exprVn invf_le1 ?exprn_gt0 //.
by rewrite -{1}(expr1n _ 2) ler_sqr ?nnegrE ?ler01 // ltW.
Qed.
Lemma qr_bound : fnorm (Q - (X + V)) <= 2%:R * fnorm V ^+ 2.
Proof.
pose W := r - 1%:M.
have rE : r = 1%:M + W by rewrite /W addrC subrK.
have -> : fnorm (Q - (X + V)) = fnorm W.
  by rewrite E -{1}[Q]mulmx1 -mulmxBr fnorm_orthonormal // -opprB fnormN.
have Wij i j : W i j = r i j - (i == j)%:R by rewrite !mxE.
clearbody W.
have G : W + W^H + W^H *m W = V^H *m V.
  apply: (addrI (1%:M)); rewrite -qr_gram [in RHS]rE adjmxD adjmx1 mulmxDl mul1mx mulmxDr mulmx1.
  by rewrite -!addrA; congr (_ + _); rewrite addrA.
have Wd i : exists2 a : R, 0 <= a & W i i = sf_real a.
  have [a a1 ra] := qr_diag_ge1 i; exists (a - 1); first by rewrite subr_ge0.
  by rewrite Wij ra eqxx rmorphB rmorph1.
have W0 (i j : 'I_p) : (j < i)%N -> W i j = 0.
  by move=> ji; rewrite Wij U // -val_eqE /= gtn_eqF // subr0.
have W1 : fnorm W ^+ 2 <= fnorm V ^+ 2.
  rewrite !fnorm_sqr -!inner_gram -G !raddfD /= ler_addr mxtrace_adj sf_re_conj addr_ge0 //;
  by rewrite /mxtrace raddf_sum; apply: sumr_ge0 => i _; have [a a0 Wa] := Wd i; rewrite /= Wa re_real.
pose H := V^H *m V - W^H *m W.
have HE : H = W + W^H by rewrite /H -G addrK.
have W2 : fnorm W <= fnorm H.
  apply: ler_wsqrtr; rewrite /inner; apply: ler_sum => i _; apply: ler_sum => j _.
  rewrite -/(abs2 (W i j)) -/(abs2 (H i j)) HE [(W + W^H) i j]mxE adjmxE.
  have [ji|ij] := ltnP j i; first by rewrite W0 // /abs2 mulr0 raddf0 abs2_ge0.
  move: ij; rewrite leq_eqVlt => /orP[|ij]; last by rewrite (W0 j i) // rmorph0 addr0.
  move=> /eqP/val_inj <-; have [a a0 ->] := Wd i; rewrite sf_conj_real -rmorphD /abs2 !sf_conj_real -!rmorphM !re_real.
  by rewrite ler_pmul // ler_addl.
apply: le_trans W2 _; apply: le_trans (fnormD' _ _) _; rewrite fnormN mulr2n mulrDl mul1r.
have S m (A : 'M[F]_(m, p)) : fnorm (A^H *m A) <= fnorm A ^+ 2.
  by apply: le_trans (fnorm_mul _ _) _; rewrite fnorm_adj expr2.
by apply: ler_add => //; apply: le_trans (S _ _) _.
Qed.
End QR.

(** ** Functions of a matrix with the same eigenvectors *)
Lemma fnorm_eigfun_le f g (wv : 'rV[R]_p * 'M[F]_p) : orthonormal wv.2 ->
  (forall i, `|f (wv.1 ord0 i)| <= `|g (wv.1 ord0 i)|) -> fnorm (eigfun f wv) <= fnorm (eigfun g wv).
Proof.
move=> W H; apply: ler_wsqrtr; rewrite !inner_eigfun //; apply: ler_sum => i _.
by rewrite -real_normK ?num_real // -[X in _ <= X]real_normK ?num_real // ler_sqr ?nnegrE ?normr_ge0.
Qed.
Lemma eigfun_const (wv : 'rV[R]_p * 'M[F]_p) : orthonormal wv.2 -> eigfun (fun=> 1) wv = 1%:M.
Proof.
move=> W; rewrite /eigfun; have -> : real_diag F (map_mx (fun=> 1) wv.1) = 1%:M.
  by apply/matrixP => i j; rewrite !mxE rmorph1.
by rewrite mulmx1 orthonormalC.
Qed.
Lemma eigfunM f g (wv : 'rV[R]_p * 'M[F]_p) : orthonormal wv.2 ->
  eigfun f wv *m eigfun g wv = eigfun (fun x => f x * g x) wv.
Proof.
move=> W; rewrite /eigfun !mulmxA -(mulmxA _ wv.2^H) W mulmx1 -(mulmxA wv.2); congr (_ *m _ *m _).
apply/matrixP => i j; rewrite mul_diag_mx !mxE rmorphM /=.
by case: eqP => [->|]; rewrite ?mulr0 // !mulr1n.
Qed.
Lemma fnorm_eigfun_sqr f (wv : 'rV[R]_p * 'M[F]_p) : orthonormal wv.2 ->
  fnorm (eigfun (fun x => f x ^+ 2) wv) <= fnorm (eigfun f wv) ^+ 2.
Proof.
move=> W; have -> : eigfun (fun x => f x ^+ 2) wv = eigfun f wv *m eigfun f wv by rewrite eigfunM.
by apply: le_trans (fnorm_mul _ _) _; rewrite expr2.
Qed.

Lemma eigfun_opp f (wv : 'rV[R]_p * 'M[F]_p) : - eigfun f wv = eigfun (fun x => - f x) wv.
Proof.
have -> : - eigfun f wv = sf_real (-1) *: eigfun f wv by rewrite rmorphN1 scaleN1r.
by rewrite eigfunZ; apply: eigfun_ext => i; rewrite mulN1r.
Qed.

(** ** The polar factor *)
Section Polar.
Variables (X V u : 'M[F]_(n, p)) (s : 'rV[R]_p) (vt : 'M[F]_p).
Hypothesis (O : orthonormal X) (T : st_tangent X V).
Hypothesis (S : valid_svd (X + V) (u, s, vt)).
Let wv := (s, vt^H).
Let H := eigfun id wv.
Let E := V^H *m V.
Lemma polar_basis : orthonormal wv.2.
Proof. by case: S => _ [vv _]; rewrite /orthonormal /wv /= adjmxK. Qed.
Lemma polar_orthonormal : orthonormal (u *m vt).
Proof.
case: S => ou [vv _]; rewrite /orthonormal adjmxM -mulmxA (mulmxA u^H) ou mul1mx.
exact: mulmx1C.
Qed.
Lemma polarE : X + V = u *m vt *m H.
Proof.
case: S => _ [vv [_ ->]]; rewrite /H eigfun_id /= adjmxK !mulmxA -(mulmxA u vt) vv mulmx1.
by [].
Qed.
Lemma polar_square : E = eigfun (fun x => x ^+ 2 - 1) wv.
Proof.
rewrite -(eigfunB (fun x => x ^+ 2) (fun=> 1)) eigfun_const; last exact: polar_basis.
apply: (addrI 1%:M); rewrite addrCA subrr addr0 -(st_gram O T) polarE.
rewrite adjmxM mulmxA -(mulmxA H^H) polar_orthonormal mulmx1 [H^H]eigfun_hermitian eigfunM //.
exact: polar_basis.
Qed.
Lemma polar_ge0 i : 0 <= s ord0 i. Proof. by case: S => _ [_ [s0 _]]. Qed.
Lemma fnorm_gram : fnorm E <= fnorm V ^+ 2.
Proof. by apply: le_trans (fnorm_mul _ _) _; rewrite fnorm_adj expr2. Qed.
Lemma polar_bound : fnorm (u *m vt - (X + V)) <= 1 * fnorm V ^+ 2.
Proof.
rewrite mul1r; apply: le_trans fnorm_gram.
rewrite polarE -{1}[u *m vt]mulmx1 -mulmxBr fnorm_orthonormal; last exact: polar_orthonormal.
rewrite -(eigfun_const polar_basis) eigfunB polar_square; apply: fnorm_eigfun_le; first exact: polar_basis.
move=> i; have s0 := polar_ge0 i; rewrite /=.
have -> : s ord0 i ^+ 2 - 1 = - ((1 - s ord0 i) * (1 + s ord0 i)) by mcring R.
rewrite normrN normrM ler_pemulr ?normr_ge0 // ger0_norm ?addr_ge0 ?ler01 //.
by rewrite ler_addl.
Qed.
(** second order: the next term of the expansion is normal *)
Lemma polar_second_order :
  fnorm (u *m vt - (X + V - sf_real 2%:R^-1 *: (X *m E))) <= fnorm V ^+ 3 * (2%:R^-1 + fnorm V).
Proof.
pose g (x : R) : R := 1 - x + x * (x ^+ 2 - 1) / 2%:R.
have G : eigfun g wv = 1%:M - H + sf_real 2%:R^-1 *: (H *m E).
  rewrite polar_square (eigfunM id _ polar_basis) eigfunZ -(eigfun_const polar_basis) /H eigfunB.
  set w2 := eigfun _ _ + _; have {w2}-> : w2 = eigfun (fun x => 1 - x) wv - eigfun (fun x => - (2%:R^-1 * (x * (x ^+ 2 - 1)))) wv.
    rewrite /w2; congr (_ + _); rewrite -(eigfun_opp (fun x => 2%:R^-1 * (x * (x ^+ 2 - 1)))) opprK //.
  rewrite eigfunB; apply: eigfun_ext => i; rewrite /g /=; mcring R.
have -> : u *m vt - (X + V - sf_real 2%:R^-1 *: (X *m E)) = u *m vt *m eigfun g wv - sf_real 2%:R^-1 *: (V *m E).
  have XE : X *m E = u *m vt *m (H *m E) - V *m E by rewrite mulmxA -polarE mulmxDl addrK.
  rewrite G XE polarE mulmxDr mulmxBr mulmx1 -scalemxAr scalerBr !opprD !opprK -!addrA.
  by [].
apply: le_trans (fnormD' _ _) _; rewrite fnormN fnormZ ger0_norm ?invr_ge0 ?ler0n //.
rewrite mulrDr addrC; have nV := fnorm_ge0 V; apply: ler_add.
  rewrite mulrC ler_wpmul2r ?invr_ge0 ?ler0n //; apply: le_trans (fnorm_mul _ _) _.
  by rewrite exprS ler_wpmul2l // fnorm_gram.
rewrite fnorm_orthonormal; last exact: polar_orthonormal.
apply: le_trans (_ : fnorm E ^+ 2 <= _); last first.
  rewrite -exprSr (_ : 4 = (2 * 2))%N // exprM ler_sqr ?nnegrE ?fnorm_ge0 ?exprn_ge0 //; exact: fnorm_gram.
rewrite polar_square; apply: le_trans (fnorm_eigfun_sqr _ polar_basis).
apply: fnorm_eigfun_le; first exact: polar_basis.
move=> i; have s0 := polar_ge0 i; rewrite /=; move: (s ord0 i) s0 => x x0.
have -> : g x = (x - 1) ^+ 2 * ((x + 2%:R) / 2%:R).
  have t0 : (2%:R : R) != 0 by rewrite pnatr_eq0.
  have g2 : g x * 2%:R = (1 - x) * 2%:R + x * (x ^+ 2 - 1) by rewrite /g mulrDl divfK.
  apply: (mulIf t0); rewrite g2 -mulrA divfK //; mcring R.
have -> : (x ^+ 2 - 1) ^+ 2 = (x - 1) ^+ 2 * (x + 1) ^+ 2 by mcring R.
rewrite !(normrM ((x - 1) ^+ 2)) ler_wpmul2l ?normr_ge0 //.
have q0 : 0 <= (x + 2%:R) / 2%:R by apply: divr_ge0; [apply: addr_ge0|]; rewrite // ler0n.
rewrite (ger0_norm q0) (ger0_norm (sqr_ge0 _)).
rewrite ler_pdivr_mulr ?ltr0n // -subr_ge0.
have -> : (x + 1) ^+ 2 * 2%:R - (x + 2%:R) = 2%:R * x ^+ 2 + 3%:R * x by mcring R.
by rewrite addr_ge0 // mulr_ge0 ?ler0n ?sqr_ge0.
Qed.
End Polar.

(** ** Hessian *)
Definition st_wein X V N := - V *m X^H *m N - X *m hsym (V^H *m N).
Definition st_hess X g h V := st_proj X h + st_wein X V (g - st_proj X g).
Section Hessian.
Variables (X g h V : 'M[F]_(n, p)).
Hypothesis (O : orthonormal X) (T : st_tangent X V).
Let S := hsym (X^H *m g).
Lemma st_normal (A : 'M[F]_p) : A^H = A -> st_proj X (X *m A) = 0.
Proof. by move=> hA; rewrite /st_proj mulmxA O mul1mx hsym_id // subrr. Qed.
Lemma st_projB (Y Z : 'M[F]_(n, p)) : st_proj X (Y - Z) = st_proj X Y - st_proj X Z.
Proof. by rewrite /st_proj mulmxBr hsymB mulmxBr !opprD !opprK addrACA. Qed.
Lemma st_hessE : st_hess X g h V = st_proj X h - st_proj X (V *m S).
Proof.
rewrite /st_hess /st_wein /st_proj (_ : g - (g - X *m S) = X *m S); last by rewrite opprB addrCA subrr addr0.
congr (_ + _); rewrite !mulNmx -mulmxA mulmxA mulmxA -(mulmxA V) O mulmx1 opprB addrC -mulmxN -hsymN; congr (X *m hsym _ - _).
by rewrite !mulmxA -mulNmx; congr (_ *m _); apply/eqP; rewrite eq_sym -addr_eq0; apply/eqP.
Qed.
Lemma st_hess_tangent : st_tangent X (st_hess X g h V).
Proof.
rewrite st_hessE -st_projB; by case: (st_projects (h - V *m S) O).
Qed.
Lemma st_hess_inner W : st_tangent X W -> dot (st_hess X g h V) W = dot h W - dot (V *m S) W.
Proof.
move=> TW; rewrite st_hessE -st_projB; case: (st_projects (h - V *m S) O) => _ [_ /(_ W TW)].
by rewrite (innerBl _ (st_proj _ _)) => /eqP; rewrite subr_eq0 => /eqP <-; rewrite innerBl.
Qed.
Lemma st_hess_derives (c e : R -> 'M[F]_(n, p)) : c 0 = X -> derives scale dot c V -> e 0 = g -> derives scale dot e h ->
  exists2 w, derives scale dot (fun t => st_proj (c t) (e t)) w & st_hess X g h V = st_proj X w.
Proof.
move=> c0 Dc e0 De.
have Ds q (a : R -> 'M[F]_q) d : derives (@rscale R F q q) (@inner R F q q) a d ->
  derives (@rscale R F q q) (@inner R F q q) (fun t => hsym (a t)) (hsym d).
  move=> Da; have := derives_scale (@inner_ips R F q q) (derives_const (@real_ips R) 2%:R^-1) (derives_add (@inner_ips R F q q) Da (derives_adj Da)).
  rewrite (_ : _ + rscale 2%:R^-1 _ = hsym d); last first.
    by rewrite /rscale rmorph0 scale0r add0r /hsym half_real.
  by apply: derives_ext => t; rewrite /rscale /hsym half_real.
have Di := Ds _ _ _ (derives_mul (derives_adj Dc) De).
have := derives_sub J De (derives_mul Dc Di); rewrite c0 e0 -/S => D.
eexists; first exact: D.
rewrite st_hessE [in RHS]st_projB; congr (_ - _).
have -> Y Z : st_proj X (Y + X *m hsym Z) = st_proj X Y; last by [].
by rewrite -[X *m _]opprK st_projB -mulmxN st_normal ?subr0 // adjmxN hsym_herm.
Qed.
End Hessian.
Lemma st_hess_symmetric X g h h' V V' : orthonormal X -> st_tangent X V -> st_tangent X V' -> dot h V' = dot h' V ->
  dot (st_hess X g h V) V' = dot (st_hess X g h' V') V.
Proof.
move=> O T T' E; rewrite !st_hess_inner // E; congr (_ - _).
by rewrite inner_mulr hsym_herm innerC.
Qed.
End Stiefel.
