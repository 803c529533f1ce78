(** The factorisations the linear algebra library is assumed to return exist: QR, eigendecomposition of Hermitian
    matrices, singular value decomposition, Cholesky; for real and for complex matrices. *)
From mathcomp Require Import all_ssreflect all_algebra.
From mathcomp.real_closed Require Import complex.
From Coq Require Import ClassicalEpsilon.
From Verif Require Import MCRing Mat_Base Linalg_Spec Multi_Proofs Stiefel_Proofs.
Set Implicit Arguments.
Unset Strict Implicit.
Unset Printing Implicit Defensive.
Import GRing.Theory Num.Theory Order.TTheory.
Local Open Scope ring_scope.

Section Exist.
Variables (R : rcfType) (F : starField R).

Lemma adj_col_mx m1 m2 q (A : 'M[F]_(m1, q)) (B : 'M[F]_(m2, q)) : (col_mx A B)^H = row_mx A^H B^H.
Proof. by rewrite /adjmx tr_col_mx map_row_mx. Qed.
Lemma adj_row_mx m q1 q2 (A : 'M[F]_(m, q1)) (B : 'M[F]_(m, q2)) : (row_mx A B)^H = col_mx A^H B^H.
Proof. by rewrite /adjmx tr_row_mx map_col_mx. Qed.
Lemma adj_block_mx m1 m2 q1 q2 (A : 'M[F]_(m1, q1)) (B : 'M[F]_(m1, q2)) (C : 'M[F]_(m2, q1)) (D : 'M[F]_(m2, q2)) :
  (block_mx A B C D)^H = block_mx A^H C^H B^H D^H.
Proof. by rewrite /adjmx tr_block_mx map_block_mx. Qed.

(** ** Unit vectors orthogonal to given ones *)
Lemma normalise m (a : 'cV[F]_m) : a != 0 -> exists2 q : 'cV[F]_m, orthonormal q & a = sf_real (fnorm a) *: q.
Proof.
move=> a0; have n0 : fnorm a != 0 by rewrite fnorm_eq0.
exists (sf_real (fnorm a)^-1 *: a); last by rewrite scalerA -rmorphM divff // rmorph1 scale1r.
have E : a^H *m a = (sf_real (fnorm a ^+ 2))%:M.
  rewrite [LHS]mx11_scalar; congr (_%:M); rewrite fnorm_sqr innerE /mxtrace big_ord1.
  by apply: sf_fixed; rewrite -[in LHS]adjmxE adjmxM adjmxK.
rewrite /orthonormal adjmxZreal -scalemxAl -scalemxAr scalerA E -rmorphM scale_scalar_mx -rmorphM.
by rewrite -expr2 -exprMn mulVf // expr1n rmorph1.
Qed.
Lemma orthogonal_unit m k (B : 'M[F]_(m, k)) : (k < m)%N -> exists2 q : 'cV[F]_m, orthonormal q & B^H *m q = 0.
Proof.
move=> km; have : kermx (B^H)^T != 0.
  rewrite -mxrank_eq0 mxrank_ker subn_eq0 -ltnNge; apply: leq_ltn_trans km; exact: rank_leq_col.
case/rowV0Pn => v /sub_kermxP vB v0.
have v1 : v^T != 0 by apply: contra v0 => /eqP H; rewrite -[v]trmxK H trmx0.
have [q Oq E] := normalise v1; exists q => //.
have n0 : sf_real (fnorm v^T) != 0 :> F by rewrite fmorph_eq0 fnorm_eq0.
apply: (scalerI n0); rewrite scaler0 scalemxAr -E.
by rewrite -[LHS]trmxK trmx_mul trmxK vB trmx0.
Qed.

(** ** QR *)
Lemma orthonormal_row m k l (B : 'M[F]_(m, k)) (Q : 'M[F]_(m, l)) : orthonormal B -> orthonormal Q -> B^H *m Q = 0 ->
  orthonormal (row_mx B Q).
Proof.
move=> OB OQ BQ; rewrite /orthonormal adj_row_mx mul_col_row OB OQ BQ -(adjmxK (Q^H *m B)) adjmxM adjmxK BQ adjmx0.
by rewrite -scalar_mx_block.
Qed.
Definition qr_for m n k (B : 'M[F]_(m, k)) (A : 'M[F]_(m, n)) : Prop := orthonormal B -> B^H *m A = 0 -> (k + n <= m)%N ->
  exists qr : 'M[F]_(m, n) * 'M[F]_n, valid_qr A qr /\ B^H *m qr.1 = 0.
Lemma qr_step m n k (B : 'M[F]_(m, k)) (A : 'M[F]_(m, 1 + n)) :
  (forall k (B : 'M[F]_(m, k)) (A : 'M[F]_(m, n)), qr_for B A) -> qr_for B A.
Proof.
move=> IH OB BA kn.
pose a := lsubmx A; pose A' := rsubmx A.
have AE : A = row_mx a A' by rewrite hsubmxK.
have [Ba BA'] : B^H *m a = 0 /\ B^H *m A' = 0.
  move: BA; rewrite AE mul_mx_row => H; split.
    by have := congr1 lsubmx H; rewrite row_mxKl raddf0.
  by have := congr1 rsubmx H; rewrite row_mxKr raddf0.
have [q [Oq Bq [r aE]]] : exists q : 'cV[F]_m, [/\ orthonormal q, B^H *m q = 0 & exists r, a = r *: q].
  have [a0|a0] := eqVneq a 0.
    have km : (k < m)%N by apply: leq_trans kn; rewrite addnS ltnS leq_addr.
    have [q Oq Bq] := orthogonal_unit B km.
    by exists q; split=> //; exists 0; rewrite scale0r.
  have [q Oq aE] := normalise a0; exists q; split=> //; last by exists (sf_real (fnorm a)).
  have n0 : sf_real (fnorm a) != 0 :> F by rewrite fmorph_eq0 fnorm_eq0.
  by apply: (scalerI n0); rewrite scaler0 scalemxAr -aE.
have qa : a = q *m r%:M by rewrite mul_mx_scalar.
pose C := A' - q *m (q^H *m A').
have qC : q^H *m C = 0 by rewrite /C mulmxBr mulmxA Oq mul1mx subrr.
have BC : B^H *m C = 0 by rewrite /C mulmxBr mulmxA Bq mul0mx subr0.
have [||[Q' R'] [[/= CE [OQ U]] BQ]] := IH (k + 1)%N (row_mx B q) C (orthonormal_row OB Oq Bq).
- by rewrite adj_row_mx mul_col_mx BC qC col_mx0.
- by rewrite addn1 addSn -addnS.
have [BQ1 qQ] : B^H *m Q' = 0 /\ q^H *m Q' = 0.
  move: BQ; rewrite /= adj_row_mx mul_col_mx => H; split.
    by have := congr1 usubmx H; rewrite col_mxKu raddf0.
  by have := congr1 dsubmx H; rewrite col_mxKd raddf0.
exists (row_mx q Q', block_mx r%:M (q^H *m A') 0 R'); split; last by rewrite /= mul_mx_row Bq BQ1 row_mx0.
split; last split.
- by rewrite /= mul_row_block mulmx0 addr0 -qa -CE /C addrCA subrr addr0.
- exact: orthonormal_row Oq OQ qQ.
move=> i j /= ji; case: (split_ordP i) ji => i' ->; case: (split_ordP j) => j' -> /= ji.
- by move: ji; rewrite !ord1.
- by move: ji; rewrite [i']ord1.
- by rewrite block_mxEdl mxE.
by rewrite block_mxEdr; apply: U; move: ji; rewrite /= ltn_add2l.
Qed.
Lemma qr_exists_orth m n k (B : 'M[F]_(m, k)) (A : 'M[F]_(m, n)) : qr_for B A.
Proof.
elim: n k B A => [|n IH] k B A; last exact: qr_step.
move=> OB BA kn; exists (0, 0); split; last by rewrite /= mulmx0.
by split; [rewrite [A]thinmx0 mulmx0|split; [rewrite /orthonormal [1%:M]flatmx0 [LHS]flatmx0|case]].
Qed.
Theorem qr_exists m n (A : 'M[F]_(m, n)) : (n <= m)%N -> exists qr : 'M[F]_(m, n) * 'M[F]_n, valid_qr A qr.
Proof.
move=> nm; have [||qr [V _]] := @qr_exists_orth m n 0 0 A _ _ nm; try by exists qr.
  by rewrite /orthonormal [1%:M]flatmx0 [LHS]flatmx0.
by rewrite [LHS]flatmx0.
Qed.

(** ** Orthogonal columns *)
Lemma real_diag_row n r (s : 'rV[R]_n) :
  real_diag F (row_mx r%:M s : 'rV[R]_(1 + n)) = block_mx (sf_real r)%:M 0 0 (real_diag F s).
Proof.
apply/matrixP => i j; case: (split_ordP i) => i' ->; case: (split_ordP j) => j' ->; rewrite mxE mxE.
- by rewrite row_mxEl block_mxEul !mxE !ord1 eqxx !mulr1n.
- by rewrite block_mxEur (introF eqP) ?mxE //; move/(congr1 val); rewrite /= !ord1.
- by rewrite block_mxEdl (introF eqP) ?mxE //; move/(congr1 val); rewrite /= !ord1.
by rewrite row_mxEr block_mxEdr !mxE (inj_eq (@rshift_inj _ _)).
Qed.
Definition columns_for m n k (B : 'M[F]_(m, k)) (A : 'M[F]_(m, n)) : Prop := orthonormal B -> B^H *m A = 0 ->
  (forall i j, i != j -> (A^H *m A) i j = 0) -> (k + n <= m)%N ->
  exists (Q : 'M[F]_(m, n)) (s : 'rV[R]_n), [/\ orthonormal Q, B^H *m Q = 0, forall i, 0 <= s ord0 i & A = Q *m real_diag F s].
Lemma columns_step m n k (B : 'M[F]_(m, k)) (A : 'M[F]_(m, 1 + n)) :
  (forall k (B : 'M[F]_(m, k)) (A : 'M[F]_(m, n)), columns_for B A) -> columns_for B A.
Proof.
move=> IH OB BA D kn.
pose a := lsubmx A; pose A' := rsubmx A.
have AE : A = row_mx a A' by rewrite hsubmxK.
have [Ba BA'] : B^H *m a = 0 /\ B^H *m A' = 0.
  move: BA; rewrite AE mul_mx_row => H; split.
    by have := congr1 lsubmx H; rewrite row_mxKl raddf0.
  by have := congr1 rsubmx H; rewrite row_mxKr raddf0.
have AA : A^H *m A = block_mx (a^H *m a) (a^H *m A') (A'^H *m a) (A'^H *m A').
  by rewrite AE adj_row_mx mul_col_row.
have aA : a^H *m A' = 0.
  apply/matrixP => i j; rewrite [RHS]mxE; have := D (lshift n i) (rshift 1 j); rewrite AA block_mxEur; apply.
  by rewrite -val_eqE /= ord1.
have D' i j : i != j -> (A'^H *m A') i j = 0.
  by move=> ij; have := D (rshift 1 i) (rshift 1 j); rewrite AA block_mxEdr; apply; rewrite (inj_eq (@rshift_inj _ _)).
have Aa : A'^H *m a = 0 by rewrite -[LHS]adjmxK adjmxM adjmxK aA adjmx0.
have [q [Oq Bq qA [r r0 aE]]] : exists q : 'cV[F]_m, [/\ orthonormal q, B^H *m q = 0, A'^H *m q = 0 &
    exists2 r : R, 0 <= r & a = sf_real r *: q].
  have [a0|a0] := eqVneq a 0.
    have km : (k + n < m)%N by rewrite -addnS.
    have [q Oq] := orthogonal_unit (row_mx B A') km; rewrite adj_row_mx mul_col_mx => H.
    exists q; split=> //; last by exists 0; rewrite ?lexx // rmorph0 scale0r.
      by have := congr1 usubmx H; rewrite col_mxKu raddf0.
    by have := congr1 dsubmx H; rewrite col_mxKd raddf0.
  have [q Oq aE] := normalise a0; exists q.
  have n0 : sf_real (fnorm a) != 0 :> F by rewrite fmorph_eq0 fnorm_eq0.
  split=> //; last by exists (fnorm a); rewrite ?fnorm_ge0.
    by apply: (scalerI n0); rewrite scaler0 scalemxAr -aE.
  by apply: (scalerI n0); rewrite scaler0 scalemxAr -aE.
have qA' : q^H *m A' = 0 by rewrite -[LHS]adjmxK adjmxM adjmxK qA adjmx0.
have [||Q' [s [OQ BQ s0 A'E]]] := IH (k + 1)%N (row_mx B q) A' (orthonormal_row OB Oq Bq) _ D'.
- by rewrite adj_row_mx mul_col_mx BA' qA' col_mx0.
- by rewrite addn1 addSn -addnS.
have [BQ1 qQ] : B^H *m Q' = 0 /\ q^H *m Q' = 0.
  move: BQ; rewrite /= adj_row_mx mul_col_mx => H; split.
    by have := congr1 usubmx H; rewrite col_mxKu raddf0.
  by have := congr1 dsubmx H; rewrite col_mxKd raddf0.
exists (row_mx q Q'), (row_mx r%:M s : 'rV[R]_(1 + n)); split.
- exact: orthonormal_row Oq OQ qQ.
- by rewrite mul_mx_row Bq BQ1 row_mx0.
- by move=> i; rewrite mxE; case: splitP => j _; rewrite ?s0 // mxE !ord1.
rewrite real_diag_row.
by rewrite mul_row_block !mulmx0 addr0 add0r mul_mx_scalar -aE -A'E AE.
Qed.
Lemma columns_exist m n k (B : 'M[F]_(m, k)) (A : 'M[F]_(m, n)) : columns_for B A.
Proof.
elim: n k B A => [|n IH] k B A; last exact: columns_step.
move=> OB BA D kn; exists 0, 0; split; rewrite ?mulmx0 ?[A]thinmx0 ?[0 *m _]thinmx0 //.
  by rewrite /orthonormal [1%:M]flatmx0 [LHS]flatmx0.
by case.
Qed.

(** ** Eigendecompositions *)
Definition has_eigenvectors : Prop := forall n (A : 'M[F]_n.+1), hermitian A ->
  exists (a : R) (v : 'cV[F]_n.+1), v != 0 /\ A *m v = sf_real a *: v.
Hypothesis EV : has_eigenvectors.
Lemma eigh_step n (A : 'M[F]_(1 + n)) : (forall A : 'M[F]_n, hermitian A -> exists wv, valid_eigh A wv) ->
  hermitian A -> exists wv, valid_eigh A wv.
Proof.
move=> IH hA.
have [a [v [v0 Av]]] := EV hA.
have [[Q r] [/= QE [OQ U]]] := qr_exists (row_mx v (0 : 'M_(_, n))) (leqnn _).
pose q := lsubmx Q; pose Q' := rsubmx Q.
have Qq : Q = row_mx q Q' by rewrite hsubmxK.
have vq : v = r 0 0 *: q.
  apply/colP => i; have := congr1 (fun M : 'M_(1 + n, 1 + n) => M i (lshift n 0)) QE.
  rewrite row_mxEl => ->; rewrite mxE (bigD1 0) //= big1 ?addr0 => [|j j0]; last first.
    by rewrite [r j _]U ?mulr0 // lt0n.
  by rewrite !mxE mulrC; congr (r _ _ * Q _ _); apply: val_inj.
have r0 : r 0 0 != 0 by apply: contra v0 => /eqP H; rewrite vq H scale0r.
have Aq : A *m q = sf_real a *: q.
  by apply: (scalerI r0); rewrite scalemxAr -vq Av vq !scalerA mulrC.
have [qq qQ QQ] : [/\ q^H *m q = 1%:M, q^H *m Q' = 0 & Q'^H *m Q' = 1%:M].
  have := OQ; rewrite /orthonormal Qq adj_row_mx mul_col_row (@scalar_mx_block _ 1 n).
  by case/eq_block_mx.
have Qq0 : Q'^H *m q = 0 by rewrite -[LHS]adjmxK adjmxM adjmxK qQ adjmx0.
pose B := Q'^H *m A *m Q'.
have hB : hermitian B by rewrite /hermitian /B !adjmxM adjmxK hA mulmxA.
have [[w u] [/= Ou BE]] := IH B hB.
have AQ : A *m Q' = Q' *m B.
  have QQ1 : q *m q^H + Q' *m Q'^H = 1%:M.
    by rewrite -mul_row_col -Qq -adj_row_mx -Qq; apply: mulmx1C.
  rewrite -[LHS]mul1mx -QQ1 mulmxDl -!mulmxA -/B [q^H *m _](_ : _ = 0) ?mulmx0 ?add0r /B ?mulmxA //.
  by rewrite -[q^H *m A]adjmxK adjmxM adjmxK hA Aq adjmxZreal -scalemxAl qQ scaler0.
exists (row_mx a%:M w, row_mx q (Q' *m u)).
have OV : orthonormal (row_mx q (Q' *m u) : 'M[F]_(1 + n, 1 + n)).
  apply: orthonormal_row => //; last by rewrite mulmxA qQ mul0mx.
  by rewrite /orthonormal adjmxM -mulmxA (mulmxA Q'^H) QQ mul1mx.
split; first exact: OV.
set V := row_mx q _ in OV *; rewrite /= -[A]mulmx1 -(mulmx1C OV) mulmxA; congr (_ *m _).
rewrite real_diag_row.
rewrite /V mul_row_block !mulmx0 addr0 add0r mul_mx_scalar mul_mx_row Aq; congr row_mx.
by rewrite mulmxA AQ BE -!mulmxA Ou mulmx1 mulmxA.
Qed.
Theorem eigh_exists n (A : 'M[F]_n) : hermitian A -> exists wv, valid_eigh A wv.
Proof.
elim: n A => [|n IH] A; last exact: eigh_step.
exists (0, 0); split; first by rewrite /orthonormal [1%:M]flatmx0 [LHS]flatmx0.
by rewrite [A]flatmx0 [RHS]flatmx0.
Qed.

(** ** Singular value decompositions and Cholesky factors *)
Theorem svd_exists m n (A : 'M[F]_(m, n)) : (n <= m)%N -> exists usv : 'M[F]_(m, n) * 'rV[R]_n * 'M[F]_n, valid_svd A usv.
Proof.
move=> nm; have hG : hermitian (A^H *m A) by rewrite /hermitian adjmxM adjmxK.
have [[w v] [/= Ov E]] := eigh_exists hG.
have G : (A *m v)^H *m (A *m v) = real_diag F w.
  by rewrite adjmxM mulmxA -(mulmxA _ A^H) E !mulmxA Ov mul1mx -mulmxA Ov mulmx1.
have [|||Q [s [OQ _ s0 QE]]] := @columns_exist m n 0 0 (A *m v) _ _ _ nm.
- by rewrite /orthonormal [1%:M]flatmx0 [LHS]flatmx0.
- by rewrite [LHS]flatmx0.
- by move=> i j ij; rewrite G !mxE (negbTE ij).
exists (Q, s, v^H); split=> //; split; first by rewrite adjmxK.
split=> //; by rewrite -QE -mulmxA (mulmx1C Ov) mulmx1.
Qed.
Theorem cholesky_exists n (A : 'M[F]_n) : posdef A -> exists L, valid_cholesky A L.
Proof.
move=> P; have [[w v] V] := eigh_exists (proj1 P); have [/= Ov E] := V.
have w0 i := posdef_eig_gt0 P V i; rewrite /= in w0.
pose D := real_diag F (map_mx Num.sqrt w).
have DD : D *m D^H = real_diag F w.
  rewrite /D real_diag_adj; apply/matrixP => i j; rewrite mul_diag_mx !mxE.
  by case: eqP => [->|_]; rewrite ?mulr0 // !mulr1n -rmorphM /= -expr2 sqr_sqrtr // ltW.
exists (v *m D); split; first by rewrite adjmxM mulmxA -(mulmxA v) DD.
rewrite unitmx_mul; apply/andP; split; first by have [] := mulmx1_unit Ov.
rewrite unitmxE det_diag unitfE; apply/prodf_neq0 => i _.
by rewrite !mxE fmorph_eq0 sqrtr_eq0 -ltNge.
Qed.
End Exist.

(** ** Hermitian matrices have eigenvectors *)
Section Complex.
Variable R : rcfType.
Lemma complex_has_eigenvectors : has_eigenvectors (complex_star R).
Proof.
move=> n A hA.
have [a /eigenvalueP [v vA v0]] : exists a, eigenvalue A^T a.
  have := @solve_monicpoly [closedFieldType of R[i]] n.+1 (fun i => - (char_poly A^T)`_i) isT => -[a Ha].
  exists a; rewrite eigenvalue_root_char; apply/rootP; rewrite horner_coef size_char_poly big_ord_recr /= Ha.
  have -> : (char_poly A^T)`_n.+1 = 1 by have := char_poly_monic A^T; rewrite monicE /lead_coef size_char_poly => /eqP.
  by rewrite mul1r -big_split big1 // => i _ /=; rewrite mulNr subrr.
have Av : A *m v^T = a *: v^T by rewrite -[LHS]trmxK trmx_mul trmxK vA linearZ.
have v1 : v^T != 0 by apply: contra v0 => /eqP H; rewrite -[v]trmxK H trmx0.
exists (sf_re (a : complex_star R)), v^T; split=> //; rewrite Av; congr (_ *: _).
apply: (@sf_fixed _ (complex_star R)).
have n0 : (v^T : 'M[complex_star R]_(_, _))^H *m v^T != 0.
  by apply: contra v1 => /eqP H; apply/eqP; apply: inner_eq0; rewrite innerE H mxtrace0 raddf0.
have : sf_conj (a : complex_star R) *: ((v^T : 'M[complex_star R]_(_, _))^H *m v^T) = a *: ((v^T : 'M[complex_star R]_(_, _))^H *m v^T).
  by rewrite scalemxAl -adjmxZ -Av adjmxM hA -mulmxA Av scalemxAr.
by move/eqP; rewrite -subr_eq0 -scalerBl scaler_eq0 (negbTE n0) orbF subr_eq0 => /eqP.
Qed.
Lemma real_has_eigenvectors : has_eigenvectors (real_star R).
Proof.
move=> n A hA; pose B : 'M[complex_star R]_n.+1 := map_mx (real_complex R) A.
have hB : hermitian B.
  by apply/matrixP => i j; have := congr1 (fun M : 'M_n.+1 => M i j) hA; rewrite !mxE /= => ->; rewrite oppr0.
have [a [v [v0 Bv]]] := complex_has_eigenvectors hB.
have : eigenvalue B^T (real_complex R a).
  apply/eigenvalueP; exists v^T; last by apply: contra v0 => /eqP H; rewrite -[v]trmxK H trmx0.
  by rewrite -trmx_mul Bv linearZ.
rewrite eigenvalue_root_char /B map_trmx -map_char_poly fmorph_root -eigenvalue_root_char => /eigenvalueP [u uA u0].
exists a, u^T; split; first by apply: contra u0 => /eqP H; rewrite -[u]trmxK H trmx0.
by rewrite -[LHS]trmxK trmx_mul trmxK uA linearZ.
Qed.
End Complex.

(** ** Library functions with the assumed properties exist *)
Lemma choice_on (A B : Type) (P : A -> Prop) (Q : A -> B -> Prop) (b0 : B) :
  (forall a, P a -> exists b, Q a b) -> exists f, forall a, P a -> Q a (f a).
Proof.
move=> H; exists (fun a => epsilon (inhabits b0) (Q a)) => a Pa; exact: epsilon_spec (H a Pa).
Qed.
Section Functions.
Variables (R : rcfType) (F : starField R) (EV : has_eigenvectors F).
Theorem qr_function m n : (n <= m)%N ->
  exists qr : 'M[F]_(m, n) -> 'M[F]_(m, n) * 'M[F]_n, forall A, valid_qr A (qr A).
Proof.
move=> nm; have [f H] := choice_on (0, 0) (fun (A : 'M[F]_(m, n)) (_ : True) => qr_exists A nm).
by exists f => A; exact: H.
Qed.
Theorem svd_function m n : (n <= m)%N ->
  exists svd : 'M[F]_(m, n) -> 'M[F]_(m, n) * 'rV[R]_n * 'M[F]_n, forall A, valid_svd A (svd A).
Proof.
move=> nm; have [f H] := choice_on (0, 0, 0) (fun (A : 'M[F]_(m, n)) (_ : True) => svd_exists EV A nm).
by exists f => A; exact: H.
Qed.
Theorem eigh_function n : exists eigh : 'M[F]_n -> 'rV[R]_n * 'M[F]_n, forall A, hermitian A -> valid_eigh A (eigh A).
Proof. exact: (choice_on (0, 0) (fun A => @eigh_exists R F EV n A)). Qed.
Theorem cholesky_function n : exists cholesky : 'M[F]_n -> 'M[F]_n, forall A, posdef A -> valid_cholesky A (cholesky A).
Proof. exact: (choice_on 0 (fun A => @cholesky_exists R F EV n A)). Qed.
End Functions.
