(** Mathematics behind C78 and C79: the tangent space of the matrices of fixed rank, truncated singular value
    decompositions, the Eckart-Young theorem. *)
From mathcomp Require Import all_ssreflect all_algebra.
From mathcomp Require Import perm.
From Verif Require Import MCRing Mat_Base Geometry_Spec Linalg_Spec Calculus Connection Stiefel_Proofs Linalg_Exist.
Set Implicit Arguments.
Unset Strict Implicit.
Unset Printing Implicit Defensive.
Import GRing.Theory Num.Theory Order.TTheory.
Local Open Scope ring_scope.
Local Notation "A ^H" := (adjmx A) (at level 8, format "A ^H") : ring_scope.

Section Generic.
Variables (R : rcfType) (F : starField R).
Add Ring R_ring : (mc_ring R).

(** ** Orthogonal projections *)
Definition orthproj n (P : 'M[F]_n) : Prop := P^H = P /\ P *m P = P.
Lemma orthprojC n (P : 'M[F]_n) : orthproj P -> orthproj (1%:M - P).
Proof.
move=> [h i]; split; first by rewrite adjmxB adjmx1 h.
by rewrite mulmxBl mulmxBr !mul1mx mulmxBr mulmx1 i subrr subr0.
Qed.
Lemma orthproj_range m n (E : 'M[F]_(m, n)) : E *m (E^H *m E) = E -> orthproj (E *m E^H).
Proof. by move=> h; split; rewrite ?adjmxM ?adjmxK // mulmxA -(mulmxA E) h. Qed.
Lemma orthproj_orthonormal m n (E : 'M[F]_(m, n)) : orthonormal E -> orthproj (E *m E^H).
Proof. by move=> h; apply: orthproj_range; rewrite [E^H *m E]h mulmx1. Qed.
Lemma orthproj_sqr m n (P : 'M[F]_m) (A : 'M[F]_(m, n)) : orthproj P -> inner (P *m A) (P *m A) = inner A (P *m A).
Proof. by move=> [h i]; rewrite inner_mull h mulmxA i. Qed.
Lemma orthproj_split m n (P : 'M[F]_m) (A : 'M[F]_(m, n)) : orthproj P ->
  inner A A = inner (P *m A) (P *m A) + inner ((1%:M - P) *m A) ((1%:M - P) *m A).
Proof.
move=> h; rewrite (orthproj_sqr _ h) (orthproj_sqr _ (orthprojC h)) mulmxBl mul1mx innerBr addrC.
by rewrite subrK.
Qed.
Lemma orthproj_le m n (P : 'M[F]_m) (A : 'M[F]_(m, n)) : orthproj P -> inner (P *m A) (P *m A) <= inner A A.
Proof. by move=> h; rewrite (orthproj_split A h) ler_addl inner_ge0. Qed.
Lemma inner_adjM m n p (E : 'M[F]_(m, n)) (A : 'M[F]_(m, p)) :
  E *m (E^H *m E) = E -> inner (E^H *m A) (E^H *m A) = inner (E *m E^H *m A) (E *m E^H *m A).
Proof. by move=> h; rewrite (orthproj_sqr _ (orthproj_range h)) inner_mull adjmxK mulmxA innerC innerC. Qed.

(** ** The tangent space at [u S v^H] and its parametrisation *)
Section Tangent.
Variables (m n k : nat) (u : 'M[F]_(m, k)) (v : 'M[F]_(n, k)).
Hypotheses (ou : orthonormal u) (ov : orthonormal v).
Definition emb (Up : 'M[F]_(m, k)) (M : 'M[F]_k) (Vp : 'M[F]_(n, k)) : 'M[F]_(m, n) :=
  u *m M *m v^H + Up *m v^H + u *m Vp^H.
Definition cu : 'M[F]_m := 1%:M - u *m u^H.
Definition cv : 'M[F]_n := 1%:M - v *m v^H.
Lemma cuu : cu *m u = 0. Proof. by rewrite /cu mulmxBl mul1mx -mulmxA ou mulmx1 subrr. Qed.
Lemma vcv : v^H *m cv = 0. Proof. by rewrite /cv mulmxBr mulmx1 mulmxA ov mul1mx subrr. Qed.
Lemma orthproj_cu : orthproj cu. Proof. by apply: orthprojC; apply: orthproj_orthonormal. Qed.
Lemma orthproj_cv : orthproj cv. Proof. by apply: orthprojC; apply: orthproj_orthonormal. Qed.
Lemma emb_tan Up M Vp : cu *m emb Up M Vp *m cv = 0.
Proof.
have K (P : 'M[F]_m) (Q : 'M[F]_n) : P *m u = 0 -> v^H *m Q = 0 -> P *m emb Up M Vp *m Q = 0.
  by move=> a b; rewrite /emb !mulmxDr !mulmxDl !mulmxA a !mul0mx add0r addr0 -!mulmxA b !mulmx0.
by apply: K; [exact: cuu | exact: vcv].
Qed.
(** the remainder of the projection *)
Lemma proj_rest (Z : 'M[F]_(m, n)) : let M := u^H *m (Z *m v) in
  Z - emb (Z *m v - u *m M) M (Z^H *m u - v *m M^H) = cu *m Z *m cv.
Proof.
move=> M; rewrite /emb /cu /cv.
have -> : (Z^H *m u - v *m M^H)^H = u^H *m Z - M *m v^H by rewrite adjmxB !adjmxM !adjmxK.
rewrite [(Z *m v - _) *m _]mulmxBl [u *m (_ - _)]mulmxBr [(1%:M - _) *m Z]mulmxBl mul1mx mulmxBr mulmx1 mulmxBl.
have -> : u *m (M *m v^H) = u *m M *m v^H by rewrite mulmxA.
have -> : u *m u^H *m Z *m (v *m v^H) = u *m M *m v^H by rewrite /M !mulmxA.
have -> : Z *m (v *m v^H) = Z *m v *m v^H by rewrite mulmxA.
have -> : u *m (u^H *m Z) = u *m u^H *m Z by rewrite mulmxA.
by move: (u *m M *m v^H) (Z *m v *m v^H) (u *m u^H *m Z) => a b c; vring (@inner_ips R F m n) R.
Qed.
Lemma inner_rest (Z T : 'M[F]_(m, n)) : cu *m T *m cv = 0 -> inner (cu *m Z *m cv) T = 0.
Proof.
move=> h; have [hu _] := orthproj_cu; have [hv _] := orthproj_cv.
by rewrite inner_mulr hv inner_mull hu mulmxA h inner0r.
Qed.
Lemma emb_inner Up M Vp Up' M' Vp' : u^H *m Up = 0 -> v^H *m Vp = 0 -> u^H *m Up' = 0 -> v^H *m Vp' = 0 ->
  inner (emb Up M Vp) (emb Up' M' Vp') = inner Up Up' + inner M M' + inner Vp Vp'.
Proof.
move=> a b a' b'.
have R1 p (A : 'M[F]_(p, k)) (B : 'M[F]_(p, k)) : inner (A *m v^H) (B *m v^H) = inner A B.
  by rewrite inner_mulr adjmxK -mulmxA ov mulmx1.
have R2 (A B : 'M[F]_(k, n)) : inner (u *m A) (u *m B) = inner A B by rewrite inner_mull mulmxA ou mul1mx.
have Z1 (A : 'M[F]_(m, k)) (B : 'M[F]_(n, k)) : v^H *m B = 0 -> inner (A *m v^H) (u *m B^H) = 0.
  move=> h; rewrite inner_mulr adjmxK -mulmxA (_ : B^H *m v = 0) ?mulmx0 ?inner0r //.
  by rewrite -[LHS]adjmxK adjmxM adjmxK h adjmx0.
have Z2 A B : u^H *m B = 0 -> inner (u *m A *m v^H) (B *m v^H) = 0 by move=> h; rewrite R1 inner_mull h inner0r.
rewrite /emb !innerDl !innerDr (R1 _ (u *m M) (u *m M')) inner_mull mulmxA ou mul1mx.
rewrite (Z2 _ _ a') (Z1 _ _ b') [inner (Up *m v^H) (u *m M' *m v^H)]innerC (Z2 _ _ a) R1 (Z1 _ _ b').
rewrite [inner (u *m Vp^H) (u *m M' *m v^H)]innerC (Z1 _ _ b) [inner (u *m Vp^H) (Up' *m v^H)]innerC (Z1 _ _ b) R2 inner_adj.
by mcring R.
Qed.
End Tangent.

(** ** Partial singular value decompositions: [A = E diag(s) G^H], the columns of [E] and [G] for positive values are
    orthonormal, the others zero *)
Section Partial.
Variables (m n p : nat) (E : 'M[F]_(m, p)) (s : 'rV[R]_p) (G : 'M[F]_(n, p)).
Definition supp : 'rV[R]_p := \row_i (if s ord0 i == 0 then 0 else 1).
Hypotheses (hE : E^H *m E = real_diag F supp) (hG : G^H *m G = real_diag F supp).
Hypothesis s0 : forall i, 0 <= s ord0 i.
Local Notation rd := (real_diag F).
Lemma rdM q (a b : 'rV[R]_q) : rd a *m rd b = rd (\row_i (a ord0 i * b ord0 i)).
Proof.
apply/matrixP => i j; rewrite mul_diag_mx !mxE; case: (i == j); rewrite ?mulr1n ?mulr0n ?mulr0 //.
by rewrite rmorphM.
Qed.
Lemma rdH q (a : 'rV[R]_q) : (rd a)^H = rd a.
Proof. by rewrite adjmx_diag; congr diag_mx; apply/matrixP => i j; rewrite !mxE sf_conj_real. Qed.
Lemma rd_ext q (a b : 'rV[R]_q) : (forall i, a ord0 i = b ord0 i) -> rd a = rd b.
Proof. by move=> h; congr diag_mx; apply/rowP => i; rewrite !mxE h. Qed.
Lemma inner_rd q (a : 'rV[R]_q) : inner (rd a) (rd a) = \sum_i a ord0 i ^+ 2.
Proof.
rewrite inner_entries; apply: eq_bigr => i _; rewrite (bigD1 i) //= big1 => [|j ji].
  by rewrite !mxE eqxx mulr1n addr0 /abs2 sf_conj_real -rmorphM re_real expr2.
by rewrite !mxE eq_sym (negbTE ji) mulr0n /abs2 mulr0 raddf0.
Qed.
Lemma suppM (t : 'rV[R]_p) : (forall i, s ord0 i = 0 -> t ord0 i = 0) -> rd supp *m rd t = rd t /\ rd t *m rd supp = rd t.
Proof.
by move=> h; rewrite !rdM; split; apply: rd_ext => i; rewrite !mxE; case: eqP => [/h->|_]; rewrite ?mulr0 ?mul0r ?mul1r ?mulr1.
Qed.
Lemma suppK : rd supp *m rd supp = rd supp.
Proof. by apply: (proj1 (@suppM supp _)) => i h; rewrite mxE h eqxx. Qed.
Lemma gram_supp q (B : 'M[F]_(q, p)) : B^H *m B = rd supp -> B *m rd supp = B.
Proof.
move=> h; apply/eqP; rewrite -subr_eq0; apply/eqP/inner_eq0; rewrite innerE adjmxB adjmxM rdH.
rewrite mulmxBl !mulmxBr !mulmxA h suppK -[rd supp *m B^H *m B]mulmxA h suppK suppK !subrr mxtrace0 raddf0 //.
Qed.
Lemma partial_inner (t : 'rV[R]_p) : (forall i, s ord0 i = 0 -> t ord0 i = 0) ->
  inner (E *m rd t *m G^H) (E *m rd t *m G^H) = \sum_i t ord0 i ^+ 2.
Proof.
move=> h; have [h1 h2] := suppM h.
rewrite inner_mulr adjmxK -!mulmxA hG h2 inner_mull mulmxA hE h1; exact: inner_rd.
Qed.
Lemma trace_rd : \sum_i supp ord0 i <= p%:R.
Proof.
rewrite (_ : p%:R = \sum_(i < p) 1); last by rewrite sumr_const card_ord.
by apply: ler_sum => i _; rewrite mxE; case: eqP => _; rewrite ?ler01.
Qed.
Definition keep (k : nat) : 'rV[R]_p := \row_i (if (i < k)%N then s ord0 i else 0).
Definition full_matrix := E *m rd s *m G^H.
Definition trunc k := E *m rd (keep k) *m G^H.
Lemma trunc_rest k : inner (full_matrix - trunc k) (full_matrix - trunc k) = \sum_(i < p) (if (i < k)%N then 0 else s ord0 i ^+ 2).
Proof.
pose t : 'rV[R]_p := \row_i (if (i < k)%N then 0 else s ord0 i).
have e : full_matrix - trunc k = E *m rd t *m G^H.
  rewrite /full_matrix /trunc -mulmxBl -mulmxBr; congr (_ *m _ *m _); apply/matrixP => i j; rewrite !mxE.
  case: (i == j); last by rewrite !mulr0n subrr.
  by rewrite !mulr1n; case: ifP => _; rewrite ?rmorph0 ?subrr ?subr0.
rewrite e partial_inner => [|i h]; last by rewrite mxE h; case: ifP.
by apply: eq_bigr => i _; rewrite mxE; case: ifP => _; rewrite ?expr0n.
Qed.
Lemma inner_cols q r (A : 'M[F]_(q, r)) : inner A A = \sum_j inner (col j A) (col j A).
Proof.
rewrite inner_entries exchange_big /=; apply: eq_bigr => j _; rewrite inner_entries; apply: eq_bigr => i _.
by rewrite big_ord1 mxE.
Qed.
Lemma inner_orthonormal q r (Q : 'M[F]_(q, r)) : orthonormal Q -> inner Q Q = r%:R.
Proof.
move=> h; rewrite innerE h mxtrace1; elim: r {Q h} => [|r IH]; first by rewrite raddf0.
by rewrite -addn1 !natrD raddfD /= IH -(rmorph1 sf_real) re_real.
Qed.
(** Eckart and Young: the truncated decomposition is nearest among the matrices of the given rank *)
Theorem eckart_young k (Q : 'M[F]_(m, k)) (W : 'M[F]_(k, n)) : orthonormal Q ->
  (forall i j : 'I_p, (i <= j)%N -> s ord0 j <= s ord0 i) ->
  inner (full_matrix - trunc k) (full_matrix - trunc k) <= inner (full_matrix - Q *m W) (full_matrix - Q *m W).
Proof.
move=> oQ sorted; have PQ := orthproj_orthonormal oQ.
have L : inner ((1%:M - Q *m Q^H) *m full_matrix) ((1%:M - Q *m Q^H) *m full_matrix) <= inner (full_matrix - Q *m W) (full_matrix - Q *m W).
  have -> : (1%:M - Q *m Q^H) *m full_matrix = (1%:M - Q *m Q^H) *m (full_matrix - Q *m W).
    by rewrite mulmxBr [X in _ = _ - X]mulmxBl mul1mx mulmxA -(mulmxA Q Q^H Q) oQ mulmx1 subrr subr0.
  by apply: orthproj_le; apply: orthprojC.
apply: le_trans L; rewrite trunc_rest.
have AA : inner full_matrix full_matrix = \sum_i s ord0 i ^+ 2 by apply: partial_inner.
have S := orthproj_split full_matrix PQ; rewrite AA in S.
pose w i := inner (col i (Q^H *m E)) (col i (Q^H *m E)).
have QQ : Q *m (Q^H *m Q) = Q by rewrite oQ mulmx1.
have QA : inner (Q *m Q^H *m full_matrix) (Q *m Q^H *m full_matrix) = \sum_i s ord0 i ^+ 2 * w i.
  have [_ ss] : rd supp *m rd s = rd s /\ rd s *m rd supp = rd s by apply: suppM.
  rewrite -(inner_adjM _ QQ) /full_matrix !mulmxA inner_mulr adjmxK.
  have -> : Q^H *m E *m rd s *m G^H *m G = Q^H *m E *m rd s by rewrite -mulmxA hG -mulmxA ss.
  rewrite inner_cols; apply: eq_bigr => i _.
  have -> : col i (Q^H *m E *m rd s) = sf_real (s ord0 i) *: col i (Q^H *m E).
    by apply/colP => j; rewrite mxE mul_mx_diag !mxE mulrC.
  by rewrite innerZl innerZr mulrA expr2.
have EE : E *m (E^H *m E) = E by rewrite hE gram_supp.
have w1 i : w i <= 1.
  have -> : 1 = 1 :> R by []; rewrite /w.
  have -> : col i (Q^H *m E) = Q^H *m col i E by rewrite !colE mulmxA.
  rewrite (inner_adjM _ QQ); apply: le_trans (orthproj_le _ PQ) _.
  have -> : inner (col i E) (col i E) = supp ord0 i.
    rewrite innerE /mxtrace big_ord1 colE adjmxM -mulmxA (mulmxA E^H) hE.
    rewrite mxE (bigD1 i) //= big1 => [|j ji].
      rewrite addr0 mul_diag_mx !mxE !eqxx /= rmorph1 mul1r mulr1 re_real //.
    by rewrite !mxE (negbTE ji) /= rmorph0 mul0r.
  by rewrite mxE; case: eqP => _; rewrite ?ler01.
have w0 i : 0 <= w i by apply: inner_ge0.
have wk : \sum_i w i <= k%:R.
  rewrite /w -inner_cols -(inner_orthonormal oQ).
  rewrite -[Q^H *m E]adjmxK inner_adj adjmxM adjmxK (inner_adjM _ EE).
  by apply: orthproj_le; apply: orthproj_range.
rewrite -(ler_add2l (\sum_i s ord0 i ^+ 2 * w i)) -[X in _ <= X + _]QA -S.
rewrite -big_split /=.
have [kp|kp] := ltnP k p; last first.
  apply: ler_sum => i _; rewrite (leq_trans (ltn_ord i) kp) addr0.
  by rewrite ler_pimulr // sqr_ge0.
pose tau := s ord0 (Ordinal kp) ^+ 2.
have t0 : 0 <= tau by apply: sqr_ge0.
have K : \sum_(i < p) (if (i < k)%N then 1 else 0) = k%:R :> R.
  rewrite -big_mkcond /= sumr_const; congr _%:R.
  rewrite -sum1_card (eq_bigl (fun i : 'I_p => (i < k)%N)) // -(big_ord_widen p (fun _ => 1%N) (ltnW kp)).
  by rewrite sum1_card card_ord.
rewrite -subr_ge0 -sumrB.
apply: le_trans (_ : tau * (k%:R - \sum_i w i) <= _); first by rewrite mulr_ge0 // subr_ge0.
rewrite -K -sumrB mulr_sumr; apply: ler_sum => i _; case: ifP => ik.
  rewrite addr0 -[X in _ <= X - _]mulr1 -mulrBr ler_wpmul2r ?subr_ge0 // /tau.
  by rewrite ler_sqr ?nnegrE // sorted //= ltnW.
rewrite sub0r mulrN opprD addrCA subrr addr0 ler_opp2 ler_wpmul2r // /tau ler_sqr ?nnegrE // sorted //=.
by rewrite leqNgt ik.
Qed.
Lemma rank_partial : (\rank full_matrix <= \sum_(i < p) (if s ord0 i == 0%R then 0 else 1))%N.
Proof.
have -> : full_matrix = \sum_i sf_real (s ord0 i) *: (col i E *m (col i G)^H).
  apply/matrixP => a b; rewrite /full_matrix summxE mxE; apply: eq_bigr => i _.
  rewrite mul_mx_diag !mxE big_ord1 !mxE -mulrA mulrCA; congr (_ * _); by rewrite mulrC.
pose Q (A : 'M[F]_(m, n)) (r : nat) := (\rank A <= r)%N.
apply: (big_ind2 Q) => [|A r B r' hA hB|i _]; rewrite /Q ?mxrank0 //.
  by apply: leq_trans (mxrank_add _ _) _; apply: leq_add.
case: eqP => [->|_] /=; first by rewrite rmorph0 scale0r mxrank0.
apply: leq_trans (mxrank_scale _ _) _; apply: leq_trans (mxrankM_maxl _ _) _; exact: rank_leq_col.
Qed.
End Partial.

(** ** The factorisation behind the retraction *)
Local Notation rd := (real_diag F).
Lemma block_iso q k (u Q : 'M[F]_(q, k)) (A B C : 'M[F]_k) : orthonormal u -> orthonormal Q -> u^H *m (Q *m C) = 0 ->
  let T := block_mx A B C 0 in let L := row_mx u Q in T^H *m (L^H *m L) *m T = T^H *m T.
Proof.
move=> ou oQ e' T L; apply/eqP; rewrite -subr_eq0 -mulmxBl -[X in _ *m _ - X]mulmx1 -mulmxBr; apply/eqP.
have -> : L^H *m L - 1%:M = block_mx 0 (u^H *m Q) (Q^H *m u) 0.
  rewrite /L adj_row_mx mul_col_row ou oQ [X in _ - X](@scalar_mx_block _ k k 1).
  by rewrite opp_block_mx add_block_mx !subrr !subr0.
rewrite /T adj_block_mx adjmx0 !mulmx_block !mul0mx !mulmx0 !addr0 !add0r.
have e : C^H *m (Q^H *m u) = 0 by rewrite mulmxA -adjmxM -[LHS]adjmxK adjmxM adjmxK e' adjmx0.
by rewrite e -!mulmxA e' !mulmx0 !mul0mx !addr0 block_mx0.
Qed.
Lemma partial_gram q p (L : 'M[F]_(q, p)) (T U W : 'M[F]_p) (s : 'rV[R]_p) : orthonormal U -> W *m W^H = 1%:M ->
  T = U *m rd s *m W -> T^H *m (L^H *m L) *m T = T^H *m T ->
  (L *m U *m rd (supp s))^H *m (L *m U *m rd (supp s)) = rd (supp s).
Proof.
move=> oU oW ET iso.
pose pinv : 'rV[R]_p := \row_i (if s ord0 i == 0 then 0 else (s ord0 i)^-1).
have DE : rd s *m rd pinv = rd (supp s).
  by rewrite rdM; apply: rd_ext => i; rewrite !mxE; case: eqP => [->|/eqP n0]; rewrite ?mulr0 // divff.
have UE : U *m rd (supp s) = T *m (W^H *m rd pinv) by rewrite ET !mulmxA -(mulmxA _ W) oW mulmx1 -mulmxA DE.
rewrite -mulmxA UE; move: UE; move: (W^H *m rd pinv) => X UE.
have -> : (L *m (T *m X))^H *m (L *m (T *m X)) = X^H *m (T^H *m (L^H *m L) *m T) *m X by rewrite !adjmxM !mulmxA.
rewrite iso; have -> : X^H *m (T^H *m T) *m X = (T *m X)^H *m (T *m X) by rewrite !adjmxM !mulmxA.
by rewrite -UE adjmxM rdH -!mulmxA (mulmxA U^H) oU mul1mx suppK.
Qed.
Section Retract.
Variables (m n k : nat) (u : 'M[F]_(m, k)) (v : 'M[F]_(n, k)) (S : 'rV[R]_k).
Variables (Up : 'M[F]_(m, k)) (M : 'M[F]_k) (Vp : 'M[F]_(n, k)).
Variables (Qu : 'M[F]_(m, k)) (Ru : 'M[F]_k) (Qv : 'M[F]_(n, k)) (Rv : 'M[F]_k).
Variables (Ut : 'M[F]_(k + k)) (st : 'rV[R]_(k + k)) (Vt : 'M[F]_(k + k)).
Hypotheses (ou : orthonormal u) (ov : orthonormal v) (uUp : u^H *m Up = 0) (vVp : v^H *m Vp = 0).
Hypotheses (oQu : orthonormal Qu) (oQv : orthonormal Qv) (EUp : Up = Qu *m Ru) (EVp : Vp = Qv *m Rv).
Definition core : 'M[F]_(k + k) := block_mx (rd S + M) Rv^H Ru 0.
Hypothesis svd : valid_svd core (Ut, st, Vt).
Hypothesis sorted : forall i j : 'I_(k + k), (i <= j)%N -> st ord0 j <= st ord0 i.
Definition lft := row_mx u Qu.
Definition rgt := row_mx v Qv.
Definition target := u *m rd S *m v^H + emb u v Up M Vp.
Lemma target_core : lft *m core *m rgt^H = target.
Proof.
rewrite /lft /core /rgt adj_row_mx mul_row_block mul_row_col mulmx0 addr0 -EUp mulmxDr !mulmxDl.
by rewrite -!mulmxA -adjmxM -EVp !mulmxA /target /emb !addrA.
Qed.
Definition rE := lft *m Ut *m rd (supp st).
Definition rG := rgt *m Vt^H *m rd (supp st).
Lemma rE_gram : rE^H *m rE = rd (supp st).
Proof.
have [oU [oV [s0 E]]] := svd; apply: (partial_gram oU oV E); apply: block_iso => //.
by rewrite -EUp.
Qed.
Lemma rG_gram : rG^H *m rG = rd (supp st).
Proof.
have [oU [oV [s0 E]]] := svd; apply: (@partial_gram _ _ _ core^H Vt^H Ut^H) => //.
- by rewrite /orthonormal adjmxK.
- by rewrite adjmxK.
- by rewrite E !adjmxM rdH mulmxA.
- by rewrite /core adj_block_mx adjmx0 adjmxK; apply: block_iso => //; rewrite -EVp.
Qed.
Lemma st_ge0 i : 0 <= st ord0 i. Proof. by have [_ [_ [s0 _]]] := svd. Qed.
Lemma rE_mask (t : 'rV[R]_(k + k)) : (forall i, st ord0 i = 0 -> t ord0 i = 0) ->
  rE *m rd t *m rG^H = lft *m (Ut *m rd t *m Vt) *m rgt^H.
Proof.
move=> h; have [h1 h2] : rd (supp st) *m rd t = rd t /\ rd t *m rd (supp st) = rd t := suppM h.
rewrite /rE /rG !adjmxM adjmxK rdH -!mulmxA (mulmxA _ (rd t)) h1 (mulmxA (rd t)) h2 //.
Qed.
Lemma full_target : full_matrix rE st rG = target.
Proof. by rewrite /full_matrix rE_mask // -target_core; have [_ [_ [_ <-]]] := svd. Qed.
Definition rU := lft *m lsubmx Ut.
Definition rS : 'rV[R]_k := lsubmx st.
Definition rV := rgt *m lsubmx Vt^H.
Lemma trunc_factors : trunc rE st rG k = rU *m rd rS *m rV^H.
Proof.
rewrite /trunc rE_mask => [|i h]; last by rewrite mxE h; case: ifP.
rewrite /rU /rV adjmxM !mulmxA; congr (_ *m _); rewrite -!mulmxA; congr (_ *m _); rewrite !mulmxA.
apply/matrixP => i j; rewrite mxE big_split_ord /= [X in _ + X]big1 ?addr0 => [|l _].
  rewrite [RHS]mxE; apply: eq_bigr => l _; rewrite !mul_mx_diag !mxE /= ltn_ord.
  by rewrite sf_conjK.
by rewrite mul_mx_diag !mxE /= -ltn_subRL subnn ltn0 rmorph0 mulr0 mul0r.
Qed.
Lemma best (C : 'M[F]_(m, k)) (W : 'M[F]_(k, n)) : orthonormal C ->
  fnorm (target - rU *m rd rS *m rV^H) <= fnorm (target - C *m W).
Proof.
move=> oC; rewrite -trunc_factors -full_target /fnorm ler_wsqrtr //.
by apply: eckart_young => //; [exact: rE_gram | exact: rG_gram | exact: st_ge0].
Qed.
Hypothesis rk : (k <= \rank target)%N.
Lemma st_pos i : 0 < rS ord0 i.
Proof.
rewrite lt_def mxE st_ge0 andbT; apply/eqP => e0.
have := leq_trans rk; rewrite -full_target => /(_ _ (rank_partial _ _ _)).
apply/negP; rewrite -ltnNge.
apply: leq_ltn_trans (_ : \sum_(j < k + k) (if (j < i)%N then 1 else 0) < k)%N.
  apply: leq_sum => j _; case: ifP => // /negbT n0; case: ifP => // /negbT; rewrite -leqNgt => ij.
  have := @sorted (lshift k i) j ij; rewrite e0 => le0.
  by move: n0; rewrite eq_le le0 st_ge0.
rewrite -big_mkcond /= -(big_ord_widen (k + k) (fun _ => 1%N)); last by apply: leq_trans (ltnW (ltn_ord i)) (leq_addr _ _).
by rewrite sum1_card card_ord.
Qed.
Lemma supp_left (i : 'I_k) : supp st ord0 (lshift k i) = 1.
Proof. by rewrite mxE; have := st_pos i; rewrite mxE; case: eqP => // ->; rewrite ltxx. Qed.
Lemma lsub_orth q (L : 'M[F]_(q, k + k)) (U : 'M[F]_(k + k)) :
  (L *m U *m rd (supp st))^H *m (L *m U *m rd (supp st)) = rd (supp st) -> orthonormal (L *m lsubmx U).
Proof.
move=> h; apply/matrixP => i j; have := congr1 (fun A : 'M[F]_(k + k) => A (lshift k i) (lshift k j)) h.
have -> : rd (supp st) (lshift k i) (lshift k j) = (1%:M : 'M[F]_k) i j.
  by rewrite !mxE -[lshift _ _ == _]/(i == j :> nat) -[i == j]/(i == j :> nat); have := supp_left i; rewrite mxE => ->; rewrite rmorph1.
have e l a : (L *m U *m rd (supp st)) l (lshift k a) = (L *m lsubmx U) l a.
  rewrite mul_mx_diag mxE [(map_mx _ _) _ _]mxE supp_left rmorph1 mulr1 !mxE; apply: eq_bigr => b _; by rewrite !mxE.
by move <-; rewrite mxE [RHS]mxE; apply: eq_bigr => l _; rewrite !adjmxE !e.
Qed.
Lemma rU_orth : orthonormal rU. Proof. by apply: lsub_orth; apply: rE_gram. Qed.
Lemma rV_orth : orthonormal rV. Proof. by apply: lsub_orth; apply: rG_gram. Qed.
End Retract.

(** ** Points near a point of rank [k] *)
Lemma rank_near m n k (u : 'M[F]_(m, k)) (v : 'M[F]_(n, k)) (S : 'rV[R]_k) Up M Vp :
  orthonormal u -> orthonormal v -> u^H *m Up = 0 -> v^H *m Vp = 0 -> rd S + M \in unitmx ->
  (k <= \rank (target u v S Up M Vp))%N.
Proof.
move=> ou ov hu hv U.
apply: leq_trans (_ : (\rank (rd S + M)%R <= _)%N); first by rewrite mxrank_unit.
have -> : rd S + M = u^H *m target u v S Up M Vp *m v.
  rewrite /target /emb !mulmxDr !mulmxDl !mulmxA ou hu !mul0mx !mul1mx -!mulmxA ov !mulmx1 addr0.
  have -> : Vp^H *m v = 0 by rewrite -[LHS]adjmxK adjmxM adjmxK hv adjmx0.
  by rewrite addr0.
by apply: leq_trans (mxrankM_maxl _ _) _; apply: mxrankM_maxr.
Qed.
Lemma fnorm_rd k (S : 'rV[R]_k) (a : R) q (y : 'M[F]_(k, q)) : 0 <= a -> (forall i, a <= S ord0 i) ->
  a * fnorm y <= fnorm (rd S *m y).
Proof.
move=> a0 h; rewrite -(ger0_norm a0) -fnormZ /fnorm ler_wsqrtr // !inner_entries.
apply: ler_sum => i _; apply: ler_sum => j _; rewrite mul_diag_mx !mxE !abs2M ler_wpmul2r ?abs2_ge0 //.
rewrite /abs2 !sf_conj_real -!rmorphM !re_real; apply: ler_pmul => //.
Qed.
Lemma unit_near k (S : 'rV[R]_k) (a : R) (M : 'M[F]_k) : 0 < a -> (forall i, a <= S ord0 i) -> fnorm M < a ->
  rd S + M \in unitmx.
Proof.
move=> a0 h Ma; rewrite -unitmx_tr -row_free_unit -kermx_eq0; apply/eqP/row_matrixP => i; rewrite row0.
set z := row i _; have hz : z *m (rd S + M)^T = 0 by rewrite /z -row_mul mulmx_ker row0.
pose y : 'cV[F]_k := z^T.
have hy : (rd S + M) *m y = 0 by rewrite -[LHS]trmxK trmx_mul trmxK hz trmx0.
have : a * fnorm y <= fnorm M * fnorm y.
  apply: le_trans (fnorm_rd y (ltW a0) h) _.
  have -> : rd S *m y = - (M *m y) by apply/eqP; rewrite -addr_eq0 -mulmxDl hy.
  by rewrite fnormN fnorm_mul.
have [y0|y0] := eqVneq y 0; first by move=> _; rewrite -[z]trmxK -/y y0 trmx0.
by rewrite ler_pmul2r ?leNgt ?Ma // lt_def fnorm_ge0 fnorm_eq0 y0.
Qed.
Lemma second_order m n k (u : 'M[F]_(m, k)) (v : 'M[F]_(n, k)) (S : 'rV[R]_k) Up M Vp :
  orthonormal u -> (forall i, S ord0 i != 0) ->
  exists (C : 'M[F]_(m, k)) (W : 'M[F]_(k, n)),
    fnorm (target u v S Up M Vp - C *m W) <= (fnorm M + fnorm Up) * fnorm (rd (\row_i (S ord0 i)^-1)) * fnorm Vp.
Proof.
move=> ou n0; pose S' : 'rV[R]_k := \row_i (S ord0 i)^-1.
have SS : rd S' *m rd S = 1%:M /\ rd S *m rd S' = 1%:M.
  by rewrite !rdM; split; apply/matrixP => i j; rewrite !mxE ?mulVf ?divff // rmorph1.
exists (u *m rd S + u *m M + Up), (rd S' *m (rd S *m v^H + Vp^H)).
have -> : target u v S Up M Vp - (u *m rd S + u *m M + Up) *m (rd S' *m (rd S *m v^H + Vp^H)) =
  - ((u *m M + Up) *m rd S' *m Vp^H).
  rewrite mulmxDr (mulmxA (rd S')) (proj1 SS) mul1mx mulmxDr !mulmxDl.
  rewrite -(mulmxA u (rd S) (rd S' *m _)) (mulmxA (rd S) (rd S')) (proj2 SS) mul1mx /target /emb !mulmxA.
  move: (u *m rd S *m v^H) (u *m M *m v^H) (Up *m v^H) (u *m Vp^H) (u *m M *m rd S' *m Vp^H) (Up *m rd S' *m Vp^H) => a b c d e f.
  by vring (@inner_ips R F m n) R.
rewrite fnormN; apply: le_trans (fnorm_mul _ _) _; rewrite fnorm_adj ler_wpmul2r ?fnorm_ge0 //.
apply: le_trans (fnorm_mul _ _) _; rewrite ler_wpmul2r ?fnorm_ge0 //.
apply: le_trans (fnormD _ _) _; rewrite ler_add2r.
by rewrite /fnorm inner_mull mulmxA ou mul1mx.
Qed.

(** ** Sorting a singular value decomposition *)
Lemma svd_sorted m n p (A : 'M[F]_(m, n)) (usv : 'M[F]_(m, p) * 'rV[R]_p * 'M[F]_(p, n)) : valid_svd A usv ->
  exists2 usv' : 'M[F]_(m, p) * 'rV[R]_p * 'M[F]_(p, n), valid_svd A usv' &
    forall i j : 'I_p, (i <= j)%N -> usv'.1.2 ord0 j <= usv'.1.2 ord0 i.
Proof.
case: usv => [[U s] V] [oU [oV [s0 E]]].
pose le (i j : 'I_p) := s ord0 j <= s ord0 i.
pose r := sort le (enum 'I_p).
have szr : size r = p by rewrite size_sort size_enum_ord.
have ur : uniq r by rewrite sort_uniq enum_uniq.
have letot : total le by move=> i j; rewrite /le le_total.
have letr : transitive le by move=> j i l a b; apply: le_trans a.
have sr : sorted le r by apply: sort_sorted.
have inj : injective (fun i : 'I_p => nth i r i).
  move=> i j; rewrite (set_nth_default j) ?szr // => /eqP; rewrite nth_uniq ?szr // => /eqP; exact: val_inj.
pose pi := perm inj.
exists (col_perm pi U, col_perm pi s, row_perm pi V); last first.
  move=> i j ij; rewrite /= !mxE !permE; have := sorted_leq_nth letr (fun x => lexx _) i sr.
  move=> /(_ i j); rewrite !inE szr => /(_ (ltn_ord i) (ltn_ord j) ij); rewrite /le.
  by rewrite (set_nth_default j i) ?szr.
split; first by apply/matrixP => i j; have := congr1 (fun B : 'M[F]_p => B (pi i) (pi j)) oU;
  rewrite !mxE (inj_eq perm_inj) => <-; apply: eq_bigr => l _; rewrite !mxE.
split; first by apply/matrixP => i j; have := congr1 (fun B : 'M[F]_p => B (pi i) (pi j)) oV;
  rewrite !mxE (inj_eq perm_inj) => <-; apply: eq_bigr => l _; rewrite !mxE.
split; first by move=> i; rewrite mxE.
rewrite E; apply/matrixP => i j; rewrite !mxE (reindex_inj (@perm_inj _ pi)) /=; apply: eq_bigr => l _.
by rewrite !mul_mx_diag !mxE.
Qed.

(** ** The tangent space consists of the velocities of curves of matrices of rank at most [k] *)
Lemma lower_bound k (S : 'rV[R]_k) : (forall i, 0 < S ord0 i) -> exists2 a : R, 0 < a & forall i, a <= S ord0 i.
Proof.
move=> h; pose b := 1 + \sum_i (S ord0 i)^-1.
have p0 i : 0 < (S ord0 i)^-1 by rewrite invr_gt0.
have b0 : 0 < b by apply: ltr_paddr; [apply: sumr_ge0 => i _; apply: ltW | exact: ltr01].
exists b^-1 => [|i]; first by rewrite invr_gt0.
rewrite -[X in _ <= X]invrK lef_pinv ?posrE // /b (bigD1 i) //= addrCA ler_addl.
by apply: addr_ge0; [exact: ler01 | apply: sumr_ge0 => j _; apply: ltW].
Qed.
Section Velocity.
Variables (m n k : nat) (u : 'M[F]_(m, k)) (v : 'M[F]_(n, k)) (S : 'rV[R]_k).
Hypotheses (ou : orthonormal u) (ov : orthonormal v) (S0 : forall i, 0 < S ord0 i).
Local Notation X := (u *m rd S *m v^H).
Local Notation der := (derives (@rscale R F m n) (@inner R F m n)).
Lemma velocity_emb Up M Vp : exists c : R -> 'M[F]_(m, n), c 0 = X /\ (forall t, (\rank (c t) <= k)%N) /\ der c (emb u v Up M Vp).
Proof.
pose S' : 'rV[R]_k := \row_i (S ord0 i)^-1.
have n0 i : S ord0 i != 0 by rewrite gt_eqF.
have SS : rd S *m rd S' = 1%:M by rewrite rdM; apply/matrixP => i j; rewrite !mxE divff // rmorph1.
pose A t : 'M[F]_(m, k) := u *m rd S + rscale t (u *m M + Up).
pose B t : 'M[F]_(k, n) := v^H + rscale t (rd S' *m Vp^H).
exists (fun t => A t *m B t).
split; first by rewrite /A /B /rscale rmorph0 !scale0r !addr0.
split; first by move=> t; apply: leq_trans (mxrankM_maxl _ _) _; apply: rank_leq_col.
have DA : derives (@rscale R F m k) (@inner R F m k) A (u *m M + Up) := derives_line (@inner_ips R F m k) _ _.
have DB : derives (@rscale R F k n) (@inner R F k n) B (rd S' *m Vp^H) := derives_line (@inner_ips R F k n) _ _.
have := derives_mul DA DB; rewrite /A /B /rscale rmorph0 !scale0r !addr0.
by rewrite -(mulmxA u) (mulmxA (rd S)) SS mul1mx /emb mulmxDl.
Qed.
Lemma fnorm_adjM q (A : 'M[F]_(m, q)) : fnorm (u^H *m A) <= fnorm A.
Proof.
rewrite /fnorm ler_wsqrtr // (inner_adjM A); last by rewrite ou mulmx1.
by apply: orthproj_le; apply: orthproj_orthonormal.
Qed.
Lemma velocity_tan c Z : c 0 = X -> (forall t, (\rank (c t) <= k)%N) -> der c Z -> cu u *m Z *m cv v = 0.
Proof.
move=> c0 rk D; apply/matrixP => i j; rewrite [RHS]mxE; apply/eqP; apply: contraT => nz.
pose a : 'cV[F]_m := cu u *m delta_mx i ord0.
pose b : 'cV[F]_n := cv v *m delta_mx j ord0.
have [hcu icu] := orthproj_cu ou; have [hcv icv] := orthproj_cv ov.
have aZb : a^H *m Z *m b = ((cu u *m Z *m cv v) i j)%:M.
  rewrite [LHS]mx11_scalar; congr _%:M.
  rewrite /a /b adjmxM hcu !mulmxA -(mulmxA _ (cu u) Z) -(mulmxA _ (cu u *m Z)).
  move: (cu u *m Z *m cv v) => N; rewrite -colE mxE -[(delta_mx i ord0)^H]/(adjmx _).
  have -> : (delta_mx i ord0 : 'cV[F]_m)^H = delta_mx ord0 i by apply/matrixP => x y; rewrite !mxE andbC; case: (_ && _); rewrite ?rmorph1 ?rmorph0.
  by rewrite -rowE mxE.
set N := (cu u *m Z *m cv v) i j in nz aZb.
have au : a^H *m u = 0 by rewrite /a adjmxM hcu -mulmxA cuu // mulmx0.
have vb : v^H *m b = 0 by rewrite /b mulmxA vcv // mul0mx.
have d1 q (l : 'I_q) : fnorm (delta_mx l ord0 : 'cV[F]_q) = 1.
  rewrite /fnorm inner_entries (bigD1 l) //= big_ord1 [X in _ + X]big1 => [|x xl]; rewrite ?big_ord1 !mxE ?eqxx /=.
    by rewrite addr0 /abs2 mulr1 rmorph1 -(rmorph1 sf_real) re_real sqrtr1.
  by rewrite (negbTE xl) /abs2 mulr0 raddf0.
have a1 : fnorm a <= 1 by rewrite -(d1 m i) /fnorm ler_wsqrtr // orthproj_le //; apply: orthproj_cu.
have b1 : fnorm b <= 1 by rewrite -(d1 n j) /fnorm ler_wsqrtr // orthproj_le //; apply: orthproj_cv.
clearbody a b; pose nu := Num.sqrt (abs2 N).
have nu0 : 0 < nu by rewrite sqrtr_gt0 lt_def abs2_ge0 abs2_eq0 nz.
have [al al0 hal] := lower_bound S0.
pose g := fnorm Z + nu / 2%:R.
have two : 0 < 2%:R :> R by rewrite ltr0Sn.
have g0 : 0 < g by rewrite ltr_paddl ?fnorm_ge0 // divr_gt0.
have [h hE] : exists h, h = g * (1 + 2%:R * g / nu) by exists (g * (1 + 2%:R * g / nu)).
have h0 : 0 < h by rewrite hE mulr_gt0 // ltr_paddr ?ltr01 // divr_ge0 ?mulr_ge0 ?ler0n // ltW.
have e0 : 0 < nu / 2%:R by rewrite divr_gt0.
have [r r0 Hr] := D _ e0.
pose t := Num.min r (al / (2%:R * h)).
have t0 : 0 < t by rewrite lt_minr r0 divr_gt0 // mulr_gt0.
have tr : `|t| <= r by rewrite gtr0_norm // le_minl lexx.
have th : t * h < al.
  apply: le_lt_trans (_ : al / (2%:R * h) * h < al); first by rewrite ler_pmul2r // le_minl lexx orbT.
  rewrite invfM mulrA mulfVK ?gt_eqF // ltr_pdivr_mulr // ltr_pmulr //.
  by rewrite ltr1n.
have := Hr t tr; rewrite c0 norm_of_inner gtr0_norm //; set rho := c t - X - _ => hrho.
have cE : c t = X + rscale t Z + rho by rewrite /rho -[c t - _ - _]addrA -opprD addrC subrK.
pose K : 'M[F]_(k + 1) := (row_mx u a)^H *m c t *m row_mx v b.
have [y y0 Ky] : exists2 y : 'cV[F]_(k + 1), y != 0 & K *m y = 0.
  have rK : (\rank K^T < k + 1)%N.
    rewrite mxrank_tr; apply: leq_ltn_trans (_ : (k < k + 1)%N); last by rewrite addn1.
    by apply: leq_trans (mxrankM_maxl _ _) _; apply: leq_trans (mxrankM_maxr _ _) _; exact: rk.
  have : kermx K^T != 0 by rewrite kermx_eq0 row_free_unit -row_full_unit /row_full neq_ltn rK.
  case/rowV0Pn => w /sub_kermxP hw w0; exists w^T; first by rewrite trmx_eq0.
  by rewrite -[LHS]trmxK trmx_mul trmxK hw trmx0.
pose p : 'cV[F]_k := usubmx y; pose q : 'cV[F]_1 := dsubmx y.
have yE : y = col_mx p q by rewrite vsubmxK.
have [z zd] : exists z, z = v *m p + b *m q by exists (v *m p + b *m q).
have zE : row_mx v b *m y = z by rewrite yE mul_row_col zd.
have [uz az] : u^H *m c t *m z = 0 /\ a^H *m c t *m z = 0.
  move: Ky; rewrite /K -mulmxA zE adj_row_mx mul_col_mx mul_col_mx => /eqP; rewrite col_mx_eq0 => /andP[/eqP-> /eqP->] //.
have vz : v^H *m z = p by rewrite zd mulmxDr !mulmxA ov vb mul0mx mul1mx addr0.
have zn : fnorm z <= fnorm p + fnorm q.
  rewrite zd; apply: le_trans (fnormD _ _) _; apply: ler_add; first by rewrite /fnorm inner_mull mulmxA ov mul1mx.
  by apply: le_trans (fnorm_mul _ _) _; rewrite ler_pimull ?fnorm_ge0.
have ez : fnorm ((rscale t Z + rho) *m z) <= t * g * (fnorm p + fnorm q).
  apply: le_trans (fnorm_mul _ _) _; apply: ler_pmul; rewrite ?fnorm_ge0 //.
  apply: le_trans (fnormD _ _) _; rewrite /g mulrDr; apply: ler_add; last by rewrite mulrC.
  by rewrite /rscale fnormZ gtr0_norm.
have A1 : al * fnorm p <= t * g * (fnorm p + fnorm q).
  apply: le_trans (fnorm_rd p (ltW al0) hal) _; apply: le_trans ez.
  have -> : rd S *m p = - (u^H *m ((rscale t Z + rho) *m z)).
    apply/eqP; rewrite -addr_eq0 -vz !mulmxA -mulmxDl; apply/eqP.
    by rewrite -[RHS]uz cE -addrA [in RHS]mulmxDr !mulmxA ou mul1mx.
  by rewrite fnormN fnorm_adjM.
have A2 : nu * fnorm q <= g * fnorm p + nu / 2%:R * fnorm q.
  have E : rscale t (N%:M *m q) = - (rscale t (a^H *m Z *m v *m p) + a^H *m rho *m z).
    apply/eqP; rewrite -addr_eq0 -aZb; apply/eqP; rewrite -[RHS]az cE !mulmxDr !mulmxDl.
    rewrite !mulmxA au !mul0mx add0r addrA; congr (_ + _).
    by rewrite /rscale -scalerDr -scalemxAr -scalemxAl; congr (_ *: _); rewrite zd mulmxDr !mulmxA addrC.
  have : t * (nu * fnorm q) <= t * (g * fnorm p + nu / 2%:R * fnorm q); last by rewrite ler_pmul2l.
  have -> : t * (nu * fnorm q) = fnorm (rscale t (N%:M *m q)).
    rewrite /rscale fnormZ gtr0_norm //; congr (_ * _).
    by rewrite mul_scalar_mx /fnorm !inner_entries !big_ord1 [(N *: q) _ _]mxE abs2M sqrtrM ?abs2_ge0.
  rewrite E fnormN; apply: le_trans (fnormD _ _) _.
  have B1 : fnorm (rscale t (a^H *m Z *m v *m p)) <= t * (fnorm Z * fnorm p).
    rewrite /rscale fnormZ gtr0_norm // ler_pmul2l // -!mulmxA.
    apply: le_trans (fnorm_mul _ _) _; rewrite fnorm_adj.
    apply: le_trans (_ : 1 * fnorm (Z *m (v *m p)) <= _); first by rewrite ler_wpmul2r ?fnorm_ge0.
    rewrite mul1r; apply: le_trans (fnorm_mul _ _) _; rewrite ler_wpmul2l ?fnorm_ge0 //.
    by rewrite /fnorm inner_mull mulmxA ov mul1mx.
  have B2 : fnorm (a^H *m rho *m z) <= t * (nu / 2%:R * (fnorm p + fnorm q)).
    rewrite -mulmxA; apply: le_trans (fnorm_mul _ _) _; rewrite fnorm_adj.
    apply: le_trans (_ : 1 * fnorm (rho *m z) <= _); first by rewrite ler_wpmul2r ?fnorm_ge0.
    rewrite mul1r; apply: le_trans (fnorm_mul _ _) _; rewrite mulrA [t * _]mulrC.
    by apply: ler_pmul; rewrite ?fnorm_ge0.
  apply: le_trans (ler_add B1 B2) _; rewrite -mulrDr ler_pmul2l // /g mulrDl mulrDr addrA //.
have Q1 : fnorm q <= 2%:R * g / nu * fnorm p.
  have : nu / 2%:R * fnorm q <= g * fnorm p.
    rewrite -(ler_add2r (nu / 2%:R * fnorm q)); apply: le_trans A2.
    by rewrite -mulrDl -mulr2n -mulr_natr mulfVK // pnatr_eq0.
  rewrite -ler_pdivl_mull // => H; apply: le_trans H _.
  by rewrite invf_div !mulrA [2%:R / nu * g]mulrAC lexx.
have P1 : fnorm p <= 0.
  rewrite leNgt; apply/negP => p0; move: th; rewrite ltNge => /negP; apply.
  rewrite -(ler_pmul2r p0); apply: le_trans A1 _; rewrite hE -!mulrA ler_pmul2l // ler_pmul2l //.
  by rewrite mulrDl mul1r ler_add2l !mulrA.
have p0 : p = 0 by apply/eqP; rewrite -fnorm_eq0 eq_le P1 fnorm_ge0.
have q0 : q = 0 by apply/eqP; rewrite -fnorm_eq0 eq_le fnorm_ge0 andbT; move: Q1; rewrite p0 (_ : fnorm 0 = 0) ?mulr0 //; apply/eqP; rewrite fnorm_eq0.
by move: y0; rewrite yE p0 q0 col_mx0 eqxx.
Qed.
End Velocity.
End Generic.
