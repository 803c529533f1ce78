(** Matrices with real or complex entries: conjugate transpose, real inner product, norm.

    pymanopt's matrix manifolds exist in a real and a complex version with the same code.  Both are treated
    at once: [starField R] is a field with a conjugation and a real part over the real closed field [R];
    [real_star R] is [R] itself, [complex_star R] is [R[i]]. *)
From mathcomp Require Import all_ssreflect all_algebra.
From mathcomp.real_closed Require Import complex.
From Coq Require Import Ring Field.
From Verif Require Import MCRing.
Set Implicit Arguments.
Unset Strict Implicit.
Unset Printing Implicit Defensive.
Import GRing.Theory Num.Theory Order.TTheory.
Local Open Scope ring_scope.

Record starField (R : rcfType) := StarField {
  sf_field :> fieldType;
  sf_conj : {rmorphism sf_field -> sf_field};
  sf_real : {rmorphism R -> sf_field};
  sf_re : sf_field -> R;
  sf_conjK : involutive sf_conj;
  sf_conj_real : forall a, sf_conj (sf_real a) = sf_real a;
  sf_reD : forall x y, sf_re (x + y) = sf_re x + sf_re y;
  sf_reZ : forall a x, sf_re (sf_real a * x) = a * sf_re x;
  sf_re1 : sf_re 1 = 1;
  sf_re_conj : forall x, sf_re (sf_conj x) = sf_re x;
  sf_fixed : forall x, sf_conj x = x -> x = sf_real (sf_re x);
  sf_re_ge0 : forall x, 0 <= sf_re (sf_conj x * x) }.
Arguments sf_conj {R F} : rename.
Arguments sf_real {R F} : rename.
Arguments sf_re {R F} : rename.

Definition real_star (R : rcfType) : starField R.
Proof.
refine (@StarField R [fieldType of R] [rmorphism of idfun] [rmorphism of idfun] idfun _ _ _ _ _ _ _ _) => //=.
by move=> x; apply: sqr_ge0.
Defined.

Definition complex_star (R : rcfType) : starField R.
Proof.
refine (@StarField R [fieldType of R[i]] [rmorphism of @conjc R] [rmorphism of real_complex R] (@complex.Re R) _ _ _ _ _ _ _ _) => //=.
- exact: conjcK.
- by move=> a; rewrite /= oppr0.
- by move=> [a b] [c d].
- by move=> a [b c] /=; rewrite mul0r subr0.
- by move=> [a b].
- by move=> [a b] /= [] /eqP; rewrite -subr_eq0 -opprD oppr_eq0 -mulr2n mulrn_eq0 /= => /eqP ->.
- by move=> [a b] /=; rewrite mulNr opprK addr_ge0 // sqr_ge0.
Defined.

Section Star.
Variables (R : rcfType) (F : starField R).
Implicit Types x y : F.
Add Ring R_ring : (mc_ring R).
Local Notation conj := (@sf_conj R F).
Local Notation re := (@sf_re R F).
Local Notation real := (@sf_real R F).

Lemma re_is_additive : additive re.
Proof.
move=> x y; have N z : re (- z) = - re z.
  by rewrite -mulN1r -(rmorph1 real) -rmorphN sf_reZ mulN1r.
by rewrite sf_reD N.
Qed.
Canonical re_additive := Additive re_is_additive.

Lemma re_real a : re (real a) = a.
Proof. by rewrite -[real a]mulr1 sf_reZ sf_re1 mulr1. Qed.
Lemma real_inj : injective real. Proof. exact: fmorph_inj. Qed.
Lemma realP x : conj x = x <-> exists a, x = real a.
Proof. by split=> [/sf_fixed ->|[a ->]]; [exists (re x)|rewrite sf_conj_real]. Qed.
(** The real part is half the sum with the conjugate. *)
Lemma re2 x : real (re x) *+ 2 = x + conj x.
Proof.
have H : conj (x + conj x) = x + conj x by rewrite rmorphD /= sf_conjK addrC.
by rewrite [RHS](sf_fixed H) raddfD /= sf_re_conj -mulr2n rmorphMn.
Qed.
Lemma natF_neq0 n : (n.+1%:R : F) != 0.
Proof. by rewrite -(rmorph_nat real) fmorph_eq0 pnatr_eq0. Qed.
Lemma re_conjM x y : re (conj x * y) = re (x * conj y).
Proof. by rewrite -sf_re_conj rmorphM /= sf_conjK. Qed.
(** The squared modulus. *)
Definition abs2 x : R := re (conj x * x).
Lemma abs2E x : real (abs2 x) = conj x * x.
Proof. by rewrite -sf_fixed // rmorphM /= sf_conjK mulrC. Qed.
Lemma abs2_ge0 x : 0 <= abs2 x. Proof. exact: sf_re_ge0. Qed.
Lemma abs2_eq0 x : (abs2 x == 0) = (x == 0).
Proof.
apply/eqP/eqP => [H|->]; last by rewrite /abs2 mulr0 raddf0.
move: (abs2E x); rewrite H rmorph0 => /esym/eqP.
by rewrite mulf_eq0 fmorph_eq0 orbb => /eqP.
Qed.
Lemma abs2M x y : abs2 (x * y) = abs2 x * abs2 y.
Proof. by apply: real_inj; rewrite rmorphM /= !abs2E rmorphM mulrACA. Qed.
(** The modulus, [np.abs]. *)
Definition modulus x : F := real (Num.sqrt (abs2 x)).
Lemma modulus_eq0 x : (modulus x == 0) = (x == 0).
Proof. by rewrite fmorph_eq0 sqrtr_eq0 -abs2_eq0 eq_le abs2_ge0 andbT. Qed.
Lemma modulus_sqr x : modulus x ^+ 2 = conj x * x.
Proof. by rewrite -rmorphX /= sqr_sqrtr ?abs2_ge0 // abs2E. Qed.
Lemma conj_modulus x : conj (modulus x) = modulus x.
Proof. exact: sf_conj_real. Qed.

(** ** Conjugate transpose *)
Definition adjmx m n (A : 'M[F]_(m, n)) : 'M[F]_(n, m) := map_mx conj A^T.
Notation "A ^H" := (adjmx A) (at level 8, format "A ^H") : ring_scope.

Lemma adjmxE m n (A : 'M[F]_(m, n)) i j : A^H i j = conj (A j i).
Proof. by rewrite !mxE. Qed.
Lemma adjmxK m n (A : 'M[F]_(m, n)) : A^H^H = A.
Proof. by apply/matrixP=> i j; rewrite !mxE sf_conjK. Qed.
Lemma adjmx_is_additive m n : additive (@adjmx m n).
Proof. by move=> A B; apply/matrixP=> i j; rewrite !mxE rmorphB. Qed.
Canonical adjmx_additive m n := Additive (@adjmx_is_additive m n).
Lemma adjmxM m n p (A : 'M[F]_(m, n)) (B : 'M[F]_(n, p)) : (A *m B)^H = B^H *m A^H.
Proof. by rewrite /adjmx trmx_mul map_mxM. Qed.
Lemma adjmx1 n : (1%:M : 'M[F]_n)^H = 1%:M.
Proof. by rewrite /adjmx trmx1 map_mx1. Qed.
Lemma adjmxZ m n a (A : 'M[F]_(m, n)) : (a *: A)^H = conj a *: A^H.
Proof. by apply/matrixP=> i j; rewrite !mxE rmorphM. Qed.
Lemma adjmxZreal m n a (A : 'M[F]_(m, n)) : (real a *: A)^H = real a *: A^H.
Proof. by rewrite adjmxZ sf_conj_real. Qed.
Lemma adjmx_diag n (d : 'rV[F]_n) : (diag_mx d)^H = diag_mx (map_mx conj d).
Proof. by apply/matrixP=> i j; rewrite !mxE rmorphMn eq_sym; case: eqP => // ->. Qed.
Lemma adjmx_scalar n a : (a%:M : 'M[F]_n)^H = (conj a)%:M.
Proof. by apply/matrixP=> i j; rewrite !mxE rmorphMn eq_sym. Qed.
Lemma mxtrace_adj n (A : 'M[F]_n) : \tr A^H = conj (\tr A).
Proof. by rewrite /mxtrace rmorph_sum; apply: eq_bigr => i _; rewrite !mxE. Qed.
Lemma det_adj n (A : 'M[F]_n) : \det A^H = conj (\det A).
Proof. by rewrite /adjmx det_map_mx det_tr. Qed.

(** ** The real inner product: the sum of the real parts of [conj (A i j) * B i j] *)
Definition inner m n (A B : 'M[F]_(m, n)) : R := \sum_i \sum_j re (conj (A i j) * B i j).

Lemma innerE m n (A B : 'M[F]_(m, n)) : inner A B = re (\tr (A^H *m B)).
Proof.
rewrite /inner exchange_big /= raddf_sum; apply: eq_bigr => j _.
by rewrite mxE raddf_sum; apply: eq_bigr => i _; rewrite !mxE.
Qed.
Lemma innerC m n (A B : 'M[F]_(m, n)) : inner A B = inner B A.
Proof. by apply: eq_bigr => i _; apply: eq_bigr => j _; rewrite re_conjM mulrC. Qed.
Lemma innerDr m n (A B C : 'M[F]_(m, n)) : inner A (B + C) = inner A B + inner A C.
Proof. by rewrite !innerE mulmxDr raddfD raddfD. Qed.
Lemma innerDl m n (A B C : 'M[F]_(m, n)) : inner (A + B) C = inner A C + inner B C.
Proof. by rewrite innerC innerDr !(innerC C). Qed.
Lemma innerNr m n (A B : 'M[F]_(m, n)) : inner A (- B) = - inner A B.
Proof. by rewrite !innerE mulmxN !raddfN. Qed.
Lemma innerNl m n (A B : 'M[F]_(m, n)) : inner (- A) B = - inner A B.
Proof. by rewrite innerC innerNr innerC. Qed.
Lemma innerBr m n (A B C : 'M[F]_(m, n)) : inner A (B - C) = inner A B - inner A C.
Proof. by rewrite innerDr innerNr. Qed.
Lemma innerBl m n (A B C : 'M[F]_(m, n)) : inner (A - B) C = inner A C - inner B C.
Proof. by rewrite innerDl innerNl. Qed.
Lemma inner0r m n (A : 'M[F]_(m, n)) : inner A 0 = 0.
Proof. by rewrite innerE mulmx0 !raddf0. Qed.
Lemma inner0l m n (A : 'M[F]_(m, n)) : inner 0 A = 0.
Proof. by rewrite innerC inner0r. Qed.
Lemma innerZr m n a (A B : 'M[F]_(m, n)) : inner A (real a *: B) = a * inner A B.
Proof. by rewrite !innerE -scalemxAr mxtraceZ sf_reZ. Qed.
Lemma innerZl m n a (A B : 'M[F]_(m, n)) : inner (real a *: A) B = a * inner A B.
Proof. by rewrite innerC innerZr innerC. Qed.
Lemma inner_ge0 m n (A : 'M[F]_(m, n)) : 0 <= inner A A.
Proof. by apply: sumr_ge0 => i _; apply: sumr_ge0 => j _; apply: sf_re_ge0. Qed.
Lemma inner_eq0 m n (A : 'M[F]_(m, n)) : inner A A = 0 -> A = 0.
Proof.
move=> H; apply/matrixP => i j; rewrite mxE; apply/eqP; rewrite -abs2_eq0.
move/eqP: H; rewrite psumr_eq0; last by move=> k _; apply: sumr_ge0 => l _; apply: sf_re_ge0.
move/allP/(_ i); rewrite mem_index_enum => /(_ isT) /=.
rewrite psumr_eq0; last by move=> k _; apply: sf_re_ge0.
by move/allP/(_ j); rewrite mem_index_enum => /(_ isT).
Qed.
Lemma inner_gt0 m n (A : 'M[F]_(m, n)) : A != 0 -> 0 < inner A A.
Proof.
move=> A0; rewrite lt_def inner_ge0 andbT; apply: contra A0 => /eqP H.
by apply/eqP; apply: inner_eq0.
Qed.
Lemma inner_mull m n p (A : 'M[F]_(m, n)) (B : 'M[F]_(n, p)) C : inner (A *m B) C = inner B (A^H *m C).
Proof. by rewrite !innerE adjmxM mulmxA. Qed.
Lemma inner_mulr m n p (A : 'M[F]_(m, n)) (B : 'M[F]_(n, p)) C : inner (A *m B) C = inner A (C *m B^H).
Proof. by rewrite !innerE adjmxM -mulmxA mxtrace_mulC mulmxA. Qed.
Lemma inner_adj m n (A B : 'M[F]_(m, n)) : inner A^H B^H = inner A B.
Proof. by rewrite !innerE adjmxK -sf_re_conj -mxtrace_adj adjmxM adjmxK mxtrace_mulC. Qed.
(** Hermitian and skew-Hermitian matrices are orthogonal. *)
Lemma inner_herm_skew n (A B : 'M[F]_n) : A^H = A -> B^H = - B -> inner A B = 0.
Proof.
move=> hA hB; have : inner A B = - inner A B by rewrite -{1}inner_adj hA hB innerNr.
by move/eqP; rewrite -addr_eq0 -mulr2n mulrn_eq0 => /eqP.
Qed.
(** [np.linalg.norm] *)
Definition fnorm m n (A : 'M[F]_(m, n)) : R := Num.sqrt (inner A A).
Lemma fnorm_ge0 m n (A : 'M[F]_(m, n)) : 0 <= fnorm A. Proof. exact: sqrtr_ge0. Qed.
Lemma fnorm_sqr m n (A : 'M[F]_(m, n)) : fnorm A ^+ 2 = inner A A.
Proof. by rewrite sqr_sqrtr ?inner_ge0. Qed.
Lemma fnorm_eq0 m n (A : 'M[F]_(m, n)) : (fnorm A == 0) = (A == 0).
Proof.
rewrite -sqrf_eq0 fnorm_sqr; apply/eqP/eqP => [/inner_eq0 //|->].
exact: inner0r.
Qed.
Lemma fnormZ m n a (A : 'M[F]_(m, n)) : fnorm (real a *: A) = `|a| * fnorm A.
Proof. by rewrite /fnorm innerZl innerZr mulrA sqrtrM ?sqr_ge0 // -expr2 sqrtr_sqr. Qed.
Lemma fnormN m n (A : 'M[F]_(m, n)) : fnorm (- A) = fnorm A.
Proof. by rewrite /fnorm innerNl innerNr opprK. Qed.

End Star.
Notation "A ^H" := (adjmx A) (at level 8, format "A ^H") : ring_scope.

(** ** Stacks: arrays of [k] matrices.  A two-dimensional array is the case [k = 1]. *)
Section Stack.
Variables (R : rcfType) (F : starField R).
Definition stack (k m n : nat) := {ffun 'I_k -> 'M[F]_(m, n)}.
Definition sinner k m n (A B : stack k m n) : R := \sum_i inner (A i) (B i).
Definition snorm k m n (A : stack k m n) : R := Num.sqrt (sinner A A).
(** Multiplication of a stack by a real number. *)
Definition sscale k m n (a : R) (A : stack k m n) : stack k m n := [ffun i => sf_real a *: A i].
Definition smul k m n p (A : stack k m n) (B : stack k n p) : stack k m p := [ffun i => A i *m B i].
Definition sadj k m n (A : stack k m n) : stack k n m := [ffun i => (A i)^H].

Lemma sinnerC k m n (A B : stack k m n) : sinner A B = sinner B A.
Proof. by apply: eq_bigr => i _; apply: innerC. Qed.
Lemma sinnerDl k m n (A B C : stack k m n) : sinner (A + B) C = sinner A C + sinner B C.
Proof. by rewrite -big_split; apply: eq_bigr => i _; rewrite ffunE innerDl. Qed.
Lemma sinnerZl k m n a (A B : stack k m n) : sinner (sscale a A) B = a * sinner A B.
Proof. by rewrite mulr_sumr; apply: eq_bigr => i _; rewrite ffunE innerZl. Qed.
Lemma sinner_ge0 k m n (A : stack k m n) : 0 <= sinner A A.
Proof. by apply: sumr_ge0 => i _; apply: inner_ge0. Qed.
Lemma sinner_eq0 k m n (A : stack k m n) : sinner A A = 0 -> A = 0.
Proof.
move=> /eqP; rewrite psumr_eq0; last by move=> i _; apply: inner_ge0.
move=> /allP H; apply/ffunP => i; rewrite ffunE; apply: inner_eq0; apply/eqP.
by apply: H; rewrite mem_index_enum.
Qed.
End Stack.
