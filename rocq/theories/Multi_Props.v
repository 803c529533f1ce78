(** Properties C52-C54 of src/pymanopt/tools/multi.py *)
From mathcomp Require Import all_ssreflect all_algebra.
From mathcomp.real_closed Require Import complex.
From Coq Require Reals.
From Coq Require Import Ring Field Lra.
From Verif Require Import MCRing Rstruct Mat_Base Linalg_Spec Geometry_Spec Multi_Model Multi_Proofs.
Set Implicit Arguments.
Unset Strict Implicit.
Unset Printing Implicit Defensive.
Import GRing.Theory Num.Theory Order.TTheory.
Local Open Scope ring_scope.

Section C52.
Variables (R : rcfType) (F : starField R).

Lemma multitranspE k m n (A : stack F k m n) i : multitransp A i = (A i)^T.
Proof. by rewrite ffunE. Qed.
Lemma multihconjE k m n (A : stack F k m n) i : multihconj A i = (A i)^H.
Proof. by rewrite !ffunE. Qed.
Lemma multisymE k n (A : stack F k n n) i : multisym A i = half F *: (A i + (A i)^T).
Proof. by rewrite !ffunE. Qed.
Lemma multiskewE k n (A : stack F k n n) i : multiskew A i = half F *: (A i - (A i)^T).
Proof. by rewrite !ffunE. Qed.
Lemma multihermE k n (A : stack F k n n) i : multiherm A i = half F *: (A i + (A i)^H).
Proof. by rewrite !ffunE. Qed.
Lemma multiskewhE k n (A : stack F k n n) i : multiskewh A i = half F *: (A i - (A i)^H).
Proof. by rewrite !ffunE. Qed.

(** ** C52: entry (a, b) of matrix i of the transpose is entry (b, a) of matrix i (conjugated for [multihconj]);
    both are involutions and reverse products; [multieye] is the identity of the stacked product. *)
Theorem C52_transposes k m n p (A : stack F k m n) (B : stack F k n p) :
  (forall i a b, multitransp A i a b = A i b a) /\
  (forall i a b, multihconj A i a b = sf_conj (A i b a)) /\
  multitransp (multitransp A) = A /\ multihconj (multihconj A) = A /\
  multitransp (smul A B) = smul (multitransp B) (multitransp A) /\
  multihconj (smul A B) = smul (multihconj B) (multihconj A) /\
  smul (multieye F k m) A = A /\ smul A (multieye F k n) = A.
Proof.
split; first by move=> i a b; rewrite multitranspE mxE.
split; first by move=> i a b; rewrite multihconjE !mxE.
split; first by apply/ffunP => i; rewrite !multitranspE trmxK.
split; first by apply/ffunP => i; rewrite !multihconjE adjmxK.
split; first by apply/ffunP => i; rewrite multitranspE !ffunE trmx_mul.
split; first by apply/ffunP => i; rewrite multihconjE !ffunE adjmxM.
by split; apply/ffunP => i; rewrite !ffunE ?mul1mx ?mulmx1.
Qed.

(** The symmetric and skew-symmetric parts: each matrix of the results is symmetric (skew-symmetric), they
    add up to the argument, they fix exactly the (skew-)symmetric stacks and annihilate the others. *)
Theorem C52_symmetric_and_skew k n (A : stack F k n n) :
  (forall i, (multisym A i)^T = multisym A i) /\
  (forall i, (multiskew A i)^T = - multiskew A i) /\
  multisym A + multiskew A = A /\
  (multisym A = A <-> forall i, (A i)^T = A i) /\
  (multiskew A = A <-> forall i, (A i)^T = - A i) /\
  (multisym A = 0 <-> forall i, (A i)^T = - A i) /\
  (multiskew A = 0 <-> forall i, (A i)^T = A i).
Proof.
have Sy i : (multisym A i)^T = multisym A i.
  by rewrite multisymE linearZ /= linearD /= trmxK addrC.
have Sk i : (multiskew A i)^T = - multiskew A i.
  by rewrite multiskewE linearZ /= linearB /= trmxK -opprB scalerN.
have D : multisym A + multiskew A = A.
  apply/ffunP => i; rewrite ffunE multisymE multiskewE -scalerDr addrACA subrr addr0; exact: scale_half2.
split=> //; split=> //; split=> //.
have E1 : multisym A = A <-> forall i, (A i)^T = A i.
  split=> [E i|E]; first by rewrite -[in LHS]E Sy E.
  by apply/ffunP => i; rewrite multisymE E scale_half2.
have E2 : multiskew A = A <-> forall i, (A i)^T = - A i.
  split=> [E i|E]; first by rewrite -[in LHS]E Sk E.
  by apply/ffunP => i; rewrite multiskewE E opprK scale_half2.
split=> //; split=> //; split.
  by split=> H; [apply/E2; rewrite -[RHS]D H add0r | rewrite -[multisym A](addrK (multiskew A)) D (proj2 E2 H) subrr].
by split=> H; [apply/E1; rewrite -[RHS]D H addr0 | rewrite -[multiskew A](addKr (multisym A)) D (proj2 E1 H) addNr].
Qed.

(** The same for the Hermitian and skew-Hermitian parts. *)
Theorem C52_hermitian_and_skew k n (A : stack F k n n) :
  (forall i, hermitian (multiherm A i)) /\
  (forall i, skew_hermitian (multiskewh A i)) /\
  multiherm A + multiskewh A = A /\
  (multiherm A = A <-> forall i, hermitian (A i)) /\
  (multiskewh A = A <-> forall i, skew_hermitian (A i)) /\
  (multiherm A = 0 <-> forall i, skew_hermitian (A i)) /\
  (multiskewh A = 0 <-> forall i, hermitian (A i)).
Proof.
have Sy i : (multiherm A i)^H = multiherm A i.
  by rewrite multihermE adjmxZ conj_half raddfD /= adjmxK addrC.
have Sk i : (multiskewh A i)^H = - multiskewh A i.
  by rewrite multiskewhE adjmxZ conj_half raddfB /= adjmxK -opprB scalerN.
have D : multiherm A + multiskewh A = A.
  apply/ffunP => i; rewrite ffunE multihermE multiskewhE -scalerDr addrACA subrr addr0; exact: scale_half2.
split=> //; split=> //; split=> //.
have E1 : multiherm A = A <-> forall i, hermitian (A i).
  split=> [E i|E]; first by rewrite /hermitian -[in LHS]E Sy E.
  by apply/ffunP => i; rewrite multihermE E scale_half2.
have E2 : multiskewh A = A <-> forall i, skew_hermitian (A i).
  split=> [E i|E]; first by rewrite /skew_hermitian -[in LHS]E Sk E.
  by apply/ffunP => i; rewrite multiskewhE E opprK scale_half2.
split=> //; split=> //; split.
  by split=> H; [apply/E2; rewrite -[RHS]D H add0r | rewrite -[multiherm A](addrK (multiskewh A)) D (proj2 E2 H) subrr].
by split=> H; [apply/E1; rewrite -[RHS]D H addr0 | rewrite -[multiskewh A](addKr (multiherm A)) D (proj2 E1 H) addNr].
Qed.
End C52.

(** A complex 1 x 1 matrix shows that the plain and the conjugate versions differ: the symmetric part of
    [i] is [i], its Hermitian part is [0]. *)
Example C52_instance (R : rcfType) :
  let i := (@complex.Complex R 0 1) : complex_star R in
  let A : stack (complex_star R) 1 1 1 := [ffun _ => i%:M] in
  multisym A = A /\ multiherm A = 0 /\ multiskewh A = A /\ A != 0.
Proof.
move=> i A.
have A0 l : A l = i%:M by rewrite ffunE.
have K : skew_hermitian (i%:M : 'M[complex_star R]_1).
  apply/matrixP => a b; rewrite !ord1 !mxE !eqxx !mulr1n /i /=.
  by apply/eqP; rewrite eq_complex /= oppr0 !eqxx.
split; first by case: (C52_symmetric_and_skew A) => _ [_ [_ [H _]]]; apply/H => l; rewrite A0 tr_scalar_mx.
split; first by case: (C52_hermitian_and_skew A) => _ [_ [_ [_ [_ [H _]]]]]; apply/H => l; rewrite A0.
split; first by case: (C52_hermitian_and_skew A) => _ [_ [_ [_ [H _]]]]; apply/H => l; rewrite A0.
apply/eqP => /ffunP/(_ ord0)/matrixP/(_ ord0 ord0); rewrite A0 !ffunE !mxE eqxx mulr1n /i => -[] /eqP.
by rewrite oner_eq0.
Qed.

Section C53.
Variables (R : rcfType) (F : starField R).
(** ** C53: whatever QR factorisation the library returns, [multiqr] returns one whose triangular factor has
    a real non-negative diagonal (on each matrix of the stack; [i < min(m, n)]). *)
Theorem C53_multiqr m n qr k (A : stack F k m n) :
  (forall l, valid_qr (A l) (qr (A l))) ->
  forall l, valid_qr (A l) ((multiqr qr A).1 l, (multiqr qr A).2 l) /\
    forall (i : 'I_(minn m n)) (j : 'I_n), (i = j :> nat) ->
      exists2 a : R, 0 <= a & (multiqr qr A).2 l i j = sf_real a.
Proof.
move=> V l; pose x := qr_normalise (geq_minr m n) (qr (A l)).1 (qr (A l)).2.
have -> : (multiqr qr A).1 l = x.1 by rewrite ffunE.
have -> : (multiqr qr A).2 l = x.2 by rewrite ffunE.
split.
  exact: (qr_normalise_valid (geq_minr m n) (V l)).
move=> i j ij; have -> : j = widen_ord (geq_minr m n) i by apply: val_inj.
exact: qr_normalise_diag.
Qed.
(** For full column rank the result does not depend on the library: it is the only such factorisation. *)
Theorem C53_unique m n qr k (A : stack F k m n) :
  (forall l, valid_qr (A l) (qr (A l))) -> (forall l, \rank (A l) = n) ->
  (forall l (x : 'M[F]_(m, minn m n) * 'M[F]_(minn m n, n)),
     valid_qr (A l) x ->
     (forall (i : 'I_(minn m n)) (j : 'I_n), (i = j :> nat) -> exists2 a : R, 0 <= a & x.2 i j = sf_real a) ->
     x = ((multiqr qr A).1 l, (multiqr qr A).2 l)) /\
  (forall qr', (forall l, valid_qr (A l) (qr' (A l))) -> multiqr qr' A = multiqr qr A).
Proof.
move=> V rk.
have U l (x : 'M[F]_(m, minn m n) * 'M[F]_(minn m n, n)) : valid_qr (A l) x ->
     (forall (i : 'I_(minn m n)) (j : 'I_n), (i = j :> nat) -> exists2 a : R, 0 <= a & x.2 i j = sf_real a) ->
     x = ((multiqr qr A).1 l, (multiqr qr A).2 l).
  move=> Vx D; have [Vq Dq] := C53_multiqr V l.
  by apply: (qr_unique (kn := geq_minr m n) (rk l) Vx Vq) => i; [apply: D|apply: Dq].
split=> // qr' V'.
have H l : ((multiqr qr' A).1 l, (multiqr qr' A).2 l) = ((multiqr qr A).1 l, (multiqr qr A).2 l).
  by have [a b] := C53_multiqr V' l; apply: U.
apply: injective_projections; apply/ffunP => l; [exact: (congr1 fst (H l))|exact: (congr1 snd (H l))].
Qed.
End C53.

(** Minus the identity: a library that returns [q = 1], [r = -1] is corrected to [q = -1], [r = 1]. *)
Example C53_instance (R : rcfType) (F : starField R) :
  let A : stack F 1 2 2 := [ffun _ => - 1%:M] in
  let qr := fun B : 'M[F]_2 => (1%:M, B) : 'M[F]_(2, minn 2 2) * 'M[F]_(minn 2 2, 2) in
  (forall l, valid_qr (A l) (qr (A l))) /\ (forall l, \rank (A l) = 2%N) /\
  multiqr qr A = ([ffun _ => - 1%:M], [ffun _ => 1%:M]).
Proof.
move=> A qr.
have A0 l : A l = - 1%:M by rewrite ffunE.
have V l : valid_qr (A l) (qr (A l)).
  rewrite A0; split; first by rewrite mul1mx.
  split; first by rewrite /orthonormal /= adjmx1 mulmx1.
  by move=> i j ij; rewrite !mxE -val_eqE /= gtn_eqF // oppr0.
have rk l : \rank (A l) = 2%N by rewrite A0 mxrank_opp mxrank1.
split=> //; split=> //.
have [U _] := C53_unique V rk.
case E: (multiqr qr A) U => [q r] /= U.
have H l := U l (- 1%:M, 1%:M).
suff K l : (- 1%:M, 1%:M) = (q l, r l).
  apply: injective_projections; apply/ffunP => l; rewrite ffunE; [exact: (congr1 fst (esym (K l)))|exact: (congr1 snd (esym (K l)))].
apply: H.
  rewrite A0; split; first by rewrite mulmx1.
  split; first by change ((- 1%:M : 'M[F]_2)^H *m (- 1%:M) = 1%:M); rewrite (raddfN (adjmx_additive F 2 2)) /= adjmx1 mulNmx mul1mx opprK.
  by move=> i j ij; rewrite !mxE -val_eqE /= gtn_eqF.
move=> i j ij; exists 1; first exact: ler01.
by rewrite mxE -val_eqE /= ij eqxx rmorph1.
Qed.

Section C54.
Import Coq.Reals.Reals.
Variables (F : starField R_rcfType) (n : nat).
Variables (eigh : 'M[F]_n -> 'rV[R_rcfType]_n * 'M[F]_n) (eigh' : 'M[F]_n -> 'rV[R_rcfType]_n * 'M[F]_n).

(** ** C54: for a stack of Hermitian matrices (with the eigendecompositions the library returns), the exponential
    is positive definite and its logarithm, computed with whatever eigendecomposition of it, is the stack. *)
Theorem C54_log_of_exp k (A : stack F k n n) :
  (forall i, valid_eigh (A i) (eigh (A i))) ->
  (forall i, posdef (multiexpm_sym eigh A i)) /\
  ((forall i, valid_eigh (multiexpm_sym eigh A i) (eigh' (multiexpm_sym eigh A i))) ->
   multilogm_pd eigh' (multiexpm_sym eigh A) = A).
Proof.
move=> V; split=> [i|V'].
  rewrite ffunE eig_applyE; apply: posdef_eigfun; first by case: (V i).
  by move=> j; apply/RltPx; apply: exp_pos.
apply/ffunP => i; rewrite ffunE eig_applyE.
have [O E] := V i.
rewrite (eigfun_unique ln (V' i) (_ : valid_eigh _ (map_mx exp (eigh (A i)).1, (eigh (A i)).2))); last first.
  by rewrite ffunE eig_applyE; apply: eigfun_valid.
rewrite eigfun_comp [RHS]E -eigfun_id; apply: eigfun_ext => j; exact: ln_exp.
Qed.
(** For a stack of positive definite matrices the logarithm is Hermitian and its exponential is the stack. *)
Theorem C54_exp_of_log k (A : stack F k n n) :
  (forall i, posdef (A i)) ->
  (forall i, valid_eigh (A i) (eigh (A i))) ->
  (forall i, hermitian (multilogm_pd eigh A i)) /\
  ((forall i, valid_eigh (multilogm_pd eigh A i) (eigh' (multilogm_pd eigh A i))) ->
   multiexpm_sym eigh' (multilogm_pd eigh A) = A).
Proof.
move=> P V; split=> [i|V']; first by rewrite ffunE eig_applyE; apply: eigfun_hermitian.
apply/ffunP => i; rewrite ffunE eig_applyE.
have [O E] := V i.
rewrite (eigfun_unique exp (V' i) (_ : valid_eigh _ (map_mx ln (eigh (A i)).1, (eigh (A i)).2))); last first.
  by rewrite ffunE eig_applyE; apply: eigfun_valid.
rewrite eigfun_comp [RHS]E -eigfun_id; apply: eigfun_ext => j; apply: exp_ln.
by apply/RltPx; apply: posdef_eig_gt0 (P i) (V i) j.
Qed.
End C54.

(** The result of [multiexpm(symmetric=True)] is the matrix exponential, i.e. the limit of the series. *)
Theorem C54_is_matrix_exponential (F : starField R_rcfType) n eigh k (A : stack F k n n) :
  (forall i, valid_eigh (A i) (eigh (A i))) ->
  forall i, is_expm (A i) (multiexpm_sym eigh A i).
Proof. by move=> V i; rewrite ffunE eig_applyE; apply: eigfun_expm. Qed.

(** Every real diagonal matrix is an instance; its exponential is not trivial. *)
Example C54_instance (F : starField R_rcfType) n (w : 'rV[R_rcfType]_n) :
  let A : stack F 1 n n := [ffun _ => real_diag F w] in
  let eigh := fun _ : 'M[F]_n => (w, 1%:M : 'M[F]_n) in
  (forall i, valid_eigh (A i) (eigh (A i))) /\
  multiexpm_sym eigh A = [ffun _ => real_diag F (map_mx Reals.Rtrigo_def.exp w)].
Proof.
move=> A eigh; split.
  by move=> i; rewrite ffunE; split; rewrite /orthonormal /= adjmx1 ?mulmx1 ?mul1mx.
by apply/ffunP => i; rewrite !ffunE eig_applyE /eigfun /= adjmx1 mulmx1 mul1mx.
Qed.
