(** The exponential map of the Stiefel manifold, for one matrix. *)
From Coq Require Import Reals.
From mathcomp Require Import all_ssreflect all_algebra.
From Coq Require Import Ring Field.
From Verif Require Import Rstruct MCRing Mat_Base Linalg_Spec Geometry_Spec Calculus Multi_Model Multi_Proofs Sphere_Model.
From Verif Require Import Stiefel_Proofs Expm.
Set Implicit Arguments.
Unset Strict Implicit.
Unset Printing Implicit Defensive.
Import GRing.Theory Num.Theory Order.TTheory.
Local Open Scope ring_scope.

Section StiefelExp.
Variables (F : starField RR) (n p : nat) (expm : forall q, 'M[F]_q -> 'M[F]_q).
Hypothesis expmP : forall q (A : 'M[F]_q), is_expm A (expm A).
Local Notation scale := (@rscale RR F n p).
Local Notation dot := (@inner RR F n p).
Local Notation J := (@inner_ips RR F n p).
Implicit Types X V : 'M[F]_(n, p).

(** the exponential map in the form of the code *)
Definition st_exp1 X V : 'M[F]_(n, p) :=
  row_mx X V *m (lsubmx (expm (block_mx (X^H *m V) (- V^H *m V) 1%:M (X^H *m V))) *m expm (- (X^H *m V))).

Lemma adj_col_mx m1 m2 q (A : 'M[F]_(m1, q)) (B : 'M[F]_(m2, q)) : (col_mx A B)^H = row_mx A^H B^H.
Proof. by rewrite /adjmx tr_col_mx map_row_mx. Qed.
Lemma adj_row_mx m q1 q2 (A : 'M[F]_(m, q1)) (B : 'M[F]_(m, q2)) : (row_mx A B)^H = col_mx A^H B^H.
Proof. by rewrite /adjmx tr_row_mx map_col_mx. Qed.
Lemma adj_block_mx m1 m2 q1 q2 (A : 'M[F]_(m1, q1)) (B : 'M[F]_(m1, q2)) (C : 'M[F]_(m2, q1)) (D : 'M[F]_(m2, q2)) :
  (block_mx A B C D)^H = block_mx A^H C^H B^H D^H.
Proof. by rewrite /adjmx tr_block_mx map_block_mx. Qed.
Lemma lsubmxE m q1 q2 (A : 'M[F]_(m, q1 + q2)) : lsubmx A = A *m col_mx 1%:M 0.
Proof. by rewrite -{2}[A]hsubmxK mul_row_col mulmx1 mulmx0 addr0. Qed.

Section Curve.
Variables X V : 'M[F]_(n, p).
Hypothesis (O : orthonormal X) (T : st_tangent X V).
Let A := X^H *m V.
Let S := V^H *m V.
Let a := row_mx X V.
Let M : 'M[F]_(p + p) := block_mx A (- S) 1%:M A.
Let Jl : 'M[F]_(p + p, p) := col_mx 1%:M 0.
Let Kl : 'M[F]_(p + p, p) := col_mx 0 1%:M.
Let E t := expm (rscale t M).
Let c t := expm (rscale t (- A)).
Let HE t : is_expm (rscale t M) (E t). Proof. exact: expmP. Qed.
Let Hc t : is_expm (rscale t (- A)) (c t). Proof. exact: expmP. Qed.
Lemma A_skew : A^H = - A. Proof. exact/st_tangentE. Qed.
Lemma A_skew' : V^H *m X = - A. Proof. by rewrite -A_skew adjmxM adjmxK. Qed.
Lemma MJ : M *m Jl = Jl *m A + Kl.
Proof.
rewrite /M /Jl /Kl mul_block_col !mulmx0 !addr0 !mulmx1 mul_col_mx mul1mx mul0mx add_col_mx.
by rewrite addr0 add0r.
Qed.
Lemma MK : M *m Kl = Kl *m A - Jl *m S.
Proof.
rewrite /M /Jl /Kl mul_block_col !mulmx0 !add0r !mulmx1 !mul_col_mx !mul1mx !mul0mx opp_col_mx add_col_mx.
by rewrite add0r oppr0 addr0.
Qed.
Lemma gram_a : a^H *m a = block_mx 1%:M A (- A) S.
Proof. by rewrite /a adj_row_mx mul_col_row O A_skew'. Qed.
Lemma form_kept : M^H *m (a^H *m a) + (a^H *m a) *m M = 0.
Proof.
rewrite gram_a /M adj_block_mx adjmx1 adjmxN A_skew (_ : S^H = S); last by rewrite /S adjmxM adjmxK.
rewrite !mulmx_block add_block_mx !mul1mx !mulmx1 !mulNmx !mulmxN !opprK.
rewrite -(@block_mx0 _ p p p p); congr block_mx.
- by rewrite addrACA !addNr addr0.
- by rewrite addrA addrK addNr.
- by rewrite addrA addrK addNr.
by rewrite [X in _ + X]addrC addrACA !addNr addr0.
Qed.
(** the curve in terms of the fixed matrix [M] *)
Definition st_curve t : 'M[F]_(n, p) := a *m E t *m Jl *m c t.
Definition st_velocity t : 'M[F]_(n, p) := a *m E t *m Kl *m c t.
Lemma st_curveE t : st_exp1 X (scale t V) = st_curve t.
Proof.
rewrite /st_exp1 /st_curve.
have -> : X^H *m scale t V = rscale t A by rewrite /rscale -scalemxAr.
pose D : 'M[F]_(p + p) := block_mx 1%:M 0 0 (rscale t 1%:M).
have aD : row_mx X (scale t V) = a *m D.
  by rewrite /a /D mul_row_block !mulmx0 mulmx1 addr0 add0r /rscale -scalemxAr mulmx1.
have DJ : D *m Jl = Jl by rewrite /D /Jl mul_block_col !mulmx0 !mul0mx mulmx1 !addr0.
set M' := block_mx (rscale t A) _ _ _.
have DM : D *m M' = rscale t M *m D.
  rewrite /D /M' /rscale /M -scalemxAl !mulmx_block !mul0mx !mulmx0 !mul1mx !mulmx1 !addr0 !add0r scale_block_mx.
    congr block_mx; last by rewrite -scalemxAl mul1mx -scalemxAr mulmx1.
  by rewrite /S -!scalemxAr mulmx1 adjmxZreal mulNmx -scalemxAl -!scalerN.
rewrite lsubmxE aD !mulmxA -(mulmxA a) (expm_intertwine DM (expmP _) (HE t)) !mulmxA -(mulmxA _ D) DJ.
by rewrite /c /rscale scalerN.
Qed.
Lemma c_unitary t : (c t)^H *m c t = 1%:M.
Proof.
apply: (expm_unitary (A := rscale t (- A))); last exact: Hc.
by rewrite /rscale adjmxZreal adjmxN A_skew scalerN.
Qed.
Lemma c_unitary' t : c t *m (c t)^H = 1%:M. Proof. exact: mulmx1C (c_unitary t). Qed.
Lemma E_form t : (E t)^H *m (a^H *m a) *m E t = a^H *m a.
Proof.
apply: (expm_form _ (HE t) (expmP _)).
rewrite /rscale adjmxZreal -scalemxAl -scalemxAr -scalerDr form_kept scaler0 //.
Qed.
Lemma frame_gram t (P Q : 'M[F]_(p + p, p)) :
  (a *m E t *m P *m c t)^H *m (a *m E t *m Q *m c t) = (c t)^H *m (P^H *m (a^H *m a) *m Q) *m c t.
Proof. by rewrite -(E_form t) !adjmxM !mulmxA. Qed.
Lemma gram_JJ : Jl^H *m (a^H *m a) *m Jl = 1%:M.
Proof. by rewrite gram_a /Jl adj_col_mx adjmx1 adjmx0 mul_row_block mul_row_col !mul1mx !mul0mx mulmx0 !addr0 mulmx1. Qed.
Lemma gram_KK : Kl^H *m (a^H *m a) *m Kl = S.
Proof. by rewrite gram_a /Kl adj_col_mx adjmx1 adjmx0 mul_row_block mul_row_col !mul1mx !mul0mx mulmx0 !add0r mulmx1. Qed.
Lemma gram_JK : Jl^H *m (a^H *m a) *m Kl = A.
Proof. by rewrite gram_a /Jl /Kl !adj_col_mx adjmx1 adjmx0 mul_row_block mul_row_col !mul1mx !mul0mx mulmx0 mulmx1 !addr0 add0r. Qed.
Lemma st_curve_orthonormal t : orthonormal (st_curve t).
Proof. by rewrite /orthonormal frame_gram gram_JJ mulmx1 c_unitary. Qed.
Lemma st_velocity_tangent t : st_tangent (st_curve t) (st_velocity t).
Proof.
apply/st_tangentE; rewrite /st_curve /st_velocity frame_gram gram_JK [(_ *m c t)^H]adjmxM [(_ *m A)^H]adjmxM adjmxK A_skew mulNmx mulmxN.
by rewrite mulmxA.
Qed.
Lemma st_velocity_norm t : fnorm (st_velocity t) = fnorm V.
Proof.
congr Num.sqrt; rewrite !innerE /st_velocity frame_gram gram_KK mxtrace_mulC mulmxA c_unitary' mul1mx.
by [].
Qed.
Lemma E0 : E 0 = 1%:M. Proof. exact: (expm_curve0 HE). Qed.
Lemma c0 : c 0 = 1%:M. Proof. exact: (expm_curve0 Hc). Qed.
Lemma st_curve0 : st_curve 0 = X.
Proof. by rewrite /st_curve E0 c0 !mulmx1 /a /Jl mul_row_col mulmx1 mulmx0 addr0. Qed.
Lemma st_velocity0 : st_velocity 0 = V.
Proof. by rewrite /st_velocity E0 c0 !mulmx1 /a /Kl mul_row_col mulmx1 mulmx0 add0r. Qed.
Lemma frame_derives t (P : 'M[F]_(p + p, p)) :
  derives scale dot (fun h => a *m E (t + h) *m P *m c (t + h)) (a *m E t *m (M *m P - P *m A) *m c t).
Proof.
have DE := expm_derives HE t; have Dc := expm_derives Hc t.
have D1 := derives_mul (derives_const (@inner_ips RR F n (p + p)) a) DE.
have D2 := derives_mul D1 (derives_const (@inner_ips RR F (p + p) p) P).
have := derives_mul D2 Dc; rewrite !addr0 mul0mx add0r mulmx0 addr0 (expm_comm HE).
suff -> : a *m E t *m (M *m P - P *m A) *m c t = a *m (E t *m M) *m P *m c t + a *m E t *m P *m (- A *m c t) by [].
by rewrite mulmxBr mulmxBl mulNmx mulmxN !mulmxA.
Qed.
Lemma st_curve_velocity t : derives scale dot (fun h => st_curve (t + h)) (st_velocity t).
Proof. by have := frame_derives t Jl; rewrite MJ addrAC subrr add0r. Qed.
Lemma st_curve_acceleration t : exists2 N : 'M[F]_p, N^H = N &
  derives scale dot (fun h => st_velocity (t + h)) (st_curve t *m N).
Proof.
exists (- ((c t)^H *m S *m c t)); first by rewrite adjmxN !adjmxM !adjmxK mulmxA.
have := frame_derives t Kl; rewrite MK addrAC subrr add0r mulmxN mulNmx.
suff -> : st_curve t *m - ((c t)^H *m S *m c t) = - (a *m E t *m (Jl *m S) *m c t) by [].
rewrite mulmxN /st_curve !mulmxA -(mulmxA _ (c t)) c_unitary' mulmx1.
by [].
Qed.
End Curve.
End StiefelExp.
