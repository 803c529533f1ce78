(** Dimensions of spaces of real and complex matrices. *)
From mathcomp Require Import all_ssreflect all_algebra.
From mathcomp.real_closed Require Import complex.
From Verif Require Import Mat_Base Geometry_Spec Stiefel_Proofs Linalg_Exist Dimension.
Set Implicit Arguments.
Unset Strict Implicit.
Unset Printing Implicit Defensive.
Import GRing.Theory Num.Theory Order.TTheory.
Local Open Scope ring_scope.

(** ** Numbers *)
Section Numbers.
Variables (R : rcfType) (F : starField R).
Definition nscale (a : R) (x : F) : F := sf_real a * x.
Lemma nscaling : scaling nscale.
Proof.
split; first by move=> a u v; apply: mulrDr.
split; first by move=> a b v; rewrite /nscale rmorphD mulrDl.
split; first by move=> a b v; rewrite /nscale rmorphM mulrA.
by move=> v; rewrite /nscale rmorph1 mul1r.
Qed.
(** the real dimension of the field of entries *)
Definition field_dim (e : nat) := has_dimension nscale (@everywhere F) e.
Lemma dimension_re : has_dimension nscale (fun x => sf_conj x = x) 1.
Proof.
exists (fun=> 1); split=> [x|c d].
  split=> [/sf_fixed ->|[c ->]]; first by exists (fun=> sf_re x); rewrite big_ord1 /nscale mulr1.
  by rewrite big_ord1 /nscale mulr1 sf_conj_real.
by rewrite !big_ord1 /nscale !mulr1 => /real_inj E i; rewrite (ord1 i).
Qed.
End Numbers.

Lemma real_field_dim (R : rcfType) : field_dim (real_star R) 1.
Proof. by apply: dimension_ext (dimension_re (real_star R)) => v. Qed.

Section Scales.
Variables (R : rcfType).
Definition real_mul (a b : R) : R := a * b.
Lemma real_scaling : scaling real_mul.
Proof. by split=> [a u v|]; [apply: mulrDr|split=> [a b v|]; [apply: mulrDl|split=> [a b v|v]; [apply: mulrA|apply: mul1r]]]. Qed.
Lemma dimension_R : has_dimension real_mul everywhere 1.
Proof. exact: (real_field_dim R). Qed.
End Scales.

Lemma complex_field_dim (R : rcfType) : field_dim (complex_star R) 2.
Proof.
pose f (p : R * R) : complex_star R := (p.1 +i* p.2)%C.
have L : real_linear (pscale (@real_mul R) (@real_mul R)) (@nscale R (complex_star R)) f.
  split=> [[a b] [c d]|a [b c]] //.
  by apply/eqP; rewrite eq_complex /= /real_mul !mul0r subr0 addr0 !eqxx.
have D := dimension_pair (@real_scaling R) (@real_scaling R) (dimension_R R) (dimension_R R).
apply: (dimension_iso (pscaling (@real_scaling R) (@real_scaling R)) L _ _ _ D) => //.
- by case=> a b _; exists (a, b).
- by case=> a b _ /eqP; rewrite eq_complex /= => /andP[/eqP -> /eqP ->].
Qed.

Section Matrices.
Variables (R : rcfType) (F : starField R) (e : nat).
Hypothesis dimF : field_dim F e.
Local Notation NS := (@nscaling R F).
Lemma rscaling m n : scaling (@rscale R F m n).
Proof.
split; first by move=> a u v; apply: scalerDr.
split; first by move=> a b v; rewrite /rscale rmorphD scalerDl.
split; first by move=> a b v; rewrite /rscale rmorphM scalerA.
by move=> v; rewrite /rscale rmorph1 scale1r.
Qed.

Lemma im_dim : has_dimension (@nscale R F) (fun x => sf_conj x = - x) (e - 1).
Proof.
have L : real_linear (@nscale R F) (@real_mul R) (@sf_re R F).
  by split=> [u v|a v]; [apply: sf_reD|apply: sf_reZ].
have h2 (w : R) : everywhere w -> exists2 v : F, everywhere v & sf_re v = w.
  by move=> _; exists (sf_real w) => //; apply: re_real.
have [_] := dimension_kernel NS (@real_scaling R) L (fun _ _ => I) h2 dimF (dimension_R R).
apply: dimension_ext => x; split=> [[_ h]|h].
  by apply/eqP; rewrite -addr_eq0 addrC -re2 h rmorph0 mul0rn.
split=> //; have := re2 x; rewrite h subrr => /eqP; rewrite -mulr_natl mulf_eq0 (negbTE (natF_neq0 F 1)) /= fmorph_eq0; by move/eqP.
Qed.

Lemma dimension_mx m n : has_dimension (@rscale R F m n) everywhere (m * n * e).
Proof.
have D := dimension_power (K := [finType of 'I_m * 'I_n]) NS (fun=> dimF).
rewrite card_prod !card_ord in D.
pose f (v : {ffun 'I_m * 'I_n -> F}) : 'M[F]_(m, n) := \matrix_(i, j) v (i, j).
have L : real_linear (fscale (@nscale R F) (K := [finType of 'I_m * 'I_n])) (@rscale R F m n) f.
  by split=> [u v|a v]; apply/matrixP => i j; rewrite !mxE ffunE.
apply: (dimension_iso (fscaling _ NS) L _ _ _ D) => //.
- by move=> A _; exists [ffun p => A p.1 p.2] => [//|]; apply/matrixP => i j; rewrite mxE ffunE.
- by move=> v _ /matrixP E; apply/ffunP => -[i j]; have := E i j; rewrite !mxE ffunE.
Qed.

(** *** Hermitian ([s = false]) and skew-Hermitian ([s = true]) matrices *)
Definition sgn (U : zmodType) (s : bool) (x : U) : U := if s then - x else x.
Definition hermitian s n (A : 'M[F]_n) : Prop := A^H = sgn s A.
Lemma dimension_hermitian s d n : has_dimension (@nscale R F) (fun x => sf_conj x = sgn s x) d ->
  has_dimension (@rscale R F n n) (@hermitian s n) (n * d + 'C(n, 2) * e).
Proof.
move=> dimD; elim: n => [|n IH].
  rewrite mul0n mul0n addn0; apply: dimension_ext (dimension_zero (@rscale R F 0 0)) => A.
  by split=> _; apply/matrixP => -[].
change (has_dimension (@rscale R F (1 + n) (1 + n)) (@hermitian s (1 + n)) (n.+1 * d + 'C(n.+1, 2) * e)).
have D2 := dimension_mx n 1; rewrite muln1 in D2.
have D := dimension_pair (pscaling NS (rscaling n 1)) (rscaling n n)
  (dimension_pair NS (rscaling n 1) dimD D2) IH.
have -> : (n.+1 * d + 'C(n.+1, 2) * e = d + n * e + (n * d + 'C(n, 2) * e))%N.
  by rewrite mulSn binS bin1 mulnDl [('C(n, 2) * e + _)%N]addnC addnACA.
pose f (p : F * 'cV[F]_n * 'M[F]_n) : 'M[F]_(1 + n) := block_mx p.1.1%:M (sgn s (p.1.2)^H) p.1.2 p.2.
have L : real_linear (pscale (pscale (@nscale R F) (@rscale R F n 1)) (@rscale R F n n)) (@rscale R F (1 + n) (1 + n)) f.
  split=> [[[x u] A] [[y v] B]|a [[x u] A]]; rewrite /f /=.
    by rewrite add_block_mx -raddfD; congr block_mx; case: (s) => /=; rewrite adjmxD ?opprD.
  rewrite /rscale scale_block_mx; congr block_mx; first by rewrite scale_scalar_mx.
  by case: (s) => /=; rewrite adjmxZreal ?scalerN.
apply: (dimension_iso (pscaling (pscaling NS (rscaling n 1)) (rscaling n n)) L _ _ _ D) => /=.
- case=> [[x u] A] /= [[hx _] hA]; rewrite /hermitian /f /= adj_block_mx adjmx_scalar hx hA.
  case: (s) => /=; rewrite ?opp_block_mx ?adjmxN ?adjmxK ?opprK; congr block_mx => //.
  by rewrite raddfN.
- move=> A; rewrite -[A](submxK (A : 'M_(1 + n))).
  move: (ulsubmx _) (ursubmx _) (dlsubmx _) (drsubmx _) => a u v B.
  rewrite /hermitian adj_block_mx => H.
  have [ha hu hB] : [/\ a^H = sgn s a, u = sgn s v^H & B^H = sgn s B].
    move: H; case: (s) => /=; rewrite ?opp_block_mx => /eq_block_mx[ha hv hu hB]; split=> //.
      by rewrite hv opprK.
  exists (a 0 0, v, B) => /=.
    split=> //; split=> //; have := congr1 (fun M : 'M_1 => M 0 0) ha; rewrite adjmxE => ->.
    by case: (s) => /=; rewrite ?mxE.
  by rewrite /f /= -mx11_scalar -hu.
- case=> [[x u] A] /= _; rewrite /f /= => H.
  have : block_mx x%:M (sgn s u^H) u A = block_mx 0 0 0 0 by rewrite H block_mx0.
  case/eq_block_mx => /matrixP/(_ 0 0); rewrite !mxE eqxx mulr1n => -> _ -> -> //.
Qed.
End Matrices.
