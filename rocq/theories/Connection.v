(** Covariant derivatives on open subsets of vector spaces, derivatives of inverses. *)
From Coq Require Import Reals Lra.
From mathcomp Require Import all_ssreflect all_algebra.
From Coq Require Import Ring Field.
From Verif Require Import Rstruct MCRing Mat_Base Geometry_Spec Calculus Sphere_Model Sphere_Proofs.
Set Implicit Arguments.
Unset Strict Implicit.
Unset Printing Implicit Defensive.
Import GRing.Theory Num.Theory Order.TTheory.
Local Open Scope ring_scope.
Delimit Scope R_scope with Re.

(** ** Specification.  [Gamma] gives the Levi-Civita connection of [metric] on the set of points [M] with tangent
    vectors [T]: the covariant derivative of a vector field [A] along a curve [c] is [A' + Gamma c c' A].  It is
    torsion-free, that is, symmetric, and satisfies the product rule with the metric. *)
Definition levi_civita (R : rcfType) (V : zmodType) (scale : R -> V -> V) (dot : V -> V -> R)
    (M T : V -> Prop) (metric : V -> V -> V -> R) (Gamma : V -> V -> V -> V) : Prop :=
  (forall x u v, M x -> T u -> T v -> T (Gamma x u v) /\ Gamma x u v = Gamma x v u) /\
  (forall c v A A' B B', (forall t, M (c t)) -> (forall t, T (A t)) -> (forall t, T (B t)) ->
    derives scale dot c v -> T v -> derives scale dot A A' -> T A' -> derives scale dot B B' -> T B' ->
    derives (@real_scale R) (@real_dot R) (fun t => metric (c t) (A t) (B t))
      (metric (c 0) (A' + Gamma (c 0) v (A 0)) (B 0) + metric (c 0) (A 0) (B' + Gamma (c 0) v (B 0)))).

(** ** Real functions *)
Local Notation rderives := (derives (@real_scale RR) (@real_dot RR)).
Lemma derives_lim (f : R -> R) l : rderives f l -> derivable_pt_lim f 0 l.
Proof.
move=> H e e0; have e2 : 0 < (e / 2)%Re by apply/RltPx; Rify; lra.
have [r r0 K] := H _ e2; have r0' : (0 < r)%Re by apply/RltPx.
exists (mkposreal r r0') => h h0 /= hr.
have {K} := K h; rewrite norm_real /real_scale => K.
have {}K : (Rabs (f h - f 0 - h * l) <= e / 2 * Rabs h)%Re.
  by apply/RlePx; apply: K; apply/RlePx; apply: Rlt_le.
rewrite Rplus_0_l.
have -> : ((f h - f 0) / h - l = (f h - f 0 - h * l) / h)%Re by field.
rewrite Rabs_mult Rabs_inv.
have p : (0 < Rabs h)%Re by apply: Rabs_pos_lt.
have M : (Rabs (f h - f 0 - h * l) * / Rabs h <= e / 2 * Rabs h * / Rabs h)%Re.
  by apply: Rmult_le_compat_r => //; apply: Rlt_le; apply: Rinv_0_lt_compat.
have E : (e / 2 * Rabs h * / Rabs h = e / 2)%Re by field; lra.
rewrite E in M; Rify; lra.
Qed.
Lemma derives_chain (f g : R -> R) l m : rderives f l -> derivable_pt_lim g (f 0) m -> rderives (fun t => g (f t)) (m * l).
Proof.
move=> /derives_lim F G; have := derives_real (derivable_pt_lim_comp f g 0 l m F G).
by apply: derives_ext => t; rewrite /comp add0r.
Qed.
Lemma derives_rmul (f g : RR -> RR) l m : rderives f l -> rderives g m -> rderives (fun t => f t * g t) (l * g 0 + f 0 * m).
Proof. exact: (derives_dot (@real_ips RR)). Qed.
Lemma inv_lim (a : R) : a <> 0%Re -> derivable_pt_lim Rinv a (- (/ a * / a))%Re.
Proof.
move=> a0; have := derivable_pt_lim_div (fun _ => 1%Re) id a 0 1 (derivable_pt_lim_const 1 a) (derivable_pt_lim_id a) a0.
rewrite (_ : ((0 * id a - 1 * 1) / Rsqr (id a) = - (/ a * / a))%Re); last by rewrite /Rsqr /id; field.
move=> H e e0; have [d K] := H e e0; exists d => h h0 hd; have := K h h0 hd.
by rewrite /div_fct /id /Rdiv !Rmult_1_l.
Qed.
Lemma derives_rinv (f : RR -> RR) l : rderives f l -> f 0 != 0 -> rderives (fun t => (f t)^-1) (- (l / f 0 ^+ 2)).
Proof.
move=> F f0; have f0' : f 0 <> 0%Re by apply/eqP.
have H := derives_chain F (inv_lim f0').
rewrite (_ : - (l / f 0 ^+ 2) = (- (/ f 0 * / f 0) * l)%Re); last by Rify; field.
by apply: derives_ext H => t; rewrite RinvE.
Qed.

(** ** The inverse of a matrix *)
Section Inverse.
Variables (R : rcfType) (F : starField R) (n : nat).
Local Notation scale := (@rscale R F n n).
Local Notation dot := (@inner R F n n).
Local Notation J := (@inner_ips R F n n).
Add Ring R_ring : (mc_ring R).
Lemma fnormD m p (A B : 'M[F]_(m, p)) : fnorm (A + B) <= fnorm A + fnorm B.
Proof. exact: (normD (@inner_ips R F m p)). Qed.
Lemma derives_inverse (A B : R -> 'M[F]_n) (A' : 'M[F]_n) : (forall t, A t *m B t = 1%:M) -> derives scale dot A A' ->
  derives scale dot B (- (B 0 *m A' *m B 0)).
Proof.
move=> AB DA.
have BA t : B t *m A t = 1%:M by apply: mulmx1C.
have step t : B t - B 0 = - (B t *m (A t - A 0) *m B 0).
  by rewrite mulmxBr mulmxBl BA mul1mx -mulmxA AB mulmx1 opprB.
have b0 := fnorm_ge0 (B 0); set b := fnorm (B 0) in b0.
have [K K0 [r0 r00 HK]] := derives_lipschitz J DA.
(* B t - B 0 + t B0 A' B0 = - B0 (A t - A 0 - t A') B0 + (B 0 - B t) (A t - A 0) B 0 *)
move=> e e0.
pose q : R := 2%:R * b ^+ 3 * K ^+ 2 + 1; have q0 : 0 < q.
  by rewrite ltr_paddl ?ltr01 // !mulr_ge0 ?ler0n ?exprn_ge0.
pose s : R := b ^+ 2 + 1; have s0 : 0 < s by rewrite ltr_paddl ?ltr01 ?exprn_ge0.
pose k : R := 2%:R * (K * b + 1); have k0 : 0 < k.
  by rewrite mulr_gt0 ?ltr0n // ltr_paddl ?ltr01 ?mulr_ge0.
have e2 : 0 < e / 2%:R / s by rewrite !divr_gt0 ?ltr0n.
have [r r1 Hr] := DA _ e2.
exists (Num.min (Num.min r0 r) (Num.min k^-1 (e / 2%:R / q))).
  by rewrite !lt_minr r00 r1 invr_gt0 k0 !divr_gt0 ?ltr0n.
move=> t; rewrite !le_minr => /andP[/andP[t0 t1] /andP[t2 t3]].
have {HK} HK : fnorm (A t - A 0) <= K * `|t| := HK t t0.
have {Hr} Hr : fnorm (A t - A 0 - scale t A') <= e / 2%:R / s * `|t| := Hr t t1.
rewrite -[norm_of dot _]/(fnorm _).
have t00 : 0 <= `|t| by apply: normr_ge0.
have n0 := fnorm_ge0 (A t - A 0).
have small : fnorm (A t - A 0) * b <= 2%:R^-1.
  apply: le_trans (_ : K * `|t| * b <= _); first by rewrite ler_wpmul2r.
  apply: le_trans (_ : (K * b + 1) * `|t| <= _); first by rewrite mulrAC mulrDl ler_addl mul1r.
  have : k * `|t| <= 1 by rewrite mulrC -ler_pdivl_mulr // div1r.
  rewrite /k -mulrA => H; rewrite -(@ler_pmul2l _ 2%:R) ?ltr0n //; apply: le_trans H _.
  by rewrite mulfV ?pnatr_eq0.
have bt := fnorm_ge0 (B t).
have nB : fnorm (B t) <= 2%:R * b.
  have H1 : fnorm (B t) <= b + fnorm (B t) * 2%:R^-1.
    rewrite {1}(_ : B t = B 0 + (B t - B 0)); last by rewrite addrC subrK.
    apply: le_trans (fnormD _ _) _; rewrite -/b ler_add2l step fnormN -mulmxA.
    apply: le_trans (fnorm_mul _ _) _; rewrite ler_wpmul2l //.
    by apply: le_trans (fnorm_mul _ _) _.
  have : fnorm (B t) * 2%:R^-1 <= b.
    by move: H1; rewrite {1}(_ : fnorm (B t) = fnorm (B t) * 2%:R^-1 + fnorm (B t) * 2%:R^-1) ?ler_add2r // -mulrDr -mulr2n -mulr_natl mulfV ?mulr1 ?pnatr_eq0.
  by rewrite ler_pdivr_mulr ?ltr0n // mulrC.
have dB : fnorm (B 0 - B t) <= 2%:R * b ^+ 2 * (K * `|t|).
  rewrite -opprB fnormN step fnormN; apply: le_trans (fnorm_mul _ _) _; rewrite -/b.
  apply: le_trans (_ : 2%:R * b * (K * `|t|) * b <= _); last first.
    by rewrite (_ : _ * b = 2%:R * b ^+ 2 * (K * `|t|)) // expr2; mcring R.
  rewrite ler_wpmul2r //; apply: le_trans (fnorm_mul _ _) _; exact: ler_pmul.
have -> : B t - B 0 - scale t (- (B 0 *m A' *m B 0)) =
   - (B 0 *m (A t - A 0 - scale t A') *m B 0) + (B 0 - B t) *m (A t - A 0) *m B 0.
  rewrite step (_ : scale t (- (B 0 *m A' *m B 0)) = - (B 0 *m scale t A' *m B 0)); last first.
    by rewrite /rscale -scalemxAr -scalemxAl scalerN.
  rewrite opprK [in RHS]mulmxBr [in RHS]mulmxBl opprB [B 0 - B t]addrC mulmxDl mulmxDl mulNmx mulNmx.
  by vring (@inner_ips R F n n) R.
apply: le_trans (fnormD _ _) _; rewrite fnormN.
have -> : e * `|t| = e / 2%:R * `|t| + e / 2%:R * `|t|.
  by rewrite -mulrDl -splitr.
apply: ler_add.
  apply: le_trans (_ : b * (e / 2%:R / s * `|t|) * b <= _).
    apply: le_trans (fnorm_mul _ _) _; rewrite -/b ler_wpmul2r //.
    by apply: le_trans (fnorm_mul _ _) _; rewrite -/b ler_wpmul2l.
  have -> : b * (e / 2%:R / s * `|t|) * b = (e / 2%:R * `|t|) * (b ^+ 2 / s).
    by rewrite expr2; mcring R.
  have h0 : 0 <= e / 2%:R * `|t| by rewrite mulr_ge0 // divr_ge0 ?ler0n // ltW.
  rewrite -[X in _ <= X]mulr1 ler_wpmul2l // ler_pdivr_mulr // mul1r.
  by rewrite ler_addl ler01.
apply: le_trans (fnorm_mul _ _) _; rewrite -/b.
apply: le_trans (_ : 2%:R * b ^+ 2 * (K * `|t|) * (K * `|t|) * b <= _).
  by rewrite ler_wpmul2r //; apply: le_trans (fnorm_mul _ _) _; apply: ler_pmul; rewrite ?fnorm_ge0.
have -> : 2%:R * b ^+ 2 * (K * `|t|) * (K * `|t|) * b = (2%:R * b ^+ 3 * K ^+ 2 * `|t|) * `|t|.
  by rewrite !exprS !expr0; mcring R.
rewrite ler_wpmul2r //; apply: le_trans (_ : q * `|t| <= _).
  by rewrite ler_wpmul2r // ler_addl ler01.
by rewrite mulrC -ler_pdivl_mulr.
Qed.
End Inverse.

Lemma derives_sum (R : rcfType) (V : zmodType) (scale : R -> V -> V) (dot : V -> V -> R) (T : Type) (s : seq T)
    (f : T -> R -> V) (d : T -> V) : inner_product_on scale everywhere dot ->
  (forall i, derives scale dot (f i) (d i)) ->
  derives scale dot (fun t => \sum_(i <- s) f i t) (\sum_(i <- s) d i).
Proof.
move=> I H; elim: s => [|i s IH].
  by rewrite big_nil; apply: derives_ext (derives_const I 0) => t; rewrite big_nil.
by rewrite big_cons; apply: derives_ext (derives_add I (H i) IH) => t; rewrite big_cons.
Qed.
