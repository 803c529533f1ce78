(** C110: the mixture of Gaussians. *)
From Coq Require Import Reals Lra FunctionalExtensionality.
From mathcomp Require Import all_ssreflect all_algebra.
From Verif Require Import Rstruct Mat_Base Sphere_Model Linalg_Spec PosDef_Proofs PosDef_Special Linalg_Exist Mixture_Model.
Set Implicit Arguments.
Unset Strict Implicit.
Unset Printing Implicit Defensive.
Import GRing.Theory Num.Theory Order.TTheory.
Local Open Scope ring_scope.
Local Delimit Scope R_scope with Re.

(** * The specification *)
(** The density of the Gaussian distribution with mean [mu] and covariance [Sigma]. *)
Definition gaussian D (mu : 'cV[RF]_D) (Sigma : 'M[RF]_D) (x : 'cV[RF]_D) : RR :=
  (exp (- (((x - mu)^T *m invmx Sigma *m (x - mu)) 0 0 : RR) / 2%:R) : RR) / Num.sqrt ((2%:R * (PI : RR)) ^+ D * \det Sigma : RR).
(** The parameters of a mixture of [M] Gaussians. *)
Record mixture M D := Mixture { weight : 'I_M -> RR; mean : 'I_M -> 'cV[RF]_D; covariance : 'I_M -> 'M[RF]_D }.
Definition valid M D (p : mixture M D) : Prop :=
  (forall k, 0 < weight p k) /\ \sum_k weight p k = 1 /\ forall k, posdef (covariance p k).
(** The negative logarithm of the likelihood of the samples (the rows of a matrix). *)
Definition nll N M D (samples : 'M[RF]_(N, D)) (p : mixture M D) : RR :=
  - \sum_i (ln (\sum_k weight p k * gaussian (mean p k) (covariance p k) (row i samples)^T) : RR).
(** What the notebook optimises over, and the parameters it reads from a point. *)
Definition point K D : Type := ('I_(K + 1) -> 'M[RF]_(D + 1)) * 'rV[RF]_K.
Definition on_manifold K D (x : point K D) : Prop := forall k, posdef (x.1 k).
Definition read K D (x : point K D) : mixture (K + 1) D :=
  Mixture (alpha x.2) (fun k => mu_hat (x.1 k)) (fun k => sigma_hat (x.1 k)).
Definition corner D (S : 'M[RF]_(D + 1)) : RR := S (rshift D 0) (rshift D 0).
(** Within [e] in every entry, and the local minimisers of the cost and of the negative log-likelihood. *)
Definition near K D (e : RR) (x y : point K D) : Prop :=
  (forall k i j, `|(y.1 k i j : RR) - x.1 k i j| < e) /\ forall j, `|(y.2 0 j : RR) - x.2 0 j| < e.
Definition local_minimum N K D (samples : 'M[RF]_(N, D)) (x : point K D) : Prop :=
  exists e, 0 < e /\ forall y : point K D, on_manifold y -> near e x y -> cost samples x.1 x.2 <= cost samples y.1 y.2.
Definition near_mixture M D (e : RR) (p q : mixture M D) : Prop := forall k, `|weight q k - weight p k| < e /\
  (forall i, `|(mean q k i 0 : RR) - mean p k i 0| < e) /\ forall i j, `|(covariance q k i j : RR) - covariance p k i j| < e.
Definition locally_most_likely N M D (samples : 'M[RF]_(N, D)) (p : mixture M D) : Prop :=
  exists e, 0 < e /\ forall q : mixture M D, valid q -> near_mixture e p q -> nll samples p <= nll samples q.

(** * Proofs *)
(** The matrices with corner [s]: the augmented matrix of a Gaussian has [s = 1]. *)
Section Augmented.
Variable D : nat.
Implicit Types (mu x : 'cV[RF]_D) (Sg : 'M[RF]_D) (s : RR).
Definition aug s mu Sg : 'M[RF]_(D + 1) :=
  block_mx (Sg + (s : RF) *: (mu *m mu^T)) ((s : RF) *: mu) ((s : RF) *: mu^T) (s : RF)%:M.
Definition shear mu : 'M[RF]_(D + 1) := block_mx 1%:M mu 0 1%:M.
Lemma adjT m n (A : 'M[RF]_(m, n)) : A^H = A^T.
Proof. by apply/matrixP => i j; rewrite !mxE. Qed.
Lemma augE s mu Sg : aug s mu Sg = shear mu *m block_mx Sg 0 0 (s : RF)%:M *m (shear mu)^H.
Proof.
rewrite adjT /shear tr_block_mx !trmx1 trmx0 !mulmx_block ?(mul0mx, mulmx0, mul1mx, mulmx1, add0r, addr0) /aug.
by rewrite mul_mx_scalar mul_scalar_mx -scalemxAl.
Qed.
Lemma shear_unit mu : shear mu \in unitmx.
Proof. by rewrite unitmxE /shear det_ublock !det1 mulr1 unitr1. Qed.
Lemma det_aug s mu Sg : \det (aug s mu Sg) = s * \det Sg.
Proof.
by rewrite augE !det_mulmx adjT det_tr /shear det_ublock !det1 !mulr1 mul1r det_ublock det_scalar1 mulrC.
Qed.
Lemma posdef_block Sg s : posdef (block_mx Sg 0 0 (s : RF)%:M : 'M[RF]_(D + 1)) <-> posdef Sg /\ 0 < s.
Proof.
split=> [[h P]|[[h P] s0]].
  split; first split.
  - by move: h; rewrite /hermitian !adjT tr_block_mx => /eq_block_mx [].
  - move=> x x0; have := P (col_mx x 0); rewrite col_mx_eq0 (negbTE x0) => /(_ isT).
    by rewrite adjT tr_col_mx mul_row_block mul_row_col !(trmx0, mul0mx, mulmx0, addr0) -adjT.
  have := P (col_mx 0 1); rewrite col_mx_eq0 oner_eq0 andbF => /(_ isT).
  by rewrite adjT tr_col_mx mul_row_block mul_row_col !(trmx0, mul0mx, mulmx0, addr0, add0r) trmx1 mul1mx mulmx1 mxE eqxx.
split; first by rewrite /hermitian adjT tr_block_mx !trmx0 tr_scalar_mx -adjT h.
move=> z; rewrite -[z]vsubmxK; move: (usubmx z) (dsubmx z) => x y; rewrite col_mx_eq0 negb_and => xy.
rewrite adjT tr_col_mx mul_row_block mul_row_col !(mulmx0, addr0, add0r) [in X in 0 < X]mxE.
have -> : (y^T *m (s : RF)%:M *m y) 0 0 = s * (y 0 0 * y 0 0).
  by rewrite mul_mx_scalar -scalemxAl mxE [in LHS]mxE big_ord1 !mxE.
have Q0 : 0 <= s * (y 0 0 * y 0 0) by rewrite mulr_ge0 ?(ltW s0) // -expr2 sqr_ge0.
have [x0|x0] := eqVneq x 0; last by have := P x x0; rewrite adjT => Px; apply: ltr_paddr.
rewrite x0 trmx0 !mul0mx [X in X + _]mxE add0r; apply: mulr_gt0 => //; rewrite x0 eqxx /= in xy.
rewrite -expr2 lt_def sqr_ge0 andbT expf_neq0 //; apply: contra xy => /eqP y0; apply/eqP/matrixP => i j.
by rewrite !ord1 y0 mxE.
Qed.
Lemma posdef_aug s mu Sg : posdef (aug s mu Sg) <-> posdef Sg /\ 0 < s.
Proof.
rewrite augE; split=> [P|P]; last by apply: posdef_congr; [apply/posdef_block|apply: shear_unit].
apply/posdef_block; have U := shear_unit mu; have V : invmx (shear mu) \in unitmx by rewrite unitmx_inv.
have := posdef_congr P V; rewrite adj_inv -!mulmxA mulmxV ?adj_unit // mulmx1 !mulmxA mulVmx // mul1mx; exact.
Qed.
Lemma aug_of (S : 'M[RF]_(D + 1)) : posdef S -> let s := corner S in let mu := (s^-1 : RF) *: mu_hat S in
  S = aug s mu (ulsubmx S - (s : RF) *: (mu *m mu^T)) /\ 0 < s.
Proof.
move=> PS s mu; have [h P] := PS.
have s0 : 0 < s.
  have := P (col_mx 0 1); rewrite col_mx_eq0 oner_eq0 andbF => /(_ isT).
  rewrite -{1}[S]submxK adjT tr_col_mx mul_row_block mul_row_col !(trmx0, mul0mx, mulmx0, addr0, add0r) trmx1 mul1mx mulmx1.
  by rewrite !mxE.
have sE : (s : RF) *: mu = mu_hat S by rewrite /mu scalerA divff ?scale1r // gt_eqF.
split=> //; rewrite /aug subrK sE -linearZ /= sE -[LHS]submxK /mu_hat; congr block_mx.
- by rewrite trmx_ursub -adjT h.
- by rewrite [LHS]mx11_scalar !mxE.
Qed.
Lemma quad_aug N s mu Sg (samples : 'M[RF]_(N, D)) i : posdef Sg -> 0 < s -> let y := augmented samples in
  \sum_j (y j i * (invmx (aug s mu Sg) *m y) j i : RR) =
  (((row i samples)^T - mu)^T *m invmx Sg *m ((row i samples)^T - mu)) 0 0 + s^-1.
Proof.
move=> PS s0 y; set x := (row i samples)^T; set w := invmx Sg *m (x - mu).
have SU := posdef_unit PS; have AU : aug s mu Sg \in unitmx by apply: posdef_unit; apply/posdef_aug.
have cE : col i y = col_mx x 1%:M.
  by rewrite /y /augmented; apply/matrixP => a b; rewrite !mxE; case: splitP => c _; rewrite !mxE // !ord1.
have zE : invmx (aug s mu Sg) *m col i y = col_mx w ((s^-1 : RF)%:M - mu^T *m w).
  apply: (can_inj (mulKmx AU)); rewrite mulKVmx // cE /aug mul_block_col mulmxDl -!scalemxAl -mulmxA.
  rewrite mulmxBr mul_mx_scalar mulmxBr scalerBr scalerA divff ?gt_eqF // scale1r addrA.
  have -> : Sg *m w = x - mu by rewrite mulKVmx.
  congr col_mx; first by rewrite addrACA subrr addr0 subrK.
  by rewrite -scalar_mxM divff ?gt_eqF // mul_scalar_mx addrAC subrr add0r.
have -> : \sum_j (y j i * (invmx (aug s mu Sg) *m y) j i : RR) = ((col i y)^T *m (invmx (aug s mu Sg) *m col i y)) 0 0.
  rewrite mxE; apply: eq_bigr => j _; rewrite !mxE; congr (_ * _); apply: eq_bigr => a _; by rewrite !mxE.
rewrite zE cE tr_col_mx mul_row_col trmx1 mul1mx addrCA -mulmxBl (_ : x^T - mu^T = (x - mu)^T); last by rewrite linearB.
rewrite mxE [RHS]addrC -mulmxA -/w; congr (_ + _).
by rewrite mxE eqxx.
Qed.
End Augmented.

(** ** Logarithms *)
Definition excess (s : RR) : RR := ((ln s : RR) + s^-1 - 1) / 2%:R.
Lemma excess1 : excess 1 = 0.
Proof. by rewrite /excess ln_1 invr1 add0r subrr mul0r. Qed.
Lemma excess_gt0 s : 0 < s -> s != 1 -> 0 < excess s.
Proof.
move=> s0 s1; rewrite /excess; Rify; have s0' : Rlt 0 s by apply/RltPx.
have n0 : (Ropp (ln s) <> 0)%Re by move=> E; move/eqP: s1; apply; apply: ln_inv; [exact: s0'|exact: Rlt_0_1|rewrite ln_1; lra].
have := exp_ineq1 (Ropp (ln s)) n0; rewrite exp_Ropp exp_ln //; lra.
Qed.
Lemma excess_ge0 s : 0 < s -> 0 <= excess s.
Proof. by move=> s0; have [->|s1] := eqVneq s 1; [rewrite excess1|apply: ltW; apply: excess_gt0]. Qed.
Lemma expR_gt0 (x : RR) : 0 < (exp x : RR). Proof. by apply/RltPx; apply: exp_pos. Qed.
Lemma sum_gt0 n (f : 'I_(n + 1) -> RR) : (forall k, 0 < f k) -> 0 < \sum_k f k.
Proof.
move=> f0; rewrite (bigD1 (rshift n 0)) //=; apply: ltr_paddr => //; by apply: sumr_ge0 => k _; apply: ltW.
Qed.
Lemma logsumexpE n (a : 'I_(n + 1) -> RR) : logsumexp a = ln (\sum_k (exp (a k) : RR)).
Proof.
rewrite /logsumexp; set m := a _.
have -> : \sum_k (exp (a k) : RR) = (exp m : RR) * \sum_k (exp (a k - m) : RR).
  rewrite mulr_sumr; apply: eq_bigr => k _; rewrite -[RHS]/(Rmult _ _) -exp_plus; congr exp.
  by move: (a k) m => u w; have -> : Rplus w (Rminus u w) = u by ring.
rewrite -[_ * _]/(Rmult _ _) ln_mult ?ln_exp; [by rewrite [LHS]addrC|exact: exp_pos|apply/RltPx].
by apply: (@sum_gt0 n (fun k => exp (a k - m))) => k; apply: expR_gt0.
Qed.

(** ** Continuity in finitely many parameters *)
Section Continuity.
Variables (T : Type) (nr : RR -> T -> T -> Prop).
Hypothesis nr_le : forall p q (d d' : RR), d <= d' -> nr d p q -> nr d' p q.
Definition eventually p (P : T -> Prop) : Prop := exists2 d : RR, 0 < d & forall q, nr d p q -> P q.
Definition cont p (f : T -> RR) : Prop := forall e : RR, 0 < e -> eventually p (fun q => `|f q - f p| < e).
Lemma both p P Q : eventually p P -> eventually p Q -> eventually p (fun q => P q /\ Q q).
Proof.
move=> [a a0 A] [b b0 B]; exists (Num.min a b); first by rewrite lt_minr a0.
by move=> q H; split; [apply: A|apply: B]; apply: nr_le H; rewrite le_minl lexx ?orbT.
Qed.
Lemma all_of p n (P : 'I_n -> T -> Prop) : (forall i, eventually p (P i)) -> eventually p (fun q => forall i, P i q).
Proof.
elim: n P => [|n IH] P H; first by exists 1; [apply: ltr01|move=> q _ []].
have [d d0 Hd] := both (H ord0) (IH (fun i => P (lift ord0 i)) (fun i => H (lift ord0 i))); exists d => // q /Hd [A B] i.
by case: (unliftP ord0 i) => [j ->|->].
Qed.
Lemma cont_ext p f g : (forall q, f q = g q) -> cont p f -> cont p g.
Proof. by move=> E F e e0; have [d d0 H] := F e e0; exists d => // q /H; rewrite !E. Qed.
Lemma cont_const p (a : RR) : cont p (fun=> a).
Proof. by move=> e e0; exists 1 => [|q _]; [apply: ltr01|rewrite subrr normr0]. Qed.
Lemma cont_add p f g : cont p f -> cont p g -> cont p (fun q => f q + g q).
Proof.
move=> F G e e0; have e2 : 0 < e / 2%:R by apply: divr_gt0 => //; apply: ltr0Sn.
have [d d0 H] := both (F _ e2) (G _ e2); exists d => // q /H [A B].
rewrite opprD addrACA; apply: le_lt_trans (ler_norm_add _ _) _.
have -> : e = e / 2%:R + e / 2%:R by rewrite -mulr2n -mulr_natr divfK // pnatr_eq0.
exact: ltr_add.
Qed.
Lemma cont_mul p f g : cont p f -> cont p g -> cont p (fun q => f q * g q).
Proof.
move=> F G e e0; pose M : RR := 1 + `|f p| + `|g p|.
have M0 : 0 < M by rewrite /M -addrA; apply: ltr_paddr; [apply: addr_ge0|apply: ltr01].
pose a : RR := Num.min 1 (e / M).
have a0 : 0 < a by rewrite lt_minr ltr01 divr_gt0.
have a1 : a <= 1 by rewrite le_minl lexx.
have aM : a * M <= e by rewrite -ler_pdivl_mulr // le_minl lexx orbT.
have [d d0 H] := both (F _ a0) (G _ a0); exists d => // q /H [A B]; apply: lt_le_trans aM.
have -> : f q * g q - f p * g p = (f q - f p) * (g q - g p) + f p * (g q - g p) + g p * (f q - f p) by Rify; ring.
apply: le_lt_trans (ler_norm_add _ _) _; rewrite /M [a * _]mulrDr [a * (1 + _)]mulrDr mulr1.
apply: ltr_le_add; last by rewrite normrM mulrC; apply: ler_wpmul2r => //; apply: ltW.
apply: le_lt_trans (ler_norm_add _ _) _; apply: ltr_le_add; last by rewrite normrM mulrC; apply: ler_wpmul2r => //; apply: ltW.
rewrite normrM; apply: le_lt_trans A; apply: ler_pimulr => //; apply: le_trans a1; exact: ltW.
Qed.
Lemma cont_opp p f : cont p f -> cont p (fun q => - f q).
Proof. by move=> F; apply: cont_ext (cont_mul (cont_const p (-1)) F) => q; rewrite mulN1r. Qed.
Lemma cont_sum p n (f : 'I_n -> T -> RR) : (forall i, cont p (f i)) -> cont p (fun q => \sum_i f i q).
Proof.
elim: n f => [|n IH] f H; first by apply: cont_ext (cont_const p 0) => q; rewrite big_ord0.
apply: cont_ext (cont_add (H ord0) (IH (fun i => f (lift ord0 i)) (fun i => H (lift ord0 i)))) => q; by rewrite big_ord_recl.
Qed.
Lemma cont_comp p f (h : RR -> RR) : continuity_pt h (f p) -> cont p f -> cont p (fun q => h (f q)).
Proof.
move=> H F e e0; have [d [d0 Hd]] := H e (elimT (RltPx 0 e) e0).
have [c c0 Hc] := F d (introT (RltPx 0 d) d0); exists c => // q /Hc lt.
have [->|ne] := eqVneq (f q) (f p); first by rewrite subrr normr0.
apply/RltPx; apply: (Hd (f q)); split; last by apply/RltPx.
by split=> // E; rewrite E eqxx in ne.
Qed.
Lemma cont_ln p f : 0 < f p -> cont p f -> cont p (fun q => ln (f q)).
Proof.
move=> /RltPx f0; apply: cont_comp; apply: derivable_continuous_pt; exists (Rinv (f p)); exact: derivable_pt_lim_ln.
Qed.
Lemma cont_exp p f : cont p f -> cont p (fun q => exp (f q)).
Proof. by apply: cont_comp; apply: derivable_continuous_pt; apply: derivable_pt_exp. Qed.
Lemma cont_inv p f : f p != 0 -> cont p f -> cont p (fun q => (f q)^-1).
Proof.
move=> f0 F; apply: (@cont_ext _ (fun q => Rinv (f q))) => [q|]; first by rewrite RinvE.
apply: (cont_comp (h := Rinv)) => //; apply: (continuity_pt_inv id); last exact/eqP.
by apply: derivable_continuous_pt; apply: derivable_pt_id.
Qed.
End Continuity.

Section Cost.
Variables (N D K : nat) (samples : 'M[RF]_(N, D)).
Implicit Types (x : point K D) (p : mixture (K + 1) D).
(** What the cost differs from the negative log-likelihood by. *)
Definition offset : RR := N%:R * (1 - D%:R * (ln (2 * PI) : RR)) / 2%:R.

Lemma alpha_gt0 (v : 'rV[RF]_K) k : 0 < alpha v k.
Proof. by apply: divr_gt0; [apply: expR_gt0|apply: (sum_gt0 (f := fun l => exp (nu v 0 l))) => l; apply: expR_gt0]. Qed.
Lemma alpha_sum (v : 'rV[RF]_K) : \sum_k alpha v k = 1.
Proof.
rewrite -mulr_suml divff // gt_eqF //.
by apply: (sum_gt0 (f := fun l => exp (nu v 0 l))) => l; apply: expR_gt0.
Qed.
Lemma det_gt0 n (A : 'M[RF]_n) : posdef A -> 0 < (\det A : RR).
Proof. by move=> /(det_pos (@real_has_eigenvectors _)) []. Qed.
Lemma twopi_gt0 : 0 < (2%:R * (PI : RR)) :> RR.
Proof. by apply: mulr_gt0; [apply: ltr0Sn|apply/RltPx; apply: PI_RGT_0]. Qed.
Lemma ln_pow (a : RR) n : 0 < a -> ln (a ^+ n) = n%:R * (ln a : RR).
Proof.
move=> a0; elim: n => [|n IH]; first by rewrite expr0 ln_1 mul0r.
rewrite exprS -[_ * _]/(Rmult _ _) ln_mult ?IH; [|exact/RltPx|by apply/RltPx; apply: exprn_gt0].
by rewrite -addn1 natrD mulrDl mul1r addrC.
Qed.
Lemma gaussian_gt0 (mu : 'cV[RF]_D) Sg y : posdef Sg -> 0 < gaussian mu Sg y.
Proof.
move=> P; apply: divr_gt0; first exact: expR_gt0.
by rewrite sqrtr_gt0; apply: mulr_gt0; [apply: exprn_gt0; apply: twopi_gt0|apply: det_gt0].
Qed.
Lemma ln_gaussian (mu : 'cV[RF]_D) Sg (x : 'cV[RF]_D) : posdef Sg ->
  (ln (gaussian mu Sg x) : RR) = - ((((x - mu)^T *m invmx Sg *m (x - mu)) 0 0 : RR) + (ln (\det Sg) : RR) + D%:R * (ln (2 * PI) : RR)) / 2%:R.
Proof.
move=> P; have d0 := det_gt0 P; rewrite /gaussian; set q := (_ *m _ *m _) 0 0; move: q => q.
have t0 : 0 < (2%:R * (PI : RR)) ^+ D :> RR by apply: exprn_gt0; apply: twopi_gt0.
have m0 : 0 < (2%:R * (PI : RR)) ^+ D * \det Sg :> RR by apply: mulr_gt0.
have r0 : 0 < Num.sqrt ((2%:R * (PI : RR)) ^+ D * \det Sg) :> RR by rewrite sqrtr_gt0.
have E1 : ln (Num.sqrt ((2%:R * (PI : RR)) ^+ D * \det Sg)) = ((ln ((2%:R * (PI : RR)) ^+ D) : RR) + ln (\det Sg)) / 2%:R.
  have := ln_pow 2 r0; rewrite sqr_sqrtr ?(ltW m0) // -[_ * \det _]/(Rmult _ _) ln_mult; [|exact/RltPx|exact/RltPx] => H.
  by rewrite -[(ln _ : RR) + _]/(Rplus _ _) H [RHS]mulrC mulKf // pnatr_eq0.
rewrite (_ : ln ((exp _ : RR) / _)%R = (- q / 2%:R : RR) - ln (Num.sqrt ((2%:R * (PI : RR)) ^+ D * \det Sg))); last first.
  rewrite -[_ / Num.sqrt _]/(Rmult _ _) ln_mult; [|exact: exp_pos|by apply/RltPx; rewrite invr_gt0].
  move: r0; set r := Num.sqrt _ => r0; rewrite ln_exp RinvE (ln_Rinv r); [by rewrite RinvE|exact/RltPx].
rewrite E1 ln_pow ?twopi_gt0 //; move: (ln (\det _)) => b; move: (ln _) => c; Rify; field.
Qed.
Lemma log_qE (s : 'I_(K + 1) -> RR) (mu : 'I_(K + 1) -> 'cV[RF]_D) Sg k i : posdef (Sg k) -> 0 < s k ->
  log_q samples (fun k => aug (s k) (mu k) (Sg k)) k i =
  (ln (gaussian (mu k) (Sg k) (row i samples)^T) : RR) - (1 - D%:R * (ln (2 * PI) : RR)) / 2%:R - excess (s k).
Proof.
move=> P s0; have d0 := det_gt0 P; rewrite /log_q quad_aug // det_aug ger0_norm; last by apply: ltW; apply: mulr_gt0.
rewrite ln_gaussian // /excess; set q := (_ *m _ *m _) 0 0; move: q => q.
rewrite (_ : ln (s k * \det (Sg k))%R = Rplus (ln (s k)) (ln (\det (Sg k)))); last by apply: ln_mult; apply/RltPx.
move: (ln (s k)) (ln (\det _)) => a b; have s1 : s k <> 0%Re by apply/eqP; rewrite gt_eqF.
move: (ln _) => c; Rify; field; exact: s1.
Qed.
Definition parts (x : point K D) (s : 'I_(K + 1) -> RR) mu Sg : Prop :=
  (forall k, x.1 k = aug (s k) (mu k) (Sg k)) /\ (forall k, 0 < s k) /\ forall k, posdef (Sg k).
Lemma cost_parts x s mu Sg : parts x s mu Sg -> cost samples x.1 x.2 =
  offset - \sum_i (ln (\sum_k alpha x.2 k * (exp (- excess (s k)) : RR) * gaussian (mu k) (Sg k) (row i samples)^T) : RR).
Proof.
move=> [E [s0 P]]; have -> : x.1 = fun k => aug (s k) (mu k) (Sg k) by apply: functional_extensionality.
rewrite /cost; set c := (1 - D%:R * (ln (2 * PI) : RR)) / 2%:R.
have -> : offset = \sum_(i < N) c by rewrite sumr_const card_ord -mulr_natl /offset mulrA.
rewrite -sumrB -sumrN; apply: eq_bigr => i _; rewrite logsumexpE.
have -> : \sum_k (exp ((ln (alpha x.2 k) : RR) + log_q samples (fun k => aug (s k) (mu k) (Sg k)) k i) : RR) =
  (exp (- c) : RR) * \sum_k alpha x.2 k * (exp (- excess (s k)) : RR) * gaussian (mu k) (Sg k) (row i samples)^T.
  rewrite mulr_sumr; apply: eq_bigr => k _; rewrite (log_qE _ _ (P k) (s0 k)) -/c.
  have a0 := alpha_gt0 x.2 k; have g0 := gaussian_gt0 (mu k) (row i samples)^T (P k).
  move: (alpha _ _) (gaussian _ _ _) (excess _) a0 g0 => a g e /RltPx a0 /RltPx g0.
  by rewrite -[LHS]/(exp (ln a + (ln g - c - e))) /Rminus !exp_plus !exp_ln //; Rify; ring.
have p0 : 0 < \sum_k alpha x.2 k * (exp (- excess (s k)) : RR) * gaussian (mu k) (Sg k) (row i samples)^T.
  apply: (sum_gt0 (f := fun k => alpha x.2 k * (exp (- excess (s k)) : RR) * gaussian (mu k) (Sg k) (row i samples)^T)) => k.
  by apply: mulr_gt0; [apply: mulr_gt0; [apply: alpha_gt0|apply: expR_gt0]|apply: gaussian_gt0].
rewrite -[_ * \sum_k _]/(Rmult _ _) ln_mult; [|exact: exp_pos|exact/RltPx].
rewrite ln_exp; move: (ln _) => l; Rify; ring.
Qed.

(** A point with unit corners holds the parameters of a mixture, and its cost is the negative log-likelihood up to the offset. *)
Theorem C110_likelihood x : on_manifold x -> (forall k, corner (x.1 k) = 1) ->
  valid (read x) /\ cost samples x.1 x.2 = nll samples (read x) + offset.
Proof.
move=> M C; have H k : x.1 k = aug 1 (mu_hat (x.1 k)) (sigma_hat (x.1 k)).
  by have [] := aug_of (M k); rewrite C invr1 !scale1r => {1}-> _.
have P k : posdef (sigma_hat (x.1 k)) by have := M k; rewrite [x.1 k]H => /posdef_aug []; rewrite -H.
split; first by split=> [k|]; [apply: alpha_gt0|split; [apply: alpha_sum|]].
rewrite (@cost_parts x (fun=> 1) (fun k => mu_hat (x.1 k)) (fun k => sigma_hat (x.1 k))); last by split=> //; split=> // k; apply: ltr01.
rewrite addrC; congr (- _ + _); apply: eq_bigr => i _; congr ln; apply: eq_bigr => k _.
by rewrite excess1 -[RHS]/(alpha x.2 k * _); congr (_ * _); rewrite Ropp_0 exp_0 mulr1.
Qed.
Definition of_mixture p : point K D :=
  (fun k => aug 1 (mean p k) (covariance p k), \row_k ((ln (weight p (lshift 1 k)) : RR) - ln (weight p (rshift K 0)))).
Lemma of_mixtureP p : valid p -> on_manifold (of_mixture p) /\ (forall k, corner ((of_mixture p).1 k) = 1) /\ read (of_mixture p) = p.
Proof.
case: p => w m c [w0 [w1 P]] /=; split; first by move=> k; apply/posdef_aug; split=> //; apply: ltr01.
split; first by move=> k; rewrite /corner /= /aug block_mxEdr mxE eqxx.
rewrite /read /=; congr Mixture; apply: functional_extensionality => k; last first.
- by rewrite /sigma_hat /mu_hat /aug block_mxKul block_mxKur !scale1r addrK.
- by rewrite /mu_hat /aug block_mxKur scale1r.
have E l : (exp (nu (of_mixture (Mixture w m c)).2 0 l) : RR) = w l / w (rshift K 0).
  have wK : Rlt 0 (w (rshift K 0)) by apply/RltPx; apply: w0.
  rewrite -[l]splitK /nu; case: (split l) => j /=; rewrite ?row_mxEl ?row_mxEr mxE.
    have wl : Rlt 0 (w (lshift 1 j)) by apply/RltPx; apply: w0.
    rewrite /= -[_ - _]/(Rplus _ (Ropp _)) exp_plus exp_Ropp !exp_ln //.
    by rewrite -RinvE.
  by rewrite ord1 exp_0 divff // gt_eqF // w0.
rewrite /alpha E (eq_bigr (fun l => w l / w (rshift K 0))) => [|l _]; last exact: E.
by rewrite -mulr_suml w1 mul1r invrK -mulrA mulVf ?mulr1 // gt_eqF // w0.
Qed.
(** Every mixture is read from such a point. *)
Theorem C110_every_mixture p : valid p -> exists x, on_manifold x /\ (forall k, corner (x.1 k) = 1) /\ read x = p.
Proof. by move=> V; exists (of_mixture p); apply: of_mixtureP. Qed.

Lemma sum_lt n (f g : 'I_n -> RR) i : (forall j, f j <= g j) -> f i < g i -> \sum_j f j < \sum_j g j.
Proof. by move=> le lt; rewrite (bigD1 i) //= [ltRHS](bigD1 i) //=; apply: ltr_le_add => //; apply: ler_sum. Qed.
(** The cost falls when the excess of a component does. *)
Lemma cost_falls x y s s' mu Sg k0 : (0 < N)%N -> parts x s mu Sg -> parts y s' mu Sg -> x.2 = y.2 ->
  (forall k, excess (s' k) <= excess (s k)) -> excess (s' k0) < excess (s k0) -> cost samples y.1 y.2 < cost samples x.1 x.2.
Proof.
move=> N0 X Y vE le lt; rewrite (cost_parts X) (cost_parts Y) -vE ltr_add2l ltr_opp2.
have [_ [_ P]] := X.
have T k i : 0 < alpha x.2 k * gaussian (mu k) (Sg k) (row i samples)^T by rewrite mulr_gt0 ?alpha_gt0 ?gaussian_gt0.
have L i : (ln (\sum_k alpha x.2 k * (exp (- excess (s k)) : RR) * gaussian (mu k) (Sg k) (row i samples)^T) : RR) <
           ln (\sum_k alpha x.2 k * (exp (- excess (s' k)) : RR) * gaussian (mu k) (Sg k) (row i samples)^T).
  apply/RltPx; apply: ln_increasing; apply/RltPx.
    apply: (sum_gt0 (f := fun k => alpha x.2 k * (exp (- excess (s k)) : RR) * gaussian (mu k) (Sg k) (row i samples)^T)) => k.
    by rewrite mulrAC mulr_gt0 ?expR_gt0.
  apply: (@sum_lt _ _ _ k0) => [k|]; rewrite mulrAC [leRHS]mulrAC || rewrite mulrAC [ltRHS]mulrAC.
    rewrite ler_pmul2l //; have [->//|ne] := eqVneq (excess (s k)) (excess (s' k)).
    by apply: ltW; apply/RltPx; apply: exp_increasing; apply: Ropp_lt_contravar; apply/RltPx; rewrite lt_neqAle eq_sym ne le.
  by rewrite ltr_pmul2l //; apply/RltPx; apply: exp_increasing; apply: Ropp_lt_contravar; apply/RltPx.
by apply: (@sum_lt _ _ _ (Ordinal N0)) => [i|]; [apply: ltW|].
Qed.
Lemma partsP x : on_manifold x -> exists mu Sg, parts x (fun k => corner (x.1 k)) mu Sg.
Proof.
move=> M; pose mu k := ((corner (x.1 k))^-1 : RF) *: mu_hat (x.1 k).
exists mu, (fun k => ulsubmx (x.1 k) - (corner (x.1 k) : RF) *: (mu k *m (mu k)^T)); split; first by move=> k; have [] := aug_of (M k).
split=> k; first by have [] := aug_of (M k).
by have [E _] := aug_of (M k); have := M k; rewrite {1}E => /posdef_aug [].
Qed.
(** A point whose corners are not all one is worse than one whose corners are. *)
Theorem C110_corners x k0 : (0 < N)%N -> on_manifold x -> corner (x.1 k0) != 1 ->
  exists y : point K D, on_manifold y /\ (forall k, corner (y.1 k) = 1) /\ cost samples y.1 y.2 < cost samples x.1 x.2.
Proof.
move=> N0 M C; have [mu [Sg X]] := partsP M; pose y : point K D := (fun k => aug 1 (mu k) (Sg k), x.2); exists y.
have [_ [s0 P]] := X.
have Y : parts y (fun=> 1) mu Sg by split=> //; split=> // k; apply: ltr01.
split; first by move=> k; apply/posdef_aug; split=> //; apply: ltr01.
split; first by move=> k; rewrite /corner /= /aug block_mxEdr mxE eqxx.
by apply: (cost_falls (k0 := k0) N0 X Y) => // [k|]; rewrite excess1; [apply: excess_ge0|apply: excess_gt0].
Qed.
(** The minimisers of the cost are the maximum likelihood estimates. *)
Theorem C110_minimizers x : (0 < N)%N -> on_manifold x ->
  (forall y : point K D, on_manifold y -> cost samples x.1 x.2 <= cost samples y.1 y.2) <->
  (forall k, corner (x.1 k) = 1) /\ forall q : mixture (K + 1) D, valid q -> nll samples (read x) <= nll samples q.
Proof.
move=> N0 M; split=> [H|[C H] y My].
  have C k : corner (x.1 k) = 1.
    apply/eqP/negPn/negP => /(C110_corners N0 M) [y [My [_]]]; by rewrite ltNge H.
  split=> // q Vq; have [_ E] := C110_likelihood M C; have [Mq [Cq Eq]] := of_mixtureP Vq.
  have [_ E'] := C110_likelihood Mq Cq; rewrite Eq in E'; have := H _ Mq; by rewrite E E' ler_add2r.
have [_ E] := C110_likelihood M C.
have unit_le (z : point K D) : on_manifold z -> (forall k, corner (z.1 k) = 1) -> cost samples x.1 x.2 <= cost samples z.1 z.2.
  by move=> Mz Cz; have [Vz Ez] := C110_likelihood Mz Cz; rewrite E Ez ler_add2r; apply: H.
have [/forallP Cy|/forallPn [k Ck]] := boolP [forall k, corner (y.1 k) == 1]; first by apply: unit_le => // k; apply/eqP.
have [z [Mz [Cz lt]]] := C110_corners N0 My Ck; exact: le_trans (unit_le z Mz Cz) (ltW lt).
Qed.

(** *** Local minimisers *)
Lemma toward_gt0 (s t : RR) : 0 < s -> 0 < t -> t < 1 -> 0 < s + t * (1 - s).
Proof. by move=> s0 t0 t1; Rify_in s0; Rify_in t0; Rify_in t1; Rify; nra. Qed.
Lemma excess_toward (s t : RR) : 0 < s -> s != 1 -> 0 < t -> t < 1 -> excess (s + t * (1 - s)) < excess s.
Proof.
move=> s0 s1 t0 t1; set s' := s + _.
have s'0 : 0 < s' by apply: toward_gt0.
have n0 : s - s' != 0 by rewrite /s' opprD addNKr oppr_eq0; apply: mulf_neq0; [rewrite gt_eqF|rewrite subr_eq0 eq_sym].
have E1 : (s - s') * (s' - 1) = t * (1 - t) * (1 - s) ^+ 2 by rewrite /s'; Rify; ring.
have G : 0 <= (s - s') * (s' - 1) by rewrite E1; apply: mulr_ge0; [apply: mulr_ge0; [apply: ltW|rewrite subr_ge0; apply: ltW]|apply: sqr_ge0].
have L : (1 - s' / s : RR) < (ln s : RR) - ln s'.
  have s0' : Rlt 0 s by apply/RltPx. have s'0' : Rlt 0 s' by apply/RltPx.
  have l0 : (ln s' - ln s <> 0)%Re.
    move=> H; move/eqP: n0; apply; have -> : s' = s by apply: ln_inv => //; lra.
    by rewrite subrr.
  have := exp_ineq1 _ l0; rewrite /Rminus exp_plus exp_Ropp !exp_ln // => H; Rify; move: H; rewrite /Rdiv; lra.
have F : (s^-1 - s'^-1 + (1 - s' / s)) = (s - s') * (s' - 1) / (s * s') :> RR.
  have s1' : s <> 0%Re by apply/eqP; rewrite gt_eqF.
  have s2' : s' <> 0%Re by apply/eqP; rewrite gt_eqF.
  by clear -s1' s2'; Rify; field.
have G' : 0 <= (s - s') * (s' - 1) / (s * s') :> RR by apply: divr_ge0 => //; apply: ltW; apply: mulr_gt0.
rewrite /excess ltr_pmul2r ?invr_gt0 ?ltr0Sn // ltr_add2r; move: L; rewrite -F in G'; move: (ln s) (ln s') (s'/s) G' => a b c G' L.
by Rify_in G'; Rify_in L; Rify; lra.
Qed.
Lemma local_corner x : (0 < N)%N -> on_manifold x -> local_minimum samples x -> forall k, corner (x.1 k) = 1.
Proof.
move=> N0 M [e [e0 H]] k0; apply/eqP/negPn/negP => C; have [mu [Sg X]] := partsP M; have [XE [s0 P]] := X.
pose s k := corner (x.1 k); pose E k : 'M[RF]_(D + 1) := block_mx (mu k *m (mu k)^T) (mu k) (mu k)^T 1%:M.
pose B : RR := 1 + `|1 - s k0| * \sum_i \sum_j `|E k0 i j : RR|.
have S0 : 0 <= \sum_i \sum_j `|E k0 i j : RR| by apply: sumr_ge0 => i _; apply: sumr_ge0.
have B0 : 0 < B by rewrite /B; apply: ltr_paddr; [apply: mulr_ge0|apply: ltr01].
pose t : RR := Num.min 2%:R^-1 (e / B); pose s' k := if k == k0 then s k + t * (1 - s k) else s k.
have t0 : 0 < t by rewrite lt_minr invr_gt0 ltr0Sn divr_gt0.
have t1 : t < 1 by rewrite lt_minl invf_lt1 ?ltr0Sn // ltr1n.
have te : t * B <= e by rewrite -ler_pdivl_mulr // le_minl lexx orbT.
pose y : point K D := (fun k => aug (s' k) (mu k) (Sg k), x.2).
have s'0 k : 0 < s' k.
  by rewrite /s'; case: eqP => _; [apply: toward_gt0 => //; apply: s0|apply: s0].
have Y : parts y s' mu Sg by [].
have lt : cost samples y.1 y.2 < cost samples x.1 x.2.
  apply: (cost_falls (k0 := k0) N0 X Y) => // [k|]; rewrite /s' ?eqxx; last by apply: excess_toward => //; apply: s0.
  by case: eqP => // ->; apply: ltW; apply: excess_toward => //; apply: s0.
suff : near e x y by move=> Ny; move: lt; rewrite ltNge H // => k; apply/posdef_aug.
have augD (a b : RR) k : aug (a + b) (mu k) (Sg k) = aug a (mu k) (Sg k) + (b : RF) *: E k.
  rewrite /aug /E scale_block_mx add_block_mx !scalerDl addrA scalemx1.
  by congr block_mx; rewrite [LHS]raddfD.
split=> [k i j|j]; last by rewrite subrr normr0.
rewrite [x.1 k]XE /= /s'; case: eqP => [->|_]; last by rewrite subrr normr0.
rewrite augD mxE addrAC subrr add0r mxE normrM normrM (gtr0_norm t0) -mulrA; apply: lt_le_trans te; rewrite ltr_pmul2l //.
rewrite /B; apply: (@le_lt_trans _ _ (`|1 - s k0| * \sum_i \sum_j `|E k0 i j : RR|)); last by rewrite ltr_addr ltr01.
apply: ler_wpmul2l => //; rewrite (bigD1 i) //= (bigD1 j) //= -addrA ler_addl; apply: addr_ge0; first by apply: sumr_ge0.
by apply: sumr_ge0 => a _; apply: sumr_ge0.
Qed.

Lemma near_mixture_le (p q : mixture (K + 1) D) (d d' : RR) : d <= d' -> near_mixture d p q -> near_mixture d' p q.
Proof.
move=> dd H k; have [a [b c]] := H k.
by split; [apply: lt_le_trans dd|split=> [i|i j]; [apply: lt_le_trans (b i) dd|apply: lt_le_trans (c i j) dd]].
Qed.
Lemma near_le (x y : point K D) (d d' : RR) : d <= d' -> near d x y -> near d' x y.
Proof. by move=> dd [a b]; split=> [k i j|j]; [apply: lt_le_trans (a k i j) dd|apply: lt_le_trans (b j) dd]. Qed.
(** The point of a mixture depends continuously on its parameters. *)
Lemma of_mixture_near p (e : RR) : valid p -> 0 < e -> eventually (@near_mixture _ _) p (fun q => near e (of_mixture p) (of_mixture q)).
Proof.
move=> [w0 _] e0; pose nle := near_mixture_le.
have cw k : cont (@near_mixture _ _) p (fun q => weight q k).
  by move=> a a0; exists a => // q H; have [] := H k.
have cm k i : cont (@near_mixture _ _) p (fun q => (mean q k i 0 : RR)).
  by move=> a a0; exists a => // q H; have [_ [M _]] := H k.
have cc k i j : cont (@near_mixture _ _) p (fun q => (covariance q k i j : RR)).
  by move=> a a0; exists a => // q H; have [_ [_ C]] := H k.
apply: (both nle).
  apply: (all_of nle) => k; apply: (all_of nle) => i; apply: (all_of nle) => j.
  suff C : cont (@near_mixture _ _) p (fun q => ((of_mixture q).1 k i j : RR)) by apply: C.
  rewrite -[i]splitK -[j]splitK /=; case: (split i) => i'; case: (split j) => j' /=.
  - apply: (cont_ext (f := fun q => (covariance q k i' j' : RR) + mean q k i' 0 * mean q k j' 0)) => [q|].
      by rewrite /aug block_mxEul scale1r mxE [in RHS]mxE big_ord1 !mxE.
    by apply: (cont_add nle) => //; apply: (cont_mul nle).
  - apply: (cont_ext (f := fun q => (mean q k i' 0 : RR))) => [q|//].
    by rewrite /aug block_mxEur scale1r ord1.
  - apply: (cont_ext (f := fun q => (mean q k j' 0 : RR))) => [q|//].
    by rewrite /aug block_mxEdl scale1r ord1 mxE.
  - by apply: (cont_ext (f := fun q => (1%:M : 'M[RF]_1) i' j' : RR)) => [q|]; [rewrite /aug block_mxEdr|apply: cont_const].
apply: (all_of nle) => j; suff C : cont (@near_mixture _ _) p (fun q => ((of_mixture q).2 0 j : RR)) by apply: C.
apply: (cont_ext (f := fun q => (ln (weight q (lshift 1 j)) : RR) - ln (weight q (rshift K 0)))) => [q|]; first by rewrite mxE.
by apply: (cont_add nle); [|apply: (cont_opp nle)]; apply: cont_ln.
Qed.
Lemma ln_alpha (v : 'rV[RF]_K) k : (ln (alpha v k) : RR) = nu v 0 k - (ln (\sum_l (exp (nu v 0 l) : RR)) : RR).
Proof.
have z0 : 0 < \sum_l (exp (nu v 0 l) : RR) by apply: (sum_gt0 (f := fun l => exp (nu v 0 l))) => l; apply: expR_gt0.
rewrite /alpha; move: z0; set z := \sum_l _ => z0; have z0' : Rlt 0 z by apply/RltPx.
by rewrite -[_ / z]/(Rmult _ _) RinvE ln_mult ?ln_exp ?ln_Rinv //; [apply: exp_pos|apply: Rinv_0_lt_compat].
Qed.
Lemma of_read x : on_manifold x -> (forall k, corner (x.1 k) = 1) -> of_mixture (read x) = x.
Proof.
move=> M C; case: x M C => S v M C; rewrite /of_mixture /read /=; congr pair.
  apply: functional_extensionality => k; have [E _] := aug_of (M k); rewrite [RHS]E /= [corner (S k)]C invr1 !scale1r.
  by [].
apply/rowP => j; rewrite mxE.
by rewrite !ln_alpha opprD addrACA subrr addr0 /nu row_mxEl row_mxEr [X in _ - X]mxE subr0.
Qed.
(** What a point near one with unit corners holds after its corners are set to one. *)
Definition normalise x : mixture (K + 1) D :=
  let s k := corner (x.1 k) in let mu k := ((s k)^-1 : RF) *: mu_hat (x.1 k) in
  Mixture (alpha x.2) mu (fun k => ulsubmx (x.1 k) - (s k : RF) *: (mu k *m (mu k)^T)).
Lemma normalise_valid x : on_manifold x -> valid (normalise x) /\ nll samples (normalise x) + offset <= cost samples x.1 x.2.
Proof.
move=> M; have X : parts x (fun k => corner (x.1 k)) (mean (normalise x)) (covariance (normalise x)).
  split; first by move=> k; have [] := aug_of (M k).
  split=> k; first by have [] := aug_of (M k).
  by have [E _] := aug_of (M k); have := M k; rewrite {1}E => /posdef_aug [].
have [_ [s0 P]] := X; split; first by split=> [k|]; [apply: alpha_gt0|split; [apply: alpha_sum|]].
rewrite (cost_parts X) addrC ler_add2l ler_opp2; apply: ler_sum => i _.
set a := \sum_k _; set b := \sum_k _.
have ab : a <= b.
  apply: ler_sum => k _; apply: ler_wpmul2r; first by apply: ltW; apply: gaussian_gt0.
  rewrite -[leRHS]mulr1; apply: ler_wpmul2l; first by apply: ltW; apply: alpha_gt0.
  have [->|ne] := eqVneq (excess (corner (x.1 k))) 0; first by rewrite Ropp_0 exp_0.
  have p0 : 0 < excess (corner (x.1 k)) by rewrite lt_def ne excess_ge0.
  by apply: ltW; rewrite -[ltRHS]exp_0; apply/RltPx; apply: exp_increasing; Rify_in p0; lra.
have a0 : 0 < a.
  apply: (sum_gt0 (f := fun k => alpha x.2 k * (exp (- excess (corner (x.1 k))) : RR) * gaussian (mean (normalise x) k) (covariance (normalise x) k) (row i samples)^T)) => k.
  by apply: mulr_gt0; [apply: mulr_gt0; [apply: alpha_gt0|apply: expR_gt0]|apply: gaussian_gt0].
have [->//|ne] := eqVneq a b; apply: ltW; apply/RltPx; apply: ln_increasing; apply/RltPx => //.
by rewrite lt_neqAle ne.
Qed.
Lemma normalise_near x (e : RR) : (forall k, corner (x.1 k) = 1) -> 0 < e ->
  eventually (@near _ _) x (fun y => near_mixture e (normalise x) (normalise y)).
Proof.
move=> C e0; pose nle := near_le.
have c1 k i j : cont (@near _ _) x (fun y => (y.1 k i j : RR)) by move=> a a0; exists a => // y [H _].
have c2 j : cont (@near _ _) x (fun y => (y.2 0 j : RR)) by move=> a a0; exists a => // y [_ H].
have cnu k : cont (@near _ _) x (fun y => (nu y.2 0 k : RR)).
  rewrite -[k]splitK; case: (split k) => j /=.
    by apply: (cont_ext (f := fun y : point K D => (y.2 0 j : RR))) => [y|//]; rewrite /nu row_mxEl.
  by apply: (cont_ext (f := fun _ : point K D => 0)) => [y|]; [rewrite /nu row_mxEr mxE|apply: cont_const].
have ca k : cont (@near _ _) x (fun y => alpha y.2 k).
  apply: (cont_mul nle); first by apply: cont_exp.
  apply: cont_inv; last by apply: (cont_sum nle) => l; apply: cont_exp.
  by rewrite gt_eqF //; apply: (sum_gt0 (f := fun l => exp (nu x.2 0 l))) => l; apply: expR_gt0.
have cs k : cont (@near _ _) x (fun y => corner (y.1 k)) by apply: c1.
have ci k : cont (@near _ _) x (fun y => (corner (y.1 k))^-1) by apply: cont_inv => //; rewrite C oner_eq0.
have cm k i : cont (@near _ _) x (fun y => (mean (normalise y) k i 0 : RR)).
  apply: (cont_ext (f := fun y : point K D => (corner (y.1 k))^-1 * (y.1 k (lshift 1 i) (rshift D 0) : RR))) => [y|]; first by rewrite !mxE.
  exact: (cont_mul nle).
have cc k i j : cont (@near _ _) x (fun y => (covariance (normalise y) k i j : RR)).
  apply: (cont_ext (f := fun y : point K D => (y.1 k (lshift 1 i) (lshift 1 j) : RR) - corner (y.1 k) * (mean (normalise y) k i 0 * mean (normalise y) k j 0))) => [y|].
    by rewrite /= !mxE big_ord1 !mxE.
  by apply: (cont_add nle) => //; apply: (cont_opp nle); apply: (cont_mul nle) => //; apply: (cont_mul nle).
apply: (all_of nle) => k; apply: (both nle); first by apply: ca.
apply: (both nle); first by apply: (all_of nle) => i; apply: cm.
by apply: (all_of nle) => i; apply: (all_of nle) => j; apply: cc.
Qed.
(** The local minimisers of the cost are the local maxima of the likelihood. *)
Theorem C110_local_minimizers x : (0 < N)%N -> on_manifold x ->
  local_minimum samples x <-> (forall k, corner (x.1 k) = 1) /\ locally_most_likely samples (read x).
Proof.
move=> N0 M; split=> [L|[C [e [e0 H]]]].
  have C := local_corner N0 M L; split=> //; have [V E] := C110_likelihood M C; have [e [e0 H]] := L.
  have [d d0 Hd] := of_mixture_near V e0; exists d; split=> // q Vq Nq.
  have [Mq [Cq Eq]] := of_mixtureP Vq; have [_ E'] := C110_likelihood Mq Cq; rewrite Eq in E'.
  have := H _ Mq; rewrite -{1}(of_read M C) => /(_ (Hd _ Nq)); by rewrite E E' ler_add2r.
have [V E] := C110_likelihood M C; have [d d0 Hd] := normalise_near C e0; exists d; split=> // y My Ny.
have [Vy ly] := normalise_valid My; apply: le_trans ly; rewrite E ler_add2r; apply: H => //.
suff -> : read x = normalise x by apply: Hd.
by rewrite /read /normalise; congr Mixture; apply: functional_extensionality => k; rewrite C invr1 !scale1r.
Qed.

(** With two components or more the cost has no minimum: one component can collapse onto a sample. *)
Theorem C110_unbounded (B : RR) : (0 < N)%N -> (0 < D)%N -> (0 < K)%N ->
  exists x : point K D, on_manifold x /\ (forall k, corner (x.1 k) = 1) /\ cost samples x.1 x.2 < B.
Proof.
move=> N0 D0 K0; pose i0 := Ordinal N0; pose k0 : 'I_(K + 1) := rshift K 0; pose k1 : 'I_(K + 1) := lshift 1 (Ordinal K0).
have k10 : k1 != k0 by rewrite eq_lrshift.
pose w : RR := (K + 1)%:R^-1; have w0 : 0 < w by rewrite invr_gt0 ltr0n addn1.
pose p (a : RR) : mixture (K + 1) D := Mixture (fun=> w)
  (fun k => if k == k0 then (row i0 samples)^T else 0) (fun k => if k == k0 then (a : RF)%:M else 1%:M).
have Pa (a : RR) : 0 < a -> posdef ((a : RF)%:M : 'M[RF]_D).
  by move=> a0; rewrite -scalemx1; apply: (@posdefZ _ RF) => //; apply: posdef1.
have V (a : RR) : 0 < a -> valid (p a).
  move=> a0; split=> //; split; first by rewrite sumr_const card_ord -mulr_natr mulVf // pnatr_eq0 addn1.
  by move=> k /=; case: eqP => _; [apply: Pa|apply: posdef1].
pose c i : RR := ln (w * gaussian 0 1%:M (row i samples)^T).
pose A : RR := - (\sum_(i | i != i0) c i) - (ln w : RR) + D%:R * (ln (2 * PI) : RR) / 2%:R + offset.
pose t : RR := 2%:R * (`|A - B| + 1); pose a : RR := exp (- t).
have a0 : 0 < a by apply: expR_gt0.
exists (of_mixture (p a)); have [M [C E]] := of_mixtureP (V a a0); split=> //; split=> //.
have [_ ->] := C110_likelihood M C; rewrite E.
have T (b : RR) k i : 0 < b -> 0 < weight (p b) k * gaussian (mean (p b) k) (covariance (p b) k) (row i samples)^T.
  by move=> b0; apply: mulr_gt0 => //; apply: gaussian_gt0; have [_ [_]] := V b b0; apply.
have G i k : (ln (weight (p a) k * gaussian (mean (p a) k) (covariance (p a) k) (row i samples)^T)%R : RR) <=
    ln (\sum_l weight (p a) l * gaussian (mean (p a) l) (covariance (p a) l) (row i samples)^T).
  have S : weight (p a) k * gaussian (mean (p a) k) (covariance (p a) k) (row i samples)^T <=
    \sum_l weight (p a) l * gaussian (mean (p a) l) (covariance (p a) l) (row i samples)^T.
    by rewrite (bigD1 k) //= ler_addl; apply: sumr_ge0 => l _; apply: ltW; apply: T.
  move: S; rewrite le_eqVlt => /orP [/eqP <- //|lt]; apply: ltW; apply/RltPx; apply: ln_increasing; apply/RltPx => //.
  exact: T.
have g0 : (ln (weight (p a) k0 * gaussian (mean (p a) k0) (covariance (p a) k0) (row i0 samples)^T)%R : RR) =
  (ln w : RR) + D%:R * t / 2%:R - D%:R * (ln (2 * PI) : RR) / 2%:R.
  rewrite /= eqxx -[_ * gaussian _ _ _]/(Rmult _ _) ln_mult; [|exact/RltPx|by apply/RltPx; apply: gaussian_gt0; apply: Pa].
  rewrite ln_gaussian; last exact: Pa.
  rewrite subrr mulmx0 mxE det_scalar ln_pow // ln_exp; move: (ln w) (ln _) => u l; Rify; field.
have g1 i : (ln (weight (p a) k1 * gaussian (mean (p a) k1) (covariance (p a) k1) (row i samples)^T)%R : RR) = c i.
  by rewrite /= (negbTE k10).
pose f i : RR := ln (\sum_l weight (p a) l * gaussian (mean (p a) l) (covariance (p a) l) (row i samples)^T).
have -> : nll samples (p a) = - \sum_i f i by [].
have L : A - offset - D%:R * t / 2%:R >= - \sum_i f i.
  rewrite (bigD1 i0) //= opprD.
  have := G i0 k0; rewrite g0 -/(f i0) => H0.
  have : \sum_(i | i != i0) c i <= \sum_(i | i != i0) f i by apply: ler_sum => i _; rewrite -g1; apply: G.
  rewrite /A; move: (\sum_(i | _) c i) (\sum_(i | _) f i) (f i0) H0 => x y z H0 H1.
  Rify_in H0; Rify_in H1; Rify; lra.
apply: le_lt_trans (_ : A - offset - D%:R * t / 2%:R + offset < B); first by rewrite ler_add2r.
have D1 : 1 <= D%:R :> RR by rewrite ler1n.
have Ht : 0 <= t by rewrite mulr_ge0 ?ler0n // addr_ge0.
have tE : t / 2%:R = `|A - B| + 1 by rewrite /t mulrAC divff ?mul1r // pnatr_eq0.
have H : t / 2%:R <= D%:R * t / 2%:R by rewrite -[leRHS]mulrA; apply: ler_pemull => //; apply: divr_ge0 => //; apply: ler0n.
have n1 := ler_norm (A - B); rewrite tE in H; move: (D%:R * t / 2%:R) H n1 => u H n1.
by move: (`|A - B|) H n1 => m H n1; Rify_in H; Rify_in n1; Rify; lra.
Qed.
End Cost.

(** The read-out needs the corner to be one: away from it the matrix read as the covariance need not be one. *)
Theorem C110_read_refuted : exists x : point 0 1, on_manifold x /\ ~ posdef (covariance (read x) 0).
Proof.
pose S : 'M[RF]_(1 + 1) := aug 2%:R (1%:M : 'cV[RF]_1) 1%:M; exists (fun=> S, 0); split.
  by move=> k; apply/posdef_aug; split; [apply: posdef1|apply: ltr0Sn].
have -> : covariance (read ((fun=> S, 0) : point 0 1)) 0 = (-1)%:M.
  rewrite /= /sigma_hat /mu_hat /S /aug block_mxKul block_mxKur.
  apply/matrixP => i j; rewrite !ord1 !mxE /= !big_ord1 !mxE /= !mulr1n.
  change (Rminus (Rplus 1 (Rmult 2 (Rmult 1 1))) (Rmult (Rmult 2 1) (Rmult 2 1)) = Ropp 1); ring.
move=> [_ P]; have := P 1%:M (matrix_nonzero1 _ _); rewrite adjT trmx1 mul1mx mulmx1 mxE /=.
by rewrite ltr0N1.
Qed.
(** A minimiser: one component and the samples 1 and -1. *)
Definition two_samples : 'M[RF]_(2, 1) := \matrix_(i, j) (if i == 0 then 1 else -1).
Theorem C110_instance : let x : point 0 1 := of_mixture (Mixture (fun=> 1) (fun=> 0) (fun=> 1%:M)) in
  on_manifold x /\ (forall y : point 0 1, on_manifold y -> cost two_samples x.1 x.2 <= cost two_samples y.1 y.2) /\ local_minimum two_samples x.
Proof.
move=> x; pose p : mixture (0 + 1) 1 := Mixture (fun=> 1) (fun=> 0) (fun=> 1%:M).
have V : valid p by split=> [k|]; [apply: ltr01|split=> [|k]; [rewrite big_ord1|apply: posdef1]].
have [M [C E]] := of_mixtureP V; split=> //.
suff H : forall y : point 0 1, on_manifold y -> cost two_samples x.1 x.2 <= cost two_samples y.1 y.2.
  by split=> //; exists 1; split=> [|y My _]; [apply: ltr01|apply: H].
apply/C110_minimizers => //; split=> // q Vq; rewrite E /nll ler_opp2 !big_ord_recl !big_ord0.
have [_ [w1 P]] := Vq; rewrite big_ord1 in w1; have s0 := det_gt0 (P 0).
rewrite !addr0 w1 !mul1r !ln_gaussian //; try exact: posdef1.
have Q (u : 'cV[RF]_1) (S : 'M[RF]_1) : ((u^T *m invmx S *m u) 0 0 : RR) = (u 0 0) ^+ 2 / \det S.
  rewrite [S]mx11_scalar invmx_scalar mul_mx_scalar -scalemxAl mxE [X in _ * X]mxE big_ord1 mxE det_scalar1 expr2.
  by rewrite mulrC.
have r0 : (row ord0 two_samples)^T 0 0 = 1 by rewrite !mxE.
have r1 : (row (lift ord0 ord0) two_samples)^T 0 0 = -1 by rewrite !mxE.
have sub (u w : 'cV[RF]_1) : (u - w) 0 0 = u 0 0 - w 0 0 by rewrite !mxE.
have m0 : mean p ord0 = 0 by []. have c0 : covariance p ord0 = 1%:M by [].
rewrite !Q !sub m0 c0 det1 ln_1 r0 r1 [(0 : 'cV[RF]_1) 0 0]mxE.
have := excess_ge0 s0; rewrite /excess; set d := \det _ in s0 *; set m := mean q 0 0 0; move: (ln _) => l.
have d1 : 0 <= (m ^+ 2 / d : RR) by apply: divr_ge0; [apply: sqr_ge0|apply: ltW].
clearbody m; move: d1; move: (d^-1) => i d1 H; rewrite !expr2 in d1 *.
have i1 : (1 : RR)^-1 = 1 by rewrite invr1.
rewrite [1^-1]i1; move: (ln _) => c; Rify_in d1; Rify_in H.
have E1 : Rmult (Rmult m m) i = Rmult i (Rmult m m) by ring.
by Rify; lra.
Qed.
