(** Properties C73, C74, C75, C91 (and C61, C80 for these manifolds) of src/pymanopt/manifolds/positive_definite.py *)
From Coq Require Import Reals Lra.
From mathcomp Require Import all_ssreflect all_algebra.
From mathcomp.real_closed Require Import complex.
From Coq Require Import Ring Field ClassicalEpsilon.
From Verif Require Import Rstruct MCRing Mat_Base Geometry_Spec Linalg_Spec Calculus Components Connection Multi_Model Multi_Proofs.
From Verif Require Import Euclidean_Model Euclidean_Props Sphere_Model Sphere_Proofs Stiefel_Model Stiefel_Proofs Expm Logm Linalg_Exist.
From Verif Require Import Stack_Proofs Grassmann_Props Group_Props PosDef_Model PosDef_Proofs Spectral PosDef_Exp PosDef_Special.
Set Implicit Arguments.
Unset Strict Implicit.
Unset Printing Implicit Defensive.
Import GRing.Theory Num.Theory Order.TTheory.
Local Open Scope ring_scope.
Delimit Scope R_scope with Re.

(** ** Specification.  Points are stacks of (Hermitian) positive definite matrices, tangent vectors stacks of
    Hermitian matrices.  For [SymmetricPositiveDefinite] the entries are real, and Hermitian means symmetric. *)
Section Spec.
Variables (R : rcfType) (F : starField R) (k n : nat).
Local Notation array := (stack F k n n).
Definition on_pd (x : array) : Prop := forall i, posdef (x i).
Definition herm_vector (v : array) : Prop := forall i, (v i)^H = v i.
(** the affine-invariant metric *)
Definition affine_metric (x u v : array) : R :=
  \sum_i sf_re (\tr (invmx (x i) *m u i *m invmx (x i) *m v i)).
(** its connection: see C91_connection *)
Definition affine_connection (x u v : array) : array :=
  [ffun i => - (sf_real 2%:R^-1 *: (u i *m invmx (x i) *m v i + v i *m invmx (x i) *m u i))].
(** matrices with determinant one, and the solutions [v] of the linearised equation [det x * tr (x^-1 v) = 0] *)
Definition on_shpd (x : array) : Prop := forall i, posdef (x i) /\ \det (x i) = 1.
Definition shpd_tangent (x v : array) : Prop := forall i, (v i)^H = v i /\ sf_re (\tr (invmx (x i) *m v i)) = 0.
End Spec.

Section PD.
Variables (R : rcfType) (F : starField R) (k n : nat).
Local Notation array := (stack F k n n).
Local Notation scale := (@sscale R F k n n).
Local Notation dot := (@sinner R F k n n).
Local Notation J := (@sinner_ips R F k n n).
Local Notation on := (@on_pd R F k n).
Local Notation herm := (@herm_vector R F k n).
Local Notation I := (@inner_ips R F n n).
Implicit Types x y u v w g h : array.
Add Ring R_ring : (mc_ring R).
Lemma solveE x v i : np_solve x v i = invmx (x i) *m v i. Proof. by rewrite ffunE. Qed.
Lemma pd_ipE x u v : pd_inner_product x u v = \sum_i pip (x i) (u i) (v i).
Proof.
rewrite /pd_inner_product raddf_sum; apply: eq_bigr => i _; rewrite /pip; congr (sf_re _).
apply: eq_bigr => r _; rewrite mxE; apply: eq_bigr => c _.
by rewrite [multitransp _ _]ffunE !solveE; congr (_ * _); rewrite mxE.
Qed.
Lemma affineE x u v : affine_metric x u v = pd_inner_product x u v.
Proof. by rewrite pd_ipE; apply: eq_bigr => i _; rewrite /pip !mulmxA. Qed.
Lemma pd_gradE x g i : pd_gradient x g i = hsym (x i *m g i *m x i).
Proof. by rewrite /pd_gradient /pd_projection hermE !stack_mul. Qed.
Lemma pd_hessE x g h v i : pd_hessian x g h v i = phess (x i) (g i) (h i) (v i).
Proof. by rewrite /pd_hessian stackD !stack_mul !hermE !stack_mul hermE. Qed.
Lemma pd_retrE x v i : on x -> herm v -> pd_retraction x v i = pretr (x i) (v i).
Proof.
move=> hx hv; rewrite /pd_retraction hermE !stackD np_divE stackZ stack_mul solveE mulmxA -half_real.
by rewrite -/(pretr (x i) (v i)) hsym_id // pretr_herm.
Qed.
Lemma connE x u v i : on x -> herm u -> herm v -> affine_connection x u v i = pgam (x i) (u i) (v i).
Proof. by move=> hx hu hv; rewrite ffunE pgamE // half_real. Qed.
Lemma herm_subspace : real_subspace scale herm.
Proof.
apply: (stack_subspace (T := fun _ V => V^H = V)) => i; split; first by rewrite adjmx0.
split; first by move=> a b ha hb; rewrite adjmxD ha hb.
by move=> a b hb; rewrite /rscale adjmxZreal hb.
Qed.
Lemma herm_opp v : herm v -> herm (- v). Proof. by move=> h i; rewrite stackN adjmxN h. Qed.
Lemma herm_scale a v : herm v -> herm (scale a v). Proof. by case: herm_subspace => _ [_ H]; apply: H. Qed.
Lemma hsym_projects (W : 'M[F]_n) : projects_to (@inner R F n n) (fun V => V^H = V) W (hsym W).
Proof.
split; first exact: hsym_herm.
split; first by move=> h; rewrite hsym_id.
by move=> t ht; rewrite innerBl dot_hsym // subrr.
Qed.
Lemma pip_sum_gt0 x (S : array -> Prop) v : on x -> herm v -> v != 0 -> 0 < pd_inner_product x v v.
Proof.
move=> hx hv v0; rewrite pd_ipE.
have [i vi] : exists i, v i != 0.
  apply/existsP; apply: contraNT v0; rewrite negb_exists => /forallP H; apply/eqP/ffunP => i.
  by have := H i; rewrite negbK stack0 => /eqP.
rewrite (bigD1 i) //=; apply: ltr_paddr; last exact: pip_gt0.
apply: sumr_ge0 => l _; have [->|vl] := eqVneq (v l) 0; last by apply/ltW/pip_gt0.
by rewrite /pip mulmx0 mul0mx linear0 raddf0.
Qed.
Lemma pd_ip x (S : array -> Prop) : on x -> (forall v, S v -> herm v) -> inner_product_on scale S (pd_inner_product x).
Proof.
move=> hx SH; split; first by move=> u v _ _; rewrite !pd_ipE; apply: eq_bigr => i _; rewrite pipC.
split; first by move=> u v w _ _ _; rewrite !pd_ipE -big_split; apply: eq_bigr => i _; rewrite stackD pipDl.
split; first by move=> a u v _ _; rewrite !pd_ipE mulr_sumr; apply: eq_bigr => i _; rewrite stackZ -/(rscale _ _) pipZl.
by move=> u Su; apply: (pip_sum_gt0 S) => //; apply: SH.
Qed.
Lemma pd_norm_sqr x v : on x -> herm v -> pd_norm x v ^+ 2 = pd_inner_product x v v.
Proof.
move=> hx hv; rewrite sqr_sqrtr //; have [->|v0] := eqVneq v 0; last by apply/ltW/(pip_sum_gt0 herm).
by rewrite pd_ipE sumr_ge0 // => i _; rewrite stack0 /pip mulmx0 mul0mx linear0 raddf0.
Qed.

(** ** C73 *)
Theorem C73_metric x : on x ->
  inner_product_on scale herm (pd_inner_product x) /\
  (forall u v, pd_inner_product x u v = affine_metric x u v) /\
  (forall v, herm v -> pd_norm x v ^+ 2 = pd_inner_product x v v /\ 0 <= pd_norm x v) /\
  (forall v, projects_to dot herm v (pd_projection x v) /\ nearest_in dot herm v (pd_projection x v) /\
     pd_to_tangent_space x v = pd_projection x v) /\
  (forall g, represents_gradient dot herm (pd_inner_product x) g (pd_gradient x g)) /\
  herm (pd_zero_vector x) /\ (forall y v, herm v -> herm (pd_transport x y v)).
Proof.
move=> hx; split; first exact: pd_ip.
split; first by move=> u v; rewrite affineE.
split; first by move=> v hv; split; [apply: pd_norm_sqr|apply: sqrtr_ge0].
split.
  move=> v; have P : projects_to dot herm v (pd_projection x v).
    by apply: (projects_to_stack (T := fun _ V => V^H = V)) => i; rewrite hermE; apply: hsym_projects.
  split=> //; split=> //; exact: (projects_to_nearest J herm_subspace herm_opp P).
split.
  move=> g; split; first by move=> i; rewrite pd_gradE hsym_herm.
  move=> t ht; rewrite pd_ipE; apply: eq_bigr => i _; rewrite pd_gradE hsym_congr; last by case: (hx i).
  by rewrite pip_gradient.
by split=> //; case: herm_subspace.
Qed.
(** The retraction stays on the manifold for tangent vectors of any size, is one of first order with a quadratic error
    bound, and of second order: the curves it defines have no acceleration at zero. *)
Theorem C73_retraction x v : on x -> herm v ->
  on (pd_retraction x v) /\ pd_retraction x (pd_zero_vector x) = x /\
  (forall i, fnorm (pd_retraction x v i - (x i + v i)) <= 2%:R^-1 * fnorm (invmx (x i)) * fnorm (v i) ^+ 2) /\
  first_order dot herm x (pd_retraction x) /\
  exists velocity : R -> array,
    velocity 0 = v /\ (forall t, derives scale dot (fun s => pd_retraction x (scale (t + s) v)) (velocity t)) /\
    exists2 a, derives scale dot velocity a & a + affine_connection x v v = 0.
Proof.
move=> hx hv; split; first by move=> i; rewrite pd_retrE //; apply: pretr_posdef.
have Z : herm 0 by case: herm_subspace.
have R0 : pd_retraction x 0 = x.
  by apply/ffunP => i; rewrite pd_retrE // stack0 /pretr mulmx0 scaler0 !addr0.
split=> //; split; first by move=> i; rewrite pd_retrE //; apply: pretr_bound.
split.
  pose C := \sum_i (2%:R^-1 * fnorm (invmx (x i))).
  have p i : 0 <= 2%:R^-1 * fnorm (invmx (x i)) by rewrite mulr_ge0 ?invr_ge0 ?ler0n ?fnorm_ge0.
  apply: (stack_first_order (C := C) (r := 1)); rewrite ?ltr01 //; first by apply: sumr_ge0.
  move=> i w hw _; rewrite pd_retrE //; apply: le_trans (pretr_bound _ _) _; rewrite ler_wpmul2r ?sqr_ge0 //.
  by rewrite /C (bigD1 i) //= ler_addl; apply: sumr_ge0.
pose a : array := [ffun i => v i *m invmx (x i) *m v i].
exists (fun t => v + scale t a); split.
  by apply/ffunP => i; rewrite stackD stackZ rmorph0 scale0r addr0.
have hs (t : R) : herm (scale t v) by apply: herm_scale.
split.
  move=> t; apply: stack_derives => i.
  have Dt : derives (@real_scale R) (@real_dot R) (fun s : R => t + s) 1.
    by apply: derives_ext (derives_line (@real_ips R) t 1) => s; rewrite /real_scale mulr1.
  have D1 := derives_scale I Dt (derives_const I (v i)).
  have D2 := derives_scale I (derives_dot (@real_ips R) Dt Dt) (derives_const I (half F *: a i)).
  have D := derives_add I (derives_add I (derives_const I (x i)) D1) D2.
  rewrite addr0 in D.
  rewrite (_ : (v + scale t a) i = 0 + (rscale 1 (v i) + rscale t 0) + (rscale (1 * t + t * 1) (half F *: a i) + rscale (t * t) 0)); last first.
    rewrite stackD stackZ add0r /rscale !scaler0 !addr0 rmorph1 scale1r mul1r mulr1 rmorphD scalerDl; congr (_ + _).
    by rewrite -scalerDr -scalerDr scale_half2.
  rewrite (_ : 1 * t + t * 1 = real_dot 1 t + real_dot t 1) //; apply: derives_ext D => s.
  rewrite pd_retrE // stackZ /pretr ffunE /rscale -!scalemxAl -!scalemxAr !scalerA -!mulrA; congr (_ + _ *: _).
  by rewrite /real_dot rmorphM [RHS]mulrC -mulrA.
exists a.
  exact: (derives_line J).
apply/ffunP => i; rewrite stackD [affine_connection _ _ _ i]ffunE stack0 ffunE -half_real.
by rewrite scale_half2 subrr.
Qed.

(** ** C91: the connection *)
Theorem C91_connection : levi_civita scale dot on herm (@pd_inner_product R F k n) (@affine_connection R F k n).
Proof.
split.
  move=> x u v hx hu hv; split; first by move=> i; rewrite connE // pgam_herm.
  by apply/ffunP => i; rewrite !connE // pgamC.
move=> c v A A' B B' hc hA hB Dc hv DA hA' DB hB'.
have D i := metric_derives (fun t => hc t i) (hv i) (hA 0 i) (hB 0 i) (derives_stack i Dc) (derives_stack i DA) (derives_stack i DB).
have := derives_sum (index_enum [finType of 'I_k]) (@real_ips R) D.
rewrite !pd_ipE -big_split /= (_ : \sum_(i <- _) _ = \sum_i (pip (c 0 i) ((A' + affine_connection (c 0) v (A 0)) i) (B 0 i) +
  pip (c 0 i) (A 0 i) ((B' + affine_connection (c 0) v (B 0)) i))); last first.
  by apply: eq_bigr => i _; rewrite !stackD !connE.
by apply: derives_ext => t; rewrite pd_ipE.
Qed.
(** ** C61 *)
Theorem C61_positive_definite x g h v : on x -> herm v ->
  herm (pd_hessian x g h v) /\
  (forall h' v', herm v' -> dot h v' = dot h' v ->
    pd_inner_product x (pd_hessian x g h v) v' = pd_inner_product x (pd_hessian x g h' v') v) /\
  (forall c e : R -> array, (forall t, on (c t)) -> c 0 = x -> derives scale dot c v -> e 0 = g -> derives scale dot e h ->
    exists2 w, derives scale dot (fun t => pd_gradient (c t) (e t)) w &
      pd_hessian x g h v = w + affine_connection x v (pd_gradient x g)).
Proof.
move=> hx hv; split; first by move=> i; rewrite pd_hessE phess_herm //; case: (hx i).
split.
  move=> h' v' hv' S; rewrite !pd_ipE.
  have P (a b c : array) : herm b -> herm c ->
    \sum_i pip (x i) (pd_hessian x g a b i) (c i) = dot a c + \sum_i sf_re (\tr (hsym (g i) *m (b i *m invmx (x i) *m c i))).
    by move=> hb hc; rewrite -big_split; apply: eq_bigr => i _; rewrite pd_hessE pip_phess.
  rewrite P // P // S; congr (_ + _); apply: eq_bigr => i _.
  rewrite -[RHS]re_tr_adj !adjmxM hsym_herm adj_inv (proj1 (hx i)) hv hv'; congr (sf_re _).
  by rewrite [LHS]trC !mulmxA.
move=> c e hc c0 Dc e0 De.
have K (i : 'I_k) : exists w : 'M[F]_n, derives (@rscale R F n n) (@inner R F n n) (fun t => pd_gradient (c t) (e t) i) w /\
    pd_hessian x g h v i = w + affine_connection x v (pd_gradient x g) i.
  have ci : c 0 i = x i by rewrite c0.
  have ei : e 0 i = g i by rewrite e0.
  have [w Dw Ew] := phess_covariant (c := fun t => c t i) (e := fun t => e t i) (proj1 (hc 0 i)) (hc 0 i) (hv i) (derives_stack i Dc) (derives_stack i De).
  exists w; split.
    by apply: derives_ext Dw => t; rewrite pd_gradE hsym_congr //; case: (hc t i).
  rewrite connE // ?pd_hessE; last by move=> j; rewrite pd_gradE hsym_herm.
  by rewrite pd_gradE hsym_congr ?(proj1 (hx i)) // -ci -ei.
have [w Hw] := fin_all_exists K; exists [ffun i => w i].
  by apply: stack_derives => i; rewrite ffunE; exact: (proj1 (Hw i)).
by apply/ffunP => i; rewrite [RHS]stackD (proj2 (Hw i)); congr (_ + _); rewrite ffunE.
Qed.
(** ** C80: tangent vectors *)
Lemma pd_ipZ x a v : pd_inner_product x (scale a v) (scale a v) = a ^+ 2 * pd_inner_product x v v.
Proof.
by rewrite !pd_ipE mulr_sumr; apply: eq_bigr => i _; rewrite stackZ -/(rscale a _) pipZl pipZr mulrA -expr2.
Qed.
Lemma pd_normalised x v : on x -> herm v -> v != 0 -> pd_norm x (np_div v (pd_norm x v)) = 1.
Proof.
move=> hx hv v0; have p := pip_sum_gt0 herm hx hv v0.
have E : pd_inner_product x (scale (pd_norm x v)^-1 v) (scale (pd_norm x v)^-1 v) = 1.
  by rewrite pd_ipZ exprVn pd_norm_sqr // mulVf // gt_eqF.
by rewrite np_divE {1}/pd_norm E sqrtr1.
Qed.
Theorem C80_pd_tangent x (draw : array) : on x -> multiherm draw != 0 ->
  herm (pd_random_tangent_vector x draw) /\ pd_norm x (pd_random_tangent_vector x draw) = 1.
Proof.
move=> hx d0; have hd : herm (multiherm draw) by move=> i; rewrite hermE hsym_herm.
by split; [rewrite /pd_random_tangent_vector np_divE; apply: herm_scale|apply: pd_normalised].
Qed.
End PD.

(** ** C74 and C91: exponential map, logarithm and distance.  [expm], [cholesky] and [eigh] stand for SciPy and LAPACK. *)
Section Log.
Variables (F : starField RR) (k n : nat).
Local Notation array := (stack F k n n).
Local Notation scale := (@sscale RR F k n n).
Local Notation dot := (@sinner RR F k n n).
Local Notation J := (@sinner_ips RR F k n n).
Local Notation I := (@inner_ips RR F n n).
Local Notation on := (@on_pd RR F k n).
Local Notation herm := (@herm_vector RR F k n).
Implicit Types x y z u v w : array.
Section ExpOnly.
Variable expm : 'M[F]_n -> 'M[F]_n.
Hypothesis expmP : forall A, is_expm A (expm A).
Lemma pd_expE x v i : pd_exp expm x v i = pexp expm (x i) (v i).
Proof. by rewrite /pd_exp stack_mul ffunE solveE. Qed.
Theorem C73_exp x v : on x -> herm v ->
  on (pd_exp expm x v) /\ pd_exp expm x (pd_zero_vector x) = x /\ first_order dot herm x (pd_exp expm x).
Proof.
move=> hx hv; split; first by move=> i; rewrite pd_expE; apply: pexp_posdef.
have E : pd_exp expm x 0 = x by apply/ffunP => i; rewrite pd_expE stack0 pexp0.
split=> //.
pose C i : RR := fnorm (x i) * (fnorm (1%:M : 'M[F]_n) * 2%:R * fnorm (invmx (x i)) ^+ 2).
have C0 i : 0 <= C i by rewrite !mulr_ge0 ?sqr_ge0 ?ler0n ?fnorm_ge0.
pose q : RR := 2%:R * (1 + \sum_i fnorm (invmx (x i))).
have s0 : 0 <= \sum_i fnorm (invmx (x i)) by apply: sumr_ge0 => i _; apply: fnorm_ge0.
have q0 : 0 < q by rewrite mulr_gt0 ?ltr0n // ltr_spaddl ?ltr01.
apply: (stack_first_order (C := \sum_i C i) (r := q^-1)).
- by case: (herm_subspace F k n).
- exact: sumr_ge0.
- by rewrite invr_gt0.
move=> i w hw wr; rewrite pd_expE; apply: le_trans (pexp_near expmP _ (hx i)) _.
  apply: le_trans (fnorm_mul _ _) _.
  apply: le_trans (_ : q / 2%:R * fnorm (w i) <= _).
    rewrite ler_wpmul2r ?fnorm_ge0 // /q mulrC mulKf ?pnatr_eq0 //.
    by rewrite (bigD1 i) //= addrCA ler_addl addr_ge0 ?ler01 // sumr_ge0 // => j _; apply: fnorm_ge0.
  apply: le_trans (_ : q / 2%:R * q^-1 <= _); first by rewrite ler_wpmul2l // divr_ge0 ?ler0n // ltW.
  by rewrite mulrAC mulfV ?gt_eqF // mul1r.
by rewrite ler_wpmul2r ?sqr_ge0 // (bigD1 i) //= ler_addl sumr_ge0.
Qed.
(** exp follows geodesics, at constant speed *)
Theorem C91_geodesic x v : on x -> herm v ->
  exists velocity : RR -> array,
    velocity 0 = v /\
    (forall t, derives scale dot (fun h => pd_exp expm x (scale (t + h) v)) (velocity t)) /\
    (forall t, herm (velocity t)) /\
    (forall t, pd_inner_product (pd_exp expm x (scale t v)) (velocity t) (velocity t) = pd_inner_product x v v) /\
    (forall t, exists2 a, derives scale dot (fun h => velocity (t + h)) a &
       a + affine_connection (pd_exp expm x (scale t v)) (velocity t) (velocity t) = 0).
Proof.
move=> hx hv; pose vel t : array := [ffun i => pvel expm (x i) (v i) t].
have vE t i : vel t i = pvel expm (x i) (v i) t by rewrite ffunE.
have eE t i : pd_exp expm x (scale t v) i = pexp expm (x i) (rscale t (v i)) by rewrite pd_expE stackZ.
have hvel t : herm (vel t) by move=> i; rewrite vE pvel_herm.
exists vel; split; first by apply/ffunP => i; rewrite vE pvel0.
split.
  move=> t; apply: stack_derives => i; rewrite vE; apply: derives_ext (pexp_derives expmP (v i) t (hx i)) => h.
  by rewrite eE.
split=> //; split; first by move=> t; rewrite !pd_ipE; apply: eq_bigr => i _; rewrite eE vE pvel_speed.
move=> t; exists [ffun i => v i *m (invmx (x i) *m v i) *m expm (invmx (x i) *m rscale t (v i))].
  apply: stack_derives => i; rewrite ffunE.
  by apply: derives_ext (pvel_derives expmP (x i) (v i) t) => h; rewrite vE.
have he : on (pd_exp expm x (scale t v)).
  by move=> i; rewrite eE; apply: pexp_posdef => //; apply: scale_herm.
apply/ffunP => i; rewrite stackD connE // ffunE vE eE stack0.
exact: pvel_parallel.
Qed.
End ExpOnly.
Section Dist.
Variables (expm cholesky : 'M[F]_n -> 'M[F]_n) (eigh : 'M[F]_n -> 'rV[RR]_n * 'M[F]_n).
Hypothesis expmP : forall A, is_expm A (expm A).
Hypothesis choleskyP : forall A, posdef A -> valid_cholesky A (cholesky A).
Hypothesis eighP : forall A, hermitian A -> valid_eigh A (eigh A).
Lemma pd_logmE x y i : pd_logm cholesky eigh x y i = pmlog cholesky eigh (x i) (y i).
Proof.
by rewrite /pd_logm ffunE eig_applyE; congr (eigfun _ (eigh _)); rewrite !stack_mul stack_hconj !ffunE.
Qed.
Lemma pd_logE x y i : pd_log cholesky eigh x y i = plog cholesky eigh (x i) (y i).
Proof. by rewrite /pd_log !stack_mul stack_hconj pd_logmE !ffunE. Qed.
Lemma pd_distE x y : pd_dist cholesky eigh x y = l2 (fun i => pdist cholesky eigh (x i) (y i)).
Proof.
rewrite /pd_dist np_normE /norm_of; congr Num.sqrt; apply: eq_bigr => i _.
by rewrite /pdist pd_logmE fnorm_sqr.
Qed.
Lemma pd_dist_sqr x y : pd_dist cholesky eigh x y ^+ 2 = \sum_i pdist cholesky eigh (x i) (y i) ^+ 2.
Proof. by rewrite pd_distE l2_sqr. Qed.
Lemma pd_dist_ge0 x y : 0 <= pd_dist cholesky eigh x y. Proof. exact: sqrtr_ge0. Qed.
Theorem C74_exp_log x y v : on x -> on y -> herm v ->
  herm (pd_log cholesky eigh x y) /\
  pd_exp expm x (pd_log cholesky eigh x y) = y /\
  pd_log cholesky eigh x (pd_exp expm x v) = v /\
  pd_dist cholesky eigh x y = pd_norm x (pd_log cholesky eigh x y) /\
  pd_dist cholesky eigh x (pd_exp expm x v) = pd_norm x v.
Proof.
move=> hx hy hv.
have hl : herm (pd_log cholesky eigh x y) by move=> i; rewrite pd_logE plog_herm.
split=> //; split; first by apply/ffunP => i; rewrite pd_expE pd_logE pexp_plog.
split; first by apply/ffunP => i; rewrite pd_logE pd_expE plog_pexp.
split; apply: sqr_inj; rewrite ?pd_dist_ge0 ?sqrtr_ge0 // pd_dist_sqr pd_norm_sqr // pd_ipE; apply: eq_bigr => i _.
  by rewrite pd_logE pip_plog.
by rewrite pd_expE pdist_pexp.
Qed.
Theorem C91_dist_is_metric : metric_on on (pd_dist cholesky eigh).
Proof.
have M : metric_on (@posdef RR F n) (pdist cholesky eigh).
  split; first by move=> *; apply: pdist_ge0.
  split; first by move=> a b ha hb; apply: pdist_eq0.
  split; first by move=> a b ha hb; apply: pdistC.
  by move=> a b c ha hb hc; apply: (pdist_triangle choleskyP eighP expmP).
have [M0 [M1 [M2 M3]]] := metric_comp J (@comp_ofdot RR F k n n) M.
split; first by move=> a b ha hb; rewrite pd_distE; apply: M0.
split; first by move=> a b ha hb; rewrite pd_distE; apply: M1.
split; first by move=> a b ha hb; rewrite !pd_distE; apply: M2.
by move=> a b c ha hb hc; rewrite !pd_distE; apply: M3.
Qed.
(** congruences and inversion preserve the distance *)
Theorem C91_isometries x y : on x -> on y ->
  (forall s : array, (forall i, s i \in unitmx) ->
    pd_dist cholesky eigh (smul (smul s x) (multihconj s)) (smul (smul s y) (multihconj s)) = pd_dist cholesky eigh x y) /\
  pd_dist cholesky eigh (np_inv x) (np_inv y) = pd_dist cholesky eigh x y.
Proof.
move=> hx hy; split=> [s us|]; rewrite !pd_distE; congr Num.sqrt; apply: eq_bigr => i _.
  by rewrite !stack_mul !stack_hconj (pdist_congr choleskyP eighP (us i) (hx i) (hy i)).
by rewrite !ffunE (pdist_inv choleskyP eighP (hx i) (hy i)).
Qed.
End Dist.
(** The distance and the logarithm do not depend on which Cholesky factor, eigendecomposition or ordering of the eigenvalues
    the libraries return. *)
Theorem C74_library_independent (cholesky cholesky' : 'M[F]_n -> 'M[F]_n) (eigh eigh' : 'M[F]_n -> 'rV[RR]_n * 'M[F]_n)
    (expm : 'M[F]_n -> 'M[F]_n) x y : (forall A, is_expm A (expm A)) ->
  (forall A, posdef A -> valid_cholesky A (cholesky A)) -> (forall A, posdef A -> valid_cholesky A (cholesky' A)) ->
  (forall A, hermitian A -> valid_eigh A (eigh A)) -> (forall A, hermitian A -> valid_eigh A (eigh' A)) ->
  on x -> on y ->
  pd_log cholesky eigh x y = pd_log cholesky' eigh' x y /\ pd_dist cholesky eigh x y = pd_dist cholesky' eigh' x y.
Proof.
move=> expmP cP cP' eP eP' hx hy.
have Z : herm (pd_log cholesky eigh x y) by move=> i; rewrite pd_logE plog_herm.
have Z' : herm (pd_log cholesky' eigh' x y) by move=> i; rewrite pd_logE plog_herm.
have [_ [E1 [_ [D1 _]]]] := C74_exp_log expmP cP eP hx hy Z.
have [_ [_ [L2 [D2 _]]]] := C74_exp_log expmP cP' eP' hx hy Z.
have E : pd_log cholesky eigh x y = pd_log cholesky' eigh' x y by rewrite -[LHS]L2 E1.
by split=> //; rewrite D1 D2 E.
Qed.
End Log.

(** ** C75: determinant one *)
Section Special.
Variables k n : nat.
Local Notation F := (complex_star RR).
Local Notation array := (stack F k n n).
Local Notation scale := (@sscale RR F k n n).
Local Notation dot := (@sinner RR F k n n).
Local Notation on := (@on_shpd RR F k n).
Implicit Types x y v w g : array.
Hypothesis n0 : (0 < n)%N.
Let EV : has_eigenvectors F := @complex_has_eigenvectors RR.
Lemma on_shpd_pd x : on x -> on_pd x. Proof. by move=> h i; case: (h i). Qed.
Lemma tangent_herm x v : shpd_tangent x v -> herm_vector v. Proof. by move=> h i; case: (h i). Qed.
Lemma shpd_projE x v i : shpd_projection x v i = sproj (x i) (v i).
Proof. by rewrite /shpd_projection ffunE solveE /pd_projection hermE. Qed.
Lemma unit_detE x i : unit_determinant x i = sdet (x i). Proof. by rewrite ffunE. Qed.
Lemma shpd_ip x : on x -> inner_product_on scale (shpd_tangent x) (pd_inner_product x).
Proof. by move=> hx; apply: pd_ip; [apply: on_shpd_pd|apply: tangent_herm]. Qed.
Lemma shpd_subspace x : real_subspace scale (shpd_tangent x).
Proof. by apply: (stack_subspace (T := fun i => stang (x i))) => i; apply: stang_subspace. Qed.
Lemma shpd_projects x v : on x -> projects_to (pd_inner_product x) (shpd_tangent x) v (shpd_projection x v).
Proof.
move=> hx; have P i := sproj_projects n0 (v i) (proj1 (hx i)).
split; first by move=> i; rewrite shpd_projE; case: (P i).
split; first by move=> Tv; apply/ffunP => i; rewrite shpd_projE; case: (P i) => _ [E _]; apply: E; apply: Tv.
move=> t Tt; rewrite pd_ipE big1 // => i _; rewrite stackB shpd_projE.
by case: (P i) => _ [_ O]; apply: O; apply: Tt.
Qed.
Theorem C75_tangent x : on x ->
  inner_product_on scale (shpd_tangent x) (pd_inner_product x) /\
  (forall v, projects_to (pd_inner_product x) (shpd_tangent x) v (shpd_projection x v)) /\
  (forall g, represents_gradient dot (shpd_tangent x) (pd_inner_product x) g (shpd_gradient x g)) /\
  (forall y v, on y -> shpd_tangent y (shpd_transport x y v)) /\
  shpd_tangent x (pd_zero_vector x).
Proof.
move=> hx; split; first exact: shpd_ip.
split; first by move=> v; apply: shpd_projects.
split.
  move=> g; split; first by case: (shpd_projects (shpd_projection x (smul (smul x g) x)) hx).
  move=> t Tt; rewrite pd_ipE; apply: eq_bigr => i _; rewrite !shpd_projE !stack_mul.
  by case: (sproj_gradient n0 (g i) (proj1 (hx i))) => _; apply; apply: Tt.
split; first by move=> y v hy; case: (shpd_projects (pd_projection y v) hy).
by case: (shpd_subspace x).
Qed.
(** The tangent vectors are the velocities of the curves in the manifold. *)
Theorem C75_velocities x v : on x ->
  (forall c : RR -> array, (forall t, on (c t)) -> c 0 = x -> derives scale dot c v -> shpd_tangent x v) /\
  (shpd_tangent x v -> exists c : RR -> array, (forall t, on (c t)) /\ c 0 = x /\ derives scale dot c v).
Proof.
move=> hx; split.
  move=> c hc c0 D i; rewrite -c0.
  exact: (det_curve EV (fun t => proj1 (hc t i)) (fun t => proj2 (hc t i)) (derives_stack i D)).
move=> Tv; pose expm A : 'M[F]_n := epsilon (inhabits 0) (is_expm A).
have expmP A : is_expm A (expm A) := epsilon_spec (inhabits 0) _ (expm_exists complex_complete A).
have hp := on_shpd_pd hx; have hv := tangent_herm Tv.
have TZ t : shpd_tangent x (scale t v) by case: (shpd_subspace x) => _ [_]; apply.
exists (fun t => pd_exp expm x (scale t v)); split.
  move=> t i; rewrite pd_expE; split; first by apply: pexp_posdef => //; apply: (tangent_herm (TZ t)).
  by apply: (det_pexp1 EV expmP); [case: (hx i)|case: (hx i)|apply: TZ].
split; first by rewrite (ipsZ0l (@sinner_ips RR F k n n)); case: (C73_exp expmP hp hv) => _ [].
have [vel [v0 [D _]]] := C91_geodesic expmP hp hv.
by have := D 0; rewrite v0; apply: derives_ext => t; rewrite add0r.
Qed.
Theorem C75_retraction x v : on x -> shpd_tangent x v ->
  on (shpd_retraction x v) /\ shpd_retraction x (pd_zero_vector x) = x /\
  first_order dot (shpd_tangent x) x (shpd_retraction x).
Proof.
move=> hx Tv; have hp := on_shpd_pd hx.
have RE w i : shpd_tangent x w -> shpd_retraction x w i = sretr (x i) (w i).
  by move=> Tw; rewrite /shpd_retraction unit_detE pd_retrE //; apply: tangent_herm Tw.
have [T0 _] := shpd_subspace x.
split.
  move=> i; rewrite RE //; have P : posdef (pretr (x i) (v i)) by apply: pretr_posdef => //; apply: tangent_herm Tv i.
  by split; [apply: sdet_posdef|apply: sdet_det].
split.
  apply/ffunP => i; rewrite RE // stack0 /sretr /pretr mulmx0 scaler0 !addr0 sdet_id //; by case: (hx i).
have B i : exists Cr : RR * RR, (0 <= Cr.1 /\ 0 < Cr.2) /\
    forall V, stang (x i) V -> fnorm V <= Cr.2 -> fnorm (sretr (x i) V - (x i + V)) <= Cr.1 * fnorm V ^+ 2.
  by have [C C0 [r r0 H]] := sretr_bound n0 EV (proj1 (hx i)) (proj2 (hx i)); exists (C, r).
have [Cr H] := fin_all_exists B.
have r0 i : 0 < (Cr i).2 by case: (H i) => -[].
have C0 i : 0 <= (Cr i).1 by case: (H i) => -[].
apply: (stack_first_order (C := \sum_i (Cr i).1) (r := (1 + \sum_i (Cr i).2^-1)^-1)) => //.
- exact: sumr_ge0.
- by rewrite invr_gt0 ltr_spaddl ?ltr01 // sumr_ge0 // => i _; rewrite invr_ge0 ltW.
move=> i w Tw wr; rewrite RE //; have [_ K] := H i.
apply: le_trans (K _ (Tw i) _) _.
  apply: le_trans wr _; rewrite -[X in _ <= X]invrK lef_pinv ?posrE ?invr_gt0 //.
    by rewrite (bigD1 i) //= addrCA ler_addl addr_ge0 ?ler01 // sumr_ge0 // => j _; rewrite invr_ge0 ltW.
  by rewrite ltr_spaddl ?ltr01 // sumr_ge0 // => j _; rewrite invr_ge0 ltW.
by rewrite ler_wpmul2r ?sqr_ge0 // (bigD1 i) //= ler_addl sumr_ge0.
Qed.
Section Library.
Variables (expm cholesky : 'M[F]_n -> 'M[F]_n) (eigh : 'M[F]_n -> 'rV[RR]_n * 'M[F]_n).
Hypothesis expmP : forall A, is_expm A (expm A).
Hypothesis choleskyP : forall A, posdef A -> valid_cholesky A (cholesky A).
Hypothesis eighP : forall A, hermitian A -> valid_eigh A (eigh A).
(** In exact arithmetic the normalisation in [exp] does nothing; so exp, log and dist fit together and geodesics stay in the
    manifold. *)
Theorem C75_exp_log x y v : on x -> on y -> shpd_tangent x v ->
  on (shpd_exp expm x v) /\ shpd_exp expm x v = pd_exp expm x v /\
  shpd_tangent x (pd_log cholesky eigh x y) /\
  shpd_exp expm x (pd_log cholesky eigh x y) = y /\
  pd_log cholesky eigh x (shpd_exp expm x v) = v /\
  pd_dist cholesky eigh x (shpd_exp expm x v) = pd_norm x v.
Proof.
move=> hx hy Tv; have hp := on_shpd_pd hx; have hq := on_shpd_pd hy; have hv := tangent_herm Tv.
have E w : shpd_tangent x w -> shpd_exp expm x w = pd_exp expm x w.
  move=> Tw; apply/ffunP => i; rewrite /shpd_exp unit_detE sdet_id // pd_expE.
  by apply: (det_pexp1 EV expmP); [case: (hx i)|case: (hx i)|apply: Tw].
have L : shpd_tangent x (pd_log cholesky eigh x y).
  move=> i; rewrite pd_logE; apply: plog_stang => //; [by case: (hx i)|by case: (hy i)].
have [_ [E1 [E2 [_ E3]]]] := C74_exp_log expmP choleskyP eighP hp hq hv.
rewrite !E //; split; last by [].
move=> i; rewrite pd_expE; split; first exact: pexp_posdef.
by apply: (det_pexp1 EV expmP); [case: (hx i)|case: (hx i)|apply: Tv].
Qed.
Theorem C75_dist_is_metric : metric_on on (pd_dist cholesky eigh).
Proof.
have [M0 [M1 [M2 M3]]] := C91_dist_is_metric k expmP choleskyP eighP.
split; first by move=> x y hx hy; apply: M0; apply: on_shpd_pd.
split; first by move=> x y hx hy; apply: M1; apply: on_shpd_pd.
split; first by move=> x y hx hy; apply: M2; apply: on_shpd_pd.
by move=> x y z hx hy hz; apply: M3; apply: on_shpd_pd.
Qed.
End Library.
(** [to_tangent_space] is the method of the base class: at every point it maps the point itself, which is a Hermitian
    matrix but no tangent vector, to itself. *)
Theorem C75_to_tangent_space_refuted x : on x -> (0 < k)%N ->
  shpd_to_tangent_space x x = x /\ ~ shpd_tangent x (shpd_to_tangent_space x x) /\
  shpd_to_tangent_space x x <> shpd_projection x x.
Proof.
move=> hx k0; have hp := on_shpd_pd hx.
have E : shpd_to_tangent_space x x = x.
  by apply/ffunP => i; rewrite /shpd_to_tangent_space /pd_to_tangent_space /pd_projection hermE hsym_id //; case: (hp i).
have N : ~ shpd_tangent x x.
  move=> /(_ (Ordinal k0)) [_]; rewrite mulVmx ?posdef_unit // rtr1 => /eqP.
  by rewrite pnatr_eq0 => /eqP e; move: n0; rewrite e.
rewrite E; split=> //; split=> // H; apply: N; rewrite {2}H; by case: (shpd_projects x hx).
Qed.
End Special.

(** ** C80: random points *)
Section Random.
Variables (R : rcfType) (k n : nat).
Local Notation C := (complex_star R).
Variable qr : 'M[C]_n -> 'M[C]_n * 'M[C]_n.
Hypothesis qrP : forall A, valid_qr A (qr A).
Lemma pd_randomE (uniform : 'I_k -> 'I_n -> R) (draw : 'M[C]_n) i : pd_random_point qr uniform draw i =
  eigfun id (\row_r (1 + uniform i r), (qr_normalise (leqnn n) (qr draw).1 (qr draw).2).1) :> 'M[C]_n.
Proof.
rewrite /pd_random_point ffunE /eigfun /= -mulmxA; congr (_ *m _); apply/matrixP => r c.
by rewrite mul_diag_mx !mxE.
Qed.
Theorem C80_hpd_point (uniform : 'I_k -> 'I_n -> R) draw : (forall i r, 0 <= uniform i r) ->
  on_pd (pd_random_point qr uniform draw).
Proof.
move=> U i; rewrite pd_randomE; apply: posdef_eigfun.
  by have [[_ [O _]] _] := multiqr_positive qrP draw.
by move=> j; rewrite mxE ltr_spaddl ?ltr01.
Qed.
Lemma posdef_re (A : 'M[C]_n) : posdef A -> posdef (\matrix_(r, c) complex.Re (A r c) : 'M[real_star R]_n).
Proof.
move=> [h P]; split.
  apply/matrixP => r c; rewrite !mxE; have := congr1 (fun B : 'M[C]_n => B r c) h; rewrite !mxE => <-.
  by case: (A c r).
move=> z z0; pose w : 'cV[C]_n := \col_j ((z j 0 : R)%:C)%C.
have w0 : w != 0.
  apply: contra z0 => /eqP H; apply/eqP/matrixP => j l; rewrite [l]ord1.
  have := congr1 (fun B : 'cV[C]_n => B j 0) H; rewrite !mxE => /eqP; rewrite eq_complex /= => /andP[/eqP -> _]; by [].
have := P w w0; suff -> : sf_re ((w^H *m A *m w) ord0 ord0) = ((z^H *m (\matrix_(r, c) complex.Re (A r c) : 'M[real_star R]_n) *m z) ord0 ord0 : R) by [].
rewrite !mxE raddf_sum; apply: eq_bigr => j _; rewrite !mxE /=.
have E (a b : R) (s : C) : complex.Re s = a -> complex.Re (s * (b%:C)%C)%R = a * b.
  by case: s => u v /= ->; rewrite mulr0 subr0.
apply: E; rewrite [LHS]raddf_sum; apply: eq_bigr => l _; rewrite !mxE /=.
by case: (A l j) => u v /=; rewrite oppr0 mul0r subr0.
Qed.
Theorem C80_spd_point (uniform : 'I_k -> 'I_n -> R) draw : (forall i r, 0 <= uniform i r) ->
  on_pd (spd_random_point qr uniform draw).
Proof. by move=> U i; rewrite /spd_random_point ffunE; apply: posdef_re; apply: C80_hpd_point. Qed.
End Random.
Lemma real_scale_eq0 (F : starField RR) m n (a : RR) (A : 'M[F]_(m, n)) : a != 0 -> sf_real a *: A = 0 -> A = 0.
Proof. by move=> a0 /eqP; rewrite scaler_eq0 fmorph_eq0 (negbTE a0) => /eqP. Qed.
Lemma random_tangentE (F : starField RR) k n (x d : stack F k n n) i :
  pd_random_tangent_vector x d i = sf_real (pd_norm x (multiherm d))^-1 *: multiherm d i.
Proof. by rewrite /pd_random_tangent_vector np_divE stackZ. Qed.
Lemma sprojZ n (P V : 'M[complex_star RR]_n) (a : RR) : V^H = V -> sproj P (sf_real a *: V) = sf_real a *: sproj P V.
Proof.
move=> hV; rewrite /sproj (hsym_id hV) hsym_id ?adjmxZreal ?hV //.
by rewrite -(scalemxAr (sf_real a) (invmx P) V) rtrZ mulrCA (rmorphM (@sf_real RR (complex_star RR)) a) -scalerA -scalerBr.
Qed.
Theorem C80_shpd k n (qr : 'M[complex_star RR]_n -> 'M[complex_star RR]_n * 'M[complex_star RR]_n)
    (uniform : 'I_k -> 'I_n -> RR) draw (x tdraw : stack (complex_star RR) k n n) :
  (0 < n)%N -> (forall A, valid_qr A (qr A)) -> (forall i r, 0 <= uniform i r) ->
  on_shpd (shpd_random_point qr uniform draw) /\
  (on_shpd x -> multiherm tdraw != 0 -> shpd_projection x (multiherm tdraw) != 0 ->
    shpd_tangent x (shpd_random_tangent_vector x tdraw) /\ pd_norm x (shpd_random_tangent_vector x tdraw) = 1).
Proof.
move=> n0 qrP U; have EV := @complex_has_eigenvectors RR; split.
  move=> i; rewrite /shpd_random_point unit_detE; have P := C80_hpd_point qrP draw U i.
  by split; [apply: sdet_posdef|apply: sdet_det].
move=> hx d0 p0; have hp := on_shpd_pd hx; rewrite /shpd_random_tangent_vector.
set w := pd_random_tangent_vector x tdraw.
have [Tw _] := shpd_projects n0 w hx.
have w0 : shpd_projection x w != 0.
  apply: contra p0 => /eqP H; apply/eqP/ffunP => i.
  have e : sproj (x i) (w i) = 0 by rewrite -shpd_projE H ffunE.
  have wE : w i = _ := random_tangentE x tdraw i.
  rewrite wE in e.
  rewrite sprojZ in e; last by rewrite hermE hsym_herm.
  rewrite shpd_projE [RHS]ffunE.
  apply: real_scale_eq0 e; rewrite invr_eq0 sqrtr_eq0 -ltNge.
  by apply: (pip_sum_gt0 (@herm_vector _ _ _ _)) => // j; rewrite hermE hsym_herm.
split; last by apply: pd_normalised => //; apply: tangent_herm Tw.
by rewrite np_divE; have [_ [_ TZ]] := shpd_subspace x; apply: TZ.
Qed.

(** ** The hypotheses above are met: two positive definite matrices that do not commute, one with determinant one, and a
    tangent vector, real and complex. *)
Section Instance.
Variables (F : starField RR) (EV : has_eigenvectors F) (CF : complete_field F).
Let P : 'M[F]_2 := \matrix_(i, j) if i == j then (if i == ord0 then 2%:R else 1) else 1.
Let V : 'M[F]_2 := \matrix_(i, j) if i == j then (if i == ord0 then 2%:R else 0) else 1.
Let L : 'M[F]_2 := \matrix_(i, j) if (i == ord0) || (j != ord0) then 1 else 0.
Lemma pd_library : exists (expm cholesky : 'M[F]_2 -> 'M[F]_2) (eigh : 'M[F]_2 -> 'rV[RR]_2 * 'M[F]_2),
  (forall A, is_expm A (expm A)) /\ (forall A, posdef A -> valid_cholesky A (cholesky A)) /\
  (forall A, hermitian A -> valid_eigh A (eigh A)).
Proof.
have [eigh eighP] := eigh_function EV 2.
exists (fun A => epsilon (inhabits 0) (is_expm A)), (fun A => epsilon (inhabits 0) (valid_cholesky A)), eigh.
split; first by move=> A; exact: epsilon_spec (expm_exists CF A).
by split=> // A PA; exact: epsilon_spec (cholesky_factor PA).
Qed.
Lemma pd_point : posdef P /\ \det P = 1 /\ V^H = V /\ V != 0 /\ P *m V != V *m P.
Proof.
have PE : P = L *m L^H.
  apply/matrixP => i j; rewrite !mxE !big_ord_recl big_ord0 !mxE /=.
  case: i => -[|[|]] // ?; case: j => -[|[|]] // ?; rewrite /= ?rmorph1 ?rmorph0 ?mulr1 ?mulr0 ?mul1r ?addr0 ?add0r //.
have dL : \det L = 1.
  by rewrite (expand_det_row _ ord0) !big_ord_recl big_ord0 /cofactor !mxE /= !det_mx11 !mxE /= ?mulr1 ?mul1r ?mulr0 ?addr0 ?expr0.
have UL : L \in unitmx by rewrite unitmxE dL unitr1.
split; first by rewrite PE; apply: posdef_gram.
split; first by rewrite PE det_mulmx det_adj dL rmorph1 mulr1.
split.
  apply/matrixP => i j; rewrite !mxE; case: i => -[|[|]] // ?; case: j => -[|[|]] // ?; rewrite /= ?rmorph1 ?rmorph0 ?rmorph_nat //.
split; first by apply/eqP => /matrixP /(_ ord0 (lift ord0 ord0)) /eqP; rewrite !mxE /= oner_eq0.
apply/eqP => /matrixP /(_ ord0 (lift ord0 ord0)) /eqP; rewrite !mxE !big_ord_recl !big_ord0 !mxE /=.
rewrite !mulr1 mulr0 !addr0 -subr_eq0 opprD addNKr oppr_eq0 oner_eq0 //.
Qed.
End Instance.
