(** Positive definite matrices with the affine-invariant metric, one matrix at a time *)
From mathcomp Require Import all_ssreflect all_algebra.
From Coq Require Import Ring Field.
From Verif Require Import MCRing Mat_Base Geometry_Spec Linalg_Spec Calculus Connection Multi_Model Multi_Proofs.
From Verif Require Import Stiefel_Proofs Logm Linalg_Exist.
Set Implicit Arguments.
Unset Strict Implicit.
Unset Printing Implicit Defensive.
Import GRing.Theory Num.Theory Order.TTheory.
Local Open Scope ring_scope.

Section Posdef.
Variables (R : rcfType) (F : starField R).
Lemma singular_vector' n (B : 'M[F]_n) : B \notin unitmx -> exists2 z : 'cV[F]_n, z != 0 & B *m z = 0.
Proof.
rewrite -unitmx_tr -row_free_unit -kermx_eq0 => /rowV0Pn [v /sub_kermxP E v0].
exists v^T; first by rewrite -(inj_eq trmx_inj) trmxK trmx0.
by apply: trmx_inj; rewrite trmx_mul trmxK E trmx0.
Qed.
Lemma quad_inner n (B : 'M[F]_n) (z : 'cV[F]_n) : sf_re ((z^H *m B *m z) ord0 ord0) = inner z (B *m z).
Proof. by rewrite innerE mulmxA /mxtrace big_ord1. Qed.
Lemma posdefP n (A : 'M[F]_n) : posdef A <-> A^H = A /\ forall z : 'cV[F]_n, z != 0 -> 0 < inner z (A *m z).
Proof. by split=> -[h P]; split=> // z z0; have := P z z0; rewrite quad_inner. Qed.
Lemma posdef_unit n (A : 'M[F]_n) : posdef A -> A \in unitmx.
Proof.
move=> /posdefP [_ P]; apply/negPn/negP => /singular_vector' [z z0 E].
by have := P z z0; rewrite E inner0r ltxx.
Qed.
Lemma unit_mul_neq0 n (C : 'M[F]_n) (z : 'cV[F]_n) : C \in unitmx -> z != 0 -> C *m z != 0.
Proof. by move=> U; apply: contra => /eqP E; rewrite -[z](mulKmx U) E mulmx0. Qed.
Lemma adj_unit n (C : 'M[F]_n) : (C^H \in unitmx) = (C \in unitmx).
Proof. by rewrite !unitmxE det_adj !unitfE fmorph_eq0. Qed.
Lemma adj_inv n (C : 'M[F]_n) : (invmx C)^H = invmx C^H.
Proof.
have [U|U] := boolP (C \in unitmx); last by rewrite /invmx adj_unit (negbTE U).
have U' : C^H \in unitmx by rewrite adj_unit.
by rewrite -[LHS](mulKmx U') -adjmxM mulVmx // adjmx1 mulmx1.
Qed.
Lemma posdef_congr n (A C : 'M[F]_n) : posdef A -> C \in unitmx -> posdef (C *m A *m C^H).
Proof.
move=> /posdefP [h P] U; apply/posdefP; split; first by rewrite !adjmxM adjmxK h mulmxA.
move=> z z0; rewrite -!mulmxA -{1}[C]adjmxK -inner_mull; apply: P.
by apply: unit_mul_neq0 => //; rewrite adj_unit.
Qed.
Lemma posdef1 n : posdef (1%:M : 'M[F]_n).
Proof. by apply/posdefP; split=> [|z z0]; [apply: adjmx1|rewrite mul1mx; apply: inner_gt0]. Qed.
Lemma posdef_gram n (C : 'M[F]_n) : C \in unitmx -> posdef (C *m C^H).
Proof. by move=> U; rewrite -[C in C *m _]mulmx1; apply: posdef_congr => //; apply: posdef1. Qed.
Lemma cholesky_posdef n (A L : 'M[F]_n) : valid_cholesky A L -> posdef A.
Proof. by move=> [-> U]; apply: posdef_gram. Qed.
Lemma posdef_inv n (A : 'M[F]_n) : posdef A -> posdef (invmx A).
Proof.
move=> P; have U := posdef_unit P; have [h _] := P.
have -> : invmx A = invmx A *m A *m (invmx A)^H by rewrite mulVmx // mul1mx adj_inv h.
by apply: posdef_congr => //; rewrite unitmx_inv.
Qed.
Lemma posdefD n (A B : 'M[F]_n) : posdef A -> posdef B -> posdef (A + B).
Proof.
move=> /posdefP [hA PA] /posdefP [hB PB]; apply/posdefP; split; first by rewrite adjmxD hA hB.
by move=> z z0; rewrite mulmxDl innerDr addr_gt0 ?PA ?PB.
Qed.
Lemma posdefZ n a (A : 'M[F]_n) : 0 < a -> posdef A -> posdef (sf_real a *: A).
Proof.
move=> a0 /posdefP [hA PA]; apply/posdefP; split; first by rewrite adjmxZreal hA.
by move=> z z0; rewrite -scalemxAl innerZr mulr_gt0 ?PA.
Qed.
(** adding a positive semidefinite matrix *)
Lemma posdef_add_gram n (A C B : 'M[F]_n) : posdef A -> posdef B -> posdef (A + C *m B *m C^H).
Proof.
move=> /posdefP [hA PA] /posdefP [hB PB]; apply/posdefP; split.
  by rewrite adjmxD !adjmxM adjmxK hA hB mulmxA.
move=> z z0; rewrite mulmxDl innerDr -!mulmxA -{1}[C]adjmxK -inner_mull ltr_spaddl ?PA //.
by have [->|/PB/ltW //] := eqVneq (C^H *m z) 0; rewrite inner0l.
Qed.

(** Cholesky factors exist *)
Lemma cholesky_step n (A : 'M[F]_(1 + n)) : (forall B : 'M[F]_n, posdef B -> exists L, valid_cholesky B L) ->
  posdef A -> exists L, valid_cholesky A L.
Proof.
move=> IH P; have [hA _] := P.
set a := ulsubmx A; set b := dlsubmx A; set D := drsubmx A.
have AE : A = block_mx a b^H b D.
  rewrite -[LHS]submxK; congr block_mx; by rewrite /b -[in LHS]hA; apply/matrixP => i j; rewrite !mxE.
have /posdefP [_ Q] := P.
pose e : 'cV[F]_(1 + n) := col_mx 1%:M 0.
have e0 : e != 0.
  by apply/eqP => /matrixP/(_ (lshift n ord0) ord0)/eqP; rewrite col_mxEu !mxE /= oner_eq0.
have ha : a^H = a by rewrite /a -[in RHS]hA; apply/matrixP => i j; rewrite !mxE.
have aE : exists2 r : R, 0 < r & a = (sf_real r)%:M.
  exists (sf_re (a 0 0)).
    have := Q e e0; rewrite AE mul_block_col mulmx1 mulmx0 addr0 mulmx1 mulmx0 addr0 innerE adj_col_mx mul_row_col.
    by rewrite adjmx1 adjmx0 mul1mx mul0mx addr0 /mxtrace big_ord1.
  apply/matrixP => i j; rewrite !ord1 [RHS]mxE eqxx mulr1n; apply: sf_fixed.
  by rewrite -{2}ha !mxE.
have [r r0 ar] := aE.
have s0 : Num.sqrt r != 0 by rewrite sqrtr_eq0 -ltNge.
have sF : sf_real (Num.sqrt r) != 0 :> F by rewrite fmorph_eq0.
pose s : F := sf_real (Num.sqrt r).
have ss : s * s = sf_real r by rewrite -rmorphM /= -expr2 sqr_sqrtr // ltW.
have sc : sf_conj s = s by rewrite sf_conj_real.
pose S := D - s^-1 *: b *m (s^-1 *: b)^H.
have hD : D^H = D by rewrite /D -[in RHS]hA; apply/matrixP => i j; rewrite !mxE.
have PS : posdef S.
  apply/posdefP; split; first by rewrite /S adjmxB adjmxM adjmxK hD.
  move=> z z0; pose w : 'cV[F]_(1 + n) := col_mx (- ((sf_real r)^-1 *: b^H *m z)) z.
  have w0 : w != 0 by apply: contra z0 => /eqP H; apply/eqP; move: (congr1 dsubmx H); rewrite col_mxKd linear0.
  have := Q w w0; rewrite AE mul_block_col ar mul_scalar_mx scalerN -!scalemxAl scalerA mulfV; last by rewrite fmorph_eq0 gt_eqF.
  rewrite scale1r addNr innerE adj_col_mx mul_row_col mulmx0 add0r -innerE.
  suff -> : b *m - ((sf_real r)^-1 *: (b^H *m z)) + D *m z = S *m z by [].
  rewrite /S mulmxBl addrC; congr (_ + _); rewrite mulmxN; congr (- _).
  rewrite adjmxZ -!scalemxAl -!scalemxAr -!scalemxAl scalerA -mulmxA; congr (_ *: _).
  by rewrite fmorphV /= sc -invfM ss.
have [L [LE UL]] := IH S PS.
exists (block_mx s%:M 0 (s^-1 *: b) L); split; last first.
  rewrite unitmxE det_lblock unitfE mulf_neq0 //; last by rewrite -unitfE -unitmxE.
  by rewrite det_scalar1.
rewrite AE adj_block_mx mulmx_block adjmx_scalar sc adjmx0 !mul0mx !mulmx0 !addr0.
rewrite -scalar_mxM ss -ar; congr block_mx.
- by rewrite adjmxZ fmorphV /= sc mul_scalar_mx scalerA mulfV // scale1r.
- by rewrite mul_mx_scalar scalerA mulfV // scale1r.
- by rewrite -LE /S addrC subrK.
Qed.
Lemma cholesky_factor n (A : 'M[F]_n) : posdef A -> exists L, valid_cholesky A L.
Proof.
elim: n A => [A _|n IH A]; last exact: (@cholesky_step n).
exists 1%:M; split; last exact: unitmx1.
by rewrite [A]flatmx0 [RHS]flatmx0.
Qed.
End Posdef.

Section Metric.
Variables (R : rcfType) (F : starField R) (n : nat).
Local Notation scale := (@rscale R F n n).
Local Notation dot := (@inner R F n n).
Local Notation I := (@inner_ips R F n n).
Local Notation rderives := (derives (@real_scale R) (@real_dot R)).
Implicit Types P L A B V W g h X : 'M[F]_n.
Add Ring R_ring : (mc_ring R).
Lemma inv_unique A B : A *m B = 1%:M -> invmx A = B.
Proof. by move=> E; have [U _] := mulmx1_unit E; rewrite -[LHS]mulmx1 -E mulKmx. Qed.
Lemma trC A B : \tr (A *m B) = \tr (B *m A). Proof. exact: mxtrace_mulC. Qed.
Definition pip P A B : R := sf_re (\tr (invmx P *m A *m (invmx P *m B))).
Definition wht L A : 'M[F]_n := invmx L *m A *m (invmx L)^H.
Definition unwht L A : 'M[F]_n := L *m A *m L^H.
Lemma inv_chol P L : valid_cholesky P L -> invmx P = (invmx L)^H *m invmx L.
Proof.
move=> [-> U]; apply: inv_unique; rewrite -mulmxA (mulmxA L^H) -adjmxM mulVmx // adjmx1 mul1mx mulmxV //.
Qed.
Lemma wht_adj L A : (wht L A)^H = wht L A^H.
Proof. by rewrite /wht !adjmxM adjmxK mulmxA. Qed.
Lemma unwht_adj L A : (unwht L A)^H = unwht L A^H.
Proof. by rewrite /unwht !adjmxM adjmxK mulmxA. Qed.
Lemma unwhtK L A : L \in unitmx -> wht L (unwht L A) = A.
Proof. by move=> U; rewrite /wht /unwht !mulmxA mulVmx // mul1mx -mulmxA -adjmxM mulVmx // adjmx1 mulmx1. Qed.
Lemma whtK L A : L \in unitmx -> unwht L (wht L A) = A.
Proof. by move=> U; rewrite /wht /unwht !mulmxA mulmxV // mul1mx -mulmxA -adjmxM mulmxV // adjmx1 mulmx1. Qed.
Lemma wht_self P L : valid_cholesky P L -> wht L P = 1%:M.
Proof. by move=> [-> U]; rewrite -[L in L *m _]mulmx1; apply: unwhtK. Qed.
Lemma wht_mul P L A B : valid_cholesky P L -> wht L (A *m invmx P *m B) = wht L A *m wht L B.
Proof. by move=> V; rewrite /wht (inv_chol V) !mulmxA. Qed.
Lemma pip_wht P L A B : valid_cholesky P L -> A^H = A -> pip P A B = dot (wht L A) (wht L B).
Proof.
move=> V hA; rewrite innerE wht_adj hA /pip (inv_chol V) /wht; congr (sf_re _).
by rewrite -!mulmxA [LHS]trC !mulmxA.
Qed.
Lemma pipC P A B : pip P A B = pip P B A. Proof. by rewrite /pip trC. Qed.
Lemma pipDl P A B X : pip P (A + B) X = pip P A X + pip P B X.
Proof. by rewrite /pip mulmxDr mulmxDl linearD /= raddfD. Qed.
Lemma pipZl P a A B : pip P (scale a A) B = a * pip P A B.
Proof. by rewrite /pip /rscale -scalemxAr -scalemxAl linearZ /= sf_reZ. Qed.
Lemma pipDr P A B X : pip P X (A + B) = pip P X A + pip P X B.
Proof. by rewrite !(pipC P X) pipDl. Qed.
Lemma pipNl P A B : pip P (- A) B = - pip P A B.
Proof. by rewrite /pip mulmxN mulNmx linearN /= raddfN. Qed.
Lemma pipNr P A B : pip P A (- B) = - pip P A B. Proof. by rewrite !(pipC P A) pipNl. Qed.
Lemma pipZr P a A B : pip P A (scale a B) = a * pip P A B. Proof. by rewrite !(pipC P A) pipZl. Qed.
Lemma wht_eq0 L A : L \in unitmx -> (wht L A == 0) = (A == 0).
Proof.
move=> U; apply/eqP/eqP => [E|->]; last by rewrite /wht mulmx0 mul0mx.
by rewrite -(whtK A U) E /unwht mulmx0 mul0mx.
Qed.
Lemma pip_gt0 P A : posdef P -> A^H = A -> A != 0 -> 0 < pip P A A.
Proof.
move=> PP hA A0; have [L V] := cholesky_factor PP; rewrite (pip_wht _ V hA).
by apply: inner_gt0; rewrite wht_eq0 //; case: V.
Qed.
Lemma pip_ip P : posdef P -> inner_product_on scale (fun V => V^H = V) (pip P).
Proof.
move=> PP; split; first by move=> *; apply: pipC.
split; first by move=> *; apply: pipDl.
split; first by move=> *; apply: pipZl.
by move=> u; apply: pip_gt0.
Qed.
(** the skew-Hermitian part does not matter *)
Lemma re_tr_adj A : sf_re (\tr A^H) = sf_re (\tr A). Proof. by rewrite mxtrace_adj sf_re_conj. Qed.
Lemma pip_hsym P A B : posdef P -> B^H = B -> pip P (hsym A) B = pip P A B.
Proof.
move=> [hP _] hB.
have E : pip P A^H B = pip P A B.
  rewrite /pip -[RHS]re_tr_adj !adjmxM adj_inv hP hB; congr (sf_re _).
  by rewrite -!mulmxA [RHS]trC -!mulmxA.
have : pip P (hsym A + hsym A) B = pip P A B + pip P A B by rewrite hsym_double pipDl E.
by rewrite pipDl -!mulr2n => /eqP; rewrite eqr_muln2r => /eqP.
Qed.
(** *** Gradient *)
Lemma hsym_congr P g : P^H = P -> hsym (P *m g *m P) = P *m hsym g *m P.
Proof. by move=> hP; rewrite /hsym !adjmxM hP -scalemxAr -scalemxAl mulmxDr mulmxDl !mulmxA. Qed.
Lemma dot_hsym g V : V^H = V -> dot (hsym g) V = dot g V.
Proof.
move=> hV; rewrite -[in RHS](hsym_skew g) innerDl -[LHS]addr0; congr (_ + _); rewrite innerC.
by rewrite inner_herm_skew //; apply: hskew_skew.
Qed.
Lemma pip_gradient P g V : posdef P -> V^H = V -> pip P (P *m hsym g *m P) V = dot g V.
Proof.
move=> PP hV; have U := posdef_unit PP; rewrite -dot_hsym // innerE hsym_herm /pip; congr (sf_re _).
by rewrite -!mulmxA mulKmx // mulKVmx.
Qed.
(** *** Connection *)
Definition pgam P V W : 'M[F]_n := - hsym (V *m invmx P *m W).
Lemma pgamE P V W : posdef P -> V^H = V -> W^H = W -> pgam P V W = - (half F *: (V *m invmx P *m W + W *m invmx P *m V)).
Proof. by move=> [hP _] hV hW; rewrite /pgam /hsym !adjmxM adj_inv hP hV hW mulmxA. Qed.
Lemma pgam_herm P V W : (pgam P V W)^H = pgam P V W. Proof. by rewrite adjmxN hsym_herm. Qed.
Lemma pgamC P V W : posdef P -> V^H = V -> W^H = W -> pgam P V W = pgam P W V.
Proof. by move=> PP hV hW; rewrite !pgamE // addrC. Qed.
Lemma pip_pgam P V A B : posdef P -> B^H = B -> pip P (pgam P V A) B = - sf_re (\tr (invmx P *m V *m (invmx P *m A) *m (invmx P *m B))).
Proof. by move=> PP hB; rewrite pipNl pip_hsym // /pip !mulmxA. Qed.
Lemma metric_derives (c : R -> 'M[F]_n) V (A B : R -> 'M[F]_n) A' B' : (forall t, posdef (c t)) ->
  V^H = V -> (A 0)^H = A 0 -> (B 0)^H = B 0 ->
  derives scale dot c V -> derives scale dot A A' -> derives scale dot B B' ->
  rderives (fun t => pip (c t) (A t) (B t)) (pip (c 0) (A' + pgam (c 0) V (A 0)) (B 0) + pip (c 0) (A 0) (B' + pgam (c 0) V (B 0))).
Proof.
move=> Pc hV hA hB Dc DA DB.
have cV t : c t *m invmx (c t) = 1%:M by rewrite mulmxV // posdef_unit.
have Di := derives_inverse cV Dc.
have D1 := derives_mul (derives_mul Di DA) (derives_mul Di DB).
pose tr (X : 'M[F]_n) : R := sf_re (\tr X).
have trE X : tr X = dot 1%:M X by rewrite innerE adjmx1 mul1mx.
have := derives_dot I (derives_const I 1%:M) D1.
rewrite inner0l add0r => D; have {D} := derives_ext (c' := fun t => pip (c t) (A t) (B t)) _ D.
move=> /(_ (fun t => esym (trE _))); rewrite -trE.
suff -> : tr ((- (invmx (c 0) *m V *m invmx (c 0)) *m A 0 + invmx (c 0) *m A') *m (invmx (c 0) *m B 0) +
   invmx (c 0) *m A 0 *m (- (invmx (c 0) *m V *m invmx (c 0)) *m B 0 + invmx (c 0) *m B')) =
   pip (c 0) (A' + pgam (c 0) V (A 0)) (B 0) + pip (c 0) (A 0) (B' + pgam (c 0) V (B 0)) by [].
rewrite pipDl pipDr pip_pgam // [pip _ (A 0) (pgam _ _ _)]pipC pip_pgam // mulmxDl mulmxDr.
have trD X Y : tr (X + Y) = tr X + tr Y by rewrite /tr linearD raddfD.
have trN X : tr (- X) = - tr X by rewrite /tr linearN raddfN.
rewrite !trD !mulNmx mulmxN !trN -!/(tr _) /pip -!/(tr _) !mulmxA.
have -> : tr (invmx (c 0) *m A 0 *m invmx (c 0) *m V *m invmx (c 0) *m B 0) = tr (invmx (c 0) *m V *m invmx (c 0) *m B 0 *m invmx (c 0) *m A 0).
  rewrite /tr; congr (sf_re _); rewrite -!mulmxA [LHS]trC -!mulmxA [LHS]trC -!mulmxA //.
move: (tr _) (tr _) (tr _) (tr _) => a b d e; mcring R.
Qed.
(** *** Hessian *)
Definition phess P g h V : 'M[F]_n := P *m hsym h *m P + hsym (V *m hsym g *m P).
Lemma phess_herm P g h V : P^H = P -> (phess P g h V)^H = phess P g h V.
Proof. by move=> hP; rewrite /phess adjmxD hsym_herm !adjmxM hsym_herm hP mulmxA. Qed.
Lemma pip_phess P g h V W : posdef P -> V^H = V -> W^H = W ->
  pip P (phess P g h V) W = dot h W + sf_re (\tr (hsym g *m (V *m invmx P *m W))).
Proof.
move=> PP hV hW; have U := posdef_unit PP; rewrite /phess pipDl pip_gradient //; congr (_ + _).
rewrite pip_hsym // /pip -[LHS]re_tr_adj; congr (sf_re _).
rewrite -!mulmxA mulKVmx // !adjmxM hsym_herm adj_inv (proj1 PP) hV hW -!mulmxA [LHS]trC -!mulmxA //.
Qed.
Lemma phess_sym P g h h' V V' : posdef P -> V^H = V -> V'^H = V' -> dot h V' = dot h' V ->
  pip P (phess P g h V) V' = pip P (phess P g h' V') V.
Proof.
move=> PP hV hV' E; rewrite !pip_phess // E; congr (_ + _).
rewrite -[RHS]re_tr_adj !adjmxM hsym_herm adj_inv (proj1 PP) hV hV'; congr (sf_re _).
by rewrite trC !mulmxA.
Qed.
Lemma derives_hsym (c : R -> 'M[F]_n) V : derives scale dot c V -> derives scale dot (fun t => hsym (c t)) (hsym V).
Proof.
move=> D; have := derives_scale I (derives_const (@real_ips R) 2%:R^-1) (derives_add I D (derives_adj D)).
have E X : scale 2%:R^-1 (X + X^H) = hsym X by rewrite /rscale -half_real.
by rewrite (ipsZ0l I) add0r E; apply: derives_ext => t.
Qed.
Lemma phess_covariant (c e : R -> 'M[F]_n) V h : (c 0)^H = c 0 -> posdef (c 0) -> V^H = V ->
  derives scale dot c V -> derives scale dot e h ->
  exists2 w, derives scale dot (fun t => c t *m hsym (e t) *m c t) w &
    phess (c 0) (e 0) h V = w + pgam (c 0) V (c 0 *m hsym (e 0) *m c 0).
Proof.
move=> hc Pc hV Dc De; have U := posdef_unit Pc.
exists ((V *m hsym (e 0) + c 0 *m hsym h) *m c 0 + c 0 *m hsym (e 0) *m V).
  exact: derives_mul (derives_mul Dc (derives_hsym De)) Dc.
have E : V *m invmx (c 0) *m (c 0 *m hsym (e 0) *m c 0) = V *m hsym (e 0) *m c 0 by rewrite !mulmxA mulmxKV.
rewrite /pgam E /phess mulmxDl.
have E2 : V *m hsym (e 0) *m c 0 + c 0 *m hsym (e 0) *m V = hsym (V *m hsym (e 0) *m c 0) + hsym (V *m hsym (e 0) *m c 0).
  by rewrite hsym_double !adjmxM hsym_herm hc hV mulmxA.
have K (A X Y S : 'M[F]_n) : X + Y = S + S -> A + S = X + A + Y - S.
  by move=> H; rewrite [X + A]addrC -(addrA A X Y) H addrA addrK.
exact: K.
Qed.
(** *** Retraction *)
Definition pretr P V : 'M[F]_n := P + V + half F *: (V *m invmx P *m V).
Lemma pretr_herm P V : posdef P -> V^H = V -> (pretr P V)^H = pretr P V.
Proof. by move=> [hP _] hV; rewrite /pretr !adjmxD adjmxZ conj_half !adjmxM adj_inv hP hV mulmxA. Qed.
Lemma pretrE P V : posdef P -> V^H = V -> pretr P V = half F *: (P + (P + V) *m invmx P *m (P + V)^H).
Proof.
move=> PP hV; have U := posdef_unit PP; rewrite adjmxD (proj1 PP) hV !mulmxDl !mulmxDr mulmxV // !mul1mx mulmxKV //.
rewrite /pretr -{1}[P + V]scale_half2 -scalerDr; congr (_ *: _).
by vring (@inner_ips R F n n) R.
Qed.
Lemma pretr_posdef P V : posdef P -> V^H = V -> posdef (pretr P V).
Proof.
move=> PP hV; rewrite pretrE // half_real; apply: posdefZ; first by rewrite invr_gt0 ltr0n.
by apply: posdef_add_gram => //; apply: posdef_inv.
Qed.
Lemma pretr_bound P V : fnorm (pretr P V - (P + V)) <= 2%:R^-1 * fnorm (invmx P) * fnorm V ^+ 2.
Proof.
rewrite /pretr addrC addKr half_real fnormZ ger0_norm ?invr_ge0 ?ler0n // -mulrA ler_wpmul2l ?invr_ge0 ?ler0n //.
apply: le_trans (fnorm_mul _ _) _; rewrite expr2 mulrA [_ * fnorm V]mulrC [fnorm (invmx P) * _]mulrC.
by rewrite mulrC ler_wpmul2r ?fnorm_ge0 // fnorm_mul.
Qed.
End Metric.
