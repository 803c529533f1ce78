(** The reported dimension and the dimension of the tangent space: C50. *)
From Coq Require Import Reals ZArith Lia String.
From mathcomp Require Import all_ssreflect all_algebra.
From mathcomp.real_closed Require Import complex.
From Coq Require Import Ring Field ClassicalEpsilon.
From Verif Require Import Num_Model Problem_Model Constructors_Model Constructors_Props.
From Verif Require Import Rstruct MCRing Mat_Base Geometry_Spec Linalg_Spec Calculus Components Multi_Model Multi_Proofs.
From Verif Require Import Linalg_Exist Stiefel_Proofs PosDef_Proofs Psd_Proofs Sphere_Model Sphere_Proofs.
From Verif Require Import Euclidean_Props Sphere_Props Oblique_Props ComplexCircle_Model ComplexCircle_Props Stiefel_Props Grassmann_Props Group_Props.
From Verif Require Import Product_Model PosDef_Model PosDef_Props Psd_Model Psd_Props FixedRank_Model FixedRank_Props Dimension Dimension_Matrix.
Set Implicit Arguments.
Unset Strict Implicit.
Unset Printing Implicit Defensive.
Import GRing.Theory Num.Theory Order.TTheory.
Local Open Scope ring_scope.
Delimit Scope Z_scope with ZZ.
Local Notation "A ^H" := (adjmx A) (at level 8, format "A ^H") : ring_scope.

(** ** Specification: an object constructed with a given outcome reports the dimension of the space [T] *)
Definition reports (init : res (Z * layout)) (lay : layout) (R : rcfType) (V : zmodType) (scale : R -> V -> V) (T : V -> Prop) : Prop :=
  exists d : nat, init = Ok (Z.of_nat d, lay) /\ has_dimension scale T d.
Local Notation z := Z.of_nat.

Lemma kernel_dim (R : rcfType) (V W : zmodType) (sv : R -> V -> V) (sw : R -> W -> W) (f : V -> W) (T : V -> Prop) (T' : W -> Prop) d e :
  scaling sv -> scaling sw -> real_linear sv sw f ->
  (forall v, T v -> T' (f v)) -> (forall w, T' w -> exists2 v, T v & f v = w) ->
  has_dimension sv T d -> has_dimension sw T' e ->
  exists2 d', (d' + e)%N = d & has_dimension sv (fun v => T v /\ f v = 0) d'.
Proof.
move=> SV SW L h1 h2 hd he; have [le D] := dimension_kernel SV SW L h1 h2 hd he.
by exists (d - e)%N => //; rewrite subnK.
Qed.
(** Numbers of mathcomp and of Coq's library. *)
Lemma zD a b : z (a + b)%N = (z a + z b)%ZZ. Proof. by rewrite -plusE Nat2Z.inj_add. Qed.
Lemma zM a b : z (a * b)%N = (z a * z b)%ZZ. Proof. by rewrite -multE Nat2Z.inj_mul. Qed.
Lemma z_bin n : (2 * z 'C(n, 2) = z n * (z n - 1))%ZZ.
Proof.
elim: n => [//|n IH]; rewrite binS bin1 zD -[n.+1]addn1 zD; lia.
Qed.

Section Spaces.
Variables (R : rcfType) (F : starField R) (e : nat).
Hypothesis dimF : field_dim F e.
Local Notation RS := (@rscaling R F).
Lemma conj_half : sf_conj (half F) = half F. Proof. by rewrite half_real sf_conj_real. Qed.
Lemma lin_left m n p (A : 'M[F]_(m, n)) : real_linear (@rscale R F n p) (@rscale R F m p) (fun V => A *m V).
Proof. by split=> [u v|a v]; [apply: mulmxDr|rewrite /rscale -scalemxAr]. Qed.

(** solutions of [X^H V = 0] *)
Lemma dim_horizontal n p (X : 'M[F]_(n, p)) : orthonormal X ->
  exists2 d, (d + p * p * e)%N = (n * p * e)%N & has_dimension (@rscale R F n p) (fun V => X^H *m V = 0) d.
Proof.
move=> oX; have h2 (w : 'M[F]_p) : everywhere w -> exists2 v : 'M[F]_(n, p), everywhere v & X^H *m v = w.
  by move=> _; exists (X *m w) => //; rewrite mulmxA oX mul1mx.
have [d E D] := kernel_dim (RS n p) (RS p p) (lin_left p X^H) (fun _ _ => Logic.I) h2 (dimension_mx dimF n p) (dimension_mx dimF p p).
by exists d => //; apply: dimension_ext D => V; split=> [[]|].
Qed.

Lemma dim_herm n : has_dimension (@rscale R F n n) (fun V => V^H = V) (n * 1 + 'C(n, 2) * e).
Proof. exact: (dimension_hermitian dimF (s := false) n (dimension_re F)). Qed.
Lemma dim_skew n : has_dimension (@rscale R F n n) (fun V => V^H = - V) (n * (e - 1) + 'C(n, 2) * e).
Proof. exact: (dimension_hermitian dimF (s := true) n (im_dim dimF)). Qed.

(** solutions of [X^H V + V^H X = 0] *)
Lemma dim_stiefel n p (X : 'M[F]_(n, p)) : orthonormal X ->
  exists2 d, (d + (p * 1 + 'C(p, 2) * e))%N = (n * p * e)%N &
    has_dimension (@rscale R F n p) (fun V => X^H *m V + V^H *m X = 0) d.
Proof.
move=> oX; pose f (V : 'M[F]_(n, p)) := X^H *m V + V^H *m X.
have L : real_linear (@rscale R F n p) (@rscale R F p p) f.
  split=> [u v|a v]; rewrite /f; first by rewrite mulmxDr adjmxD mulmxDl addrACA.
  by rewrite /rscale adjmxZreal -scalemxAr -scalemxAl scalerDr.
have h1 (V : 'M[F]_(n, p)) : everywhere V -> (f V)^H = f V.
  by move=> _; rewrite /f adjmxD !adjmxM !adjmxK addrC.
have h2 (w : 'M[F]_p) : w^H = w -> exists2 v : 'M[F]_(n, p), everywhere v & f v = w.
  move=> hw; exists (X *m (half F *: w)) => //.
  rewrite /f mulmxA oX mul1mx adjmxM adjmxZ conj_half hw -mulmxA oX mulmx1 -scalerDl.
  by rewrite half2 scale1r.
have [d E D] := kernel_dim (RS n p) (RS p p) L h1 h2 (dimension_mx dimF n p) (dim_herm p).
by exists d => //; apply: dimension_ext D => V; split=> [[]|].
Qed.

(** solutions of [Y^H V = V^H Y] *)
Lemma dim_quotient n p (Y : 'M[F]_(n, p)) : \rank Y = p ->
  exists2 d, (d + (p * (e - 1) + 'C(p, 2) * e))%N = (n * p * e)%N &
    has_dimension (@rscale R F n p) (psd_horizontal Y) d.
Proof.
move=> rY; have fY := (full_gram Y).1 rY; have U := posdef_unit fY.
pose f (V : 'M[F]_(n, p)) := Y^H *m V - V^H *m Y.
have L : real_linear (@rscale R F n p) (@rscale R F p p) f.
  split=> [u v|a v]; rewrite /f; first by rewrite mulmxDr adjmxD mulmxDl opprD addrACA.
  by rewrite /rscale adjmxZreal -scalemxAr -scalemxAl scalerBr.
have h1 (V : 'M[F]_(n, p)) : everywhere V -> (f V)^H = - f V.
  by move=> _; rewrite /f adjmxB !adjmxM !adjmxK opprB.
have h2 (w : 'M[F]_p) : w^H = - w -> exists2 v : 'M[F]_(n, p), everywhere v & f v = w.
  move=> hw; exists (Y *m (invmx (Y^H *m Y) *m (half F *: w))) => //.
  have EA : Y^H *m (Y *m (invmx (Y^H *m Y) *m (half F *: w))) = half F *: w.
    by rewrite mulmxA mulKVmx.
  rewrite /f EA -[X in _ - X]adjmxK adjmxM adjmxK EA adjmxZ conj_half hw scalerN opprK -scalerDl.
  by rewrite half2 scale1r.
have [d E D] := kernel_dim (RS n p) (RS p p) L h1 h2 (dimension_mx dimF n p) (dim_skew p).
exists d => //; apply: dimension_ext D => V; rewrite (horizontalE V rY) /hor adjmxM adjmxK /f.
by split=> [[_ /eqP]|->]; [rewrite subr_eq0 => /eqP ->|rewrite subrr].
Qed.

(** Stacks. *)
Lemma dim_stack k m n (T : 'I_k -> 'M[F]_(m, n) -> Prop) d : (forall i, has_dimension (@rscale R F m n) (T i) d) ->
  has_dimension (@sscale R F k m n) (fun v => forall i, T i (v i)) (k * d).
Proof. by move=> H; have := dimension_power (RS m n) H; rewrite card_ord. Qed.
End Spaces.

(** ** Flat spaces *)
Lemma prod2 a b : prod_shape [:: a; b] = (a * b)%ZZ. Proof. by rewrite /prod_shape /=; lia. Qed.
Lemma prod3 a b c : prod_shape [:: a; b; c] = (a * b * c)%ZZ. Proof. by rewrite /prod_shape /=; lia. Qed.
Section Flat.
Variables (R : rcfType).
Local Notation F := (real_star R).
Local Notation C := (complex_star R).
Local Notation dR := (real_field_dim R).
Local Notation dC := (complex_field_dim R).

Theorem C50_euclidean k m n :
  reports (euclidean_init [:: z k; z m; z n]) (Flat 1) (@sscale R F k m n) everywhere /\
  reports (complex_euclidean_init [:: z k; z m; z n]) (Flat 1) (@sscale R C k m n) everywhere.
Proof.
have D (G : starField R) e : field_dim G e -> has_dimension (@sscale R G k m n) everywhere (k * (m * n * e)).
  move=> dG; apply: dimension_ext (dim_stack (fun=> dimension_mx dG m n)) => v; by split.
split.
  exists (k * (m * n * 1))%N; split; last exact: D dR.
  by apply/(proj1 (C49_flat _ _)); rewrite !zM; split; [|split; [|split]] => //; rewrite ?prod3; nia.
exists (k * (m * n * 2))%N; split; last exact: D dC.
by apply/(proj1 (proj2 (C49_flat _ _))); rewrite !zM; split; [|split; [|split]] => //; rewrite ?prod3; nia.
Qed.
Print Assumptions C50_euclidean.

Theorem C50_symmetric k n : (0 < k)%N ->
  reports (symmetric_init (z n) (z k)) (Flat 1) (@sscale R F k n n) (@sym_array R k n) /\
  reports (skew_symmetric_init (z n) (z k)) (Flat 1) (@sscale R F k n n) (@skew_array R k n).
Proof.
move=> /ssrnat.ltP k0; split.
  exists (k * (n * 1 + 'C(n, 2) * 1))%N; split.
    apply/(proj1 (proj2 (proj2 (C49_flat _ _)))); rewrite !(zD, zM); have B := z_bin n.
    by split; [|split; [|split]] => //; nia.
  apply: dimension_ext (dim_stack (fun=> dim_herm dR n)) => v.
  by split=> H i; have := H i; rewrite real_adj.
exists (k * (n * (1 - 1) + 'C(n, 2) * 1))%N; split.
  apply/(proj1 (proj2 (proj2 (proj2 (C49_flat _ _))))); rewrite subnn muln0 add0n muln1 !zM; have B := z_bin n.
  by split; [|split; [|split]] => //; nia.
apply: dimension_ext (dim_stack (fun=> dim_skew dR n)) => v.
by split=> H i; have := H i; rewrite real_adj.
Qed.
Print Assumptions C50_symmetric.
End Flat.

(** ** Spheres *)
Section Spheres.
Local Notation dR := (real_field_dim RR).

Theorem C50_sphere m n (x : 'M[RF]_(m, n)) : on_sphere x ->
  reports (sphere_init [:: z m; z n]) (Flat 1) (@rscale RR RF m n) (sphere_tangent x).
Proof.
move=> /on_sphereE hx; have I := @inner_ips RR RF m n.
pose f (v : 'M[RF]_(m, n)) := inner x v : RR.
have L : real_linear (@rscale RR RF m n) (@real_mul RR) f.
  by split=> [u v|a v]; [apply: (dotDr I)|apply: (dotZr I)].
have h2 (w : RR) : everywhere w -> exists2 v, everywhere v & f v = w.
  by move=> _; exists (rscale w x) => //; rewrite /f (dotZr I) hx mulr1.
have [d E D] := kernel_dim (@rscaling RR RF m n) (@real_scaling RR) L (fun _ _ => Logic.I) h2
  (dimension_mx dR m n) (dimension_R RR).
exists d; split; last by apply: dimension_ext D => v; split=> [[]|].
apply/(proj1 (proj2 (proj2 (proj2 (proj2 (C49_flat _ _)))))).
have := congr1 z E; rewrite !(zD, zM) => E'; split; [|split; [|split]] => //; rewrite ?prod2; nia.
Qed.
Print Assumptions C50_sphere.

Lemma dim_fixed n (P : 'M[RF]_n) : orthogonal_projector P ->
  has_dimension (@rscale RR RF n 1) (fun v => P *m v = v) (\rank P).
Proof.
move=> [Pt PP]; pose B := row_base P.
pose f (c : 'rV[RF]_(\rank P)) : 'cV[RF]_n := (c *m B)^T.
have L : real_linear (@rscale RR RF 1 (\rank P)) (@rscale RR RF n 1) f.
  by split=> [u v|a v]; rewrite /f ?mulmxDl ?raddfD // /rscale -scalemxAl linearZ.
have := dimension_mx dR 1 (\rank P); rewrite mul1n muln1.
apply: (dimension_iso (@rscaling RR RF 1 (\rank P)) L).
- move=> c _; have /submxP[D E] : (c *m B <= P)%MS by rewrite (submx_trans (submxMl _ _)) // eq_row_base.
  by rewrite /f E trmx_mul Pt mulmxA PP.
- move=> v hv; have : (v^T <= B)%MS by rewrite eq_row_base -hv trmx_mul Pt submxMl.
  by case/submxP => c E; exists c => //; rewrite /f -E trmxK.
- move=> c _ /(congr1 trmx); rewrite /f trmxK trmx0 => E.
  by apply: (row_free_inj (row_base_free P)); rewrite mul0mx.
Qed.

(** The intersections with a subspace; [P] is the projector on it, and [matrix_rank] its rank. *)
Theorem C50_sphere_subspace rows columns n (P : 'M[RF]_n) (x : 'cV[RF]_n) : orthogonal_projector P -> ss_point P x ->
  (columns <= rows)%ZZ ->
  reports (sphere_subspace_init [:: rows; columns] (z (\rank P))) (Flat 1) (@rscale RR RF n 1) (ss_tangent P x).
Proof.
move=> hP [/on_sphereE hx Px] le; have I := @inner_ips RR RF n 1.
pose f (v : 'cV[RF]_n) := inner x v : RR.
have L : real_linear (@rscale RR RF n 1) (@real_mul RR) f.
  by split=> [u v|a v]; [apply: (dotDr I)|apply: (dotZr I)].
have h2 (w : RR) : everywhere w -> exists2 v, P *m v = v & f v = w.
  move=> _; exists (rscale w x); first by rewrite /rscale -scalemxAr Px.
  by rewrite /f (dotZr I) hx mulr1.
have [d E D] := kernel_dim (@rscaling RR RF n 1) (@real_scaling RR) L (fun _ _ => Logic.I) h2
  (dim_fixed hP) (dimension_R RR).
exists d; split; last by apply: dimension_ext D => v; split=> [[]|[]].
apply/(proj1 (proj2 (proj2 (proj2 (proj2 (proj2 (C49_flat _ _))))))).
have := congr1 z E; rewrite zD /= => E'; split; first by exists rows, columns.
split; [|split] => //; lia.
Qed.
Print Assumptions C50_sphere_subspace.

Theorem C50_oblique m n (x : 'M[RF]_(m, n)) : unit_columns x ->
  reports (oblique_init (z m) (z n)) (Flat 1) (@rscale RR RF m n) (columns_tangent x).
Proof.
move=> hx; pose f (v : 'M[RF]_(m, n)) : 'rV[RF]_n := \row_j \sum_i x i j * v i j.
have L : real_linear (@rscale RR RF m n) (@rscale RR RF 1 n) f.
  split=> [u v|a v]; apply/rowP => j; rewrite !mxE.
    by rewrite -big_split; apply: eq_bigr => i _; rewrite mxE mulrDr.
  by rewrite mulr_sumr; apply: eq_bigr => i _; rewrite !mxE mulrCA.
have h2 (w : 'rV[RF]_n) : everywhere w -> exists2 v, everywhere v & f v = w.
  move=> _; exists (\matrix_(i, j) (x i j * w 0 j)) => //; apply/rowP => j; rewrite mxE.
  under eq_bigr => i _ do rewrite mxE mulrA -expr2.
  by rewrite -mulr_suml hx mul1r.
have [d E D] := kernel_dim (@rscaling RR RF m n) (@rscaling RR RF 1 n) L (fun _ _ => Logic.I) h2
  (dimension_mx dR m n) (dimension_mx dR 1 n).
exists d; split.
  apply/(proj1 (proj2 (proj2 (proj2 (proj2 (proj2 (proj2 (proj2 (C49_flat _ _))))))))).
  have := congr1 z E; rewrite !(zD, zM) => E'; split; [|split] => //; nia.
apply: dimension_ext D => v; split=> [[_ /rowP H] j|H]; first by have := H j; rewrite !mxE.
by split=> //; apply/rowP => j; rewrite !mxE.
Qed.
Print Assumptions C50_oblique.

Theorem C50_complex_circle n (x : 'rV[CF]_n) : unit_modulus x ->
  reports (complex_circle_init (z n)) (Flat 1) (@rscale RR CF 1 n) (circle_tangent x).
Proof.
move=> hx; pose f (v : 'rV[CF]_n) : 'rV[RF]_n := \row_j cdot (x 0 j) (v 0 j).
have L : real_linear (@rscale RR CF 1 n) (@rscale RR RF 1 n) f.
  split=> [u v|a v]; apply/rowP => j; rewrite !mxE; first exact: (dotDr cips).
  exact: (dotZr cips).
have h2 (w : 'rV[RF]_n) : everywhere w -> exists2 v, everywhere v & f v = w.
  move=> _; exists (\row_j cscale (w 0 j) (x 0 j)) => //; apply/rowP => j; rewrite !mxE (dotZr cips) cdotE -!expr2.
  by rewrite hx mulr1.
have [d E D] := kernel_dim (@rscaling RR CF 1 n) (@rscaling RR RF 1 n) L (fun _ _ => Logic.I) h2
  (dimension_mx (complex_field_dim RR) 1 n) (dimension_mx dR 1 n).
exists d; split.
  apply/(proj1 (proj2 (proj2 (proj2 (proj2 (proj2 (proj2 (C49_flat _ _)))))))).
  have := congr1 z E; rewrite !(zD, zM) => E'; split; [|split] => //; nia.
apply: dimension_ext D => v; split=> [[_ /rowP H] j|H]; first by have := H j; rewrite !mxE cdotE.
by split=> //; apply/rowP => j; rewrite !mxE cdotE.
Qed.
Print Assumptions C50_complex_circle.
End Spheres.

(** Every direction is tangent at a positive array (here with its [k * m * n] entries in a row) and in a product of balls. *)
Theorem C50_positive_poincare :
  (forall k m n, reports (positive_init (z m) (z n) (z k)) (Flat 1) (@rscale RR RF 1 (k * m * n)) everywhere) /\
  (forall k n, (0 < k)%N -> (0 < n)%N -> reports (poincare_init (z n) (z k)) (Flat 1) (@rscale RR RF k n) everywhere).
Proof.
split=> [k m n|k n /ssrnat.ltP k0 /ssrnat.ltP n0].
  exists (k * m * n)%N; split.
    apply/(proj1 (proj2 (proj2 (proj2 (proj2 (proj2 (proj2 (proj2 (proj2 (C49_flat _ _)))))))))).
    rewrite !zM; split; [|split] => //; nia.
  by have := dimension_mx (real_field_dim RR) 1 (k * m * n); rewrite mul1n muln1.
exists (k * n)%N; split; last by have := dimension_mx (real_field_dim RR) k n; rewrite muln1.
apply/(proj2 (proj2 (proj2 (proj2 (proj2 (proj2 (proj2 (proj2 (proj2 (C49_flat _ _)))))))))).
rewrite !zM; split; [|split; [|split]] => //; lia.
Qed.
Print Assumptions C50_positive_poincare.

(** ** Stacks of orthonormal and unitary matrices *)
Section Matrices.
Variable R : rcfType.
Local Notation dR := (real_field_dim R).
Local Notation dC := (complex_field_dim R).
Local Notation known name := (name = "qr"%string \/ name = "polar"%string).

Theorem C50_stiefel k n p name (x : stack (real_star R) k n p) : (0 < k)%N -> (0 < p <= n)%N -> known name -> on_stiefel x ->
  reports (stiefel_init (z n) (z p) (z k) name) (Flat 1) (@sscale R (real_star R) k n p) (stiefel_tangent x).
Proof.
move=> /ssrnat.ltP k0 /andP[/ssrnat.ltP p0 /ssrnat.leP pn] hn hx.
have H i : exists2 d, (d + (p * 1 + 'C(p, 2) * 1))%N = (n * p * 1)%N &
    has_dimension (@rscale R (real_star R) n p) (fun V => (x i)^T *m V + V^T *m x i = 0) d.
  have ox : orthonormal (x i) by rewrite /orthonormal real_adj; exact: hx.
  have [d E D] := dim_stiefel dR ox; exists d => //; apply: dimension_ext D => V.
  by rewrite !real_adj.
pose d := (n * p * 1 - (p * 1 + 'C(p, 2) * 1))%N.
have D i : has_dimension (@rscale R (real_star R) n p) (fun V => (x i)^T *m V + V^T *m x i = 0) d.
  by have [d' E D] := H i; rewrite /d -E addnK.
have E : (d + (p * 1 + 'C(p, 2) * 1))%N = (n * p * 1)%N.
  by have [d' E _] := H (Ordinal (introT ssrnat.ltP k0)); rewrite /d -E addnK.
exists (k * d)%N; split; last exact: (dim_stack D).
apply/(proj1 (C49_matrices _ _)); have := congr1 z E; rewrite !(zD, zM) => E'; have B := z_bin p.
split=> //; split; first lia; split; first lia; split=> //; nia.
Qed.
Print Assumptions C50_stiefel.

Theorem C50_grassmann k n p : (0 < k)%N -> (0 < p <= n)%N ->
  (forall x : stack (real_star R) k n p, on_stiefel x ->
     reports (grassmann_init (z n) (z p) (z k)) (Flat 1) (@sscale R (real_star R) k n p) (grassmann_horizontal x)) /\
  (forall x : stack (complex_star R) k n p, (forall i, orthonormal (x i)) ->
     reports (complex_grassmann_init (z n) (z p) (z k)) (Flat 1) (@sscale R (complex_star R) k n p) (grassmann_horizontal x)).
Proof.
move=> /ssrnat.ltP k0 /andP[/ssrnat.ltP p0 /ssrnat.leP pn].
have G (F : starField R) e (x : stack F k n p) : field_dim F e -> (forall i, orthonormal (x i)) ->
    exists2 d, (d + p * p * e)%N = (n * p * e)%N & has_dimension (@sscale R F k n p) (grassmann_horizontal x) (k * d).
  move=> dF ox; pose d := (n * p * e - p * p * e)%N.
  have D i : has_dimension (@rscale R F n p) (fun V => (x i)^H *m V = 0) d.
    by have [d' E D] := dim_horizontal dF (ox i); rewrite /d -E addnK.
  exists d; last exact: (dim_stack D).
  by have [d' E _] := dim_horizontal dF (ox (Ordinal (introT ssrnat.ltP k0))); rewrite /d -E addnK.
split=> x hx.
  have ox i : orthonormal (x i) by rewrite /orthonormal real_adj; exact: hx.
  have [d E D] := G _ _ x dR ox; exists (k * d)%N; split=> //.
  apply/(proj1 (proj2 (C49_matrices _ _))); have := congr1 z E; rewrite !(zD, zM) => E'.
  split; first lia; split; first lia; split=> //; nia.
have [d E D] := G _ _ x dC hx; exists (k * d)%N; split=> //.
apply/(proj1 (proj2 (proj2 (C49_matrices _ _)))); have := congr1 z E; rewrite !(zD, zM) => E'.
split; first lia; split; first lia; split=> //; nia.
Qed.
Print Assumptions C50_grassmann.

(** Tangent vectors of the groups are represented in the Lie algebra. *)
Theorem C50_groups k n name : (0 < k)%N -> known name ->
  reports (so_init (z n) (z k) name) (Flat 1) (@sscale R (real_star R) k n n) (@skew_symmetric R k n) /\
  reports (unitary_init (z n) (z k) name) (Flat 1) (@sscale R (complex_star R) k n n) (@lie_vector R (complex_star R) k n).
Proof.
move=> /ssrnat.ltP k0 hn; split.
  exists (k * (n * (1 - 1) + 'C(n, 2) * 1))%N; split.
    apply/(proj1 (proj2 (proj2 (proj2 (C49_matrices _ _))))); rewrite subnn muln0 add0n muln1 !zM; have B := z_bin n.
    rewrite (_ : (z n <? 0)%ZZ = false); last by apply/Z.ltb_ge; lia.
    split=> //; split; first lia; split=> //; nia.
  apply: dimension_ext (dim_stack (fun=> dim_skew dR n)) => v.
  by split=> H i; have := H i; rewrite real_adj.
exists (k * (n * (2 - 1) + 'C(n, 2) * 2))%N; split; last exact: (dim_stack (fun=> dim_skew dC n)).
apply/(proj1 (proj2 (proj2 (proj2 (proj2 (C49_matrices _ _)))))); rewrite subn1 !(zM, zD); have B := z_bin n.
split=> //; split; first lia; split=> //; nia.
Qed.
Print Assumptions C50_groups.

(** ** Positive definite matrices *)
Theorem C50_spd k n :
  reports (spd_init (z n) (z k)) (Flat 1) (@sscale R (real_star R) k n n) (@herm_vector R (real_star R) k n).
Proof.
exists (k * (n * 1 + 'C(n, 2) * 1))%N; split; last exact: (dim_stack (fun=> dim_herm dR n)).
apply/(proj1 (proj2 (proj2 (proj2 (proj2 (proj2 (C49_matrices _ _))))))); rewrite !(zM, zD); have B := z_bin n.
split; [|split] => //; nia.
Qed.
Print Assumptions C50_spd.

(** Hermitian matrices of size [n] have [n * n] real degrees of freedom; [n * (n + 1)] are reported. *)
Theorem C50_hpd_refuted k n :
  has_dimension (@sscale R (complex_star R) k n n) (@herm_vector R (complex_star R) k n) (k * (n * n)) /\
  hpd_init (z n) (z k) = Ok (z (k * (n * n) + k * n), Flat 1).
Proof.
split.
  rewrite (_ : (k * (n * n) = k * (n * 1 + 'C(n, 2) * 2))%N); first exact: (dim_stack (fun=> dim_herm dC n)).
  apply: Nat2Z.inj; rewrite !(zM, zD); have B := z_bin n; nia.
apply/(proj1 (proj2 (proj2 (proj2 (proj2 (proj2 (proj2 (C49_matrices _ _)))))))); rewrite !(zM, zD).
split; [|split] => //; nia.
Qed.
Print Assumptions C50_hpd_refuted.

Lemma dim_det n (x : 'M[complex_star R]_n) : (0 < n)%N -> posdef x ->
  has_dimension (@rscale R (complex_star R) n n) (fun v => v^H = v /\ sf_re (\tr (invmx x *m v)) = 0) (n * n - 1).
Proof.
move=> n0 px; have U := posdef_unit px; have [hx _] := px; set F := complex_star R.
pose f (v : 'M[F]_n) := sf_re (\tr (invmx x *m v)).
have L : real_linear (@rscale R F n n) (@real_mul R) f.
  split=> [u v|a v]; rewrite /f; first by rewrite mulmxDr linearD sf_reD.
  by rewrite /rscale -scalemxAr mxtraceZ sf_reZ.
have h2 (w : R) : everywhere w -> exists2 v : 'M[F]_n, v^H = v & f v = w.
  move=> _; exists (sf_real (w / n%:R) *: x); first by rewrite adjmxZreal [x^H]hx.
  rewrite /f -scalemxAr mulVmx // mxtraceZ mxtrace1 sf_reZ.
  have -> : sf_re (n%:R : F) = n%:R by rewrite -(rmorph_nat (@sf_real _ F)) re_real.
  by rewrite divfK // pnatr_eq0 -lt0n.
have [d E D] := kernel_dim (@rscaling R F n n) (@real_scaling R) L (fun _ _ => Logic.I) h2 (dim_herm dC n) (dimension_R R).
rewrite (_ : (n * n - 1)%N = d) //.
suff -> : (n * n = d + 1)%N by rewrite addnK.
apply: Nat2Z.inj; have := congr1 z E; rewrite !(zM, zD); have B := z_bin n; nia.
Qed.

(** With the determinant fixed there is one degree of freedom less; [n * (n + 1) - 1] are reported. *)
Theorem C50_shpd_refuted k n (x : stack (complex_star R) k n n) : (0 < n)%N -> on_shpd x ->
  has_dimension (@sscale R (complex_star R) k n n) (shpd_tangent x) (k * (n * n - 1)) /\
  shpd_init (z n) (z k) = Ok (z (k * (n * n - 1) + k * n), Flat 1).
Proof.
move=> n0 hx; split; first by apply: (dim_stack (T := fun i v => v^H = v /\ sf_re (\tr (invmx (x i) *m v)) = 0)) => i; apply: dim_det => //; have [] := hx i.
have E : (n * n = (n * n - 1) + 1)%N by rewrite subnK // muln_gt0 n0.
have := congr1 z E; rewrite zD zM => E'.
apply/(proj1 (proj2 (proj2 (proj2 (proj2 (proj2 (proj2 (proj2 (C49_matrices _ _))))))))); rewrite !(zM, zD).
split; [|split] => //; nia.
Qed.
Print Assumptions C50_shpd_refuted.

(** ** Positive semidefinite matrices of fixed rank *)
Theorem C50_psd n k :
  (forall x : 'M[real_star R]_(n, k), full_rank x ->
     reports (psd_init (z n) (z k)) (Flat 1) (@rscale R (real_star R) n k) (psd_horizontal x)) /\
  (forall x : 'M[complex_star R]_(n, k), full_rank x ->
     reports (complex_psd_init (z n) (z k)) (Flat 1) (@rscale R (complex_star R) n k) (psd_horizontal x)).
Proof.
have B := z_bin k; split=> x hx.
  have [d E D] := dim_quotient dR hx; exists d; split=> //; have := congr1 z E; rewrite subnn muln0 add0n !(zM, zD) => E'.
  apply/(proj1 (proj2 (proj2 (proj2 (proj2 (proj2 (proj2 (proj2 (proj2 (C49_matrices _ _)))))))))).
  split; [|split] => //; nia.
have [d E D] := dim_quotient dC hx; exists d; split=> //; have := congr1 z E; rewrite subn1 !(zM, zD) => E'.
apply/(proj1 (proj2 (proj2 (proj2 (proj2 (proj2 (proj2 (proj2 (proj2 (proj2 (C49_matrices _ _))))))))))).
split; [|split] => //; nia.
Qed.
Print Assumptions C50_psd.

(** ** Matrices of fixed rank *)
Theorem C50_fixed_rank m n k (x : fr_point R m n k) : (0 < k)%N -> (k <= m)%N -> (k <= n)%N -> on_fixed_rank x ->
  reports (fixed_rank_init (z m) (z n) (z k)) (Flat 3) (@rscale R (real_star R) m n) (rank_velocity x).
Proof.
move=> /ssrnat.ltP k0 /ssrnat.leP km /ssrnat.leP kn hx; set F := real_star R.
have [d1 E1 D1] := dim_horizontal dR (on_u hx); have [d2 E2 D2] := dim_horizontal dR (on_v hx).
have S1 := @rscaling R F m k; have S2 := @rscaling R F n k; have S3 := @rscaling R F k k.
have D := dimension_pair (pscaling S1 S2) S3 (dimension_pair S1 S2 D1 D2) (dimension_mx dR k k).
pose f (t : 'M[F]_(m, k) * 'M[F]_(n, k) * 'M[F]_k) : 'M[F]_(m, n) := fr_represented x (FrVector t.1.1 t.2 t.1.2).
have V (t : 'M[F]_(m, k) * 'M[F]_(n, k) * 'M[F]_k) :
    (((fr_u x)^H *m t.1.1 = 0) /\ ((fr_vt x)^H^H *m t.1.2 = 0)) /\ everywhere t.2 <-> fr_valid x (FrVector t.1.1 t.2 t.1.2).
  by rewrite /fr_valid adjmxK real_adj; split=> [[]|].
exists (d1 + d2 + k * k * 1)%N; split.
  apply/(proj2 (proj2 (proj2 (proj2 (proj2 (proj2 (proj2 (proj2 (proj2 (proj2 (proj2 (C49_matrices _ _)))))))))))).
  have := congr1 z E1; have := congr1 z E2; rewrite !(zM, zD) => E1' E2'.
  split; first lia; split; first lia; split=> //; nia.
apply: (dimension_iso (pscaling (pscaling S1 S2) S3) (f := f) _ _ _ _ D).
- split=> [[[a b] c] [[a' b'] c']|l [[a b] c]]; rewrite /f /fr_represented /=.
    by rewrite mulmxDr !mulmxDl [(b + b')^T]linearD /= mulmxDr [X in X + _]addrACA [LHS]addrACA.
  by rewrite /rscale -scalemxAr -!scalemxAl [(_ *: b)^T]linearZ /= -scalemxAr !scalerDr.
- by move=> t /V ht; apply/(C78_tangent_space _ hx).1; exists (FrVector t.1.1 t.2 t.1.2).
- move=> w /(C78_tangent_space _ hx).1 [[Up M Vp] ht <-].
  by exists (Up, Vp, M) => //; apply/V.
- move=> [[a b] c] /V ht e; suff [-> -> ->] : FrVector a c b = FrVector 0 0 0 by [].
  apply: (proj2 (C78_tangent_space 0 hx)) ht _ _; first by rewrite /fr_valid /= !mulmx0.
  by rewrite -/(f (a, b, c)) e /fr_represented /= trmx0 !mulmx0 !mul0mx !addr0.
Qed.
Print Assumptions C50_fixed_rank.
End Matrices.

(** ** Elliptope *)
Theorem C50_elliptope n k (x : 'M[RF]_(n, k)) : (0 < k)%N -> on_elliptope x ->
  reports (elliptope_init (z n) (z k)) (Flat 1) (@rscale RR RF n k) (el_horizontal x).
Proof.
move=> /ssrnat.ltP k0 hx; have [ux rx] := hx; have dR := real_field_dim RR.
have fx := (full_gram x).1 rx; have B := z_bin k.
pose r (v : 'M[RF]_(n, k)) : 'cV[RF]_n := \col_i \sum_j x i j * v i j.
have Lr : real_linear (@rscale RR RF n k) (@rscale RR RF n 1) r.
  split=> [u v|a v]; apply/colP => i; rewrite !mxE.
    by rewrite -big_split; apply: eq_bigr => j _; rewrite mxE mulrDr.
  by rewrite mulr_sumr; apply: eq_bigr => j _; rewrite !mxE mulrCA.
have hr (w : 'cV[RF]_n) : everywhere w -> exists2 v, everywhere v & r v = w.
  move=> _; exists (\matrix_(i, j) (x i j * w i 0)) => //; apply/colP => i; rewrite mxE.
  under eq_bigr => j _ do rewrite mxE mulrA -expr2.
  by rewrite -mulr_suml ux mul1r.
have [d E D] := kernel_dim (@rscaling RR RF n k) (@rscaling RR RF n 1) Lr (fun _ _ => Logic.I) hr
  (dimension_mx dR n k) (dimension_mx dR n 1).
have {}D : has_dimension (@rscale RR RF n k) (rows_tangent x) d.
  apply: dimension_ext D => v; split=> [[_ /colP H] i|H]; first by have := H i; rewrite !mxE.
  by split=> //; apply/colP => i; rewrite !mxE.
pose f (V : 'M[RF]_(n, k)) := x^H *m V - V^H *m x.
have L : real_linear (@rscale RR RF n k) (@rscale RR RF k k) f.
  split=> [u v|a v]; rewrite /f; first by rewrite mulmxDr adjmxD mulmxDl opprD addrACA.
  by rewrite /rscale adjmxZreal -scalemxAr -scalemxAl scalerBr.
have h1 (V : 'M[RF]_(n, k)) : rows_tangent x V -> (f V)^H = - f V.
  by move=> _; rewrite /f adjmxB !adjmxM !adjmxK opprB.
have h2 (w : 'M[RF]_k) : w^H = - w -> exists2 v : 'M[RF]_(n, k), rows_tangent x v & f v = w.
  move=> hw; have [A EA] := lyapunov_exists (@real_has_eigenvectors RR) w fx.
  have [hG _] := fx; rewrite [(x^H *m x)^H]hG in EA.
  have hA := lyapunov_skew fx EA hw; exists (x *m A).
    by apply: vertical_rows => //; rewrite /vertical adjmxM hA mulmxA mulmxN mulNmx addrN.
  by rewrite /f adjmxM hA !mulNmx opprK mulmxA -[A *m _ *m _]mulmxA.
have [d' E' D'] := kernel_dim (@rscaling RR RF n k) (@rscaling RR RF k k) L h1 h2 D (dim_skew dR k).
exists d'; split.
  apply/(proj1 (proj2 (proj2 (proj2 (proj2 (proj2 (proj2 (proj2 (proj2 (proj2 (proj2 (C49_matrices _ _)))))))))))).
  move: (congr1 z E) (congr1 z E'); rewrite subnn muln0 add0n !(zM, zD) => e e'.
  split; [|split] => //; nia.
apply: dimension_ext D' => V; rewrite /el_horizontal (horizontalE V rx) /hor adjmxM adjmxK /f.
by split=> [[T /eqP]|[T ->]]; [rewrite subr_eq0 => /eqP ->|rewrite subrr].
Qed.
Print Assumptions C50_elliptope.

(** ** Products: a tangent vector is a tuple of tangent vectors of the factors *)
Section Product.
Variable R : rcfType.
Record space := Space { sp_type : zmodType; sp_scale : R -> sp_type -> sp_type; sp_in : sp_type -> Prop }.
Definition sp_pair (s t : space) : space :=
  @Space [zmodType of sp_type s * sp_type t] (pscale (@sp_scale s) (@sp_scale t)) (fun p => sp_in p.1 /\ sp_in p.2).
Fixpoint sp_tuples (s : space) (l : list space) : space :=
  if l is t :: l' then sp_pair s (sp_tuples t l') else s.
Definition sp_dimension (s : space) (d : nat) : Prop := scaling (@sp_scale s) /\ has_dimension (@sp_scale s) (@sp_in s) d.

Lemma dim_tuples : forall (l : list space) (s : space) (ds : list nat) (d : nat),
  sp_dimension s d -> List.Forall2 sp_dimension l ds -> sp_dimension (sp_tuples s l) (d + sumn ds).
Proof.
elim=> [|t l IH] s ds d; first by move=> H F2; inversion F2; rewrite /= addn0.
move=> [Ss Ds] F2; inversion F2 as [|? d' ? ds' Ht Hl]; subst => /=.
have [St Dt] := IH t ds' d' Ht Hl; split; first exact: pscaling.
exact: dimension_pair.
Qed.

Theorem C50_product : forall N (AR : Arrays N) (m : manifold AR) ms s l prod,
  product_init (m :: ms) = Ok prod ->
  List.Forall2 (fun m s => exists2 d, mf_dim m = z d & sp_dimension s d) (m :: ms) (s :: l) ->
  exists d, mf_dim prod = z d /\ sp_dimension (sp_tuples s l) d.
Proof.
move=> N AR m ms s l prod E F2; inversion F2 as [|? ? ? ? [d Em Hd] F2']; subst.
have [ds Eds Hds] : exists2 ds, List.fold_right Z.add 0%ZZ (List.map mf_dim ms) = z (sumn ds) & List.Forall2 sp_dimension l ds.
  elim: ms l F2' {F2 E} => [|m' ms IH] l H; inversion H as [|? t ? l' [d' Ed' Hd'] Hl]; subst; first by exists [::].
  have [ds E H'] := IH _ Hl; exists (d' :: ds); last by constructor.
  by rewrite /= Ed' E -zD.
exists (d + sumn ds)%N; split; last exact: dim_tuples.
move: E; rewrite /product_init; case: (List.existsb _ _) => //.
rewrite /product_dim -/product_dim; cbn [List.map List.fold_right]; rewrite Em Eds -zD.
set i := manifold_init _ _; case M : i => [[d0 lay]|] //= [<-] /=.
rewrite {}/i in M.
by have [[->] _] := proj1 (proj1 (C49_base _ _) _ _) M.
Qed.
Print Assumptions C50_product.
End Product.

(** ** Points to which the theorems apply *)
Example dimension_points :
  on_sphere (delta_mx 0 0 : 'M[RF]_(2, 3)) /\ orthogonal_projector (1%:M : 'M[RF]_2) /\
  unit_columns (1%:M : 'M[RF]_2) /\ unit_modulus (const_mx 1 : 'rV[CF]_3) /\
  on_stiefel ([ffun=> 1%:M] : stack RF 2 3 3) /\ on_shpd ([ffun=> 1%:M] : stack CF 2 3 3) /\
  full_rank (1%:M : 'M[RF]_3) /\ on_elliptope (1%:M : 'M[RF]_3).
Proof.
have u1 : unit_columns (1%:M : 'M[RF]_2).
  by move=> j; rewrite (bigD1 j) //= big1 ?mxE ?eqxx ?expr1n ?addr0 // => i ne; rewrite mxE (negbTE ne) expr0n.
split; first by rewrite /on_sphere !big_ord_recl !big_ord0 !mxE /= expr1n !expr0n !addr0.
split; first by split; rewrite ?trmx1 ?mulmx1.
split=> //; split; first by move=> j; rewrite !mxE /= expr1n expr0n addr0.
split; first by move=> i; rewrite !ffunE trmx1 mulmx1.
split; first by move=> i; rewrite !ffunE; split; [exact: posdef1|exact: det1].
split; first by rewrite /full_rank mxrank1.
split; last by rewrite /full_rank mxrank1.
by move=> i; rewrite (bigD1 i) //= big1 ?mxE ?eqxx ?expr1n ?addr0 // => j ne; rewrite mxE eq_sym (negbTE ne) expr0n.
Qed.
Print Assumptions dimension_points.
