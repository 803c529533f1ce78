(** C103: on the quotient manifolds the runs of the optimizers do not depend on the representative. *)

From Coq Require Import Reals ZArith ClassicalEpsilon ClassicalDescription.
From mathcomp Require Import all_ssreflect all_algebra all_fingroup.
From Verif Require Import Rstruct MCRing Mat_Base Geometry_Spec Linalg_Spec Calculus Components Num_Model Num_Instances LineSearch_Model Multi_Model Multi_Proofs
  Euclidean_Model Euclidean_Props Sphere_Model Stiefel_Model Stiefel_Proofs Stack_Proofs Grassmann_Model Grassmann_Proofs Grassmann_Log Grassmann_Props
  Psd_Model Psd_Proofs Psd_Props Linalg_Exist Equivariance_Spec Symmetry_Spec Symmetry_Proofs Symmetry_Model Symmetry_Matrix.
Set Implicit Arguments.
Unset Strict Implicit.
Unset Printing Implicit Defensive.
Import GRing.Theory Num.Theory Order.TTheory.
Local Open Scope ring_scope.

(** ** Grassmann and ComplexGrassmann.  The array of matrices [x i] and the array of [O i x i Q i], with unitary [O i] and [Q i]:
    with [O i = 1] another representative of the same subspaces, and in general the subspaces turned by [O i]. *)
Section Grassmann.
Variables (F : starField RR) (k n p : nat) (dimension : Z).
Local Notation array := (stack F k n p).
Variables (svd : 'M[F]_(n, p) -> 'M[F]_(n, p) * 'rV[RR]_p * 'M[F]_p) (svd_p : 'M[F]_p -> 'M[F]_p * 'rV[RR]_p * 'M[F]_p)
  (qr : 'M[F]_(n, p) -> 'M[F]_(n, p) * 'M[F]_p).
Hypothesis svdP : forall A, valid_svd A (svd A).
Variables (O : 'I_k -> 'M[F]_n) (Q : 'I_k -> 'M[F]_p).
Hypotheses (uO : forall i, O i *m (O i)^H = 1%:M) (uQ : forall i, Q i *m (Q i)^H = 1%:M).
Implicit Types x y u v : array.
Definition turned (x : array) : array := [ffun i => O i *m x i *m Q i].
Local Notation M := (grassmann_mfd k dimension svd svd_p qr).
Local Notation moves P := (P Rnum M (@on_grassmann RR F k n p) (@grassmann_horizontal RR F k n p) turned turned).

Lemma turnedE x i : turned x i = turn (O i) (Q i) (x i). Proof. by rewrite ffunE. Qed.
Lemma turned_inner x u v : gr_inner_product (turned x) (turned u) (turned v) = gr_inner_product x u v.
Proof. by rewrite !gr_innerE; apply: eq_bigr => i _; rewrite !turnedE turn_inner. Qed.
Lemma retractionE x u i : gr_retraction svd x u i = (svd (x i + u i)).1.1 *m (svd (x i + u i)).2.
Proof. by rewrite /gr_retraction stack_mul !ffunE. Qed.
Lemma turned_retraction x u : on_grassmann x -> grassmann_horizontal x u -> gr_retraction svd (turned x) (turned u) = turned (gr_retraction svd x u).
Proof.
move=> hx hu; apply/ffunP => i; rewrite turnedE !retractionE !turnedE -turnD.
have rk := st_rank (hx i) (horizontal_tangent (hu i)).
by apply: (turn_polar (uO i) (uQ i) rk (svdP _)); exact: svdP.
Qed.
Lemma turned_projection x u : gr_projection (turned x) (turned u) = turned (gr_projection x u).
Proof. by apply/ffunP => i; rewrite turnedE !gr_projE !turnedE turn_gr_proj. Qed.
Lemma turnedD u v : turned u + turned v = turned (u + v).
Proof. by apply/ffunP => i; rewrite stackD !turnedE stackD turnD. Qed.
Lemma turnedN u : - turned u = turned (- u).
Proof. by apply/ffunP => i; rewrite stackN !turnedE stackN turnN. Qed.
Lemma grassmann_symmetry : moves (@symmetry).
Proof.
split=> /=.
- by move=> x u v _; exact: turned_inner.
- by move=> x u _; rewrite /gr_norm !np_normE /norm_of -(gr_innerE (turned x)) turned_inner gr_innerE.
- move=> x u hx hu; split; last exact: turned_retraction.
  by have [] := C68_retraction svdP hx hu.
- move=> x z u hx hz hu; split; last exact: turned_projection.
  by have [h _] := grassmann_projects u hz.
- move=> x u hx hu; split; last exact: turned_projection.
  by have [h _] := grassmann_projects u hx.
- move=> x hx; split; first by case: (grassmann_subspace x).
  by apply/ffunP => i; rewrite turnedE stack0 turn0.
- by move=> x u hx hu; split; [exact: horizontal_opp|exact: turnedN].
- by move=> x u v hx hu hv; split; [case: (grassmann_subspace x) => _ [D _]; exact: D|exact: turnedD].
- move=> x u v hx hu hv; split; last by rewrite turnedN turnedD.
  by case: (grassmann_subspace x) => _ [D _]; apply: D => //; exact: horizontal_opp.
- move=> x a u hx hu; split; first by case: (grassmann_subspace x) => _ [_ Z]; exact: Z.
  by apply/ffunP => i; rewrite turnedE !ffunE /turn -scalemxAr -scalemxAl.
Qed.
Lemma grassmann_log : moves (@log_symmetry).
Proof.
move=> x y hx hy /=; split; first by move=> i; rewrite gr_logE; apply: (log_horizontal (hx i) (svdP _)).
by apply/ffunP => i; rewrite turnedE !gr_logE !turnedE; apply: (turn_log (uO i) (uQ i) (svdP _)); exact: svdP.
Qed.
Theorem C103_grassmann : moves (@runs_move) /\ moves (@swarm_moves).
Proof. by split; [apply: sy_runs|apply: sy_swarm]; try exact: grassmann_symmetry; exact: grassmann_log. Qed.
(** The problem given by a cost function and its Euclidean derivatives moves along if these do. *)
Theorem C103_grassmann_problem (f f' : array -> RR) egrad egrad' ehess ehess' :
  (forall x, on_grassmann x -> f' (turned x) = f x) -> (forall x, on_grassmann x -> egrad' (turned x) = turned (egrad x)) ->
  (forall x u, on_grassmann x -> grassmann_horizontal x u -> ehess' (turned x) (turned u) = turned (ehess x u)) ->
  moves (@moved_problem) (grassmann_problem dimension svd svd_p qr f egrad ehess) (grassmann_problem dimension svd svd_p qr f' egrad' ehess').
Proof.
move=> hf hg hh; split=> //=.
- move=> x hx; split; first by have [h _] := grassmann_projects (egrad x) hx.
  by rewrite hg // /gr_gradient turned_projection.
- move=> x u hx hu; split; first by have [] := C61_grassmann (egrad x) (ehess x u) hx hu.
  by rewrite hg // hh //; apply/ffunP => i; rewrite turnedE !gr_hessE !turnedE turn_gr_hess.
Qed.
End Grassmann.

(** ** PSDFixedRank and PSDFixedRankComplex.  [x] and [x Q] represent the same matrix [x x^H]; [O x Q] represents [O x x^H O^H]. *)
(** The Lyapunov solver treats equations that differ by a unitary change of basis alike. *)
Definition lyapunov_commutes (F : starField RR) k (lyapunov : 'M[F]_k -> 'M[F]_k -> 'M[F]_k) : Prop :=
  forall Q A S, Q *m Q^H = 1%:M -> lyapunov (Q^H *m A *m Q) (Q^H *m S *m Q) = Q^H *m lyapunov A S *m Q.
(** For the equations with a unique solution every solver does: those at points of full rank. *)
Lemma lyapunov_commutes_posdef (F : starField RR) k (lyapunov : 'M[F]_k -> 'M[F]_k -> 'M[F]_k) : solves_lyapunov lyapunov ->
  forall Q A S, posdef A -> Q *m Q^H = 1%:M -> lyapunov (Q^H *m A *m Q) (Q^H *m S *m Q) = Q^H *m lyapunov A S *m Q.
Proof.
move=> L Q A S PA uQ; have uQ' := unitaryC uQ.
have PA' : posdef (Q^H *m A *m Q).
  have [hA pA] := PA; split; first by rewrite /hermitian !adjmxM adjmxK [A^H]hA !mulmxA.
  move=> x x0; have := pA (Q *m x); rewrite !adjmxM !mulmxA; apply.
  by apply: contra x0 => /eqP/(congr1 (mulmx Q^H)); rewrite mulmxA uQ' mul1mx mulmx0 => /eqP.
have E := L _ (Q^H *m S *m Q) PA'; have E2 := L _ S PA.
have [hA _] := PA; have [hA' _] := PA'; rewrite [A^H]hA in E2; rewrite [(Q^H *m A *m Q)^H]hA' in E.
move: (lyapunov (Q^H *m A *m Q) _) E => X E; move: (lyapunov A S) E2 => Y E2.
suff : X - Q^H *m Y *m Q = 0 by move/eqP; rewrite subr_eq0 => /eqP.
apply: (lyapunov_unique PA'); rewrite mulmxBr mulmxBl.
have K (a b c d : 'M[F]_k) : a - b + (c - d) = (a + c) - (b + d) by rewrite opprD addrACA.
rewrite K E -E2 mulmxDr mulmxDl; apply/eqP; rewrite subr_eq0; apply/eqP.
have QA (Z : 'M[F]_k) : Z *m Q *m Q^H = Z by rewrite -mulmxA uQ mulmx1.
by rewrite !mulmxA !QA.
Qed.
Section PSD.
Variables (F : starField RR) (n k : nat) (dimension : Z).
Local Notation array := 'M[F]_(n, k).
Implicit Types x y u v : array.
Variables (lyapunov : 'M[F]_k -> 'M[F]_k -> 'M[F]_k) (svd : 'M[F]_k -> 'M[F]_k * 'rV[RR]_k * 'M[F]_k).
Hypothesis lyapunovC : lyapunov_commutes lyapunov.
Variables (O : 'M[F]_n) (Q : 'M[F]_k).
Hypotheses (uO : O *m O^H = 1%:M) (uQ : Q *m Q^H = 1%:M).
Local Notation any := (fun=> True).
Local Notation M := (psd_mfd n dimension lyapunov svd).
Local Notation moves P := (P Rnum M any (fun _ => any) (turn O Q) (turn O Q)).
Lemma turned_psd_projection x v : psd_projection lyapunov (turn O Q x) (turn O Q v) = turn O Q (psd_projection lyapunov x v).
Proof. by rewrite /psd_projection !turn_gram // -mulmxBl -mulmxBr lyapunovC // turn_mul // -turnB. Qed.
Lemma psd_symmetry : moves (@symmetry).
Proof.
split=> //=.
- by move=> x u v _; rewrite !psd_innerE turn_inner.
- by move=> x u _; rewrite !psd_normE /fnorm turn_inner.
- by move=> x u _ _; rewrite /psd_retraction /psd_exp turnD.
- by move=> x z u _ _ _; split=> //; exact: turned_psd_projection.
- by move=> x u _ _; split=> //; exact: turned_psd_projection.
- by move=> x _; rewrite turn0.
- by move=> x u _ _; rewrite turnN.
- by move=> x u v _ _ _; rewrite turnD.
- by move=> x u v _ _ _; rewrite turnB.
- by move=> x a u _ _; rewrite turnZ.
Qed.
Theorem C103_psd : moves (@runs_move).
Proof. exact: sy_runs psd_symmetry. Qed.
Theorem C103_psd_problem (f f' : array -> RR) egrad egrad' ehess ehess' :
  (forall x, f' (turn O Q x) = f x) -> (forall x, egrad' (turn O Q x) = turn O Q (egrad x)) ->
  (forall x u, ehess' (turn O Q x) (turn O Q u) = turn O Q (ehess x u)) ->
  moves (@moved_problem) (psd_problem dimension lyapunov svd f egrad ehess) (psd_problem dimension lyapunov svd f' egrad' ehess').
Proof.
move=> hf hg hh; split=> //=.
- by move=> x _; rewrite /psd_gradient hg.
- by move=> x u _ _; split=> //; rewrite /psd_hessian hh turned_psd_projection.
Qed.
(** A function of the represented matrix only: its gradient moves along. *)
Theorem C103_gradient (f f' : array -> RR) x g g' : (forall x, f' (turn O Q x) = f x) ->
  has_gradient f x g -> has_gradient f' (turn O Q x) g' -> g' = turn O Q g.
Proof.
move=> hf G G'; apply/eqP; rewrite -subr_eq0; apply/eqP; apply: inner_eq0; set w := g' - _.
have Ow : turn O Q (O^H *m w *m Q^H) = w by rewrite /turn !mulmxA uO mul1mx -mulmxA (unitaryC uQ) mulmx1.
have L (y v : array) := derives_line (@inner_ips RR F n k) y v.
have c0 (y v : array) : y + rscale 0 v = y by rewrite /rscale rmorph0 scale0r addr0.
have D := G _ _ (c0 _ _) (L x (O^H *m w *m Q^H)); have D' := G' _ _ (c0 _ _) (L (turn O Q x) w).
have E : inner g (O^H *m w *m Q^H) = inner g' w.
  apply: (derives_unique (@real_ips RR) D); apply: derives_ext D' => t.
  by rewrite -hf turnD /rscale turnZ Ow.
by rewrite {1}/w innerBl -E -(turn_inner uO uQ g) Ow subrr.
Qed.
End PSD.

(** ** Elliptope: [x] and [x Q] represent the same matrix [x x^T]. *)
Section Elliptope.
Variables (n k : nat) (dimension : Z).
Local Notation array := 'M[RF]_(n, k).
Implicit Types x y u v : array.
Variable lyapunov : 'M[RF]_k -> 'M[RF]_k -> 'M[RF]_k.
Hypothesis lyapunovC : lyapunov_commutes lyapunov.
Variable Q : 'M[RF]_k.
Hypothesis uQ : Q *m Q^T = 1%:M.
Definition rotated (x : array) : array := x *m Q.
Local Notation any := (fun=> True).
Local Notation M := (elliptope_mfd n dimension lyapunov).
Local Notation moves P := (P Rnum M any (fun _ => any) rotated rotated).
Lemma uQH : Q *m Q^H = 1%:M. Proof. by rewrite adj_tr. Qed.
Lemma rotated_gram u v : (rotated u)^T *m rotated v = Q^T *m (u^T *m v) *m Q.
Proof. by rewrite /rotated trmx_mul !mulmxA. Qed.
Lemma rotated_outer u v : rotated u *m (rotated v)^T = u *m v^T.
Proof. by rewrite /rotated trmx_mul mulmxA -(mulmxA u) uQ mulmx1. Qed.
Lemma row_dotsE u v i : row_dots u v i ord0 = (u *m v^T) i i.
Proof. by rewrite !mxE; apply: eq_bigr => j _; rewrite mxE. Qed.
Lemma rotated_dots u v : row_dots (rotated u) (rotated v) = row_dots u v.
Proof. by apply/colP => i; rewrite !row_dotsE rotated_outer. Qed.
Lemma rotated_scale u c : scale_rows (rotated u) c = rotated (scale_rows u c).
Proof.
by apply/matrixP => i j; rewrite !mxE mulr_suml; apply: eq_bigr => l _; rewrite !mxE mulrAC.
Qed.
Lemma rotatedD u v : rotated u + rotated v = rotated (u + v). Proof. by rewrite /rotated mulmxDl. Qed.
Lemma rotatedN u : - rotated u = rotated (- u). Proof. by rewrite /rotated mulNmx. Qed.
Lemma rotatedB u v : rotated u - rotated v = rotated (u - v). Proof. by rewrite rotatedN rotatedD. Qed.
Lemma rotatedZ (a : RF) u : a *: rotated u = rotated (a *: u). Proof. by rewrite /rotated scalemxAl. Qed.
Lemma rotated_rows x v : el_project_rows (rotated x) (rotated v) = rotated (el_project_rows x v).
Proof. by rewrite /el_project_rows rotated_dots rotated_scale rotatedB. Qed.
Lemma rotated_mul u (A : 'M[RF]_k) : rotated u *m (Q^T *m A *m Q) = rotated (u *m A).
Proof. by rewrite /rotated !mulmxA -(mulmxA u) uQ mulmx1. Qed.
Lemma rotated_projection x v : el_projection lyapunov (rotated x) (rotated v) = rotated (el_projection lyapunov x v).
Proof.
rewrite /el_projection rotated_rows !rotated_gram -mulmxBl -mulmxBr -mulNmx -mulmxN.
have := lyapunovC (x^T *m x) (- (x^T *m el_project_rows x v - v^T *m x)) uQH; rewrite adj_tr => ->.
have -> : forall Z : 'M[RF]_k, Q^T *m Z *m Q - (Q^T *m Z *m Q)^T = Q^T *m (Z - Z^T) *m Q.
  by move=> Z; rewrite !trmx_mul trmxK mulmxBr mulmxBl !mulmxA.
by rewrite rotated_mul rotatedZ rotatedB.
Qed.
Lemma rotated_inner u v : inner (rotated u) (rotated v) = inner u v.
Proof. by rewrite /rotated inner_mulr -mulmxA uQH mulmx1. Qed.
Lemma rotated_normalize x : el_normalize_rows (rotated x) = rotated (el_normalize_rows x).
Proof.
have E y i : \sum_l y i l ^+ 2 = row_dots y y i ord0 by rewrite mxE.
apply/matrixP => i j; rewrite !mxE E rotated_dots -E mulr_suml; apply: eq_bigr => l _.
by rewrite !mxE mulrAC.
Qed.
Lemma elliptope_symmetry : moves (@symmetry).
Proof.
split=> //=.
- by move=> x u v _; rewrite !el_innerE rotated_inner.
- by move=> x u _; rewrite /el_norm !el_innerE rotated_inner.
- by move=> x u _ _; rewrite /el_retraction rotatedD rotated_normalize.
- by move=> x z u _ _ _; split=> //; exact: rotated_projection.
- by move=> x u _ _; split=> //; exact: rotated_projection.
- by move=> x _; rewrite /rotated mul0mx.
- by move=> x u _ _; rewrite rotatedN.
- by move=> x u v _ _ _; rewrite rotatedD.
- by move=> x u v _ _ _; rewrite rotatedB.
- by move=> x a u _ _; rewrite rotatedZ.
Qed.
Theorem C103_elliptope : moves (@runs_move).
Proof. exact: sy_runs elliptope_symmetry. Qed.
Theorem C103_elliptope_problem (f f' : array -> RR) egrad egrad' ehess ehess' :
  (forall x, f' (rotated x) = f x) -> (forall x, egrad' (rotated x) = rotated (egrad x)) ->
  (forall x u, ehess' (rotated x) (rotated u) = rotated (ehess x u)) ->
  moves (@moved_problem) (elliptope_problem dimension lyapunov f egrad ehess) (elliptope_problem dimension lyapunov f' egrad' ehess').
Proof.
move=> hf hg hh; split=> //=.
- by move=> x _; rewrite hg /el_gradient rotated_rows.
- move=> x u _ _; split=> //; rewrite /el_hessian hg hh !rotated_dots !rotated_scale !rotatedB.
  by rewrite rotated_projection.
Qed.
End Elliptope.

(** ** The hypotheses are met: a library, a change of representative that exchanges the columns, a cost function of the subspaces. *)
Section Instances.
Variable F : starField RR.
Hypothesis EV : has_eigenvectors F.
Lemma perm_unitary q (s : 'S_q) : (perm_mx s : 'M[F]_q) *m (perm_mx s)^H = 1%:M.
Proof. by rewrite /adjmx tr_perm_mx map_perm_mx -perm_mxM mulgV perm_mx1. Qed.
Lemma C103_grassmann_instance (A : 'M[F]_3) : exists svd svd_p qr,
  (forall B : 'M[F]_(3, 2), valid_svd B (svd B)) /\
  let Q (i : 'I_2) : 'M[F]_2 := perm_mx (tperm ord0 ord_max) in let O (i : 'I_2) : 'M[F]_3 := 1%:M in
  let f (x : stack F 2 3 2) : RR := \sum_i inner (x i) (A *m x i) in
  let egrad (x : stack F 2 3 2) : stack F 2 3 2 := [ffun i => A *m x i + A^H *m x i] in
  let ehess (x u : stack F 2 3 2) : stack F 2 3 2 := [ffun i => A *m u i + A^H *m u i] in
  let p := grassmann_problem 4 svd svd_p qr f egrad ehess in
  (forall i, O i *m (O i)^H = 1%:M) /\ (forall i, Q i *m (Q i)^H = 1%:M) /\ (exists x, on_grassmann x /\ turned O Q x <> x) /\
  moved_problem (grassmann_mfd 2 4 svd svd_p qr) (@on_grassmann RR F 2 3 2) (@grassmann_horizontal RR F 2 3 2) (turned O Q) (turned O Q) p p.
Proof.
have [svd svdP] := svd_function EV (leqnSn 2).
exists svd, (fun B => (B, 0, B)), (fun B => (B, 1%:M)); split=> // Q O f egrad ehess p.
have uO i : O i *m (O i)^H = 1%:M by rewrite /O mul1mx adjmx1.
have uQ i : Q i *m (Q i)^H = 1%:M by apply: perm_unitary.
split=> //; split=> //; split.
  pose e : 'M[F]_(3, 2) := \matrix_(i, j) (i == j :> nat)%:R.
  exists [ffun=> e]; split.
    move=> i; rewrite ffunE /orthonormal; apply/matrixP => a b; rewrite !mxE !big_ord_recl big_ord0 !mxE !rmorph_nat.
    by case: a => -[|[|]] // ?; case: b => -[|[|]] // ?; rewrite /= ?mulr0 ?mulr1 ?addr0 ?add0r.
  move/ffunP => /(_ ord0)/matrixP/(_ ord0 ord0); rewrite /turned !ffunE /O /Q mul1mx mxE !big_ord_recl big_ord0.
  by rewrite !mxE tpermL /= !mulr0 !mul0r !addr0 => /eqP; rewrite eq_sym oner_eq0.
apply: C103_grassmann_problem => //.
- move=> x _; apply: eq_bigr => i _; rewrite turnedE -[A *m _](_ : turn (O i) (Q i) (A *m x i) = _) ?turn_inner //.
  by rewrite /turn /O !mul1mx mulmxA.
- by move=> x _; apply/ffunP => i; rewrite turnedE !ffunE /turn /O !mul1mx mulmxDl !mulmxA.
- by move=> x u _ _; apply/ffunP => i; rewrite turnedE !ffunE /turn /O !mul1mx mulmxDl !mulmxA.
Qed.
Lemma posdef_turn k (Q A : 'M[F]_k) : Q *m Q^H = 1%:M -> posdef A -> posdef (Q^H *m A *m Q).
Proof.
move=> uQ [hA pA]; split; first by rewrite /hermitian !adjmxM adjmxK [A^H]hA !mulmxA.
move=> x x0; have := pA (Q *m x); rewrite !adjmxM !mulmxA; apply.
by apply: contra x0 => /eqP/(congr1 (mulmx Q^H)); rewrite mulmxA (unitaryC uQ) mul1mx mulmx0 => /eqP.
Qed.
(** a Lyapunov solver as in the theorems *)
Lemma C103_lyapunov_instance k : exists lyapunov : 'M[F]_k -> 'M[F]_k -> 'M[F]_k, solves_lyapunov lyapunov /\ lyapunov_commutes lyapunov.
Proof.
have [L [_ [LP _]]] := psd_library EV k.
pose L' A S := if excluded_middle_informative (posdef A) then L A S else 0.
exists L'; split=> [A S PA|Q A S uQ]; rewrite /L'.
  by case: (excluded_middle_informative (posdef A)) => [a|//]; apply: LP.
have uQ' := unitaryC uQ.
case: (excluded_middle_informative (posdef (Q^H *m A *m Q))) => [PA'|nA']; case: (excluded_middle_informative (posdef A)) => [PA|nA]; last by rewrite mulmx0 mul0mx.
- exact: lyapunov_commutes_posdef.
- case: nA; have := @posdef_turn _ Q^H _ _ PA'; rewrite adjmxK !mulmxA uQ mul1mx -mulmxA uQ mulmx1.
  by apply.
- by case: nA'; apply: posdef_turn.
Qed.
End Instances.
