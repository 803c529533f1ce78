(** C104: the optimizers commute with the isometries of the manifolds. *)
From Coq Require Import Reals ZArith Lra.
From mathcomp Require Import all_ssreflect all_algebra.
From Coq Require Import Ring Field.
From Verif Require Import Rstruct MCRing Mat_Base Geometry_Spec Linalg_Spec Calculus Components Num_Model Num_Instances LineSearch_Model Multi_Model Multi_Proofs
  Euclidean_Model Euclidean_Props Sphere_Model Sphere_Proofs Sphere_Props Positive_Model Positive_Props Stiefel_Model Stiefel_Proofs Stiefel_Props Stack_Proofs
  Expm Logm Linalg_Exist Grassmann_Props Group_Model Group_Proofs Group_Props PosDef_Model PosDef_Proofs PosDef_Exp PosDef_Props
  Equivariance_Spec Symmetry_Spec Symmetry_Proofs Symmetry_Model Symmetry_Matrix Isometry_Model.
Set Implicit Arguments.
Unset Strict Implicit.
Unset Printing Implicit Defensive.
Import GRing.Theory Num.Theory Order.TTheory.
Local Open Scope ring_scope.
Delimit Scope R_scope with Re.

(** [phi] is a real-linear map that preserves the inner product [dot]. *)
Definition linear_isometry (R : rcfType) (V : zmodType) (scale : R -> V -> V) (dot : V -> V -> R) (phi : V -> V) : Prop :=
  (forall u v, phi (u + v) = phi u + phi v) /\ (forall a u, phi (scale a u) = scale a (phi u)) /\ (forall u v, dot (phi u) (phi v) = dot u v).
Section LinearIsometry.
Variables (R : rcfType) (V : zmodType) (scale : R -> V -> V) (dot : V -> V -> R) (phi : V -> V).
Hypothesis P : linear_isometry scale dot phi.
Lemma isoD u v : phi (u + v) = phi u + phi v. Proof. by case: P. Qed.
Lemma isoZ a u : phi (scale a u) = scale a (phi u). Proof. by case: P => _ []. Qed.
Lemma iso_dot u v : dot (phi u) (phi v) = dot u v. Proof. by case: P => _ []. Qed.
Lemma iso0 : phi 0 = 0. Proof. by apply: (addrI (phi 0)); rewrite -isoD !addr0. Qed.
Lemma isoN u : phi (- u) = - phi u. Proof. by apply: (addrI (phi u)); rewrite -isoD !subrr iso0. Qed.
Lemma isoB u v : phi (u - v) = phi u - phi v. Proof. by rewrite isoD isoN. Qed.
Lemma iso_norm u : norm_of dot (phi u) = norm_of dot u. Proof. by rewrite /norm_of iso_dot. Qed.
End LinearIsometry.

(** ** Euclidean and ComplexEuclidean: a linear isometry followed by a translation. *)
Section Euclidean.
Variables (F : starField RR) (k m n : nat) (dimension : Z).
Local Notation array := (stack F k m n).
Implicit Types x y u v : array.
Variables (phi : array -> array) (t : array).
Hypothesis P : linear_isometry (@sscale RR F k m n) (@sinner RR F k m n) phi.
Local Notation any := (fun=> True).
Local Notation M := (@euclidean_mfd F k m n dimension).
Local Notation moves P := (P Rnum M any (fun _ => any) (fun x => phi x + t) phi).
Local Notation pmoves P := (P Rnum M any (fun x => phi x + t)).
Lemma euclidean_symmetry : moves (@symmetry).
Proof.
split=> //=.
- by move=> x u v _; rewrite !eu_innerE (iso_dot P).
- by move=> x u _; rewrite /eu_norm !np_normE (iso_norm P).
- by move=> x u _ _; split=> //; rewrite /eu_retraction /eu_exp (isoD P); exact: addrAC.
- by move=> x _; split=> //; rewrite /eu_zero_vector (iso0 P).
- by move=> x u _ _; rewrite (isoN P).
- by move=> x u v _ _ _; rewrite (isoD P).
- by move=> x u v _ _ _; rewrite (isoB P).
- by move=> x a u _ _; rewrite (isoZ P).
Qed.
Lemma euclidean_cancel x y : phi y + t - (phi x + t) = phi (y - x).
Proof. by rewrite (isoB P) opprD addrACA subrr addr0. Qed.
Theorem C104_euclidean : moves (@runs_move) /\ moves (@swarm_moves) /\ pmoves (@simplex_moves).
Proof.
have S := euclidean_symmetry.
have L : moves (@log_symmetry) by move=> x y _ _; split=> //=; rewrite /eu_log euclidean_cancel.
have H : pmoves (@mean_symmetry).
  split=> /= x y _ _; first by rewrite /eu_dist !np_normE euclidean_cancel (iso_norm P).
  split=> //; rewrite /eu_pair_mean !np_divE (isoZ P) (isoD P) addrACA scale_half_add; congr (_ + _).
  apply/ffunP => i; apply/matrixP => r c.
  have h : (2%:R^-1 + 2%:R^-1 : RR) = 1 by rewrite -mulr2n -(mulr_natl (_^-1)) mulfV // pnatr_eq0.
  by rewrite !ffunE !mxE mulrDr -mulrDl -rmorphD h rmorph1 mul1r.
by split; [exact: (sy_runs _ _ _ _ _ S)|split; [exact: (sy_swarm _ _ _ _ _ S L)|exact: (sy_simplex _ _ _ _ _ S L H)]].
Qed.
Theorem C104_euclidean_problem (f f' : array -> RR) egrad egrad' ehess ehess' :
  (forall x, f' (phi x + t) = f x) -> (forall x, egrad' (phi x + t) = phi (egrad x)) ->
  (forall x u, ehess' (phi x + t) (phi u) = phi (ehess x u)) ->
  moves (@moved_problem) (euclidean_problem dimension f egrad ehess) (euclidean_problem dimension f' egrad' ehess').
Proof. by move=> hf hg hh; split=> //= [x _|x u _ _]; split=> //; [exact: hg|exact: hh]. Qed.
End Euclidean.

(** ** Sphere: linear isometries of the arrays.  (Where the sum of the two arguments of [pair_mean] is zero, the program divides by zero;
    the model has the zero array there.) *)
Section Sphere.
Variables (m n : nat) (dimension : Z).
Local Notation array := 'M[RF]_(m, n).
Implicit Types x y u v : array.
Variable phi : array -> array.
Hypothesis P : linear_isometry (@rscale RR RF m n) (@inner RR RF m n) phi.
Local Notation any := (fun=> True).
Local Notation M := (@sphere_mfd m n dimension).
Local Notation moves P := (P Rnum M any (fun _ => any) phi phi).
Local Notation pmoves P := (P Rnum M any phi).
Local Notation proj := (@sp_projection m n).
Lemma phiZ (a : RR) u : phi (a *: u) = a *: phi u. Proof. exact: (isoZ P). Qed.
Lemma phi_inner x u v : sp_inner_product x (phi u) (phi v) = sp_inner_product x u v. Proof. by rewrite !sp_innerE (iso_dot P). Qed.
Lemma phi_norm u : np_fnorm (phi u) = np_fnorm u. Proof. by rewrite !np_fnormE (iso_norm P). Qed.
Lemma phi_proj x u : proj (phi x) (phi u) = phi (proj x u).
Proof. by rewrite /sp_projection (isoB P) phiZ !sp_innerE (iso_dot P). Qed.
Lemma phi_normalize u : sp_normalize (phi u) = phi (sp_normalize u).
Proof. by rewrite /sp_normalize phi_norm phiZ. Qed.
Lemma phi_dist x y : sp_dist (phi x) (phi y) = sp_dist x y. Proof. by rewrite /sp_dist !sp_innerE (iso_dot P). Qed.
Lemma sphere_symmetry : moves (@symmetry).
Proof.
split=> //=.
- by move=> x u v _; rewrite !sp_innerE (iso_dot P).
- by move=> x u _; rewrite /sp_norm phi_norm.
- by move=> x u _ _; rewrite /sp_retraction -(isoD P) phi_normalize.
- by move=> x z u _ _ _; split=> //; exact: phi_proj.
- by move=> x u _ _; split=> //; exact: phi_proj.
- by move=> x _; rewrite /sp_zero_vector (iso0 P).
- by move=> x u _ _; rewrite (isoN P).
- by move=> x u v _ _ _; rewrite (isoD P).
- by move=> x u v _ _ _; rewrite (isoB P).
- by move=> x a u _ _; split=> //; symmetry; exact: (isoZ P).
Qed.
Theorem C104_sphere : moves (@runs_move) /\ moves (@swarm_moves) /\ pmoves (@simplex_moves).
Proof.
have S := sphere_symmetry.
have L : moves (@log_symmetry).
  by move=> x y _ _; split=> //=; rewrite /sp_log -(isoB P) phi_proj phi_dist /sp_norm phi_norm phiZ.
have H : pmoves (@mean_symmetry).
  by split=> /= x y _ _; [exact: phi_dist|split=> //; rewrite /sp_pair_mean -(isoD P) phi_normalize].
by split; [exact: (sy_runs _ _ _ _ _ S)|split; [exact: (sy_swarm _ _ _ _ _ S L)|exact: (sy_simplex _ _ _ _ _ S L H)]].
Qed.
Theorem C104_sphere_problem (f f' : array -> RR) egrad egrad' ehess ehess' :
  (forall x, f' (phi x) = f x) -> (forall x, egrad' (phi x) = phi (egrad x)) -> (forall x u, ehess' (phi x) (phi u) = phi (ehess x u)) ->
  moves (@moved_problem) (sphere_problem dimension f egrad ehess) (sphere_problem dimension f' egrad' ehess').
Proof.
move=> hf hg hh; split=> //= [x _|x u _ _]; split=> //; first by rewrite /sp_gradient hg phi_proj.
by rewrite /sp_hessian hg hh !phi_proj -(isoB P) /sp_weingarten !sp_innerE (iso_dot P) (isoD P) phiZ.
Qed.
End Sphere.

(** ** Positive: entrywise rescaling by positive numbers, with either transport. *)
Section Positive.
Variables (n : nat) (dimension : Z) (use_parallel_transport : bool).
Local Notation array := 'rV[RF]_n.
Implicit Types x y u v : array.
Variable c : array.
Hypothesis c0 : positive_entries c.
Local Notation any := (fun=> True).
Local Notation M := (@positive_mfd n dimension use_parallel_transport).
Definition rescaled x : array := \row_j (c 0 j * x 0 j).
Definition unscaled x : array := \row_j (x 0 j / c 0 j).
Local Notation moves P := (P Rnum M (@positive_entries n) (fun _ => any) rescaled rescaled).
Lemma cN j : (c 0 j : RR) != 0. Proof. exact: pos_neq0. Qed.
Lemma cancel_ratio j (a b : RR) : c 0 j * a / (c 0 j * b) = a / b :> RR.
Proof. by rewrite -mulf_div divff ?cN // mul1r. Qed.
Lemma rescaled_inner x u v : po_inner_product (rescaled x) (rescaled u) (rescaled v) = po_inner_product x u v.
Proof. by apply: eq_bigr => j _; rewrite !mxE !cancel_ratio. Qed.
Lemma rescaled_ln x y j : positive_entries x -> positive_entries y ->
  (ln (rescaled x 0 j) : RR) - ln (rescaled y 0 j) = (ln (x 0 j) : RR) - ln (y 0 j) :> RR.
Proof.
move=> hx hy; have lnM (a b : RR) : 0 < a -> 0 < b -> (ln (a * b) : RR) = (ln a : RR) + ln b.
  by move=> /RltPx a0 /RltPx b0; exact: ln_mult.
by rewrite !mxE !lnM ?c0 ?hx ?hy // opprD addrACA subrr add0r.
Qed.
Lemma positive_symmetry : moves (@symmetry).
Proof.
split=> //=.
- by move=> x u v _; exact: rescaled_inner.
- by move=> x u _; rewrite /po_norm rescaled_inner.
- move=> x u hx _; split; first by case: (C64_positive u hx).
  by apply/rowP => j; rewrite !mxE; have a := pos_neq c0 (j:=j); have b := pos_neq hx (j:=j); Rify; field.
- move=> x z u hx hz _; split=> //; rewrite /po_transport; case: (use_parallel_transport) => //.
  by apply/rowP => j; rewrite !mxE; have a := pos_neq c0 (j:=j); have b := pos_neq hx (j:=j); Rify; field.
- by move=> x _; split=> //; apply/rowP => j; rewrite !mxE mulr0.
- by move=> x u _ _; split=> //; apply/rowP => j; rewrite !mxE mulrN.
- by move=> x u v _ _ _; split=> //; apply/rowP => j; rewrite !mxE mulrDr.
- by move=> x u v _ _ _; split=> //; apply/rowP => j; rewrite !mxE mulrBr.
- by move=> x a u _ _; split=> //; apply/rowP => j; rewrite !mxE mulrCA.
Qed.
Theorem C104_positive : moves (@runs_move) /\ moves (@swarm_moves).
Proof.
have S := positive_symmetry.
have L : moves (@log_symmetry).
  by move=> x y hx hy; split=> //=; apply/rowP => j; rewrite /po_log [LHS]mxE (rescaled_ln _ hy hx) !mxE mulrA.
by split; [exact: (sy_runs _ _ _ _ _ S)|exact: (sy_swarm _ _ _ _ _ S L)].
Qed.
(** The same for the distances. *)
Theorem C104_positive_distance x y : positive_entries x -> positive_entries y -> po_dist (rescaled x) (rescaled y) = po_dist x y.
Proof. by move=> hx hy; congr Num.sqrt; apply: eq_bigr => j _; rewrite (rescaled_ln _ hx hy). Qed.
(** The Euclidean derivatives of the moved function are divided by the factors. *)
Theorem C104_positive_problem (f f' : array -> RR) egrad egrad' ehess ehess' :
  (forall x, positive_entries x -> f' (rescaled x) = f x) -> (forall x, positive_entries x -> egrad' (rescaled x) = unscaled (egrad x)) ->
  (forall x u, positive_entries x -> ehess' (rescaled x) (rescaled u) = unscaled (ehess x u)) ->
  moves (@moved_problem) (positive_problem dimension use_parallel_transport f egrad ehess)
    (positive_problem dimension use_parallel_transport f' egrad' ehess').
Proof.
move=> hf hg hh; split=> //= [x hx|x u hx _]; split=> //.
  by rewrite /po_gradient hg //; apply/rowP => j; rewrite !mxE; have a := pos_neq c0 (j:=j); Rify; field.
by rewrite /po_hessian hg // hh //; apply/rowP => j; rewrite !mxE; have a := pos_neq c0 (j:=j); Rify; field.
Qed.
End Positive.

(** ** SymmetricPositiveDefinite and HermitianPositiveDefinite: the congruences [x |-> S x S^H] with invertible [S]. *)
Section Congruence.
Variables (F : starField RR) (n : nat) (S : 'M[F]_n).
Implicit Types P Q A B V g h : 'M[F]_n.
Hypothesis uS : S \in unitmx.
Definition cong A := S *m A *m S^H.
Definition cocong A := invmx S^H *m A *m invmx S.
Lemma uSH : S^H \in unitmx. Proof. by rewrite adj_unit. Qed.
Lemma cong_wht A : cong A = wht (invmx S) A. Proof. by rewrite /wht invmxK. Qed.
Lemma cong_mul A P B : P \in unitmx -> cong A *m invmx (cong P) *m cong B = cong (A *m invmx P *m B).
Proof.
move=> uP; have -> : invmx (cong P) = invmx S^H *m invmx P *m invmx S.
  by apply: inv_unique; rewrite /cong !mulmxA (mulmxK uSH) (mulmxK uP) mulmxV.
by rewrite /cong !mulmxA (mulmxK uSH) (mulmxKV uS).
Qed.
Lemma cong_pip P A B : P \in unitmx -> pip (cong P) (cong A) (cong B) = pip P A B.
Proof. by move=> uP; rewrite !cong_wht pip_congr // unitmx_inv. Qed.
Lemma congD A B : cong (A + B) = cong A + cong B. Proof. by rewrite /cong mulmxDr mulmxDl. Qed.
Lemma congN A : cong (- A) = - cong A. Proof. by rewrite /cong mulmxN mulNmx. Qed.
Lemma congZ (a : F) A : cong (a *: A) = a *: cong A. Proof. by rewrite /cong -scalemxAr -scalemxAl. Qed.
Lemma cong0 : cong 0 = 0. Proof. by rewrite /cong mulmx0 mul0mx. Qed.
Lemma cong_adj A : (cong A)^H = cong A^H. Proof. by rewrite /cong !adjmxM adjmxK mulmxA. Qed.
Lemma cong_hsym A : hsym (cong A) = cong (hsym A). Proof. by rewrite /hsym cong_adj -congD congZ. Qed.
Lemma cocong_hsym A : hsym (cocong A) = cocong (hsym A).
Proof.
have E : (cocong A)^H = cocong A^H by rewrite /cocong !adjmxM adj_inv -adj_inv adjmxK mulmxA.
by rewrite /hsym E /cocong -mulmxDl -mulmxDr -scalemxAr -scalemxAl.
Qed.
Lemma cong_retr P V : P \in unitmx -> pretr (cong P) (cong V) = cong (pretr P V).
Proof. by move=> uP; rewrite /pretr cong_mul // !congD congZ. Qed.
Lemma cong_coc A g B : cong A *m cocong g *m cong B = cong (A *m g *m B).
Proof. by rewrite /cong /cocong !mulmxA (mulmxK uSH) (mulmxKV uS). Qed.
Lemma cong_hess P g h V : phess (cong P) (cocong g) (cocong h) (cong V) = cong (phess P g h V).
Proof. by rewrite /phess !cocong_hsym !cong_coc cong_hsym congD. Qed.
Section Log.
Variables (expm cholesky : 'M[F]_n -> 'M[F]_n) (eigh : 'M[F]_n -> 'rV[RR]_n * 'M[F]_n).
Hypothesis expmP : forall A, is_expm A (expm A).
Hypothesis choleskyP : forall A, posdef A -> valid_cholesky A (cholesky A).
Hypothesis eighP : forall A, hermitian A -> valid_eigh A (eigh A).
Lemma cong_posdef P : posdef P -> posdef (cong P). Proof. by move=> PP; apply: posdef_congr. Qed.
Lemma cong_exp P V : posdef P -> pexp expm (cong P) (cong V) = cong (pexp expm P V).
Proof.
move=> PP; have uP := posdef_unit PP; rewrite /pexp /cong -!mulmxA; congr (_ *m (_ *m _)).
apply: (expm_intertwine _ (expmP _) (expmP _)) => //; symmetry.
have -> : invmx (S *m (P *m S^H)) = invmx S^H *m invmx P *m invmx S.
  by apply: inv_unique; rewrite !mulmxA (mulmxK uSH) (mulmxK uP) mulmxV.
by rewrite !mulmxA (mulmxKV uS) mulmxV ?uSH // mul1mx.
Qed.
Lemma cong_log P Q : posdef P -> posdef Q -> plog cholesky eigh (cong P) (cong Q) = cong (plog cholesky eigh P Q).
Proof.
move=> PP PQ.
have E := pexp_plog choleskyP eighP expmP PP PQ.
rewrite -{1}E -cong_exp // (plog_pexp choleskyP eighP expmP) //; first exact: cong_posdef.
by rewrite cong_adj (plog_herm cholesky eigh P Q).
Qed.
End Log.
End Congruence.
Section PosDef.
Variables (F : starField RR) (k n : nat) (dimension : Z).
Local Notation array := (stack F k n n).
Implicit Types x y u v : array.
Variables (cholesky : 'M[F]_n -> 'M[F]_n) (eigh : 'M[F]_n -> 'rV[RR]_n * 'M[F]_n) (expm : 'M[F]_n -> 'M[F]_n).
Hypothesis expmP : forall A, is_expm A (expm A).
Hypothesis choleskyP : forall A, posdef A -> valid_cholesky A (cholesky A).
Hypothesis eighP : forall A, hermitian A -> valid_eigh A (eigh A).
Variable S : 'I_k -> 'M[F]_n.
Hypothesis uS : forall i, S i \in unitmx.
Definition congruent x : array := [ffun i => S i *m x i *m (S i)^H].
Definition cocongruent x : array := [ffun i => invmx (S i)^H *m x i *m invmx (S i)].
Local Notation M := (@posdef_mfd F k n dimension cholesky eigh expm).
Local Notation on := (@on_pd RR F k n).
Local Notation moves P := (P Rnum M on (fun _ => @herm_vector RR F k n) congruent congruent).
Lemma congruentE x i : congruent x i = cong (S i) (x i). Proof. by rewrite ffunE. Qed.
Lemma cocongruentE x i : cocongruent x i = cocong (S i) (x i). Proof. by rewrite ffunE. Qed.
Lemma congruent_inner x u v : on x -> pd_inner_product (congruent x) (congruent u) (congruent v) = pd_inner_product x u v.
Proof. by move=> hx; rewrite !pd_ipE; apply: eq_bigr => i _; rewrite !congruentE cong_pip // posdef_unit. Qed.
Lemma congruent_on x : on x -> on (congruent x).
Proof. by move=> hx i; rewrite congruentE; apply: cong_posdef. Qed.
Lemma congruent_herm u : herm_vector u -> herm_vector (congruent u).
Proof. by move=> hu i; rewrite congruentE cong_adj hu. Qed.
Lemma posdef_symmetry : moves (@symmetry).
Proof.
split=> /=.
- by move=> x u v hx; exact: congruent_inner.
- by move=> x u hx; rewrite /pd_norm congruent_inner.
- move=> x u hx hu; split; first by case: (C73_retraction hx hu).
  apply/ffunP => i; rewrite [RHS]congruentE (pd_retrE i (congruent_on hx) (congruent_herm hu)).
  by rewrite !congruentE cong_retr ?pd_retrE // posdef_unit.
- by [].
- move=> x u hx hu; split; first by move=> i; rewrite /pd_to_tangent_space /pd_projection hermE hsym_herm.
  by apply/ffunP => i; rewrite /pd_to_tangent_space /pd_projection congruentE !hermE congruentE cong_hsym.
- move=> x hx; split; first by move=> i; rewrite stack0 adjmx0.
  by apply/ffunP => i; rewrite congruentE stack0 cong0.
- move=> x u hx hu; split; first by move=> i; rewrite stackN adjmxN hu.
  by apply/ffunP => i; rewrite stackN !congruentE stackN congN.
- move=> x u v hx hu hv; split; first by move=> i; rewrite stackD adjmxD hu hv.
  by apply/ffunP => i; rewrite stackD !congruentE stackD congD.
- move=> x u v hx hu hv; split; first by move=> i; rewrite stackB adjmxB hu hv.
  by apply/ffunP => i; rewrite stackB !congruentE stackB congD congN.
- move=> x a u hx hu; split; first by move=> i; rewrite stackZ /rscale adjmxZreal hu.
  by apply/ffunP => i; rewrite stackZ !congruentE stackZ /rscale congZ.
Qed.
Theorem C104_posdef : moves (@runs_move) /\ moves (@swarm_moves).
Proof.
have Y := posdef_symmetry.
have L : moves (@log_symmetry).
  move=> x y hx hy; split=> /=; first by move=> i; rewrite pd_logE plog_herm.
  by apply/ffunP => i; rewrite congruentE !pd_logE !congruentE (cong_log (uS i) expmP choleskyP eighP (hx i) (hy i)).
by split; [exact: (sy_runs _ _ _ _ _ Y)|exact: (sy_swarm _ _ _ _ _ Y L)].
Qed.
(** The Euclidean derivatives of the moved function are transformed by the inverse matrices. *)
Theorem C104_posdef_problem (f f' : array -> RR) egrad egrad' ehess ehess' :
  (forall x, on x -> f' (congruent x) = f x) -> (forall x, on x -> egrad' (congruent x) = cocongruent (egrad x)) ->
  (forall x u, on x -> herm_vector u -> ehess' (congruent x) (congruent u) = cocongruent (ehess x u)) ->
  moves (@moved_problem) (posdef_problem dimension cholesky eigh expm f egrad ehess)
    (posdef_problem dimension cholesky eigh expm f' egrad' ehess').
Proof.
move=> hf hg hh; split=> //= [x hx|x u hx hu]; split.
- by move=> i; rewrite pd_gradE hsym_herm.
- by rewrite hg //; apply/ffunP => i; rewrite congruentE !pd_gradE !congruentE cocongruentE cong_coc // cong_hsym.
- by move=> i; rewrite pd_hessE phess_herm //; case: (hx i).
- by rewrite hg // hh //; apply/ffunP => i; rewrite congruentE !pd_hessE !congruentE !cocongruentE cong_hess.
Qed.
End PosDef.

(** ** Stiefel: multiplication by orthogonal matrices from the left, with the polar retraction also from the right. *)
Lemma qr_left (F : starField RR) n p (qr : 'M[F]_(n, p) -> 'M[F]_(n, p) * 'M[F]_p) (A : 'M[F]_(n, p)) (O : 'M[F]_n) :
  (forall A, valid_qr A (qr A)) -> O *m O^H = 1%:M -> \rank A = p ->
  (qr_normalise (leqnn p) (qr (O *m A)).1 (qr (O *m A)).2).1 = O *m (qr_normalise (leqnn p) (qr A).1 (qr A).2).1.
Proof.
move=> qrP uO rk; have [[E [OQ U]] P] := multiqr_positive qrP A; have [V' P'] := multiqr_positive qrP (O *m A).
move: (qr_normalise _ (qr A).1 _) E OQ U P => [q r] E OQ U P.
move: (qr_normalise _ _ _) V' P' => [q' r'] V' P'.
have rk' : \rank (O *m A) = p by rewrite eqmxMfull // row_full_unit; case/mulmx1_unit: uO.
have V : valid_qr (O *m A) (O *m q, r).
  split; first by rewrite /= E mulmxA.
  split=> //=; rewrite /orthonormal adjmxM mulmxA -(mulmxA q^H) (unitaryC uO) mulmx1; exact: OQ.
by have [] := qr_unique_square rk' V' V P' P.
Qed.
Section Stiefel.
Variables (k n p : nat) (dimension : Z) (polar : bool).
Local Notation array := (stack RF k n p).
Implicit Types x y u v g h : array.
Variables (qr : 'M[RF]_(n, p) -> 'M[RF]_(n, p) * 'M[RF]_p) (svd : 'M[RF]_(n, p) -> 'M[RF]_(n, p) * 'rV[RR]_p * 'M[RF]_p)
  (expm : forall q, 'M[RF]_q -> 'M[RF]_q).
Hypotheses (qrP : forall A, valid_qr A (qr A)) (svdP : forall A, valid_svd A (svd A)).
Variables (O : 'I_k -> 'M[RF]_n) (Q : 'I_k -> 'M[RF]_p).
Hypotheses (oO : forall i, O i *m (O i)^T = 1%:M) (oQ : forall i, Q i *m (Q i)^T = 1%:M) (Q1 : ~~ polar -> forall i, Q i = 1%:M).
Definition both x : array := [ffun i => O i *m x i *m Q i].
Local Notation M := (@stiefel_mfd k n p dimension polar qr svd expm).
Local Notation moves P := (P Rnum M (@on_stiefel RR k n p) (@stiefel_tangent RR k n p) both both).
Lemma uO' i : O i *m (O i)^H = 1%:M. Proof. by rewrite real_adj. Qed.
Lemma uQ' i : Q i *m (Q i)^H = 1%:M. Proof. by rewrite real_adj. Qed.
Lemma bothE x i : both x i = turn (O i) (Q i) (x i). Proof. by rewrite ffunE. Qed.
Lemma turn_hsym i (A : 'M[RF]_p) : hsym ((Q i)^H *m A *m Q i) = (Q i)^H *m hsym A *m Q i.
Proof. by rewrite /hsym !adjmxM adjmxK mulmxA -mulmxDl -mulmxDr -scalemxAr -scalemxAl. Qed.
Lemma turn_proj i X V : st_proj (turn (O i) (Q i) X) (turn (O i) (Q i) V) = turn (O i) (Q i) (st_proj X V).
Proof. by rewrite /st_proj turn_gram ?turn_hsym ?turn_mul -?turnB //; [exact: uQ'|exact: uO']. Qed.
Lemma both_proj x v : st_projection (both x) (both v) = both (st_projection x v).
Proof. by apply/ffunP => i; rewrite [LHS]Stiefel_Props.projE [RHS]bothE Stiefel_Props.projE (bothE x) (bothE v) turn_proj. Qed.
Lemma both_hess x g h v : st_hessian (both x) (both g) (both h) (both v) = both (st_hessian x g h v).
Proof.
apply/ffunP => i; rewrite [LHS]hessE [RHS]bothE hessE (bothE x) (bothE g) (bothE h) (bothE v).
have W : forall X V N, st_wein (turn (O i) (Q i) X) (turn (O i) (Q i) V) (turn (O i) (Q i) N) = turn (O i) (Q i) (st_wein X V N).
  move=> X V N; rewrite /st_wein -turnN -mulmxA !(turn_gram _ (uO' i)) turn_hsym !(turn_mul _ (uQ' i)) -turnB.
  by rewrite mulmxA.
move: (x i) (g i) (h i) (v i) => X G H V.
by rewrite /st_hess turn_proj turn_proj -turnB W turnD.
Qed.
Lemma stiefel_symmetry : moves (@symmetry).
Proof.
split=> /=.
- by move=> x u v _; rewrite !st_innerE; apply: eq_bigr => i _; rewrite !bothE turn_inner //; [exact: uO'|exact: uQ'].
- move=> x u _; rewrite /st_norm !np_normE /norm_of; congr Num.sqrt; apply: eq_bigr => i _.
  by rewrite !bothE turn_inner //; [exact: uO'|exact: uQ'].
- move=> x u hx hu; have /on_stiefelE hx' := hx; have /stiefel_tangentE hu' := hu.
  have rk i := st_rank (hx' i) (hu' i); move: Q1; case: (polar) => QQ; split.
  + by case: (C67_retraction_polar svdP hx hu).
  + apply/ffunP => i; rewrite [RHS]bothE /st_retraction_polar !stack_mul !ffunE -!/(turn _ _ _) -turnD.
    exact: (turn_polar (uO' i) (uQ' i) (rk i) (svdP _) (svdP _)).
  + by case: (C67_retraction_qr qrP hx hu).
  + apply/ffunP => i; rewrite [RHS]bothE /st_retraction_qr !ffunE (QQ isT) /turn !mulmx1 -mulmxDr.
    exact: (qr_left qrP (uO' i) (rk i)).
- move=> x z u hx hz hu; split; last exact: both_proj.
  by case: (stiefel_projects u hz).
- move=> x u hx hu; split; last exact: both_proj.
  by case: (stiefel_projects u hx).
- move=> x hx; split; first by case: (stiefel_subspace x).
  by apply/ffunP => i; rewrite bothE stack0 turn0.
- move=> x u hx hu; split; first exact: stiefel_tangentN.
  by apply/ffunP => i; rewrite stackN !bothE stackN turnN.
- move=> x u v hx hu hv; split; first by case: (stiefel_subspace x) => _ [D _]; exact: D.
  by apply/ffunP => i; rewrite stackD !bothE stackD turnD.
- move=> x u v hx hu hv; split; first by case: (stiefel_subspace x) => _ [D _]; apply: D => //; exact: stiefel_tangentN.
  by apply/ffunP => i; rewrite stackB !bothE stackB turnB.
- move=> x a u hx hu; split; first by case: (stiefel_subspace x) => _ [_ D]; exact: D.
  by apply/ffunP => i; rewrite stackZ !bothE stackZ /rscale turnZ.
Qed.
Theorem C104_stiefel : moves (@runs_move).
Proof. exact: (sy_runs _ _ _ _ _ stiefel_symmetry). Qed.
Theorem C104_stiefel_problem (f f' : array -> RR) egrad egrad' ehess ehess' :
  (forall x, on_stiefel x -> f' (both x) = f x) -> (forall x, on_stiefel x -> egrad' (both x) = both (egrad x)) ->
  (forall x u, on_stiefel x -> stiefel_tangent x u -> ehess' (both x) (both u) = both (ehess x u)) ->
  moves (@moved_problem) (stiefel_problem dimension polar qr svd expm f egrad ehess)
    (stiefel_problem dimension polar qr svd expm f' egrad' ehess').
Proof.
move=> hf hg hh; split=> //= [x hx|x u hx hu]; split.
- by case: (stiefel_projects (egrad x) hx).
- by rewrite hg // /st_gradient both_proj.
- by have [] := C61_stiefel (egrad x) (ehess x u) hx hu.
- by rewrite hg // hh // both_hess.
Qed.
End Stiefel.

(** ** SpecialOrthogonalGroup (with either retraction): multiplication by orthogonal matrices from the left.  The elements of the Lie algebra that
    represent tangent vectors do not change. *)
Section Group.
Variables (k n : nat) (dimension : Z) (polar : bool).
Local Notation array := (stack RF k n n).
Implicit Types x y u v : array.
Variables (qr : 'M[RF]_n -> 'M[RF]_n * 'M[RF]_n) (svd : 'M[RF]_n -> 'M[RF]_n * 'rV[RR]_n * 'M[RF]_n) (expm logm : 'M[RF]_n -> 'M[RF]_n).
Hypotheses (qrP : forall A, valid_qr A (qr A)) (svdP : forall A, valid_svd A (svd A)) (expmP : forall A, is_expm A (expm A)).
Variable O : 'I_k -> 'M[RF]_n.
Hypothesis oO : forall i, O i *m (O i)^T = 1%:M.
Definition left_mul x : array := [ffun i => O i *m x i].
Lemma leftE x i : left_mul x i = O i *m x i. Proof. by rewrite ffunE. Qed.
Local Notation M := (@so_mfd k n dimension polar qr svd expm logm).
Local Notation moves P := (P Rnum M (@on_unitary RR RF k n) (fun _ => @lie_vector RR RF k n) left_mul id).
Local Notation pmoves P := (P Rnum M (@on_unitary RR RF k n) left_mul).
Lemma left_gram x y : smul (multihconj (left_mul x)) (left_mul y) = smul (multihconj x) y.
Proof.
by apply/ffunP => i; rewrite !stack_mul !stack_hconj !ffunE adjmxM mulmxA -(mulmxA _ (O i)^H) (unitaryC (uO' oO i)) mulmx1.
Qed.
Lemma left_log x y : un_log logm (left_mul x) (left_mul y) = un_log logm x y. Proof. by rewrite /un_log left_gram. Qed.
Lemma so_symmetry : moves (@symmetry).
Proof.
split=> //=.
- move=> x u hx hu.
  have rk i : \rank (x i + x i *m u i)%R = n by apply: st_rank; [exact: hx|exact: lie_tangent].
  case: (polar); split.
  + by case: (C70_retraction_polar svdP hx hu).
  + apply/ffunP => i; rewrite [LHS]retraction_polarE [RHS]leftE retraction_polarE (leftE x) -mulmxA -mulmxDr.
    have u1 : (1%:M : 'M[RF]_n) *m 1%:M^H = 1%:M by rewrite adjmx1 mulmx1.
    have := turn_polar (uO' oO i) u1 (rk i) (svdP _) _; rewrite /turn !mulmx1; apply; exact: svdP.
  + by case: (C70_retraction_qr qrP hx hu).
  + by apply/ffunP => i; rewrite [LHS]retraction_qrE [RHS]leftE retraction_qrE (leftE x) -mulmxA -mulmxDr (qr_left qrP (uO' oO i) (rk i)).
- by move=> x u hx hu; split=> // i; rewrite skewhE hskew_skew.
- by move=> x hx; split=> //; case: (@lie_subspace RR RF k n).
- by move=> x u hx hu; split=> //; exact: lie_opp.
- by move=> x u v hx hu hv; split=> //; case: (@lie_subspace RR RF k n) => _ [D _]; exact: D.
- by move=> x u v hx hu hv; split=> //; case: (@lie_subspace RR RF k n) => _ [D _]; apply: D => //; exact: lie_opp.
- by move=> x a u hx hu; split=> //; case: (@lie_subspace RR RF k n) => _ [_ D]; exact: D.
Qed.
Theorem C104_group : moves (@runs_move) /\ moves (@swarm_moves) /\ pmoves (@simplex_moves).
Proof.
have S := so_symmetry.
have lie x y : lie_vector (un_log logm x y) by move=> i; rewrite skewhE hskew_skew.
have L : moves (@log_symmetry) by move=> x y _ _; split; [exact: lie|exact: left_log].
have H : pmoves (@mean_symmetry).
  split=> /= x y hx hy; first by rewrite /un_dist left_log.
  split; last by rewrite /un_pair_mean left_log; apply/ffunP => i; rewrite [RHS]leftE !un_expE leftE mulmxA.
  move=> i; rewrite /un_pair_mean un_expE; apply: mul_unitary; first exact: hx.
  apply: expm_unitary (expmP _); rewrite np_divE stackZ /rscale adjmxZreal (lie x y) scalerN //.
by split; [exact: (sy_runs _ _ _ _ _ S)|split; [exact: (sy_swarm _ _ _ _ _ S L)|exact: (sy_simplex _ _ _ _ _ S L H)]].
Qed.
Lemma left_gradient x g : un_gradient (left_mul x) (left_mul g) = un_gradient x g.
Proof. by rewrite /un_gradient /un_projection left_gram. Qed.
Lemma left_hessian x g h u : un_hessian (left_mul x) (left_mul g) (left_mul h) u = un_hessian x g h u.
Proof. by rewrite /un_hessian (left_gram x g) (left_gram x h). Qed.
Lemma gradient_lie x g : on_unitary x -> lie_vector (un_gradient x g).
Proof. by move=> hx; rewrite /un_gradient so_projectionE; have [h _] := lie_gradientP g hx. Qed.
Theorem C104_group_problem (f f' : array -> RR) egrad egrad' ehess ehess' :
  (forall x, on_unitary x -> f' (left_mul x) = f x) -> (forall x, on_unitary x -> egrad' (left_mul x) = left_mul (egrad x)) ->
  (forall x u, on_unitary x -> lie_vector u -> ehess' (left_mul x) u = left_mul (ehess x u)) ->
  moves (@moved_problem) (so_problem dimension polar qr svd expm logm f egrad ehess) (so_problem dimension polar qr svd expm logm f' egrad' ehess').
Proof.
move=> hf hg hh; split; [exact: hf|move=> x hx|move=> x u hx hu|by []]; split.
- exact: gradient_lie.
- exact: etrans (congr1 (un_gradient (left_mul x)) (hg _ hx)) (left_gradient x (egrad x)).
- by have [h _] := C61_group (egrad x) (ehess x u) hx hu; exact: h.
- apply: etrans (left_hessian x (egrad x) (ehess x u) u); exact: (congr2 (fun g h => un_hessian (left_mul x) g h u) (hg _ hx) (hh _ _ hx hu)).
Qed.
End Group.

(** ** Instances. *)
(** Unitary matrices on both sides make a linear isometry of the arrays; a rotation turns the Rayleigh quotient of [A] into the one of [O A O^T]. *)
Lemma turn_isometry (F : starField RR) m n (O : 'M[F]_m) (Q : 'M[F]_n) : O *m O^H = 1%:M -> Q *m Q^H = 1%:M ->
  linear_isometry (@rscale RR F m n) (@inner RR F m n) (turn O Q).
Proof. by move=> uO uQ; split; [exact: turnD|split; [move=> a u; exact: turnZ|exact: turn_inner]]. Qed.
Theorem C104_rayleigh n dimension (O A : 'M[RF]_n) : O *m O^T = 1%:M ->
  let f A (x : 'cV[RF]_n) : RR := inner x (A *m x) in let egrad A x := A *m x + A^T *m x in let ehess A (x u : 'cV[RF]_n) := A *m u + A^T *m u in
  let problem A := sphere_problem dimension (f A) (egrad A) (ehess A) in
  linear_isometry (@rscale RR RF n 1) (@inner RR RF n 1) (mulmx O) /\
  moved_problem (sphere_mfd n 1 dimension) (fun=> True) (fun _ _ => True) (mulmx O) (mulmx O) (problem A) (problem (O *m A *m O^T)).
Proof.
move=> oO f egrad ehess problem; have uO : O *m O^H = 1%:M by rewrite real_adj.
have u1 : (1%:M : 'M[RF]_1) *m 1%:M^H = 1%:M by rewrite adjmx1 mulmx1.
have I : linear_isometry (@rscale RR RF n 1) (@inner RR RF n 1) (mulmx O).
  have [a [b c]] := turn_isometry uO u1; split; first by move=> u v; have := a u v; rewrite /turn !mulmx1.
  by split=> [z u|u v]; [have := b z u|have := c u v]; rewrite /turn !mulmx1.
have K (B : 'M[RF]_n) (x : 'cV[RF]_n) : O *m B *m O^T *m (O *m x) = O *m (B *m x) by rewrite !mulmxA -(mulmxA _ O^T) (mulmx1C oO) mulmx1.
have T : (O *m A *m O^T)^T = O *m A^T *m O^T by rewrite !trmx_mul trmxK mulmxA.
split=> //; apply: (@C104_sphere_problem _ _ dimension (mulmx O) I).
- by move=> x; rewrite /f K; case: I => _ [_ ->].
- by move=> x; rewrite /egrad T !K mulmxDr.
- by move=> x u; rewrite /ehess T !K mulmxDr.
Qed.
(** The linear functions [tr (B x)] of positive definite matrices, and libraries as in the theorem. *)
Theorem C104_posdef_instance (F : starField RR) (EV : has_eigenvectors F) (CF : complete_field F) (S B : 'M[F]_2) : S \in unitmx ->
  exists expm cholesky eigh, (forall A, is_expm A (expm A)) /\ (forall A, posdef A -> valid_cholesky A (cholesky A)) /\
    (forall A, hermitian A -> valid_eigh A (eigh A)) /\
    let f B (x : stack F 1 2 2) : RR := \sum_i inner B (x i) in let egrad B (x : stack F 1 2 2) : stack F 1 2 2 := [ffun=> B] in
    let ehess (x u : stack F 1 2 2) : stack F 1 2 2 := 0 in
    let problem B := posdef_problem 3 cholesky eigh expm (f B) (egrad B) ehess in
    let move := congruent (fun _ : 'I_1 => S) in
    moved_problem (@posdef_mfd F 1 2 3 cholesky eigh expm) (@on_pd RR F 1 2) (fun _ => @herm_vector RR F 1 2) move move
      (problem B) (problem (invmx S^H *m B *m invmx S)).
Proof.
move=> uS; have [expm [cholesky [eigh [eP [cP hP]]]]] := pd_library EV CF.
exists expm, cholesky, eigh; split=> //; split=> //; split=> // f egrad ehess problem move.
apply: C104_posdef_problem; first by [].
- move=> x _; apply: eq_bigr => i _; rewrite congruentE /cong inner_mulr adj_inv mulmxK ?adj_unit // inner_mull adj_inv adjmxK.
  by rewrite mulmxA mulVmx // mul1mx.
- by move=> x _; apply/ffunP => i; rewrite cocongruentE !ffunE.
- by move=> x u _ _; apply/ffunP => i; rewrite cocongruentE !ffunE /cocong mulmx0 mul0mx.
Qed.
(** Linear functions of orthonormal and of orthogonal matrices. *)
Theorem C104_stiefel_instance polar (O : 'M[RF]_3) (B : 'M[RF]_(3, 2)) : O *m O^T = 1%:M -> exists qr svd,
  (forall A, valid_qr A (qr A)) /\ (forall A, valid_svd A (svd A)) /\
  let f B (x : stack RF 2 3 2) : RR := \sum_i inner B (x i) in let egrad B (x : stack RF 2 3 2) : stack RF 2 3 2 := [ffun=> B] in
  let ehess (x u : stack RF 2 3 2) : stack RF 2 3 2 := 0 in let expm q (A : 'M[RF]_q) := A in
  let problem B := stiefel_problem 6 polar qr svd expm (f B) (egrad B) ehess in
  let move := both (fun _ : 'I_2 => O) (fun=> 1%:M) in
  moved_problem (@stiefel_mfd 2 3 2 6 polar qr svd expm) (@on_stiefel RR 2 3 2) (@stiefel_tangent RR 2 3 2) move move (problem B) (problem (O *m B)).
Proof.
move=> oO; have [[qr qrP] [[svd svdP] _]] := @grassmann_library RF 3 2 (@real_has_eigenvectors RR) isT.
exists qr, svd; split=> //; split=> // f egrad ehess expm problem move.
have uO : O *m O^H = 1%:M by rewrite real_adj.
apply: C104_stiefel_problem => // [i|x _|x _|x u _ _]; first by rewrite trmx1 mulmx1.
- by apply: eq_bigr => i _; rewrite bothE /turn mulmx1 inner_mull mulmxA (unitaryC uO) mul1mx.
- by apply/ffunP => i; rewrite bothE !ffunE /turn mulmx1.
- by apply/ffunP => i; rewrite bothE stack0 turn0.
Qed.
Theorem C104_group_instance polar (O B : 'M[RF]_2) : O *m O^T = 1%:M -> exists qr svd expm logm,
  (forall A, valid_qr A (qr A)) /\ (forall A, valid_svd A (svd A)) /\ (forall A, is_expm A (expm A)) /\
  let f B (x : stack RF 2 2 2) : RR := \sum_i inner B (x i) in let egrad B (x : stack RF 2 2 2) : stack RF 2 2 2 := [ffun=> B] in
  let ehess (x u : stack RF 2 2 2) : stack RF 2 2 2 := 0 in
  let problem B := so_problem 2 polar qr svd expm logm (f B) (egrad B) ehess in
  moved_problem (@so_mfd 2 2 2 polar qr svd expm logm) (@on_unitary RR RF 2 2) (fun _ => @lie_vector RR RF 2 2)
    (left_mul (fun _ : 'I_2 => O)) id (problem B) (problem (O *m B)).
Proof.
move=> oO; have [[qr qrP] [[svd svdP] [[expm expmP] [logm _]]]] := @group_library RF 2 (@real_has_eigenvectors RR) real_complete.
exists qr, svd, expm, logm; split; [exact: qrP|split; [exact: svdP|split; [exact: expmP|move=> f egrad ehess problem]]].
have uO : O *m O^H = 1%:M by rewrite real_adj.
apply: C104_group_problem => [//|x _|x _|x u _ _].
- by apply: eq_bigr => i _; rewrite leftE inner_mull mulmxA (unitaryC uO) mul1mx.
- by apply/ffunP => i; rewrite leftE !ffunE.
- by apply/ffunP => i; rewrite leftE stack0 mulmx0.
Qed.
