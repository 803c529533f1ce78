(** Properties C69, C70 and C89 (and C61, C80 for these manifolds) of src/pymanopt/manifolds/group.py *)
From Coq Require Import Reals Lra.
From mathcomp Require Import all_ssreflect all_algebra fingroup perm.
From mathcomp.real_closed Require Import complex.
From Coq Require Import Ring Field ClassicalEpsilon.
From Verif Require Import Rstruct MCRing Mat_Base Geometry_Spec Linalg_Spec Calculus Components Multi_Model Multi_Proofs Euclidean_Model Euclidean_Props.
From Verif Require Import Sphere_Model Sphere_Proofs Stiefel_Model Stiefel_Proofs Expm Linalg_Exist Stack_Proofs Grassmann_Props Logm Group_Model Group_Proofs.
Set Implicit Arguments.
Unset Strict Implicit.
Unset Printing Implicit Defensive.
Import GRing.Theory Num.Theory Order.TTheory.
Local Open Scope ring_scope.

(** ** Specification.  Points of [UnitaryGroup] are stacks of unitary matrices, points of [SpecialOrthogonalGroup]
    stacks of orthogonal matrices with determinant one.  Tangent vectors are represented by stacks of
    skew-Hermitian (skew-symmetric) matrices [v]; such a [v] stands for the matrices [x v], and these are exactly
    the solutions [w] of the linearised equation [x^H w + w^H x = 0]. *)
Section Spec.
Variables (R : rcfType) (F : starField R) (k n : nat).
Local Notation array := (stack F k n n).
Definition on_unitary (x : array) : Prop := forall i, (x i)^H *m x i = 1%:M.
Definition lie_vector (v : array) : Prop := forall i, (v i)^H = - v i.
Definition unitary_tangent (x w : array) : Prop := forall i, (x i)^H *m w i + (w i)^H *m x i = 0.
Lemma lie_vector_spec x w : on_unitary x ->
  (unitary_tangent x w <-> exists2 v, lie_vector v & w = smul x v).
Proof.
move=> O; split=> [T|[v hv ->] i]; last first.
  by rewrite ffunE; apply/(skew_tangent _ (O i)).
have K i : exists V : 'M[F]_n, V^H = - V /\ w i = x i *m V.
  by have [V a b] := tangent_skew (O i) (T i); exists V.
have [v Hv] := fin_all_exists K; exists [ffun i => v i]; first by move=> i; rewrite ffunE; case: (Hv i).
by apply/ffunP => i; rewrite !ffunE; case: (Hv i).
Qed.
End Spec.
Definition on_so (R : rcfType) k n (x : stack (real_star R) k n n) : Prop :=
  forall i, (x i)^T *m x i = 1%:M /\ \det (x i) = 1.
Definition skew_symmetric (R : rcfType) k n (v : stack (real_star R) k n n) : Prop := forall i, (v i)^T = - v i.

Section Group.
Variables (R : rcfType) (F : starField R) (k n : nat).
Local Notation array := (stack F k n n).
Local Notation scale := (@sscale R F k n n).
Local Notation dot := (@sinner R F k n n).
Local Notation J := (@sinner_ips R F k n n).
Implicit Types x y v w g h : array.
Lemma skewhE v i : multiskewh v i = hskew (v i).
Proof. by rewrite /multiskewh /shalf ffunE stackB stack_hconj. Qed.
Lemma hermE v i : multiherm v i = hsym (v i).
Proof. by rewrite /multiherm /shalf ffunE stackD stack_hconj. Qed.
Lemma lie_subspace : real_subspace scale (@lie_vector R F k n).
Proof.
apply: (stack_subspace (T := fun _ V => V^H = - V)) => i; split; first by rewrite adjmx0 oppr0.
split; first by move=> a b ha hb; rewrite adjmxD ha hb opprD.
by move=> a b hb; rewrite /rscale adjmxZreal hb scalerN.
Qed.
Lemma lie_opp v : lie_vector v -> lie_vector (- v).
Proof. by move=> h i; rewrite stackN adjmxN h. Qed.
Lemma smul_dot x v w : on_unitary x -> dot (smul x v) (smul x w) = dot v w.
Proof. by move=> O; apply: eq_bigr => i _; rewrite !stack_mul inner_orthonormal //; apply: O. Qed.

(** ** C69 *)
(** The inner product of tangent vectors is a real number, and the one of the matrices they stand for. *)
Theorem C69_metric x v w : on_unitary x -> lie_vector v -> lie_vector w ->
  un_inner_product x v w = sf_real (dot v w) /\
  dot v w = dot (un_embedding x v) (un_embedding x w) /\
  inner_product_on scale (@lie_vector R F k n) dot /\
  un_norm x v = Num.sqrt (dot v v) /\
  lie_vector (un_zero_vector x) /\ lie_vector (un_transport x x v).
Proof.
move=> O hv hw; split.
  have E i : \sum_r \sum_c sf_conj (v i r c) * w i r c = sf_real (inner (v i) (w i)).
    have T : \sum_r \sum_c sf_conj (v i r c) * w i r c = \tr ((v i)^H *m w i).
      rewrite exchange_big /=; apply: eq_bigr => c _; rewrite mxE; apply: eq_bigr => r _; by rewrite !mxE.
    rewrite T innerE; apply: sf_fixed; rewrite -mxtrace_adj adjmxM adjmxK hv hw.
    by rewrite !mulNmx !linearN /= mxtrace_mulC.
  by rewrite /un_inner_product /sinner raddf_sum; apply: eq_bigr => i _; apply: E.
split; first by rewrite /un_embedding smul_dot.
split; first exact: stack_ip.
split; first by [].
by split=> //; case: lie_subspace.
Qed.
Theorem C69_to_tangent_space x v :
  projects_to dot (@lie_vector R F k n) v (un_to_tangent_space x v) /\
  nearest_in dot (@lie_vector R F k n) v (un_to_tangent_space x v).
Proof.
have P : projects_to dot (@lie_vector R F k n) v (un_to_tangent_space x v).
  apply: (projects_to_stack (T := fun _ V => V^H = - V)) => i; rewrite skewhE; exact: hskew_projects.
split; first exact: P.
exact: (projects_to_nearest J lie_subspace lie_opp P).
Qed.
(** The gradient that represents a differential: [un_to_tangent_space] of [x^H g] *)
Definition lie_gradient x g : array := un_to_tangent_space x (smul (multihconj x) g).
Lemma lie_gradientP x g : on_unitary x ->
  lie_vector (lie_gradient x g) /\ (forall t, lie_vector t -> dot (lie_gradient x g) t = dot g (un_embedding x t)) /\
  projects_to dot (unitary_tangent x) g (un_embedding x (lie_gradient x g)).
Proof.
move=> O; split; first by move=> i; rewrite skewhE; apply: hskew_skew.
split.
  move=> t ht; apply: eq_bigr => i _; rewrite skewhE !stack_mul stack_hconj [RHS]innerC inner_mull [RHS]innerC.
  have [_ [_ H]] := hskew_projects ((x i)^H *m g i).
  by have := H _ (ht i); rewrite innerBl => /eqP; rewrite subr_eq0 => /eqP ->.
apply: (projects_to_stack (T := fun i => st_tangent (x i))) => i; rewrite stack_mul skewhE stack_mul stack_hconj.
by rewrite -unitary_proj //; apply: st_projects.
Qed.

(** ** C70: retractions *)
Lemma retraction_tangent x w : on_unitary x -> unitary_tangent x w -> smul x (smul (multihconj x) w) = w.
Proof. by move=> O _; apply/ffunP => i; rewrite !stack_mul stack_hconj mulmxA orthonormalC ?mul1mx //; apply: O. Qed.
Lemma lie_tangent x v i : on_unitary x -> lie_vector v -> st_tangent (x i) (x i *m v i).
Proof. by move=> O hv; apply/(skew_tangent _ (O i)). Qed.
Lemma tangent_lie x w : unitary_tangent x w -> lie_vector (smul (multihconj x) w).
Proof. by move=> T i; rewrite stack_mul stack_hconj; apply/st_tangentE; apply: T. Qed.
Lemma unitary_tangent0 x : unitary_tangent x 0.
Proof. by move=> i; rewrite stack0 mulmx0 adjmx0 mul0mx addr0. Qed.
(** From a quadratic bound to the properties of a retraction; tangent vectors [w] are given as matrices. *)
Lemma retraction_facts (C : R) (retraction : array -> array -> array) x : 0 <= C -> on_unitary x ->
  (forall v i, lie_vector v -> fnorm (retraction x v i - (x i + x i *m v i)) <= C * fnorm (x i *m v i) ^+ 2) ->
  retraction x (un_zero_vector x) = x /\
  (forall v i, lie_vector v -> fnorm (retraction x v i - (x i + x i *m v i)) <= C * fnorm (v i) ^+ 2) /\
  first_order dot (unitary_tangent x) x (fun w => retraction x (smul (multihconj x) w)).
Proof.
move=> C0 O B; split.
  apply/ffunP => i; have := B 0 i (proj1 lie_subspace).
  rewrite stack0 mulmx0 addr0 /fnorm inner0l sqrtr0 expr0n mulr0 -/(fnorm _) => H.
  by apply/eqP; rewrite -subr_eq0 -fnorm_eq0 eq_le H fnorm_ge0.
split; first by move=> v i hv; rewrite -[fnorm (v i)](fnorm_unitary _ (O i)); apply: B.
apply: (stack_first_order (C := C) (r := 1)); rewrite ?ltr01 //; first exact: unitary_tangent0.
move=> i w Tw _; have := B _ i (tangent_lie Tw).
by rewrite -stack_mul retraction_tangent.
Qed.
Section Retraction.
Variable qr : 'M[F]_n -> 'M[F]_n * 'M[F]_n.
Variable svd : 'M[F]_n -> 'M[F]_n * 'rV[R]_n * 'M[F]_n.
Hypothesis qrP : forall A, valid_qr A (qr A).
Hypothesis svdP : forall A, valid_svd A (svd A).
Lemma retraction_qrE x v i : un_retraction_qr qr x v i =
  (qr_normalise (leqnn n) (qr (x i + x i *m v i)).1 (qr (x i + x i *m v i)).2).1.
Proof. by rewrite /un_retraction_qr ffunE stackD stack_mul. Qed.
Lemma retraction_polarE x v i : un_retraction_polar svd x v i = (svd (x i + x i *m v i)).1.1 *m (svd (x i + x i *m v i)).2.
Proof. by rewrite /un_retraction_polar stack_mul [in LHS]ffunE [in X in _ *m X]ffunE stackD stack_mul. Qed.
Lemma svdV (A : 'M[F]_n) : valid_svd A ((svd A).1.1, (svd A).1.2, (svd A).2).
Proof. by have := svdP A; case: (svd A) => [[]]. Qed.
Theorem C70_retraction_qr x v : on_unitary x -> lie_vector v ->
  on_unitary (un_retraction_qr qr x v) /\
  un_retraction_qr qr x (un_zero_vector x) = x /\
  (forall i, fnorm (un_retraction_qr qr x v i - (x i + x i *m v i)) <= 2%:R * fnorm (v i) ^+ 2) /\
  first_order dot (unitary_tangent x) x (fun w => un_retraction_qr qr x (smul (multihconj x) w)).
Proof.
move=> O hv; split.
  by move=> i; rewrite retraction_qrE; have [[_ [Oq _]] _] := multiqr_positive qrP (x i + x i *m v i).
have [|//|w i hw|z [b f]] := @retraction_facts 2%:R (un_retraction_qr qr) x; first exact: ler0n.
  rewrite retraction_qrE; have [[E [Oq U]] P] := multiqr_positive qrP (x i + x i *m w i).
  exact: (qr_bound (O i) (lie_tangent i O hw) E Oq U P).
by split=> //; split=> // i; apply: b.
Qed.
Theorem C70_retraction_polar x v : on_unitary x -> lie_vector v ->
  on_unitary (un_retraction_polar svd x v) /\
  un_retraction_polar svd x (un_zero_vector x) = x /\
  (forall i, fnorm (un_retraction_polar svd x v i - (x i + x i *m v i)) <= fnorm (v i) ^+ 2) /\
  (forall i, fnorm (un_retraction_polar svd x v i -
       (x i + x i *m v i + sf_real 2%:R^-1 *: (x i *m (v i *m v i)))) <= fnorm (v i) ^+ 3 * (2%:R^-1 + fnorm (v i))) /\
  first_order dot (unitary_tangent x) x (fun w => un_retraction_polar svd x (smul (multihconj x) w)).
Proof.
move=> O hv; split.
  by move=> i; rewrite retraction_polarE; apply: (polar_orthonormal (svdV _)).
have [|//|w i hw|z [b f]] := @retraction_facts 1 (un_retraction_polar svd) x; first exact: ler01.
  by rewrite retraction_polarE; exact: (polar_bound (O i) (lie_tangent i O hw) (svdV _)).
split=> //; split; first by move=> i; rewrite -[X in _ <= X]mul1r; apply: b.
split=> // i; rewrite retraction_polarE.
have := polar_second_order (O i) (lie_tangent i O hv) (svdV _).
rewrite (fnorm_unitary _ (O i)) adjmxM -mulmxA [(x i)^H *m _]mulmxA (O i) mul1mx hv mulNmx mulmxN scalerN opprK.
by [].
Qed.
End Retraction.
End Group.

(** *** [SpecialOrthogonalGroup] *)
Section SO.
Variables (R : rcfType) (k n : nat).
Local Notation F := (real_star R).
Local Notation array := (stack F k n n).
Local Notation scale := (@sscale R F k n n).
Local Notation dot := (@sinner R F k n n).
Implicit Types x y v w g h : array.
Lemma so_unitary x : on_so x -> on_unitary x. Proof. by move=> H i; rewrite adj_real; case: (H i). Qed.
Lemma so_skew v : skew_symmetric v <-> lie_vector v.
Proof. by split=> H i; have := H i; rewrite adj_real. Qed.
Lemma so_projectionE x g : un_projection x g = lie_gradient x g.
Proof.
rewrite /lie_gradient /un_to_tangent_space /un_projection /multiskew /multiskewh; congr (shalf (_ - _)).
by apply/ffunP => i; rewrite [RHS]stack_hconj [LHS]ffunE adj_real.
Qed.
Theorem C69_so_gradient x g : on_so x ->
  skew_symmetric (un_gradient x g) /\
  (forall t, skew_symmetric t -> dot (un_gradient x g) t = dot g (un_embedding x t)) /\
  projects_to dot (unitary_tangent x) g (un_embedding x (un_projection x g)).
Proof.
move=> /so_unitary O; rewrite /un_gradient so_projectionE; have [a [b c]] := lie_gradientP g O.
split; first exact/so_skew.
by split=> // t /so_skew; apply: b.
Qed.
Theorem C70_so_retractions qr svd x v : (forall A : 'M[F]_n, valid_qr A (qr A)) -> (forall A : 'M[F]_n, valid_svd A (svd A)) ->
  on_so x -> skew_symmetric v -> on_so (un_retraction_qr qr x v) /\ on_so (un_retraction_polar svd x v).
Proof.
move=> qrP svdP S /so_skew hv; have O := so_unitary S; split=> i.
  split; first by rewrite -adj_real; have [H _] := C70_retraction_qr qrP O hv; apply: H.
  rewrite retraction_qrE; have [V P] := multiqr_positive qrP (x i + x i *m v i).
  by apply: (qr_det (O i) (proj2 (S i)) (hv i) V P).
split; first by rewrite -adj_real; have [H _] := C70_retraction_polar svdP O hv; apply: H.
rewrite retraction_polarE; exact: (polar_det (O i) (proj2 (S i)) (hv i) (svdV svdP _)).
Qed.
End SO.

(** *** [UnitaryGroup]: [projection] takes the skew-symmetric part instead of the skew-Hermitian part *)
Section U.
Variables (R : rcfType).
Local Notation C := (complex_star R).
Lemma u_projectionE k n (x g : stack C k n n) i : un_projection x g i = half C *: ((x i)^H *m g i - ((x i)^H *m g i)^T).
Proof. by rewrite /un_projection /multiskew /shalf ffunE stackB [multitransp _ _]ffunE !stack_mul stack_hconj. Qed.
Lemma u_projection_skew k n (x g : stack C k n n) i : (un_projection x g i)^T = - un_projection x g i.
Proof. by rewrite u_projectionE linearZ /= linearB /= trmxK -scalerN opprB. Qed.
(** What it computes: a skew-symmetric matrix, which is a tangent vector only if it is real; the component of the
    gradient along the imaginary symmetric directions is lost. *)
Theorem C69_unitary_projection k n (x g : stack C k n n) : on_unitary x ->
  (lie_vector (un_gradient x g) <-> forall i r c, complex.Im (un_gradient x g i r c) = 0) /\
  (forall t, lie_vector t -> (forall i, (t i)^T = t i) -> sinner (un_gradient x g) t = 0) /\
  (n = 1%N -> un_gradient x g = 0).
Proof.
move=> O; split.
  have S i r c : un_gradient x g i c r = - un_gradient x g i r c.
    by have := congr1 (fun A : 'M[C]_n => A r c) (u_projection_skew x g i); rewrite !mxE.
  split=> [L i r c|E i].
    have := congr1 (fun A : 'M[C]_n => A r c) (L i); rewrite !mxE S rmorphN => /eqP; rewrite eqr_opp => /eqP.
    case: (un_gradient x g i r c) => a b [] /eqP; rewrite eq_sym -addr_eq0 -mulr2n mulrn_eq0 /= => /eqP. done.
  apply/matrixP => r c; rewrite !mxE S rmorphN; congr (- _).
  by have := E i r c; case: (un_gradient x g i r c) => a b /= ->; apply/eqP; rewrite eq_complex /= oppr0 !eqxx.
split.
  move=> t L S; rewrite /sinner big1 // => i _.
  have B := u_projection_skew x g i; set A := un_gradient x g i in B *.
  have AH : inner A (t i) = inner A^T (t i)^T.
    rewrite /inner [RHS]exchange_big /=; apply: eq_bigr => r _; apply: eq_bigr => c _; by rewrite !mxE.
  have : inner A (t i) = - inner A (t i) by rewrite {1}AH S B innerNl.
  by move/eqP; rewrite -addr_eq0 -mulr2n mulrn_eq0 /= => /eqP.
move=> n1; apply/ffunP => i; rewrite [LHS]u_projectionE ffunE; apply/matrixP => r c; rewrite !mxE.
have -> : r = c by move: r c; rewrite n1 => r c; rewrite [r]ord1 [c]ord1.
by rewrite subrr mulr0.
Qed.
(** On [U(1)] the gradient is always zero, although the cost with Euclidean gradient [i] at 1 is not stationary. *)
Theorem C69_unitary_gradient_refuted : exists x g t : stack C 1 1 1,
  on_unitary x /\ lie_vector t /\ un_gradient x g = 0 /\ sinner g (un_embedding x t) = 1 /\
  ~ (forall t', lie_vector t' -> sinner (un_gradient x g) t' = sinner g (un_embedding x t')).
Proof.
pose x : stack C 1 1 1 := [ffun _ => 1%:M]; pose g : stack C 1 1 1 := [ffun _ => ('i%C : C)%:M].
have O : on_unitary x by move=> i; rewrite ffunE adjmx1 mulmx1.
have L : lie_vector g.
  move=> i; rewrite ffunE; apply/matrixP => r c; rewrite !mxE [c]ord1 [r]ord1 eqxx !mulr1n.
  by apply/eqP; rewrite eq_complex /= oppr0 !eqxx.
have [_ [_ Z]] := C69_unitary_projection g O; have G0 := Z (erefl _).
have D : sinner g (un_embedding x g) = 1.
  rewrite /sinner big_ord1 /un_embedding stack_mul !ffunE mul1mx /inner !big_ord1 !mxE eqxx mulr1n /=.
  by rewrite mul0r sub0r mulr1 opprK.
exists x, g, g; do 4!split=> //.
move=> H; have := H g L; rewrite G0 D /sinner big_ord1 stack0 inner0l => /eqP.
by rewrite eq_sym oner_eq0.
Qed.
(** On [U(2)] it may even not be a tangent vector. *)
Theorem C69_unitary_tangent_refuted : exists x g : stack C 1 2 2,
  on_unitary x /\ ~ lie_vector (un_gradient x g) /\ ~ lie_vector (un_projection x g).
Proof.
pose x : stack C 1 2 2 := [ffun _ => 1%:M].
pose g : stack C 1 2 2 := [ffun _ => \matrix_(r, c) if (r == ord0) && (c != ord0) then ('i%C : C) else 0].
have O : on_unitary x by move=> i; rewrite ffunE adjmx1 mulmx1.
have [E _] := C69_unitary_projection g O.
have N : ~ lie_vector (un_gradient x g).
  move/E => /(_ ord0 ord0 (lift ord0 ord0)); rewrite u_projectionE !ffunE adjmx1 mul1mx !mxE half_real /= subr0 mulr1.
  by rewrite mul0r addr0 => /eqP; rewrite invr_eq0 pnatr_eq0.
by exists x, g.
Qed.
End U.

(** ** C61 *)
Section Hessian.
Variables (R : rcfType) (F : starField R) (k n : nat).
Local Notation array := (stack F k n n).
Local Notation scale := (@sscale R F k n n).
Local Notation dot := (@sinner R F k n n).
Implicit Types x y v w g h : array.
Lemma hessianE x g h v i : un_hessian x g h v i = hskew ((x i)^H *m h i - v i *m hsym ((x i)^H *m g i)).
Proof. by rewrite /un_hessian skewhE stackB !stack_mul stack_hconj hermE stack_mul stack_hconj. Qed.
(** [h] is the derivative of the Euclidean gradient along the embedded direction. *)
Theorem C61_group x g h v : on_unitary x -> lie_vector v ->
  lie_vector (un_hessian x g h v) /\
  (forall h' v', lie_vector v' -> dot h (un_embedding x v') = dot h' (un_embedding x v) ->
    dot (un_hessian x g h v) v' = dot (un_hessian x g h' v') v) /\
  (forall c e : R -> array, (forall t, on_unitary (c t)) -> c 0 = x -> derives scale dot c (un_embedding x v) ->
    e 0 = g -> derives scale dot e h ->
    exists2 w, derives scale dot (fun t => un_embedding (c t) (lie_gradient (c t) (e t))) w &
      projects_to dot (unitary_tangent x) w (un_embedding x (un_hessian x g h v))).
Proof.
move=> O hv; split; first by move=> i; rewrite hessianE; apply: hskew_skew.
have E u a i : lie_vector u -> x i *m un_hessian x g a u i = st_hess (x i) (g i) (a i) (x i *m u i).
  by move=> hu; rewrite hessianE unitary_hess //; apply: O.
split.
  move=> h' v' hv' S.
  have P (a b u : array) : lie_vector a -> lie_vector u ->
    dot (un_hessian x g b a) u = dot b (un_embedding x u) - \sum_i inner (x i *m a i *m hsym ((x i)^H *m g i)) (x i *m u i).
    move=> ha hu; rewrite -(smul_dot _ _ O) /sinner -sumrB; apply: eq_bigr => i _; rewrite !stack_mul E //.
    by apply: st_hess_inner; [apply: O|apply: lie_tangent|apply: lie_tangent].
  rewrite P // P // S.
  have -> : \sum_i inner (x i *m v i *m hsym ((x i)^H *m g i)) (x i *m v' i) =
            \sum_i inner (x i *m v' i *m hsym ((x i)^H *m g i)) (x i *m v i).
    by apply: eq_bigr => i _; rewrite inner_mulr hsym_herm innerC.
  by [].
move=> c e Oc c0 Dc e0 De.
have K (i : 'I_k) : exists w : 'M[F]_n, derives (@rscale R F n n) (@inner R F n n) (fun t => st_proj (c t i) (e t i)) w /\
    st_hess (x i) (g i) (h i) (x i *m v i) = st_proj (x i) w.
  have D := derives_stack i Dc; rewrite stack_mul in D.
  have [w Dw Ew] := st_hess_derives (h := h i) (g := g i) (O i) (lie_tangent i O hv) (c := fun t => c t i) (e := fun t => e t i)
    (congr1 (fun z : array => z i) c0) D (congr1 (fun z : array => z i) e0) (derives_stack i De).
  by exists w.
have [w Hw] := fin_all_exists K; exists [ffun i => w i].
  apply: stack_derives => i; rewrite ffunE; apply: derives_ext (proj1 (Hw i)) => t.
  by rewrite stack_mul skewhE stack_mul stack_hconj unitary_proj //; apply: Oc.
apply: (projects_to_stack (T := fun i => st_tangent (x i))) => i; rewrite stack_mul ffunE E // (proj2 (Hw i)).
by apply: st_projects; apply: O.
Qed.
End Hessian.

(** ** C80 *)
Section Random.
Variables (R : rcfType) (k : nat).
Local Notation F := (real_star R).
Local Notation C := (complex_star R).
Lemma random_skew_skew n (draw : stack F k n n) : skew_symmetric (random_skew_symmetric draw).
Proof.
move=> i; rewrite /random_skew_symmetric; case: eqP => _; first by rewrite stack0 trmx0 oppr0.
by rewrite stackB [multitransp _ _]ffunE linearB /= trmxK opprB.
Qed.
Lemma random_sym_sym n (draw diagonal : stack F k n n) i : (random_symmetric draw diagonal i)^T = random_symmetric draw diagonal i.
Proof.
rewrite /random_symmetric; case: eqP => [n1|_].
  apply/matrixP => r c; rewrite mxE; suff -> : r = c by [].
  by apply: val_inj => /=; have := ltn_ord r; have := ltn_ord c; rewrite {2 4}n1 !ltnS !leqn0 => /eqP -> /eqP ->.
apply/matrixP => r c; rewrite !ffunE !mxE eq_sym; case: eqP => [->//|_]; by rewrite addrC.
Qed.
Theorem C80_so n qr (x draw : stack F k n.+1 n.+1) : (forall A : 'M[F]_n.+1, valid_qr A (qr A)) ->
  on_so (so_random_point qr draw) /\
  (random_skew_symmetric draw != 0 ->
    skew_symmetric (so_random_tangent_vector x draw) /\ un_norm x (so_random_tangent_vector x draw) = 1).
Proof.
move=> qrP; split.
  move: qr draw qrP; case: n x => [|n] x qr draw qrP i.
    have E : so_random_point qr draw i = 1%:M.
      by rewrite /so_random_point ffunE; apply/matrixP => r c; rewrite !mxE [r]ord1 [c]ord1 eqxx.
    by rewrite E trmx1 mulmx1 det1.
  have O := multiqr_orthonormal qrP draw i.
  rewrite /so_random_point ffunE; case: ltP => [D|D].
    have T : orthonormal (tperm_mx ord0 (lift ord0 ord0) : 'M[F]_n.+2).
      by rewrite /orthonormal adj_real tr_tperm_mx /tperm_mx -perm_mxM tperm2 perm_mx1.
    rewrite xcolE; split; first by rewrite -adj_real; apply: mul_unitary.
    rewrite det_mulmx /tperm_mx det_perm odd_tperm /= expr1 mulrN1.
    by case: (det_orthogonal O) D => ->; rewrite ?opprK // ltNge ler01.
  split; first by rewrite -adj_real.
  by case: (det_orthogonal O) D => -> //; rewrite oppr_ge0 leNgt ltr01.
move=> N; split; last exact: unit_np_div.
rewrite /so_random_tangent_vector np_divE => i; rewrite stackZ linearZ /= random_skew_skew scalerN //.
Qed.
(** [SO(1)] is a point: its only tangent vector is zero, and normalising it divides by zero. *)
Theorem C80_so1_refuted (x draw : stack F k 1 1) : on_so x ->
  un_norm x (random_skew_symmetric draw) = 0 /\
  forall v, skew_symmetric v -> un_norm x v = 0.
Proof.
move=> _; have Z (v : stack F k 1 1) : skew_symmetric v -> un_norm x v = 0.
  move=> S; have -> : v = 0.
    apply/ffunP => i; rewrite ffunE; apply/matrixP => r c; rewrite !mxE [r]ord1 [c]ord1.
    have := congr1 (fun A : 'M[F]_1 => A ord0 ord0) (S i); rewrite !mxE => /eqP; rewrite -addr_eq0 -mulr2n.
    by rewrite (mulrn_eq0 (v i ord0 ord0 : R)) /= => /eqP.
  by rewrite /un_norm np_normE (norm0 (@sinner_ips R F k 1 1)).
by split; [apply: Z; apply: random_skew_skew|exact: Z].
Qed.
Lemma unit_phase (z : C) : z != 0 -> sf_conj (z / modulus z) * (z / modulus z) = 1.
Proof.
move=> z0; have m0 : modulus z != 0 by rewrite modulus_eq0.
rewrite rmorphM fmorphV (_ : sf_conj (modulus z) = modulus z); last by rewrite /modulus sf_conj_real.
by rewrite mulrACA -invfM -[modulus z * modulus z]expr2 modulus_sqr divff // -modulus_sqr expf_neq0.
Qed.
Lemma u1_random_point (qr : 'M[C]_1 -> _) (draw : stack C k 1 1) : on_unitary (u_random_point qr draw).
Proof.
move=> i; rewrite /u_random_point /=; apply/matrixP => r c; rewrite !mxE big_ord1 !ffunE !mxE [r]ord1 [c]ord1 eqxx.
by apply: unit_phase; rewrite eq_complex /= oner_eq0.
Qed.
Theorem C80_unitary n qr (x draw : stack C k n.+1 n.+1) draw1 draw2 diagonal : (forall A : 'M[C]_n.+1, valid_qr A (qr A)) ->
  on_unitary (u_random_point qr draw) /\
  let v := u_random_tangent_vector x draw1 draw2 diagonal in
  lie_vector v /\ (random_skew_symmetric draw1 != 0 \/ random_symmetric draw2 diagonal != 0 -> un_norm x v = 1).
Proof.
move=> qrP; split.
  case: n x draw qr qrP draw1 draw2 diagonal => [|n] x draw qr qrP _ _ _; first exact: u1_random_point.
  by move=> i; rewrite /u_random_point /=; exact: (multiqr_orthonormal qrP draw i).
rewrite /u_random_tangent_vector; set A := random_skew_symmetric draw1; set B := random_symmetric draw2 diagonal.
pose w : stack C k n.+1 n.+1 := [ffun i => \matrix_(r, c) ((A i r c +i* B i r c)%C / (Num.sqrt 2%:R)%:C%C)].
rewrite -/w /=; have s0 : Num.sqrt 2%:R != 0 :> R by rewrite gt_eqF // sqrtr_gt0 ltr0n.
have L : lie_vector w.
  move=> i; apply/matrixP => r c; rewrite !ffunE !mxE.
  have -> : A i c r = - A i r c by have := congr1 (fun M : 'M[F]_n.+1 => M r c) (random_skew_skew draw1 i); rewrite !mxE.
  have -> : B i c r = B i r c by have := congr1 (fun M : 'M[F]_n.+1 => M r c) (random_sym_sym draw2 diagonal i); rewrite !mxE.
  rewrite rmorphM fmorphV (_ : sf_conj ((Num.sqrt 2%:R)%:C%C : C) = (Num.sqrt 2%:R)%:C%C); last first.
    by apply/eqP; rewrite eq_complex /= oppr0 !eqxx.
  rewrite -mulNr; congr (_ * _).
split; first by move=> i; rewrite np_divE stackZ adjmxZreal L scalerN.
move=> N; apply: unit_np_div; apply/eqP => w0.
have Z i r c : A i r c = 0 /\ B i r c = 0.
  have := congr1 (fun z : stack C k n.+1 n.+1 => z i r c) w0; rewrite !ffunE !mxE => /eqP.
  rewrite mulf_eq0 invr_eq0 !eq_complex /= (negbTE s0) /= orbF => /andP[/eqP -> /eqP ->]; by [].
case: N => /eqP; apply; apply/ffunP => i; rewrite ffunE; apply/matrixP => r c; rewrite mxE; by case: (Z i r c).
Qed.
End Random.

(** ** C70 and C89: exponential, logarithm, distance and mean *)
Section Exp.
Variables (F : starField RR) (k n : nat).
Hypothesis EV : has_eigenvectors F.
Local Notation array := (stack F k n n).
Local Notation scale := (@sscale RR F k n n).
Local Notation dot := (@sinner RR F k n n).
Local Notation J := (@sinner_ips RR F k n n).
Variables expm logm : 'M[F]_n -> 'M[F]_n.
Hypothesis expmP : forall A, is_expm A (expm A).
Hypothesis logmP : forall A, (exists L, principal_log A L) -> principal_log A (logm A).
Implicit Types x y v w : array.
(** [v] is shorter than half a turn in every plane *)
Definition short (v : array) : Prop := forall i (z : 'cV[F]_n), z != 0 -> fnorm (v i *m z) < PI * fnorm z.
(** no eigenvalue of [x^H y] is -1: there is a unique shortest geodesic from [x] to [y] *)
Definition not_opposite (x y : array) : Prop := forall i, (x i)^H *m y i + 1%:M \in unitmx.

Lemma un_expE x v i : un_exp expm x v i = x i *m expm (v i). Proof. by rewrite /un_exp stack_mul ffunE. Qed.
Lemma not_oppositeP x y : on_unitary x -> on_unitary y -> not_opposite x y ->
  forall i, principal_log ((x i)^H *m y i) (logm ((x i)^H *m y i)).
Proof.
move=> Ox Oy N i; apply/logmP/(principal_log_exists EV) => //.
by apply: mul_unitary; [apply: adj_unitary; apply: Ox|apply: Oy].
Qed.
Lemma un_logE x y i : principal_log ((x i)^H *m y i) (logm ((x i)^H *m y i)) -> un_log logm x y i = logm ((x i)^H *m y i).
Proof. by move=> [S _]; rewrite /un_log skewhE ffunE stack_mul stack_hconj hskew_id. Qed.
Lemma un_log_unique x y i L : principal_log ((x i)^H *m y i) L -> un_log logm x y i = L.
Proof.
move=> P; have Q := logmP (ex_intro _ _ P); rewrite un_logE //; exact: (principal_log_unique EV Q P).
Qed.
Lemma principal_exp v i : lie_vector v -> short v -> principal_log (expm (v i)) (v i).
Proof. by move=> hv sv; split; [apply: hv|split; [apply: expmP|apply: sv]]. Qed.

Theorem C70_exp x v : on_unitary x -> lie_vector v ->
  on_unitary (un_exp expm x v) /\ un_exp expm x (un_zero_vector x) = x /\
  (short v -> un_log logm x (un_exp expm x v) = v /\ not_opposite x (un_exp expm x v) /\
     un_dist logm x (un_exp expm x v) = un_norm x v).
Proof.
move=> O hv; have X i : (x i)^H *m un_exp expm x v i = expm (v i) by rewrite un_expE mulmxA (O i) mul1mx.
split.
  by move=> i; rewrite un_expE; apply: mul_unitary; [apply: O|apply: expm_unitary (hv i) (expmP _)].
split.
  apply/ffunP => i; rewrite un_expE /un_zero_vector stack0 (_ : expm 0 = 1%:M) ?mulmx1 //.
  exact: expm_unique (expmP 0) (expm0 F n).
move=> sv; have L : un_log logm x (un_exp expm x v) = v.
  by apply/ffunP => i; apply: un_log_unique; rewrite X; apply: principal_exp.
split; first exact: L.
split; last by rewrite /un_dist L.
by move=> i; rewrite X; have [] := principal_log_domain EV (principal_exp i hv sv).
Qed.
Theorem C70_log x y : on_unitary x -> on_unitary y -> not_opposite x y ->
  lie_vector (un_log logm x y) /\ short (un_log logm x y) /\
  un_exp expm x (un_log logm x y) = y /\
  (forall v, lie_vector v -> short v -> un_exp expm x v = y -> v = un_log logm x y) /\
  un_norm x (un_log logm x y) = un_dist logm x y.
Proof.
move=> Ox Oy N; have P := not_oppositeP Ox Oy N; have E i := un_logE (P i).
split; first by move=> i; rewrite E; case: (P i).
split; first by move=> i; rewrite E; case: (P i) => _ [].
split.
  apply/ffunP => i; rewrite un_expE E (_ : expm _ = (x i)^H *m y i).
    by rewrite mulmxA orthonormalC ?mul1mx //; apply: Ox.
  by case: (P i) => _ [H _]; apply: expm_unique (expmP _) H.
split=> // v hv sv Ev; have [_ [_ H]] := C70_exp Ox hv.
by have [<- _] := H sv; rewrite Ev.
Qed.
Lemma principal_adj (A L : 'M[F]_n) : principal_log A L -> principal_log A^H (- L).
Proof.
move=> [S [E B]]; split; first by rewrite adjmxN S.
split; first by rewrite -S; apply: expm_adj.
by move=> z z0; rewrite mulNmx fnormN; apply: B.
Qed.
Lemma log_sym x y : on_unitary x -> on_unitary y -> not_opposite x y -> un_log logm y x = - un_log logm x y.
Proof.
move=> Ox Oy N; apply/ffunP => i; rewrite stackN; apply: un_log_unique.
have -> : (y i)^H *m x i = ((x i)^H *m y i)^H by rewrite adjmxM adjmxK.
by rewrite (un_logE (not_oppositeP Ox Oy N i)); apply: principal_adj; apply: not_oppositeP.
Qed.
Lemma principal_one : principal_log (1%:M : 'M[F]_n) 0.
Proof.
split; first by rewrite adjmx0 oppr0.
split; first exact: expm0.
move=> z z0; rewrite mul0mx {1}/fnorm inner0l sqrtr0 mulr_gt0 //; first by apply/RltPx; exact: PI_RGT_0.
by rewrite lt_def fnorm_ge0 fnorm_eq0 z0.
Qed.
Lemma principal_conj (A L u : 'M[F]_n) : orthonormal u -> principal_log A L -> principal_log (u^H *m A *m u) (u^H *m L *m u).
Proof.
move=> O [S [E B]]; have O' := orthonormalC O.
split; first by rewrite !adjmxM adjmxK S mulmxA mulmxN mulNmx.
split.
  have := expm_intertwine (G := u) (A := u^H *m L *m u) (B := L) _ (expmP _) E.
  rewrite !mulmxA O' mul1mx => /(_ (erefl _)) K.
  by rewrite -[u^H *m A *m u]mulmxA -K mulmxA O mul1mx.
move=> z z0; rewrite -!mulmxA fnorm_orthonormal; last exact: adj_unitary.
rewrite -[fnorm z](fnorm_orthonormal z O); apply: B.
by apply: contra z0 => /eqP H; rewrite -[z]mul1mx -O -mulmxA H mulmx0.
Qed.
(** Distance: symmetric, zero only between equal points, and invariant under multiplication on either side *)
Theorem C70_dist x y : on_unitary x -> on_unitary y -> not_opposite x y ->
  0 <= un_dist logm x y /\ un_dist logm y x = un_dist logm x y /\
  (un_dist logm x y = 0 <-> x = y) /\
  (forall u, on_unitary u -> un_dist logm (smul u x) (smul u y) = un_dist logm x y /\
     un_dist logm (smul x u) (smul y u) = un_dist logm x y).
Proof.
move=> Ox Oy N; have P := not_oppositeP Ox Oy N.
rewrite /un_dist /un_norm !np_normE; split; first exact: norm_ge0.
split; first by rewrite log_sym // (normN J).
split.
  split=> [/eqP|<-].
    rewrite (norm_eq0 J) => /eqP L0; have [_ [_ [E _]]] := C70_log Ox Oy N.
    by rewrite -E L0; have [_ []] := C70_exp Ox (proj1 (lie_subspace F k n)).
  suff -> : un_log logm x x = 0 by rewrite (norm0 J).
  by apply/ffunP => i; rewrite stack0; apply: un_log_unique; rewrite (Ox i); apply: principal_one.
move=> u Ou; split.
  congr (norm_of _ _); apply/ffunP => i; apply: un_log_unique.
  rewrite !stack_mul adjmxM -mulmxA [(u i)^H *m _]mulmxA (Ou i) mul1mx un_logE //; exact: P.
congr Num.sqrt; apply: eq_bigr => i _.
have -> : un_log logm (smul x u) (smul y u) i = (u i)^H *m un_log logm x y i *m u i.
  apply: un_log_unique; rewrite !stack_mul adjmxM un_logE // -mulmxA [(x i)^H *m (_ *m _)]mulmxA [X in principal_log X _]mulmxA.
  by apply: principal_conj => //; apply: Ou.
set M := un_log logm x y i; have Ou' := adj_unitary (Ou i).
have Q : fnorm ((u i)^H *m M *m u i) = fnorm M.
  by rewrite -mulmxA fnorm_orthonormal // -fnorm_adj adjmxM fnorm_orthonormal // fnorm_adj.
by rewrite -[LHS]fnorm_sqr -[RHS]fnorm_sqr Q.
Qed.
(** [pair_mean] is the midpoint of the shortest geodesic. *)
Theorem C70_pair_mean x y : on_unitary x -> on_unitary y -> not_opposite x y ->
  let m := un_pair_mean expm logm x y in
  on_unitary m /\ un_dist logm x m = un_dist logm x y / 2%:R /\ un_dist logm m y = un_dist logm x y / 2%:R.
Proof.
move=> Ox Oy N m; have [hL [sL [E [_ D]]]] := C70_log Ox Oy N.
have -> : m = un_exp expm x (scale 2%:R^-1 (un_log logm x y)) by rewrite /m /un_pair_mean np_divE.
clear m; set L := un_log logm x y in hL sL E D *; set H := scale 2%:R^-1 L.
have hH : lie_vector H by case: (lie_subspace F k n) => _ [_]; apply.
have h0 : (0 : RR) <= 2%:R^-1 by rewrite invr_ge0 ler0n.
have sH : short H.
  move=> i z z0; rewrite /H stackZ -scalemxAl -[_ *: _]/(rscale _ _) fnormZ ger0_norm //.
  apply: le_lt_trans (sL i z z0); rewrite -[X in _ <= X]mul1r ler_wpmul2r ?fnorm_ge0 //.
  by rewrite invf_le1 ?ltr0n // ler1n.
have nH : un_norm x H = un_norm x L / 2%:R.
  by rewrite /un_norm !np_normE (normZ J) ger0_norm // mulrC.
have [Om [_ /(_ sH) [_ [_ Dm]]]] := C70_exp Ox hH.
split; first exact: Om.
split; first by rewrite Dm nH D.
have L2 i : L i = H i + H i.
  by rewrite /H stackZ -scalerDl -rmorphD (_ : _ + _ = 1 :> RR) ?rmorph1 ?scale1r //; rewrite -mulr2n -[_^-1 *+ 2]mulr_natr mulVf ?pnatr_eq0.
rewrite -D -nH /un_dist; congr (un_norm _ _); apply/ffunP => i; apply: un_log_unique.
rewrite un_expE adjmxM -mulmxA.
have -> : (x i)^H *m y i = expm (H i) *m expm (H i).
  rewrite -E un_expE mulmxA (Ox i) mul1mx L2; apply: expm_unique (expmP _) _.
  by apply: expm_mul.
rewrite mulmxA (expm_unitary (hH i) (expmP _)) mul1mx; exact: principal_exp.
Qed.

(** ** C89 *)
Theorem C89_geodesic x v : on_unitary x -> lie_vector v ->
  let c t := un_exp expm x (scale t v) in
  c 0 = x /\ (forall s t, c (s + t) = un_exp expm (c s) (scale t v)) /\
  (forall t, on_unitary (c t)) /\
  (forall t, derives scale dot (fun s => c (t + s)) (un_embedding (c t) (un_transport x (c t) v))) /\
  (forall t, un_norm (c t) (un_transport x (c t) v) = un_norm x v) /\
  (forall t, exists2 a, derives scale dot (fun s => un_embedding (c (t + s)) (un_transport x (c (t + s)) v)) a &
     forall w, unitary_tangent (c t) w -> dot a w = 0).
Proof.
move=> O hv c.
have hs t : lie_vector (scale t v) by case: (lie_subspace F k n) => _ [_]; apply.
have E t i : is_expm (rscale t (v i)) (expm (scale t v i)) by rewrite (_ : rscale t (v i) = scale t v i) ?stackZ.
have Oc t : on_unitary (c t) by have [] := C70_exp O (hs t).
have D t i : derives (@rscale RR F n n) (@inner RR F n n) (fun s => c (t + s) i) (c t i *m v i).
  have := derives_mul (derives_const (@inner_ips RR F n n) (x i)) (expm_derives (fun s => E s i) t).
  rewrite mul0mx add0r (expm_comm (fun s => E s i)) mulmxA -un_expE; apply: derives_ext => s.
  by rewrite /c un_expE.
split.
  have [_ [e _]] := C70_exp O hv; rewrite -[RHS]e /c; congr (un_exp _ _ _).
  by apply/ffunP => i; rewrite stackZ rmorph0 scale0r stack0.
split.
  move=> s t; apply/ffunP => i; rewrite /c !un_expE -mulmxA; congr (_ *m _).
  exact: (expm_curveD (fun s => E s i)).
split=> //; split; first by move=> t; apply: stack_derives => i; rewrite stack_mul; apply: D.
split=> // t; exists (smul (smul (c t) v) v).
  apply: stack_derives => i; have := derives_mul (D t i) (derives_const (@inner_ips RR F n n) (v i)).
  by rewrite mulmx0 addr0 !stack_mul; apply: derives_ext => s; rewrite [RHS]stack_mul.
move=> w /(lie_vector_spec _ (Oc t)) [u hu ->]; rewrite /sinner big1 // => i _.
rewrite !stack_mul -mulmxA inner_orthonormal; last by have := Oc t i; rewrite /c stack_mul.
apply: inner_herm_skew; last exact: hu.
by rewrite /hermitian adjmxM hv mulmxN mulNmx opprK.
Qed.
End Exp.
(** The exponential map of [SpecialOrthogonalGroup] keeps the determinant. *)
Theorem C70_so_exp k n (expm : 'M[RF]_n -> 'M[RF]_n) (x v : stack RF k n n) : (forall A, is_expm A (expm A)) ->
  on_so x -> skew_symmetric v -> on_so (un_exp expm x v).
Proof.
move=> expmP S /so_skew hv i.
have O : orthonormal (expm (v i)) by apply: expm_unitary (hv i) (expmP _).
rewrite un_expE; split; first by rewrite -adj_real; apply: mul_unitary => //; apply: (so_unitary S).
rewrite det_mulmx (proj2 (S i)) mul1r; apply: det_one => //.
pose h : 'M[RF]_n := rscale 2%:R^-1 (v i).
have -> : expm (v i) = expm h *m expm h.
  apply: expm_unique (expmP _) _; rewrite [X in is_expm X _](_ : v i = h + h); first by apply: expm_mul.
  by rewrite /h /rscale -scalerDl -rmorphD (_ : _ + _ = 1 :> RR) ?rmorph1 ?scale1r //; rewrite -mulr2n -[_^-1 *+ 2]mulr_natr mulVf ?pnatr_eq0.
have U : orthonormal (expm h) by apply: expm_unitary (expmP _); rewrite /h /rscale adjmxZreal hv scalerN.
rewrite det_mulmx -expr2 lt_def sqr_ge0 andbT expf_neq0 //.
by case: (det_orthogonal U) => ->; rewrite ?oppr_eq0 oner_eq0.
Qed.

(** *** The hypotheses above are met *)
Lemma group_library (F : starField RR) (n : nat) : has_eigenvectors F -> complete_field F ->
  (exists qr : 'M[F]_n -> 'M[F]_n * 'M[F]_n, forall A, valid_qr A (qr A)) /\
  (exists svd : 'M[F]_n -> 'M[F]_n * 'rV[RR]_n * 'M[F]_n, forall A, valid_svd A (svd A)) /\
  (exists expm : 'M[F]_n -> 'M[F]_n, forall A, is_expm A (expm A)) /\
  (exists logm : 'M[F]_n -> 'M[F]_n, forall A, (exists L, principal_log A L) -> principal_log A (logm A)).
Proof.
move=> EV CF; split; first exact: qr_function.
split; first exact: svd_function.
split.
  exists (fun A => epsilon (inhabits 0) (is_expm A)) => A; exact: epsilon_spec (expm_exists CF A).
exists (fun A => epsilon (inhabits 0) (principal_log A)) => A H; exact: epsilon_spec H.
Qed.
Section Instance.
Variables (F : starField RR).
(** the rotation by a quarter turn *)
Let Q : 'M[F]_2 := \matrix_(i, j) if i == j then 0 else if i == ord0 then -1 else 1.
Lemma Q_skew : Q^H = - Q.
Proof.
apply/matrixP => i j; rewrite !mxE; case: i => -[|[|]] // ?; case: j => -[|[|]] // ?; rewrite /=.
all: by rewrite ?rmorph0 ?rmorphN ?rmorph1 ?oppr0 ?opprK.
Qed.
Lemma Q_unitary : Q^H *m Q = 1%:M.
Proof.
rewrite Q_skew; apply/matrixP => i j; rewrite !mxE !big_ord_recl big_ord0 !mxE /=.
case: i => -[|[|]] // ?; case: j => -[|[|]] // ?; rewrite /=.
all: by rewrite ?oppr0 ?mulr0 ?mul0r ?mulr1 ?mulrN1 ?opprK ?addr0 ?add0r.
Qed.
Lemma group_point (k := 2%N) : on_unitary ([ffun _ => Q] : stack F k 2 2) /\ lie_vector ([ffun _ => Q] : stack F k 2 2) /\
  short ([ffun _ => Q] : stack F k 2 2) /\ ([ffun _ => Q] : stack F k 2 2) != 0 /\
  not_opposite ([ffun _ => 1%:M] : stack F k 2 2) ([ffun _ => Q] : stack F k 2 2).
Proof.
split; first by move=> i; rewrite ffunE Q_unitary.
split; first by move=> i; rewrite ffunE Q_skew.
split.
  move=> i z z0; rewrite ffunE fnorm_orthonormal; last exact: Q_unitary.
  rewrite -[X in X < _]mul1r ltr_pmul2r; last by rewrite lt_def fnorm_ge0 fnorm_eq0 z0.
  by have H : Rlt R1 PI; [have := PI2_1; have := PI_RGT_0; lra|apply/RltPx; exact: H].
split.
  apply/eqP => H; have := congr1 (fun z : stack F k 2 2 => z ord0) H; rewrite !ffunE => /matrixP /(_ (lift ord0 ord0) ord0).
  by rewrite !mxE /= => /eqP; rewrite oner_eq0.
move=> i; rewrite !ffunE adjmx1 mul1mx.
have /mulmx1_unit [] // : (Q + 1%:M) *m (half F *: (1%:M - Q)) = 1%:M.
have QQ : Q *m Q = - 1%:M by rewrite -[X in X *m _]opprK -Q_skew mulNmx Q_unitary.
rewrite -scalemxAr mulmxBr mulmx1 mulmxDl QQ mul1mx opprD opprK [Q + _]addrC addrACA subrr addr0.
by rewrite scale_half2.
Qed.
End Instance.
Example so_instance : exists (x v : stack RF 2 2 2) (qr : 'M[RF]_2 -> 'M[RF]_2 * 'M[RF]_2)
    (svd : 'M[RF]_2 -> 'M[RF]_2 * 'rV[RR]_2 * 'M[RF]_2) (expm logm : 'M[RF]_2 -> 'M[RF]_2),
  (forall A, valid_qr A (qr A)) /\ (forall A, valid_svd A (svd A)) /\ (forall A, is_expm A (expm A)) /\
  (forall A, (exists L, principal_log A L) -> principal_log A (logm A)) /\
  on_so x /\ skew_symmetric v /\ short v /\ v != 0 /\ not_opposite ([ffun _ => 1%:M] : stack RF 2 2 2) x.
Proof.
have [[qr qrP] [[svd svdP] [[expm expmP] [logm logmP]]]] := @group_library RF 2 (@real_has_eigenvectors RR) real_complete.
have [O [L [S [N P]]]] := group_point RF.
exists [ffun _ => \matrix_(i, j) if i == j then 0 else if i == ord0 then -1 else 1].
exists [ffun _ => \matrix_(i, j) if i == j then 0 else if i == ord0 then -1 else 1].
exists qr, svd, expm, logm; do 4!split=> //.
split.
  move=> i; split; first by rewrite -adj_real; apply: O.
  rewrite ffunE (expand_det_row _ ord0) !big_ord_recl big_ord0 /cofactor !mxE /= !det_mx11 !mxE /=.
  by rewrite mul0r add0r addr0 mulN1r expr1 mulN1r opprK.
split; first exact/so_skew.
by split; [exact: S|split].
Qed.
Example unitary_instance (F := complex_star R_rcfType) : exists (x v : stack F 2 2 2) (qr : 'M[F]_2 -> 'M[F]_2 * 'M[F]_2)
    (svd : 'M[F]_2 -> 'M[F]_2 * 'rV[RR]_2 * 'M[F]_2) (expm logm : 'M[F]_2 -> 'M[F]_2),
  (forall A, valid_qr A (qr A)) /\ (forall A, valid_svd A (svd A)) /\ (forall A, is_expm A (expm A)) /\
  (forall A, (exists L, principal_log A L) -> principal_log A (logm A)) /\
  on_unitary x /\ lie_vector v /\ short v /\ v != 0 /\ not_opposite ([ffun _ => 1%:M] : stack F 2 2 2) x.
Proof.
have [[qr qrP] [[svd svdP] [[expm expmP] [logm logmP]]]] := @group_library F 2 (@complex_has_eigenvectors RR) complex_complete.
have [O [L [S [N P]]]] := group_point F.
exists [ffun _ => \matrix_(i, j) if i == j then 0 else if i == ord0 then -1 else 1].
exists [ffun _ => \matrix_(i, j) if i == j then 0 else if i == ord0 then -1 else 1].
exists qr, svd, expm, logm.
split; first exact: qrP.
split; first exact: svdP.
split; first exact: expmP.
split; first exact: logmP.
split; first exact: O.
split; first exact: L.
by split; [exact: S|split; [exact: N|exact: P]].
Qed.
