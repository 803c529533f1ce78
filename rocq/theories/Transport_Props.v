(** C112: the vector transports of the manifolds. *)
From Coq Require Import Reals Lra.
From mathcomp Require Import all_ssreflect all_algebra.
From Coq Require Import Ring Field.
From Verif Require Import Rstruct MCRing Mat_Base Geometry_Spec Linalg_Spec Calculus Components Euclidean_Model Euclidean_Props
  Sphere_Model Sphere_Proofs Sphere_Props ComplexCircle_Model ComplexCircle_Props Oblique_Model Oblique_Props
  Positive_Model Positive_Props Stiefel_Model Stiefel_Proofs Stiefel_Props Stack_Proofs Grassmann_Model Grassmann_Proofs Grassmann_Props
  Group_Model Group_Proofs Group_Props PosDef_Model PosDef_Proofs PosDef_Special PosDef_Props Psd_Model Psd_Proofs Psd_Props
  FixedRank_Model FixedRank_Props Multi_Model.
Set Implicit Arguments.
Unset Strict Implicit.
Unset Printing Implicit Defensive.
Import GRing.Theory Num.Theory Order.TTheory.
Local Open Scope ring_scope.

(** ** Specification *)
Section Spec.
Variables (R : rcfType) (V : zmodType) (scale : R -> V -> V).
(** the points, the tangent vectors at a point, the metric, and the transport [tr x y v] of [v] from [x] to [y] *)
Variables (D : V -> Prop) (T : V -> V -> Prop) (ip : V -> V -> V -> R) (tr : V -> V -> V -> V).
(** Tangent vectors become tangent vectors, linearly, and stay as they are if the point stays. *)
Definition vector_transport : Prop := forall x y, D x -> D y ->
  (forall v, T x v -> T y (tr x y v)) /\ (forall v, T x v -> tr x x v = v) /\
  (forall a u v, T x u -> T x v -> tr x y (scale a u + v) = scale a (tr x y u) + tr x y v).
(** No vector gets longer; and the transport back is the adjoint of the transport. *)
Definition contracting_transport : Prop := forall x y, D x -> D y ->
  (forall v, T x v -> ip y (tr x y v) (tr x y v) <= ip x v v) /\
  (forall u v, T x u -> T y v -> ip y (tr x y u) v = ip x u (tr y x v)).
(** All lengths and angles are kept, and the transport back is the inverse. *)
Definition isometric_transport : Prop := forall x y, D x -> D y ->
  (forall u v, T x u -> T x v -> ip y (tr x y u) (tr x y v) = ip x u v) /\
  (forall v, T x v -> tr y x (tr x y v) = v).
End Spec.

(** ** Orthogonal projection on the tangent space at the new point *)
Section Projection.
Variables (R : rcfType) (V : zmodType) (scale : R -> V -> V) (dot : V -> V -> R).
Hypothesis I : inner_product_on scale everywhere dot.
Add Ring R_ring : (mc_ring R).
Lemma subspaceB (S : V -> Prop) u v : real_subspace scale S -> S u -> S v -> S (u - v).
Proof.
move=> [_ [SD SZ]] Su Sv; apply: SD => //.
by have -> : - v = scale (-1) v; [vring I R | apply: SZ].
Qed.
Lemma projects_linear (S : V -> Prop) a u v pu pv : real_subspace scale S ->
  projects_to dot S u pu -> projects_to dot S v pv -> projects_to dot S (scale a u + v) (scale a pu + pv).
Proof.
move=> SS [Tu [_ Ou]] [Tv [_ Ov]]; have [_ [SD SZ]] := SS.
have O t : S t -> dot (scale a u + v - (scale a pu + pv)) t = 0.
  move=> St; have -> : scale a u + v - (scale a pu + pv) = scale a (u - pu) + (v - pv) by vring I R.
  by rewrite (dotDl I) (dotZl I) Ou // Ov // mulr0 addr0.
split; first by apply: SD => //; apply: SZ.
split=> // Sw; apply/eqP; rewrite eq_sym -subr_eq0 -(dot_eq0 I) O //.
by apply: subspaceB => //; apply: SD => //; apply: SZ.
Qed.
Variables (D : V -> Prop) (T : V -> V -> Prop) (ip : V -> V -> V -> R) (tr : V -> V -> V -> V).
Hypothesis ipE : forall x u v, ip x u v = dot u v.
Hypothesis S : forall x, real_subspace scale (T x).
Hypothesis P : forall x y v, D x -> D y -> projects_to dot (T y) v (tr x y v).
Lemma projection_transport : vector_transport scale D T tr /\ contracting_transport D T ip tr.
Proof.
split=> x y hx hy; split.
- by move=> v _; case: (P v hx hy).
- split; first by move=> v hv; case: (P v hx hx) => _ [E _]; apply: E.
  move=> a u v hu hv; apply: (projects_to_unique I (T := T y)); last first.
  + by apply: projects_linear; [apply: S | apply: P | apply: P].
  + exact: P.
  + by move=> w w'; apply: subspaceB.
- move=> v _; rewrite !ipE; have [Tp [_ O]] := P v hx hy; set p := tr x y v in Tp O *.
  have -> : dot v v = dot p p + dot (v - p) (v - p).
    have e := O p Tp; rewrite (dotBl I) in e; have {}e : dot v p = dot p p by apply/eqP; rewrite -subr_eq0 e.
    by rewrite (dotBl I) !(dotBr I) (dotC I p v) e subrr subr0 addrC subrK.
  by rewrite ler_addl (dot_ge0 I).
- move=> u v hu hv; rewrite !ipE.
  have [_ [_ O]] := P u hx hy; have [_ [_ O']] := P v hy hx.
  have /eqP := O v hv; rewrite (dotBl I) subr_eq0 => /eqP <-.
  by have /eqP := O' u hu; rewrite (dotBl I) subr_eq0 => /eqP e; rewrite (dotC I) e (dotC I).
Qed.
End Projection.

(** ** C112 *)
Section Real.
Variables (m n : nat).
Theorem C112_sphere :
  vector_transport (@rscale RR RF m n) (@on_sphere m n) (@sphere_tangent m n) (sp_transport (@sp_projection m n)) /\
  contracting_transport (@on_sphere m n) (@sphere_tangent m n) (@sp_inner_product m n) (sp_transport (@sp_projection m n)).
Proof.
apply: (projection_transport (@inner_ips RR RF m n)) => // [x|x y v hx hy]; first exact: tangent_subspace.
by case: (C57_projection v hx) => _ [_ [_]]; apply.
Qed.
Theorem C112_sphere_subspace (P : 'M[RF]_n) : orthogonal_projector P ->
  vector_transport (@rscale RR RF n 1) (ss_point P) (ss_tangent P) (sp_transport (ss_projection P)) /\
  contracting_transport (ss_point P) (ss_tangent P) (@sp_inner_product n 1) (sp_transport (ss_projection P)).
Proof.
move=> HP; apply: (projection_transport (@inner_ips RR RF n 1)) => // [x|x y v hx hy]; first exact: ss_subspace.
by case: (C62_projection HP v hx) => _ [_ [_]]; apply.
Qed.
Theorem C112_complex_circle :
  vector_transport (@rscale RR CF 1 n) (@unit_modulus n) (@circle_tangent n) (@cc_transport n) /\
  contracting_transport (@unit_modulus n) (@circle_tangent n) (@cc_inner_product n) (@cc_transport n).
Proof.
apply: (projection_transport (@inner_ips RR CF 1 n)) => [x u v|x|x y v hx hy]; first exact: cc_innerE.
  exact: tangent_cc_subspace.
by case: (C63_projection v hx) => _ [_ [_ [_ [_ [_]]]]]; apply.
Qed.
Theorem C112_oblique :
  vector_transport (@rscale RR RF m n) (@unit_columns m n) (@columns_tangent m n) (@ob_transport m n) /\
  contracting_transport (@unit_columns m n) (@columns_tangent m n) (@ob_inner_product m n) (@ob_transport m n).
Proof.
apply: (projection_transport (@inner_ips RR RF m n)) => // [x|x y v hx hy]; first exact: tangent_ob_subspace.
by case: (C65_projection v hx) => _ [_ [_ [_ [_ [_]]]]]; apply.
Qed.
End Real.

Section Stacks.
Variables (R : rcfType) (F : starField R) (k n p : nat).
Theorem C112_stiefel :
  vector_transport (@sscale R (real_star R) k n p) (@on_stiefel R k n p) (@stiefel_tangent R k n p) (@st_transport R k n p) /\
  contracting_transport (@on_stiefel R k n p) (@stiefel_tangent R k n p) (@st_inner_product R k n p) (@st_transport R k n p).
Proof.
apply: (projection_transport (@sinner_ips R (real_star R) k n p)) => // [x|x y v hx hy]; first exact: stiefel_subspace.
by case: (C66_projection v hx) => _ [_ [_]]; apply.
Qed.
Theorem C112_grassmann :
  vector_transport (@sscale R F k n p) (@on_grassmann R F k n p) (@grassmann_horizontal R F k n p) (@gr_transport R F k n p) /\
  contracting_transport (@on_grassmann R F k n p) (@grassmann_horizontal R F k n p) (@gr_inner_product R F k n p) (@gr_transport R F k n p).
Proof.
apply: (projection_transport (@sinner_ips R F k n p)) => [x u v|x|x y v hx hy]; first exact: gr_innerE.
  exact: grassmann_subspace.
by case: (C68_projection v hx) => _ [_ [_]]; apply.
Qed.
Theorem C112_psd (lyapunov : 'M[F]_k -> 'M[F]_k -> 'M[F]_k) : solves_lyapunov lyapunov ->
  vector_transport (@rscale R F n k) (@full_rank R F n k) (@psd_horizontal R F n k) (psd_transport lyapunov) /\
  contracting_transport (@full_rank R F n k) (@psd_horizontal R F n k) (@psd_inner_product R F n k) (psd_transport lyapunov).
Proof.
move=> lP; apply: (projection_transport (@inner_ips R F n k)) => [x u v|x|x y v hx hy]; first exact: psd_innerE.
  exact: Psd_Props.horizontal_subspace.
by case: (C76_projection lP v hx) => _ [_ [_ [_ [H _]]]]; apply: H.
Qed.
(** The identity, where all tangent spaces are the same. *)
Theorem C112_euclidean :
  vector_transport (@sscale R F k n p) everywhere (fun _ => everywhere) (@eu_transport R F k n p) /\
  isometric_transport everywhere (fun _ => everywhere) (@eu_inner_product R F k n p) (@eu_transport R F k n p).
Proof. by []. Qed.
Theorem C112_groups :
  vector_transport (@sscale R F k n n) (@on_unitary R F k n) (fun _ => @lie_vector R F k n) (@un_transport R F k n) /\
  isometric_transport (@on_unitary R F k n) (fun _ => @lie_vector R F k n) (fun x u v => sf_re (un_inner_product x u v)) (@un_transport R F k n).
Proof. by []. Qed.
End Stacks.

Section Positive.
Variable n : nat.
Local Notation scale := (@rscale RR RF 1 n).
Theorem C112_positive : vector_transport scale (@positive_entries n) (fun _ => everywhere) (@po_transport n true) /\
  isometric_transport (@positive_entries n) (fun _ => everywhere) (@po_inner_product n) (@po_transport n true).
Proof.
have N (x : 'rV[RF]_n) j : positive_entries x -> x 0 j != 0 by move=> hx; rewrite gt_eqF //; apply: hx.
split=> x y hx hy; split=> //.
- split; first by move=> v _; apply/rowP => j; rewrite !mxE mulfK ?N.
  by move=> a u v _ _; apply/rowP => j; rewrite !mxE !mulrDl !mulrA.
- by move=> u v _ _; case: (C64_transport u v hx hy).
- by move=> v _; apply/rowP => j; rewrite !mxE; have := N x j hx; have := N y j hy => yj xj; rewrite mulfVK // mulfK.
Qed.
(** Without it, and on the positive definite matrices, the vector is returned as it is: linear, but [c] times closer to
    the boundary it is [1 / c] times as long. *)
Theorem C112_positive_unchanged : vector_transport scale (@positive_entries n) (fun _ => everywhere) (@po_transport n false) /\
  (forall x u v c, po_inner_product (scale c x) (po_transport false x (scale c x) u) (po_transport false x (scale c x) v) =
    c^-1 ^+ 2 * po_inner_product x u v).
Proof.
split=> // x u v c; rewrite mulr_sumr; apply: eq_bigr => j _; rewrite !mxE !invfM expr2.
have e (a b : RF) : a * (c^-1 * b) = c^-1 * (a * b) by rewrite mulrCA.
by rewrite !e -!mulrA.
Qed.
End Positive.

Section PosDef.
Variables (R : rcfType) (F : starField R) (k n : nat).
Local Notation array := (stack F k n n).
Local Notation scale := (@sscale R F k n n).
Theorem C112_posdef_unchanged :
  vector_transport scale (@on_pd R F k n) (fun _ => @herm_vector R F k n) (@pd_transport R F k n) /\
  (forall (x u v : array) (c : R), 0 < c -> on_pd x -> on_pd (scale c x) /\
    pd_inner_product (scale c x) (pd_transport x (scale c x) u) (pd_transport x (scale c x) v) = c^-1 ^+ 2 * pd_inner_product x u v).
Proof.
split=> // x u v c c0 hx.
have hc : on_pd (scale c x) by move=> i; rewrite stackZ; apply: posdefZ => //; apply: hx.
split=> //; rewrite !pd_ipE mulr_sumr; apply: eq_bigr => i _; rewrite /pip stackZ.
have cu : sf_real c *: x i \in unitmx by have := posdef_unit (hc i); rewrite stackZ.
have -> : invmx (sf_real c *: x i) = sf_real c^-1 *: invmx (x i) by rewrite invmxZ // fmorphV.
by rewrite -!scalemxAl -scalemxAr scalerA -rmorphM mxtraceZ sf_reZ expr2.
Qed.
(** So no bound holds for the lengths after the transport. *)
Corollary C112_posdef_refuted (x v : array) (M : R) : on_pd x -> herm_vector v -> v != 0 ->
  exists y, on_pd y /\ M * pd_inner_product x v v < pd_inner_product y (pd_transport x y v) (pd_transport x y v).
Proof.
move=> hx hv v0; have p0 : 0 < pd_inner_product x v v by apply: (pip_sum_gt0 (@herm_vector R F k n)).
pose m := `|M| + 1; have m0 : 0 < m by rewrite ltr_spaddr.
have [hc E] := C112_posdef_unchanged.2 x v v (m^-1) (eq_ind_r _ m0 (invr_gt0 m)) hx.
exists (scale m^-1 x); split=> //; rewrite E invrK ltr_pmul2r //.
have m1 : 1 <= m by rewrite ler_addr.
by apply: le_lt_trans (ler_norm M) _; apply: lt_le_trans (_ : m <= _); rewrite ?ltr_addl // expr2 ler_pmulr.
Qed.
End PosDef.

Lemma sproj_linear (F : starField RR) n (P : 'M[F]_n) (a : RR) U W : sproj P (sf_real a *: U + W) = sf_real a *: sproj P U + sproj P W.
Proof.
rewrite /sproj hsymD hsymZ mulmxDr -scalemxAr mxtraceD mxtraceZ sf_reD sf_reZ mulrDr [_^-1 * (a * _)]mulrCA rmorphD rmorphM.
by rewrite scalerDl scalerBr scalerA opprD addrACA.
Qed.
Lemma herm_linear (F : starField RR) n (a : RR) (U W : 'M[F]_n) : U^H = U -> W^H = W -> (sf_real a *: U + W)^H = sf_real a *: U + W.
Proof. by move=> hU hW; rewrite adjmxD adjmxZ sf_conj_real hU hW. Qed.
Section Special.
Variables k n : nat.
Local Notation F := (complex_star RR).
Hypothesis n0 : (0 < n)%N.
Theorem C112_special : vector_transport (@sscale RR F k n n) (@on_shpd RR F k n) (@shpd_tangent RR F k n) (@shpd_transport F k n).
Proof.
move=> x y hx hy; split; first by move=> v _; case: (C75_tangent n0 hx) => _ [_ [_ [H _]]]; apply: H.
have E (z v : stack F k n n) i : (v i)^H = v i -> shpd_transport x z v i = sproj (z i) (v i).
  by move=> h; rewrite /shpd_transport shpd_projE /pd_projection hermE hsym_id.
split.
  move=> v hv; apply/ffunP => i; rewrite E; last by case: (hv i).
  by rewrite -shpd_projE; case: (shpd_projects n0 v hx) => _ [-> ].
move=> a u v hu hv; apply/ffunP => i; have [hi _] := hu i; have [hj _] := hv i.
have eq : (sscale a u + v) i = sf_real a *: u i + v i by rewrite stackD stackZ.
have hs : ((sscale a u + v) i)^H = (sscale a u + v) i by rewrite eq; apply: herm_linear.
rewrite (E _ _ _ hs) eq (sproj_linear (y i) a (u i) (v i)) -(E _ _ _ hi) -(E _ _ _ hj).
by rewrite [RHS]stackD; congr (_ + _); rewrite [RHS]stackZ.
Qed.
End Special.

Section FixedRank.
Variables (R : rcfType) (m n k : nat).
Local Notation F := (real_star R).
Local Notation point := (fr_point R m n k).
Local Notation tvector := (fr_vector R m n k).
Local Notation on := (@on_fixed_rank R m n k).
Local Notation dot := (@inner R F m n).
Local Notation scale := (@rscale R F m n).
Local Notation I := (@inner_ips R F m n).
(** The same for the triples that stand for tangent vectors of the matrices of fixed rank *)
Theorem C112_fixed_rank (x y : point) : on x -> on y ->
  (forall t, fr_valid x t -> fr_valid y (fr_transport x y t)) /\
  (forall t, fr_valid x t -> fr_transport x x t = t) /\
  (forall a t w, fr_valid x t -> fr_valid x w ->
    fr_transport x y (fr_add (fr_mul a t) w) = fr_add (fr_mul a (fr_transport x y t)) (fr_transport x y w)) /\
  (forall t, fr_valid x t -> fr_inner_product y (fr_transport x y t) (fr_transport x y t) <= fr_inner_product x t t) /\
  (forall t w, fr_valid x t -> fr_valid y w -> fr_inner_product y (fr_transport x y t) w = fr_inner_product x t (fr_transport y x w)).
Proof.
move=> hx hy.
have V (z z' : point) t : on z -> on z' -> fr_valid z' (fr_transport z z' t) by move=> hz hz'; case: (C78_embedding t hz hz') => _ [].
have inj (z : point) t w : on z -> fr_valid z t -> fr_valid z w -> fr_represented z t = fr_represented z w -> t = w.
  by move=> hz; case: (C78_tangent_space 0 hz) => _; apply.
have lin (z : point) a t w : on z -> fr_represented z (fr_add (fr_mul a t) w) = scale a (fr_represented z t) + fr_represented z w.
  by move=> hz; have [_ [_ [L _]]] := C78_metric hz; case: (L a (fr_mul a t) w) => -> _; case: (L a t w) => _ [_ [_ [-> _]]].
have vlin (z : point) a t w : fr_valid z t -> fr_valid z w -> fr_valid z (fr_add (fr_mul a t) w).
  by move=> [a1 a2] [b1 b2]; split; rewrite /= mulmxDr -scalemxAr ?a1 ?a2 ?b1 ?b2 scaler0 addr0.
have ipE (z : point) t w : on z -> fr_valid z t -> fr_valid z w -> fr_inner_product z t w = dot (fr_represented z t) (fr_represented z w).
  by move=> hz; have [H _] := C78_metric hz; apply: H.
have S (z : point) : on z -> real_subspace scale (rank_velocity z).
  move=> hz; have [_ [_ [_ [v0 r0]]]] := C78_metric hz.
  have C Z : rank_velocity z Z <-> exists2 t, fr_valid z t & fr_represented z t = Z by case: (C78_tangent_space Z hz).
  have L a Z Z' : rank_velocity z Z -> rank_velocity z Z' -> rank_velocity z (scale a Z + Z').
    by move=> /C[t ht <-] /C[w hw <-]; apply/C; exists (fr_add (fr_mul a t) w); [apply: vlin | apply: lin].
  have Z0 : rank_velocity z 0 by apply/C; exists (fr_zero_vector z).
  split=> //; split; first by move=> u v hu hv; have := L 1 u v hu hv; rewrite /rscale rmorph1 scale1r.
  by move=> a v hv; have := L a v 0 hv Z0; rewrite addr0.
have tan (z : point) t : on z -> fr_valid z t -> rank_velocity z (fr_represented z t).
  by move=> hz ht; have [H _] := C78_tangent_space (fr_represented z t) hz; apply/H; exists t.
have P (z z' : point) t : on z -> on z' -> projects_to dot (rank_velocity z') (fr_represented z t) (fr_represented z' (fr_transport z z' t)).
  by move=> hz hz'; case: (C78_embedding t hz hz') => _ [].
split; first by move=> t _; apply: V.
split.
  move=> t ht; apply: (inj x) => //; first exact: V.
  by case: (P x x t hx hx) => _ [E _]; apply: E; apply: tan.
split.
  move=> a t w ht hw; apply: (inj y) => //; [exact: V | by apply: vlin; apply: V | rewrite lin //].
  have Q := P x y (fr_add (fr_mul a t) w) hx hy; rewrite lin // in Q.
  apply: (projects_to_unique I _ Q (projects_linear I a (S y hy) (P x y t hx hy) (P x y w hx hy))) => u v hu hv.
  by apply: (subspaceB I) => //; apply: S.
have O (z z' : point) t Z : on z -> on z' -> rank_velocity z' Z -> dot (fr_represented z' (fr_transport z z' t)) Z = dot (fr_represented z t) Z.
  by move=> hz hz' hZ; case: (P z z' t hz hz') => _ [_ /(_ Z hZ)]; rewrite innerBl => /eqP; rewrite subr_eq0 => /eqP.
split.
  move=> t ht; have vt := V x y t hx hy; rewrite (ipE y _ _ hy vt vt) (ipE x _ _ hx ht ht); set p := fr_represented y _.
  have e : dot (fr_represented x t) p = dot p p by rewrite -(O x y) //; apply: tan => //; apply: V.
  have -> : dot (fr_represented x t) (fr_represented x t) = dot p p + dot (fr_represented x t - p) (fr_represented x t - p).
    by rewrite (dotBl I) !(dotBr I) (dotC I p (fr_represented x t)) e subrr subr0 addrC subrK.
  by rewrite ler_addl (dot_ge0 I).
move=> t w ht hw; rewrite (ipE y _ _ hy (V x y t hx hy) hw) (ipE x _ _ hx ht (V y x w hy hx)) (O x y) //; last exact: tan.
by rewrite (dotC I) [RHS](dotC I) (O y x) //; apply: tan.
Qed.
End FixedRank.

Section Elliptope.
Variables (n k : nat) (lyapunov : 'M[RF]_k -> 'M[RF]_k -> 'M[RF]_k).
Hypothesis lyapunovP : solves_lyapunov lyapunov.
(** On the elliptope the result is tangent to the matrices with unit rows, but horizontal only if the projection on their
    tangent space is (C77). *)
Theorem C112_elliptope (x y v : 'M[RF]_(n, k)) : on_elliptope x -> on_elliptope y -> el_horizontal x v ->
  rows_tangent y (el_transport lyapunov x y v) /\ el_transport lyapunov x x v = v /\
  (el_horizontal y (el_transport lyapunov x y v) <-> psd_horizontal y (el_project_rows y v)).
Proof.
move=> hx hy hv; have [tv pv] := hv; split.
  by case: (C77_projection_exact lyapunovP hy (horizontal_exists lyapunovP v hy)) => _ [].
split; last exact: el_horizontalE.
have rv : el_project_rows x v = v by case: (rows_projects v hx.1) => _ [E _]; apply: E.
have wv : psd_projection lyapunov x v = v by case: (psd_projects lyapunovP v hx.2) => _ [E _]; apply: E.
by have := el_projectionE lyapunovP v hx; rewrite /= rv wv subrr addr0.
Qed.
End Elliptope.
(** A tangent vector that is transported to one that is not *)
Theorem C112_elliptope_refuted : exists (x y v : 'M[RF]_2), on_elliptope x /\ on_elliptope y /\ el_horizontal x v /\
  forall lyapunov : 'M[RF]_2 -> 'M[RF]_2 -> 'M[RF]_2, solves_lyapunov lyapunov -> ~ el_horizontal y (el_transport lyapunov x y v).
Proof.
pose K : 'M[RF]_2 := \matrix_(i, j) (if i == j then 0 else 1).
pose y : 'M[RF]_2 := \matrix_(i, j) (if i == 0 then (if j == 0 then 1 else 0) else (if j == 0 then (3%:R / 5%:R : RR) else (4%:R / 5%:R : RR))).
have hx : on_elliptope (1%:M : 'M[RF]_2).
  split; last by rewrite /full_rank mxrank1.
  by move=> i; case: i => -[|[|]] // ?; rewrite !big_ord_recl big_ord0 !mxE /= ?expr0n ?expr1n /= ?addr0 ?add0r.
have hv : el_horizontal 1%:M K.
  split; first by move=> i; case: i => -[|[|]] // ?; rewrite !big_ord_recl big_ord0 !mxE /= ?mulr0 ?mul0r ?addr0.
  apply/Psd_Props.horizontalE; first by case: hx.
  by rewrite /hor adjmx1 mul1mx; apply/matrixP => i j; rewrite !mxE eq_sym; case: eqP => _; rewrite ?rmorph0 ?rmorph1.
have hy : on_elliptope y.
  split.
    case=> -[|[|]] // ?; rewrite !big_ord_recl big_ord0 !mxE /= ?expr0n ?expr1n /= ?addr0 //.
    by Rify; field.
  rewrite /full_rank; apply: mxrank_unit; rewrite unitmxE.
  rewrite (expand_det_row _ ord0) !big_ord_recl big_ord0 /cofactor !mxE /= !det_mx11 !mxE /= ?mulr1 ?mul1r ?mulr0 ?mul0r ?addr0 ?expr0 ?mul1r.
  by rewrite unitfE mulf_neq0 // ?invr_eq0 pnatr_eq0.
exists 1%:M, y, K; split=> //; split=> //; split=> // lyapunov lP.
case: (C112_elliptope lP hx hy hv) => _ [_ [H _]] /H; move/(Psd_Props.horizontalE _ hy.2); rewrite /hor => /matrixP/(_ ord0 (lift ord0 ord0)).
rewrite !mxE !big_ord_recl !big_ord0 !mxE /= !big_ord_recl !big_ord0 !mxE /=.
by move=> h; Rify_in h; lra.
Qed.
(** Lengths can be lost entirely: [e2] is tangent at [e1], and normal at [e2]. *)
Example C112_instance : exists x y v : 'M[RF]_(2, 1), on_sphere x /\ on_sphere y /\ sphere_tangent x v /\
  sp_inner_product x v v = 1 /\ sp_transport (@sp_projection 2 1) x y v = 0.
Proof.
pose e (i : 'I_2) : 'M[RF]_(2, 1) := delta_mx i ord0.
have ip i j : \sum_r \sum_c (e i r c * e j r c) = (i == j)%:R.
  rewrite (bigD1 i) //= big_ord1 !mxE !eqxx /= mul1r andbT big1 ?addr0 // => r ri.
  by rewrite big_ord1 !mxE (negbTE ri) mul0r.
have on i : on_sphere (e i) by apply/on_sphereE; have := ip i i; rewrite eqxx.
exists (e ord0), (e (lift ord0 ord0)), (e (lift ord0 ord0)); split=> //; split=> //; split; first exact: ip.
split; first by rewrite /sp_inner_product ip eqxx.
by rewrite /sp_transport /sp_projection /sp_inner_product ip eqxx scale1r subrr.
Qed.
