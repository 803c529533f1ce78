(** What the geometric properties say, independently of any manifold: orthogonal projection,
    Riemannian gradient, distance, retraction. *)
From mathcomp Require Import all_ssreflect all_algebra.
From Coq Require Import Ring Field.
From Verif Require Import MCRing Mat_Base.
Set Implicit Arguments.
Unset Strict Implicit.
Unset Printing Implicit Defensive.
Import GRing.Theory Num.Theory Order.TTheory.
Local Open Scope ring_scope.

Section Spec.
Variables (R : rcfType) (V : zmodType).
(** multiplication by a real number, ambient inner product, and its norm *)
Variables (scale : R -> V -> V) (dot : V -> V -> R).
Definition norm_of v := Num.sqrt (dot v v).

Definition real_subspace (T : V -> Prop) :=
  T 0 /\ (forall u v, T u -> T v -> T (u + v)) /\ (forall a v, T v -> T (scale a v)).

(** a real inner product on the set [T] *)
Definition inner_product_on (T : V -> Prop) (ip : V -> V -> R) :=
  (forall u v, T u -> T v -> ip u v = ip v u) /\
  (forall u v w, T u -> T v -> T w -> ip (u + v) w = ip u w + ip v w) /\
  (forall a u v, T u -> T v -> ip (scale a u) v = a * ip u v) /\
  (forall u, T u -> u != 0 -> 0 < ip u u).

(** [w] is the orthogonal projection of [v] on [T] *)
Definition projects_to (T : V -> Prop) (v w : V) :=
  T w /\ (T v -> w = v) /\ (forall t, T t -> dot (v - w) t = 0).

(** [w] is the point of [T] nearest to [v] *)
Definition nearest_in (T : V -> Prop) (v w : V) :=
  T w /\ forall t, T t -> norm_of (v - w) <= norm_of (v - t) ?= iff (t == w).

(** [r] is the Riemannian gradient of a function whose Euclidean gradient is [g]: the tangent vector
    that represents the differential in the metric *)
Definition represents_gradient (T : V -> Prop) (metric : V -> V -> R) (g r : V) :=
  T r /\ forall t, T t -> metric r t = dot g t.

(** [rx], a map from tangent vectors at [x] to points, is a retraction at [x]: it maps zero to [x] and
    its derivative at zero is the identity *)
Definition first_order (T : V -> Prop) (x : V) (rx : V -> V) :=
  rx 0 = x /\
  forall e : R, 0 < e -> exists2 d : R, 0 < d &
    forall v, T v -> norm_of v <= d -> norm_of (rx v - (x + v)) <= e * norm_of v.

(** distance functions *)
Definition metric_on (D : V -> Prop) (d : V -> V -> R) :=
  (forall x y, D x -> D y -> 0 <= d x y) /\
  (forall x y, D x -> D y -> (d x y = 0 <-> x = y)) /\
  (forall x y, D x -> D y -> d x y = d y x) /\
  (forall x y z, D x -> D y -> D z -> d x z <= d x y + d y z).
End Spec.
(** everything *)
Definition everywhere {V : Type} (v : V) : Prop := True.

(** ** Facts about any inner product *)
Section Facts.
Variables (R : rcfType) (V : zmodType).
Variables (scale : R -> V -> V) (dot : V -> V -> R).
Hypothesis I : inner_product_on scale everywhere dot.
Add Ring R_ring : (mc_ring R).
Local Notation norm := (norm_of dot).
Implicit Types u v w : V.

Lemma dotC u v : dot u v = dot v u. Proof. by case: I => H _; apply: H. Qed.
Lemma dotDl u v w : dot (u + v) w = dot u w + dot v w. Proof. by case: I => _ [H _]; apply: H. Qed.
Lemma dotZl a u v : dot (scale a u) v = a * dot u v. Proof. by case: I => _ [_ [H _]]; apply: H. Qed.
Lemma dot_gt0 u : u != 0 -> 0 < dot u u. Proof. by case: I => _ [_ [_ H]]; apply: H. Qed.
Lemma dotDr u v w : dot u (v + w) = dot u v + dot u w.
Proof. by rewrite dotC dotDl !(dotC _ u). Qed.
Lemma dotZr a u v : dot u (scale a v) = a * dot u v.
Proof. by rewrite dotC dotZl dotC. Qed.
Lemma dot0l u : dot 0 u = 0.
Proof. by apply: (addrI (dot 0 u)); rewrite -dotDl !addr0. Qed.
Lemma dot0r u : dot u 0 = 0. Proof. by rewrite dotC dot0l. Qed.
Lemma dotNl u v : dot (- u) v = - dot u v.
Proof. by apply: (addrI (dot u v)); rewrite -dotDl !subrr dot0l. Qed.
Lemma dotNr u v : dot u (- v) = - dot u v. Proof. by rewrite dotC dotNl dotC. Qed.
Lemma dotBl u v w : dot (u - v) w = dot u w - dot v w. Proof. by rewrite dotDl dotNl. Qed.
Lemma dotBr u v w : dot u (v - w) = dot u v - dot u w. Proof. by rewrite dotDr dotNr. Qed.
Lemma dot_ge0 u : 0 <= dot u u.
Proof. by have [->|/dot_gt0/ltW //] := eqVneq u 0; rewrite dot0l. Qed.
Lemma dot_eq0 u : (dot u u == 0) = (u == 0).
Proof. by have [->|/dot_gt0 H] := eqVneq u 0; [rewrite dot0l eqxx|rewrite gt_eqF]. Qed.
Lemma norm_ge0 u : 0 <= norm u. Proof. exact: sqrtr_ge0. Qed.
Lemma norm_sqr u : norm u ^+ 2 = dot u u. Proof. by rewrite sqr_sqrtr ?dot_ge0. Qed.
Lemma norm_eq0 u : (norm u == 0) = (u == 0). Proof. by rewrite -sqrf_eq0 norm_sqr dot_eq0. Qed.
Lemma norm0 : norm 0 = 0. Proof. by apply/eqP; rewrite norm_eq0. Qed.
Lemma normN u : norm (- u) = norm u. Proof. by rewrite /norm_of dotNl dotNr opprK. Qed.
Lemma normBC u v : norm (u - v) = norm (v - u). Proof. by rewrite -normN opprB. Qed.
Lemma normZ a u : norm (scale a u) = `|a| * norm u.
Proof. by rewrite /norm_of dotZl dotZr mulrA sqrtrM ?sqr_ge0 // -expr2 sqrtr_sqr. Qed.
Lemma cauchy_schwarz_sqr u v : dot u v ^+ 2 <= dot u u * dot v v.
Proof.
have [->|/dot_gt0 b0] := eqVneq v 0; first by rewrite dot0r expr0n /= dot0r mulr0.
set a := dot u u; set b := dot v v; set c := dot u v.
have := dot_ge0 (scale b u - scale c v).
rewrite dotBl !dotBr !dotZl !dotZr -/a -/b -/c (dotC v u) -/c.
have -> : b * (b * a) - b * (c * c) - (c * (b * c) - c * (c * b)) = b * (a * b - c ^+ 2) by mcring R.
by rewrite pmulr_rge0 // subr_ge0.
Qed.
Lemma cauchy_schwarz u v : `|dot u v| <= norm u * norm v.
Proof.
rewrite -(@ler_sqr _ _ (_ * _)) ?nnegrE ?mulr_ge0 ?norm_ge0 //.
by rewrite real_normK ?num_real // exprMn !norm_sqr cauchy_schwarz_sqr.
Qed.
Lemma normD u v : norm (u + v) <= norm u + norm v.
Proof.
rewrite -(@ler_sqr _ _ (_ + _)) ?nnegrE ?addr_ge0 ?norm_ge0 //.
rewrite sqrrD !norm_sqr dotDl !dotDr (dotC v u) -addrA -addrA ler_add2l.
rewrite addrA ler_add2r -mulr2n ler_muln2r /=.
exact: le_trans (ler_norm _) (cauchy_schwarz u v).
Qed.
Lemma norm_dist_metric : metric_on everywhere (fun x y => norm (x - y)).
Proof.
split; first by move=> x y _ _; apply: norm_ge0.
split.
  move=> x y _ _; split; last by move=> ->; rewrite subrr norm0.
  by move/eqP; rewrite norm_eq0 subr_eq0 => /eqP.
split; first by move=> x y _ _; apply: normBC.
move=> x y z _ _ _; have -> : x - z = (x - y) + (y - z) by rewrite addrA subrK.
exact: normD.
Qed.
(** Orthogonal projection is unique and nearest. *)
Lemma projects_to_nearest (T : V -> Prop) v w : real_subspace scale T -> (forall u, T u -> T (- u)) ->
  projects_to dot T v w -> nearest_in dot T v w.
Proof.
move=> [T0 [TD TZ]] TN [Tw [_ O]]; split=> // t Tt.
have E : dot (v - t) (v - t) = dot (v - w) (v - w) + dot (w - t) (w - t).
  have -> : v - t = (v - w) + (w - t) by rewrite addrA subrK.
  rewrite dotDl (dotDr (v - w) (v - w)) (dotDr (w - t) (v - w)) (dotC (w - t) (v - w)) (O (w - t)) ?addr0 ?add0r //.
  by apply: TD => //; apply: TN.
have [tw|tw] := eqVneq t w; first by split; rewrite tw // eqxx.
have lt0 : 0 < dot (w - t) (w - t) by apply: dot_gt0; rewrite subr_eq0 eq_sym.
split; last first.
  apply/eqP => H; move: (congr1 (fun z => z ^+ 2) H); rewrite !norm_sqr E => /eqP.
  by rewrite eq_sym -subr_eq0 addrC addKr gt_eqF.
by rewrite /norm_of ler_sqrt ?E ?ler_addl ?ltW // ltr_spaddr // dot_ge0.
Qed.
Lemma projects_to_unique (T : V -> Prop) v w w' : (forall u v, T u -> T v -> T (u - v)) ->
  projects_to dot T v w -> projects_to dot T v w' -> w = w'.
Proof.
move=> TB [Tw [_ O]] [Tw' [_ O']]; apply/eqP; rewrite -subr_eq0 -dot_eq0.
have Td := TB _ _ Tw Tw'.
have -> : dot (w - w') (w - w') = dot (v - w') (w - w') - dot (v - w) (w - w').
  by rewrite -dotBl; congr (dot _ _); rewrite opprB [RHS]addrC addrA subrK.
by rewrite O // O' // subrr.
Qed.
(** For a submanifold with the ambient metric the orthogonal projection of the Euclidean gradient is the
    Riemannian gradient. *)
Lemma projection_represents T g r : projects_to dot T g r -> represents_gradient dot T dot g r.
Proof. by move=> [Tr [_ O]]; split=> // t Tt; apply/eqP; rewrite eq_sym -subr_eq0 -dotBl O. Qed.
End Facts.

(** A Riemannian gradient is determined by the differential it represents. *)
Lemma represents_gradient_unique (R : rcfType) (V : zmodType) scale (dot ip : V -> V -> R) (T : V -> Prop) g r r' :
  inner_product_on scale T ip -> (forall u v, T u -> T v -> T (u - v)) ->
  represents_gradient dot T ip g r -> represents_gradient dot T ip g r' -> r = r'.
Proof.
move=> [_ [D [_ P]]] TB [Tr H] [Tr' H']; apply/eqP/contraT => N.
have Td := TB _ _ Tr Tr'.
have : ip ((r - r') + r') (r - r') = ip (r - r') (r - r') + ip r' (r - r') by apply: D.
rewrite subrK H // H' // => /eqP; rewrite eq_sym -subr_eq0 addrK => /eqP E.
by have := P _ Td; rewrite subr_eq0 N E ltxx => /(_ isT).
Qed.

(** Matrices and stacks of matrices with the sum of the (real parts of the conjugate) products of the
    entries are such spaces. *)
Section Instances.
Variables (R : rcfType) (F : starField R).
Definition rscale m n (a : R) (A : 'M[F]_(m, n)) : 'M[F]_(m, n) := sf_real a *: A.
Lemma inner_ips m n : inner_product_on (@rscale m n) everywhere (@inner R F m n).
Proof.
split; first by move=> *; apply: innerC.
split; first by move=> *; apply: innerDl.
split; first by move=> *; apply: innerZl.
by move=> u _; apply: inner_gt0.
Qed.
Lemma sinner_ips k m n : inner_product_on (@sscale R F k m n) everywhere (@sinner R F k m n).
Proof.
split; first by move=> *; apply: sinnerC.
split; first by move=> *; apply: sinnerDl.
split; first by move=> *; apply: sinnerZl.
move=> u _ u0; rewrite lt_def sinner_ge0 andbT; apply: contra u0 => /eqP H.
by apply/eqP; apply: sinner_eq0.
Qed.
Lemma norm_of_inner m n (A : 'M[F]_(m, n)) : norm_of (@inner R F m n) A = fnorm A.
Proof. by []. Qed.
Lemma norm_of_sinner k m n (A : stack F k m n) : norm_of (@sinner R F k m n) A = snorm A.
Proof. by []. Qed.
(** Slice-wise projection of a stack. *)
Lemma projects_to_stack k m n (T : 'I_k -> 'M[F]_(m, n) -> Prop) (v w : stack F k m n) :
  (forall i, projects_to (@inner R F m n) (T i) (v i) (w i)) ->
  projects_to (@sinner R F k m n) (fun u => forall i, T i (u i)) v w.
Proof.
move=> H; split; first by move=> i; case: (H i).
split; first by move=> Tv; apply/ffunP => i; case: (H i) => _ [E _]; apply: E.
move=> t Tt; rewrite /sinner big1 // => i _; case: (H i) => _ [_ O].
by rewrite !ffunE O.
Qed.
Lemma represents_gradient_stack k m n (T : 'I_k -> 'M[F]_(m, n) -> Prop) (ip : 'I_k -> _) (g r : stack F k m n) :
  (forall i, represents_gradient (@inner R F m n) (T i) (ip i) (g i) (r i)) ->
  represents_gradient (@sinner R F k m n) (fun u => forall i, T i (u i))
    (fun u v : stack F k m n => \sum_i ip i (u i) (v i)) g r.
Proof.
move=> H; split; first by move=> i; case: (H i).
by move=> t Tt; apply: eq_bigr => i _; case: (H i) => _; apply.
Qed.
End Instances.
Arguments rscale {R F m n} a A.
