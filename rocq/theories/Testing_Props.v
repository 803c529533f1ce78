(** C109: the converters of tools/testing.py. *)
From mathcomp Require Import all_ssreflect all_algebra.
From Coq Require Import Ring Field.
From Verif Require Import MCRing Rstruct Mat_Base Geometry_Spec Linalg_Spec Calculus Sphere_Model Sphere_Props Oblique_Model Oblique_Props
  Stiefel_Model Stiefel_Proofs Stiefel_Props Grassmann_Model Grassmann_Proofs Grassmann_Props Stack_Proofs Euclidean_Model Sphere_Proofs Testing_Model.
Set Implicit Arguments.
Unset Strict Implicit.
Unset Printing Implicit Defensive.
Import GRing.Theory Num.Theory Order.TTheory.
Local Open Scope ring_scope.

(** * The specification *)
Section Spec.
Variables (R : rcfType) (V : zmodType) (scale : R -> V -> V) (dot : V -> V -> R).
(** [P] is an orthogonal projection. *)
Definition orthogonal_projection (P : V -> V) : Prop :=
  (forall u v, P (u + v) = P u + P v) /\ (forall a u, P (scale a u) = scale a (P u)) /\
  (forall u, P (P u) = P u) /\ (forall u v, dot (P u) v = dot u (P v)).
(** What autograd's [jacobian] is for: [J x a] is the derivative at [x] of [P] in its first argument. *)
Definition is_jacobian (P : V -> V -> V) (J : V -> V -> V -> V) : Prop :=
  forall a c d, derives scale dot c d -> derives scale dot (fun t => P (c t) a) (J (c 0) a d).
Definition is_gradient_of (f : V -> R) (g : V -> V) : Prop :=
  forall c d, derives scale dot c d -> derives (@real_scale R) (@real_dot R) (fun t => f (c t)) (dot (g (c 0)) d).
End Spec.

(** * C109 *)
Section Generic.
Variables (R : rcfType) (V : zmodType) (scale : R -> V -> V) (dot : V -> V -> R).
Hypothesis I : inner_product_on scale everywhere dot.
Variables (jacobian : (V -> V -> V) -> V -> V -> V -> V) (P : V -> V -> V).
Local Notation D := (derives scale dot).
Add Ring R_ring : (mc_ring R).

(** The gradients are tangent and have the right inner products with tangent vectors. *)
Theorem C109_gradient (f : V -> R) (grad : (V -> R) -> V -> V) x g : orthogonal_projection scale dot (P x) ->
  (P x (euclidean_to_riemannian_gradient P x g) = euclidean_to_riemannian_gradient P x g) /\
  (forall v, P x v = v -> dot (euclidean_to_riemannian_gradient P x g) v = dot g v) /\
  (is_gradient_of scale dot f (grad f) -> forall c v, c 0 = x -> P x v = v -> D c v ->
     derives (@real_scale R) (@real_dot R) (fun t => f (c t)) (dot (riemannian_gradient grad f P x) v)).
Proof.
move=> [Pa [Ps [Pi Po]]]; split; first exact: Pi.
split; first by move=> v E; rewrite /euclidean_to_riemannian_gradient Po E.
by move=> G c v c0 E H; rewrite /riemannian_gradient Po E -c0; apply: G.
Qed.

(** Along a curve on the manifold, the Hessian is the projection of the derivative of the Riemannian gradient. *)
Theorem C109_hessian (on : V -> Prop) (c e : R -> V) v h :
  is_jacobian scale dot P (jacobian P) -> (forall x, on x -> orthogonal_projection scale dot (P x)) ->
  (forall t, on (c t)) -> D c v -> D e h ->
  exists2 w, D (fun t => P (c t) (e t)) w & euclidean_to_riemannian_hessian jacobian P (c 0) (e 0) h v = P (c 0) w.
Proof.
move=> Jac OP on_c Hc He; have [Pa [Ps [Pi Po]]] := OP _ (on_c 0).
exists (jacobian P (c 0) (e 0) v + P (c 0) h); last first.
  by rewrite /euclidean_to_riemannian_hessian !Pa Pi addrC.
have PB t u w : P (c t) (u - w) = P (c t) u - P (c t) w.
  have [a [_ _]] := OP _ (on_c t).
  by apply/eqP; rewrite eq_sym subr_eq -a subrK.
have contract t u : norm_of dot (P (c t) u) <= norm_of dot u.
  have [a [_ [i o]]] := OP _ (on_c t).
  have Z : dot (P (c t) u) (u - P (c t) u) = 0 by rewrite (dotBr I) -[X in _ - X]o i subrr.
  have E : dot u u = dot (P (c t) u) (P (c t) u) + dot (u - P (c t) u) (u - P (c t) u).
    have {1 2}-> : u = P (c t) u + (u - P (c t) u) by rewrite addrC subrK.
    move: (u - _) Z => r' Z; rewrite (dotDl I) !(dotDr I) Z addr0.
    by rewrite (dotC I r' (P _ _)) Z add0r.
  have g0 a := dot_ge0 I a.
  by apply: ler_wsqrtr; rewrite E ler_addl g0.
move=> eps e0; have e2 : 0 < eps / 3%:R by rewrite divr_gt0 ?ltr0n.
have [r r0 Hr] := Jac (e 0) c v Hc _ e2; have [s s0 Hs] := He _ e2.
have [K K0 [k k0 HK]] := derives_lipschitz I (Jac h c v Hc).
pose q := eps / 3%:R / (K + 1); have q0 : 0 < q by rewrite divr_gt0 // ltr_paddl ?ltr01.
exists (Num.min (Num.min r s) (Num.min k q)); first by rewrite !lt_minr r0 s0 k0 q0.
move=> t; rewrite !le_minr => /andP[/andP[tr ts] /andP[tk tq]].
have -> : P (c t) (e t) - P (c 0) (e 0) - scale t (jacobian P (c 0) (e 0) v + P (c 0) h) =
  (P (c t) (e 0) - P (c 0) (e 0) - scale t (jacobian P (c 0) (e 0) v)) + P (c t) (e t - e 0 - scale t h) + scale t (P (c t) h - P (c 0) h).
  have [_ [b _]] := OP _ (on_c t).
  by rewrite !PB b; vring I R.
apply: le_trans (normD3 I _ _ _) _.
have b1 := Hr t tr; have b2 := le_trans (contract t _) (Hs t ts).
have b3 : norm_of dot (scale t (P (c t) h - P (c 0) h)) <= eps / 3%:R * `|t|.
  rewrite (normZ I) mulrC ler_wpmul2r // (le_trans (HK t tk)) //.
  apply: le_trans (ler_wpmul2l K0 tq) _; rewrite /q mulrCA ler_pimulr ?(ltW e2) //.
  by rewrite ler_pdivr_mulr ?mul1r ?ler_addl ?ler01 // ltr_paddl ?ltr01.
have t0 : (3%:R : R) != 0 by rewrite pnatr_eq0.
apply: le_trans (ler_add (ler_add b1 b2) b3) _.
have -> : eps / 3%:R * `|t| + eps / 3%:R * `|t| + eps / 3%:R * `|t| = (eps / 3%:R * 3%:R) * `|t|; last by rewrite divfK.
by move: (eps / 3%:R) => a; mcring R.
Qed.

(** Where the derivative of the projected gradient along straight lines is known, the Hessian is its projection. *)
Lemma converter_line x g h v w : is_jacobian scale dot P (jacobian P) ->
  (forall y u u', P y (u + u') = P y u + P y u') -> (forall y a u, P y (scale a u) = scale a (P y u)) -> (forall u, P x (P x u) = P x u) ->
  D (fun t => P (x + scale t v) (g + scale t h)) w -> euclidean_to_riemannian_hessian jacobian P x g h v = P x w.
Proof.
move=> Jac Pa Ps Pi H; have L := derives_line I x v; have l0 : x + scale 0 v = x by rewrite (ipsZ0l I) addr0.
have id1 : derives (@real_scale R) (@real_dot R) (fun t : R => t) 1.
  by apply: derives_ext (derives_line (@real_ips R) 0 1) => t; rewrite /real_scale mulr1 add0r.
have A := Jac g _ _ L; have B := derives_scale I id1 (Jac h _ _ L).
have /= C := derives_add I A B; rewrite !l0 (ipsZ0l I) addr0 (ipsZ1 I) in C.
have -> : w = jacobian P x g v + P x h.
  apply: (derives_unique I H); apply: derives_ext C => t; by rewrite Pa Ps.
by rewrite /euclidean_to_riemannian_hessian !Pa Pi addrC.
Qed.
Lemma agrees x g h v hess : is_jacobian scale dot P (jacobian P) ->
  (forall y u u', P y (u + u') = P y u + P y u') -> (forall y a u, P y (scale a u) = scale a (P y u)) -> (forall u, P x (P x u) = P x u) ->
  (forall c e : R -> V, c 0 = x -> D c v -> e 0 = g -> D e h -> exists2 w, D (fun t => P (c t) (e t)) w & hess = P x w) ->
  euclidean_to_riemannian_hessian jacobian P x g h v = hess.
Proof.
move=> Jac Pa Ps Pi H.
have [||w Dw ->] := H (fun t => x + scale t v) (fun t => g + scale t h) _ (derives_line I x v) _ (derives_line I g h).
- by rewrite (ipsZ0l I) addr0.
- by rewrite (ipsZ0l I) addr0.
exact: converter_line.
Qed.
End Generic.

(** The conversions of the manifolds agree with it, at every point and in every tangent direction. *)
Section Arrays.
Variables (m n : nat).
Local Notation array := 'M[RF]_(m, n).
Local Notation scale := (@rscale RR RF m n).
Local Notation dot := (@inner RR RF m n).
Local Notation I := (@inner_ips RR RF m n).
Variable jacobian : (array -> array -> array) -> array -> array -> array -> array.
Theorem C109_sphere (x g h v : array) : is_jacobian scale dot (@sp_projection m n) (jacobian (@sp_projection m n)) ->
  on_sphere x -> sphere_tangent x v ->
  euclidean_to_riemannian_gradient (@sp_projection m n) x g = sp_gradient (@sp_projection m n) x g /\
  euclidean_to_riemannian_hessian jacobian (@sp_projection m n) x g h v = sp_hessian (@sp_projection m n) x g h v.
Proof.
move=> Jac X T; split=> //; have [_ [_ H]] := C61_sphere g h X T.
apply: (agrees I Jac) => // [y u u'|y a u|u].
- by rewrite !Sphere_Props.projE /uproj (dotDr I) (ipsZDl I) opprD addrACA.
- by rewrite !Sphere_Props.projE /uproj (dotZr I) (ipsZB I) (ipsZA I).
- have [[Tp _] _] := C57_projection u X; have [[_ [Q _]] _] := C57_projection (sp_projection x u) X; exact: Q.
Qed.
Theorem C109_oblique (x g h v : array) : is_jacobian scale dot (@ob_projection m n) (jacobian (@ob_projection m n)) ->
  unit_columns x -> columns_tangent x v ->
  euclidean_to_riemannian_gradient (@ob_projection m n) x g = ob_gradient x g /\
  euclidean_to_riemannian_hessian jacobian (@ob_projection m n) x g h v = ob_hessian x g h v.
Proof.
move=> Jac X T; split=> //; have [_ [_ H]] := C61_oblique g h X T.
apply: (agrees I Jac) => // [y u u'|y a u|u].
- apply: col_inj => j; rewrite (colD j (ob_projection y u) (ob_projection y u')) !col_projection colD !Sphere_Props.projE /uproj (dotDr (@inner_ips RR RF m 1)) (ipsZDl (@inner_ips RR RF m 1)) opprD addrACA //.
- apply: col_inj => j; rewrite (colZ j a (ob_projection y u)) !col_projection colZ !Sphere_Props.projE /uproj (dotZr (@inner_ips RR RF m 1)) (ipsZB (@inner_ips RR RF m 1)) (ipsZA (@inner_ips RR RF m 1)) //.
- apply: col_inj => j; rewrite !col_projection; have /unit_columnsE/(_ j) Xj := X.
  have [[Tp _] _] := C57_projection (col j u) Xj; have [[_ [Q _]] _] := C57_projection (sp_projection (col j x) (col j u)) Xj; exact: Q.
Qed.
End Arrays.

Section Stacks.
Variables (R : rcfType) (k n p : nat).
Local Notation F := (real_star R).
Local Notation array := (stack F k n p).
Local Notation scale := (@sscale R F k n p).
Local Notation dot := (@sinner R F k n p).
Local Notation J := (@sinner_ips R F k n p).
Variable jacobian : (array -> array -> array) -> array -> array -> array -> array.
Theorem C109_stiefel (x g h v : array) : is_jacobian scale dot (@st_projection R k n p) (jacobian (@st_projection R k n p)) ->
  on_stiefel x -> stiefel_tangent x v ->
  euclidean_to_riemannian_gradient (@st_projection R k n p) x g = st_gradient x g /\
  euclidean_to_riemannian_hessian jacobian (@st_projection R k n p) x g h v = st_hessian x g h v.
Proof.
move=> Jac X T; split=> //; have [_ [_ H]] := C61_stiefel g h X T.
apply: (agrees J Jac) => // [y u u'|y a u|u].
- by apply/ffunP => i; rewrite [RHS]ffunE !Stiefel_Props.projE [(u + u') i]ffunE /st_proj mulmxDr hsymD mulmxDr opprD addrACA.
- apply/ffunP => i; rewrite stackZ !Stiefel_Props.projE stackZ /st_proj scalerBr -[_ *m (sf_real a *: _)]scalemxAr hsymZ.
  by rewrite -[y i *m (_ *: _)]scalemxAr.
- have [[Tp _] _] := C66_projection u X; have [[_ [Q _]] _] := C66_projection (st_projection x u) X; exact: Q.
Qed.
Theorem C109_grassmann (x g h v : array) : is_jacobian scale dot (@gr_projection R F k n p) (jacobian (@gr_projection R F k n p)) ->
  on_grassmann x -> grassmann_horizontal x v ->
  euclidean_to_riemannian_gradient (@gr_projection R F k n p) x g = gr_gradient x g /\
  euclidean_to_riemannian_hessian jacobian (@gr_projection R F k n p) x g h v = gr_hessian x g h v.
Proof.
move=> Jac X T; split=> //; have [_ [_ H]] := C61_grassmann g h X T.
apply: (agrees J Jac) => // [y u u'|y a u|u].
- by apply/ffunP => i; rewrite [RHS]ffunE !gr_projE [(u + u') i]ffunE /gr_proj !mulmxDr opprD addrACA.
- apply/ffunP => i; rewrite stackZ !gr_projE stackZ /gr_proj scalerBr -[_ *m (sf_real a *: _)]scalemxAr.
  by rewrite -[y i *m (_ *: _)]scalemxAr.
- have [[Tp _] _] := C68_projection u X; have [[_ [Q _]] _] := C68_projection (gr_projection x u) X; exact: Q.
Qed.
End Stacks.

(** The hypotheses are met: the projection of the sphere has a Jacobian, and is an orthogonal projection; so has that of the Stiefel
    manifold. *)
Section Instance.
Variables (m n : nat).
Local Notation I := (@inner_ips RR RF m n).
Definition sphere_jacobian (x a d : 'M[RF]_(m, n)) : 'M[RF]_(m, n) := - (inner d a *: x + inner x a *: d).
Example C109_instance :
  is_jacobian (@rscale RR RF m n) (@inner RR RF m n) (@sp_projection m n) sphere_jacobian /\
  forall x : 'M[RF]_(m, n), on_sphere x -> orthogonal_projection (@rscale RR RF m n) (@inner RR RF m n) (sp_projection x).
Proof.
split=> [a c d H|x X].
  have C := derives_const I a; have := derives_sub I C (derives_scale I (derives_dot I H C) H).
  by rewrite (dot0r I) addr0 sub0r.
split; first by move=> u u'; rewrite !Sphere_Props.projE /uproj (dotDr I) (ipsZDl I) opprD addrACA.
split; first by move=> a u; rewrite !Sphere_Props.projE /uproj (dotZr I) (ipsZB I) (ipsZA I).
split.
  move=> u; have [[Tp _] _] := C57_projection u X; have [[_ [Q _]] _] := C57_projection (sp_projection x u) X; exact: Q.
by move=> u v; rewrite !Sphere_Props.projE /uproj (dotBl I) (dotBr I) (dotZl I) (dotZr I) mulrC (dotC I u x).
Qed.
End Instance.
Section Instance2.
Variables (R : rcfType) (k n p : nat).
Local Notation F := (real_star R).
Definition stiefel_jacobian (x a d : stack F k n p) : stack F k n p :=
  [ffun i => - (d i *m hsym ((x i)^H *m a i) + x i *m hsym ((d i)^H *m a i))].
Example C109_instance_stiefel : is_jacobian (@sscale R F k n p) (@sinner R F k n p) (@st_projection R k n p) stiefel_jacobian.
Proof.
move=> a c d H; apply: stack_derives => i; rewrite ffunE; have Hi := derives_stack i H.
have C := derives_const (@inner_ips R F n p) (a i).
have A := derives_mul (derives_adj Hi) C; rewrite mulmx0 addr0 in A.
have S : derives (@rscale R F p p) (@inner R F p p) (fun t => hsym ((c t i)^H *m a i)) (hsym ((d i)^H *m a i)).
  have := derives_scale (@inner_ips R F p p) (derives_const (@real_ips R) 2%:R^-1) (derives_add (@inner_ips R F p p) A (derives_adj A)).
  rewrite (ipsZ0l (@inner_ips R F p p)) add0r.
  by [].
have := derives_sub (@inner_ips R F n p) C (derives_mul Hi S); rewrite sub0r.
by apply: derives_ext => t; rewrite Stiefel_Props.projE.
Qed.
End Instance2.
