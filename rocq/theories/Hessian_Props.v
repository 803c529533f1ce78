(** Property C61 for src/pymanopt/manifolds/euclidean.py, and property C80 for the subspace spheres of
    src/pymanopt/manifolds/sphere.py *)
From mathcomp Require Import all_ssreflect all_algebra.
From Coq Require Import Ring Field.
From Verif Require Import MCRing Mat_Base Geometry_Spec Linalg_Spec Multi_Model Multi_Proofs Multi_Props Euclidean_Model.
From Verif Require Import Euclidean_Props Calculus Sphere_Model Sphere_Props.
Set Implicit Arguments.
Unset Strict Implicit.
Unset Printing Implicit Defensive.
Import GRing.Theory Num.Theory Order.TTheory.
Local Open Scope ring_scope.

Section Flat.
Variables (R : rcfType) (F : starField R) (k m n : nat).
Local Notation array := (stack F k m n).
Local Notation scale := (@sscale R F k m n).
Local Notation dot := (@sinner R F k m n).
(** [Euclidean] and [ComplexEuclidean] *)
Theorem C61_euclidean (x g h v : array) :
  (forall h' v', dot h v' = dot h' v ->
    eu_inner_product x (eu_hessian x g h v) v' = eu_inner_product x (eu_hessian x g h' v') v) /\
  (forall c e : R -> array, c 0 = x -> derives scale dot c v -> e 0 = g -> derives scale dot e h ->
    derives scale dot (fun t => eu_gradient (c t) (e t)) (eu_hessian x g h v)).
Proof. by split=> [h' v' E|//]; rewrite !eu_innerE. Qed.
End Flat.

(** a linear orthogonal projection commutes with derivatives *)
Lemma derives_projection (R : rcfType) (V : zmodType) (scale : R -> V -> V) (dot : V -> V -> R) (T : V -> Prop) (P : V -> V) c d :
  inner_product_on scale everywhere dot -> additive P -> (forall a u, P (scale a u) = scale a (P u)) ->
  (forall v, projects_to dot T v (P v)) ->
  derives scale dot c d -> derives scale dot (fun t => P (c t)) (P d).
Proof.
move=> I PB PZ PP D; apply: (derives_linear (L := P) (C := 1) _ _ _ _ D) => //; last exact: ler01.
move=> u; rewrite mul1r; have [TP [_ O]] := PP u.
have := normD I (P u) 0; rewrite /norm_of => _; apply: ler_wsqrtr.
have e : dot u (P u) = dot (P u) (P u) by apply/eqP; rewrite -subr_eq0 -(dotBl I) O.
have : 0 <= dot (u - P u) (u - P u) := dot_ge0 I _.
by rewrite (dotBr I) (O _ TP) subr0 (dotBl I) (dotC I (P u)) e subr_ge0.
Qed.

Section Matrices.
Variables (R : rcfType) (k n : nat).
Local Notation F := (real_star R).
Local Notation array := (stack F k n n).
Local Notation scale := (@sscale R F k n n).
Local Notation dot := (@sinner R F k n n).
Lemma multisym_linear : additive (@multisym R F k n) /\ (forall a u, multisym (scale a u) = scale a (multisym u)).
Proof.
split=> [u w|a u]; apply/ffunP => i; apply/matrixP => r c; rewrite !ffunE !mxE ?ffunE ?mxE.
  by rewrite -mulrBr; congr (_ * _); rewrite opprD addrACA.
by rewrite -mulrDr !mulrA [_ * a]mulrC.
Qed.
Lemma multiskew_linear : additive (@multiskew R F k n) /\ (forall a u, multiskew (scale a u) = scale a (multiskew u)).
Proof.
split=> [u w|a u]; apply/ffunP => i; apply/matrixP => r c; rewrite !ffunE !mxE ?ffunE ?mxE.
  by rewrite -mulrBr; congr (_ * _); rewrite !opprD !opprK addrACA.
by rewrite -mulrBr !mulrA [_ * a]mulrC.
Qed.
(** [Symmetric] and [SkewSymmetric]: the spaces are flat, so the derivative needs no projection *)
Theorem C61_symmetric (x g h v : array) :
  sym_array (sym_hessian x g h v) /\
  (forall h' v', sym_array v -> sym_array v' -> dot h v' = dot h' v ->
    eu_inner_product x (sym_hessian x g h v) v' = eu_inner_product x (sym_hessian x g h' v') v) /\
  (forall c e : R -> array, c 0 = x -> derives scale dot c v -> e 0 = g -> derives scale dot e h ->
    derives scale dot (fun t => sym_gradient (c t) (e t)) (sym_hessian x g h v)).
Proof.
have P u := proj1 (C56_symmetric x g h u).
have [_ [_ [_ [S B]]]] := C56_symmetric x g h v; split=> //; split.
  move=> h' v' Sv Sv' E; have [_ [_ [_ [_ B']]]] := C56_symmetric x g h' v'.
  by rewrite B // B'.
by move=> c e c0 Dc e0 De; apply: (derives_projection (@sinner_ips R F k n n) _ _ P De); case: multisym_linear.
Qed.
Theorem C61_skew_symmetric (x g h v : array) :
  skew_array (skew_hessian x g h v) /\
  (forall h' v', skew_array v -> skew_array v' -> dot h v' = dot h' v ->
    eu_inner_product x (skew_hessian x g h v) v' = eu_inner_product x (skew_hessian x g h' v') v) /\
  (forall c e : R -> array, c 0 = x -> derives scale dot c v -> e 0 = g -> derives scale dot e h ->
    derives scale dot (fun t => skew_gradient (c t) (e t)) (skew_hessian x g h v)).
Proof.
have P u := proj1 (C56_skew_symmetric x g h u).
have [_ [_ [_ [S B]]]] := C56_skew_symmetric x g h v; split=> //; split.
  move=> h' v' Sv Sv' E; have [_ [_ [_ [_ B']]]] := C56_skew_symmetric x g h' v'.
  by rewrite B // B'.
by move=> c e c0 Dc e0 De; apply: (derives_projection (@sinner_ips R F k n n) _ _ P De); case: multiskew_linear.
Qed.
End Matrices.

Theorem C80_sphere_subspace n (P : 'M[RF]_n) x draw : orthogonal_projector P -> ss_point P x ->
  (P *m draw != 0 -> ss_point P (ss_random_point P draw)) /\
  (ss_projection P x draw != 0 -> ss_tangent P x (ss_random_tangent_vector P x draw) /\ sp_norm x (ss_random_tangent_vector P x draw) = 1).
Proof. by move=> HP; apply: C62_random. Qed.
(** half the squared norm: its gradient field is the identity, along the line with direction [v] *)
Example C61_flat_instance (R : rcfType) k n (x v : stack (real_star R) k n n) :
  let c (t : R) := x + @sscale R (real_star R) k n n t v in
  c 0 = x /\ derives (@sscale R (real_star R) k n n) (@sinner R (real_star R) k n n) c v.
Proof.
split; last exact: (derives_line (@sinner_ips R (real_star R) k n n)).
by apply/ffunP => i; rewrite /sscale !ffunE rmorph0 scale0r addr0.
Qed.
