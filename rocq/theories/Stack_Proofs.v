(** Stacks of matrices, matrix by matrix *)
From mathcomp Require Import all_ssreflect all_algebra.
From Verif Require Import Mat_Base Geometry_Spec Calculus Components Multi_Model Multi_Proofs.
Set Implicit Arguments.
Unset Strict Implicit.
Unset Printing Implicit Defensive.
Import GRing.Theory Num.Theory Order.TTheory.
Local Open Scope ring_scope.

Section Stack.
Variables (R : rcfType) (F : starField R) (k m n : nat).
Local Notation array := (stack F k m n).
Local Notation scale := (@sscale R F k m n).
Local Notation dot := (@sinner R F k m n).
Local Notation J := (@sinner_ips R F k m n).
Local Notation I := (@inner_ips R F m n).
Definition comp_of i (x : array) : 'M[F]_(m, n) := x i.
Lemma comp_ofB i x y : comp_of i (x - y) = comp_of i x - comp_of i y. Proof. by rewrite /comp_of !ffunE. Qed.
Lemma comp_ofZ i a x : comp_of i (scale a x) = rscale a (comp_of i x). Proof. by rewrite /comp_of ffunE. Qed.
Lemma comp_ofdot x y : dot x y = \sum_i inner (comp_of i x) (comp_of i y). Proof. by []. Qed.
Lemma stackD i (x y : array) : (x + y) i = x i + y i. Proof. by rewrite ffunE. Qed.
Lemma stackN i (x : array) : (- x) i = - x i. Proof. by rewrite ffunE. Qed.
Lemma stackB i (x y : array) : (x - y) i = x i - y i. Proof. by rewrite !ffunE. Qed.
Lemma stack0 i : (0 : array) i = 0. Proof. by rewrite ffunE. Qed.
Lemma stackZ i a (x : array) : scale a x i = sf_real a *: x i. Proof. by rewrite ffunE. Qed.
Lemma stack_mul q (x : stack F k m q) (y : stack F k q n) i : smul x y i = x i *m y i. Proof. by rewrite ffunE. Qed.
Lemma stack_hconj (x : array) i : multihconj x i = (x i)^H. Proof. by rewrite /multihconj !ffunE. Qed.

Lemma stack_subspace (T : 'I_k -> 'M[F]_(m, n) -> Prop) : (forall i, real_subspace (@rscale R F m n) (T i)) ->
  real_subspace scale (fun v : array => forall i, T i (v i)).
Proof. exact: (subspace_comp comp_ofB comp_ofZ). Qed.
Lemma stack_first_order (T : array -> Prop) (x : array) (rx : array -> array) (C r : R) : T 0 -> 0 <= C -> 0 < r ->
  (forall (i : 'I_k) (v : array), T v -> fnorm (v i) <= r -> fnorm (rx v i - (x i + v i)) <= C * fnorm (v i) ^+ 2) ->
  first_order dot T x rx.
Proof. exact: (first_order_comp I J comp_ofB comp_ofdot). Qed.
Lemma stack_derives (c : R -> array) (d : array) : (forall i, derives (@rscale R F m n) (@inner R F m n) (fun t => c t i) (d i)) ->
  derives scale dot c d.
Proof. exact: (derives_comp I comp_ofB comp_ofZ comp_ofdot). Qed.
Lemma derives_stack (c : R -> array) (d : array) i : derives scale dot c d ->
  derives (@rscale R F m n) (@inner R F m n) (fun t => c t i) (d i).
Proof. exact: (comp_derives I comp_ofB comp_ofZ comp_ofdot). Qed.
Lemma stack_ip (T : array -> Prop) : inner_product_on scale T dot.
Proof.
split; first by move=> a b _ _; apply: (dotC J).
split; first by move=> a b c _ _ _; apply: (dotDl J).
split; first by move=> a b c _ _; apply: (dotZl J).
by move=> u _; apply: (dot_gt0 J).
Qed.
End Stack.
