(** Model of src/pymanopt/tools/testing.py, for arrays with entries in exact arithmetic.

    [V] are the arrays of one shape.  [grad] and [jacobian] of autograd are arguments: [jacobian projector point a] is an array with
    the indices of the result followed by those of [point]; contracting the latter with a vector (lines 49-53) applies it as a
    linear map, and it is represented by that map. *)
From mathcomp Require Import all_ssreflect all_algebra.
Set Implicit Arguments.
Unset Strict Implicit.
Unset Printing Implicit Defensive.
Local Open Scope ring_scope.

Section Testing.
Variables (V : zmodType) (cost : Type).
(** lines 14-20 *)
Definition riemannian_gradient (grad : cost -> V -> V) (f : cost) (projector : V -> V -> V) : V -> V :=
  fun point => projector point (grad f point).
(** lines 23-29 *)
Definition euclidean_to_riemannian_gradient (projector : V -> V -> V) : V -> V -> V :=
  fun point euclidean_gradient => projector point euclidean_gradient.
(** lines 32-58 *)
Definition euclidean_to_riemannian_hessian (jacobian : (V -> V -> V) -> V -> V -> V -> V) (projector : V -> V -> V) : V -> V -> V -> V -> V :=
  let jacobian_projector := jacobian projector in
  fun point euclidean_gradient euclidean_hessian tangent_vector =>
    projector point (euclidean_hessian + jacobian_projector point euclidean_gradient tangent_vector).
End Testing.
