(** Coq's [ring] and [field] for mathcomp's commutative rings and fields (inside a section, after
    [Add Ring]/[Add Field] for the ring at hand). *)
From mathcomp Require Import all_ssreflect all_algebra.
From Coq Require Import Ring Field.
Set Implicit Arguments.
Unset Strict Implicit.
Import GRing.Theory.
Local Open Scope ring_scope.

Definition cr_add (R : comRingType) (x y : R) : R := x + y.
Definition cr_mul (R : comRingType) (x y : R) : R := x * y.
Definition cr_opp (R : comRingType) (x : R) : R := - x.
Definition cr_sub (R : comRingType) (x y : R) : R := x - y.
Definition cr_0 (R : comRingType) : R := 0.
Definition cr_1 (R : comRingType) : R := 1.
Lemma mc_ring (R : comRingType) : ring_theory (cr_0 R) (cr_1 R) (@cr_add R) (@cr_mul R) (@cr_sub R) (@cr_opp R) (@eq R).
Proof.
split; rewrite /cr_0 /cr_1 /cr_add /cr_mul /cr_sub /cr_opp.
- exact: add0r.
- exact: addrC.
- exact: addrA.
- exact: mul1r.
- exact: mulrC.
- exact: mulrA.
- exact: mulrDl.
- by [].
- exact: subrr.
Qed.
Definition fd_inv (F : fieldType) (x : GRing.ComRing.sort F) : GRing.ComRing.sort F := (x : F)^-1.
Definition fd_div (F : fieldType) (x y : GRing.ComRing.sort F) : GRing.ComRing.sort F := (x : F) / y.
Lemma mc_field (F : fieldType) :
  field_theory (cr_0 F) (cr_1 F) (@cr_add F) (@cr_mul F) (@cr_sub F) (@cr_opp F) (@fd_div F) (@fd_inv F) (@eq (GRing.ComRing.sort F)).
Proof.
split; rewrite /cr_0 /cr_1 /cr_mul /fd_div /fd_inv.
- exact: mc_ring.
- by apply/eqP; apply: oner_neq0.
- by [].
- by move=> p /eqP p0; apply: mulVf.
Qed.

Ltac cr_norm R :=
  rewrite ?exprS ?expr0 ?mulrS ?mulr0n;
  repeat match goal with
  | |- context [@GRing.add ?V ?x (@GRing.opp ?W ?y)] => change (@GRing.add V x (@GRing.opp W y)) with (@cr_sub R x y)
  | |- context [@GRing.add ?V ?x ?y] => change (@GRing.add V x y) with (@cr_add R x y)
  | |- context [@GRing.mul ?V ?x ?y] => change (@GRing.mul V x y) with (@cr_mul R x y)
  | |- context [@GRing.opp ?V ?x] => change (@GRing.opp V x) with (@cr_opp R x)
  | |- context [GRing.zero ?V] => change (GRing.zero V) with (@cr_0 R)
  | |- context [GRing.one ?V] => change (GRing.one V) with (@cr_1 R)
  end.
Ltac cr_normF R :=
  rewrite ?exprS ?expr0 ?mulrS ?mulr0n;
  repeat match goal with
  | |- context [@GRing.mul ?V ?x (@GRing.inv ?W ?y)] => change (@GRing.mul V x (@GRing.inv W y)) with (@fd_div R x y)
  | |- context [@GRing.inv ?V ?x] => change (@GRing.inv V x) with (@fd_inv R x)
  end; cr_norm R.
(** [mcring R]: prove a ring identity in [R]. *)
Ltac cr_eq R := match goal with |- @eq ?T ?a ?b => change (@eq (GRing.ComRing.sort R) a b) end.
Ltac mcring R := cr_norm R; cr_eq R; ring.
(** [mcfield R]: prove a field identity; leaves the non-zero conditions in the form [x != 0]. *)
Ltac mcfield R := cr_normF R; cr_eq R; field; rewrite /cr_0 /cr_1 /cr_add /cr_mul /cr_sub /cr_opp /fd_inv /fd_div;
  repeat split; apply/eqP.
Section Test.
Variable F : fieldType.
Add Ring F_ring : (mc_ring F).
Add Field F_field : (mc_field F).
Goal forall x y : F, (x + y) ^+ 2 = x ^+ 2 + x * y *+ 2 + y ^+ 2.
Proof. move=> x y; mcring F. Qed.
Goal forall x y : F, x != 0 -> (x + y) / x = 1 + y / x.
Proof. move=> x y x0; mcfield F; done. Qed.
End Test.
