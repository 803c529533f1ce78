(** Laws of the order of a number system.  They hold for IEEE-754 binary64
    (including NaN and infinities) and for the real numbers; see
    [Num_Instances.v]. *)
From Coq Require Import ZArith.
From Verif Require Import Num_Model.

Record OrderLaws (N : NumOps) : Prop := {
  (** NaN compares false with everything *)
  nan_lt_l : forall x y : N, nisnan N x = true -> nlt N x y = false;
  nan_lt_r : forall x y : N, nisnan N y = true -> nlt N x y = false;
  nan_le_l : forall x y : N, nisnan N x = true -> nle N x y = false;
  nan_le_r : forall x y : N, nisnan N y = true -> nle N x y = false;
  (** other numbers are totally ordered *)
  le_lt_total : forall x y : N, nisnan N x = false -> nisnan N y = false ->
    nle N x y = negb (nlt N y x);
  le_refl : forall x : N, nisnan N x = false -> nle N x x = true;
  le_trans : forall x y z : N, nle N x y = true -> nle N y z = true -> nle N x z = true;
  lt_le : forall x y : N, nlt N x y = true -> nle N x y = true;
  lt_le_trans : forall x y z : N, nlt N x y = true -> nle N y z = true -> nlt N x z = true;
  le_lt_trans : forall x y z : N, nle N x y = true -> nlt N y z = true -> nlt N x z = true;
  (** integers are numbers *)
  of_Z_not_nan : nisnan N (n_of_Z N 0) = false;
  (** the only exception of a division is ZeroDivisionError *)
  div_exn : forall x y e, ndiv N x y = Raise e -> e = ZeroDivisionError;
  div_py_exn : forall x y e, ndiv_py N x y = Raise e -> e = ZeroDivisionError }.
