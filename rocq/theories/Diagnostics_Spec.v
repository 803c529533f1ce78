(** Vocabulary for the checks of derivatives: lines through points, what [np.polyfit] promises. *)
From Coq Require Import Reals List Arith.
Import ListNotations.
Local Open Scope R_scope.

(** the sum of the squared distances of the points [(x_i, y_i)] from the line of slope [fst p] and intercept [snd p] *)
Fixpoint squared_error (p : R * R) (x y : list R) : R :=
  match x, y with
  | a :: x, b :: y => (fst p * a + snd p - b) ^ 2 + squared_error p x y
  | _, _ => 0
  end.

(** entries [k], ..., [k + w] *)
Definition piece (k w : nat) (x : list R) : list R := map (fun i => nth i x 0) (seq k (w + 1)).

(** two entries differ *)
Definition not_constant (x : list R) : Prop := exists a b, In a x /\ In b x /\ a <> b.

(** The documentation of [np.polyfit] and [np.linalg.lstsq] for a first degree polynomial: the line of least squared error
    and, for more than two points that do not all have the same abscissa, the squared error itself in an array of one
    entry; for at most two points that array is empty. *)
Definition polyfit_ok (polyfit : list R -> list R -> (R * R) * list R) : Prop :=
  forall x y, length x = length y ->
    ((2 < length x)%nat -> not_constant x ->
       let p := fst (polyfit x y) in
       snd (polyfit x y) = [squared_error p x y] /\ forall q, squared_error p x y <= squared_error q x y) /\
    ((length x <= 2)%nat -> snd (polyfit x y) = []).
