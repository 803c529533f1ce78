(** The constructors of the manifolds: what they check, and the dimension and layout they report.

    Sizes are integers.  [int(a / b)] is modelled as division of exact integers rounded towards zero: Python
    divides in binary64, which is exact as long as the quotient is below 2^53.  Likewise [np.prod] does not wrap
    around.  Names (used only by [__str__]) are left out. *)
From Coq Require Import ZArith List Bool String.
From Verif Require Import Num_Model Problem_Model.
Import ListNotations.
Local Open Scope Z_scope.

(** [int(a / 2)] *)
Definition int_half (a : Z) : Z := Z.quot a 2.
Definition array_manifold (dimension : Z) : res (Z * layout) := manifold_init (DInt dimension) (LInt 1).

(** src/pymanopt/manifolds/euclidean.py 84-96, 115-127 *)
Definition prod_shape (shape : list Z) : Z := fold_right Z.mul 1 shape.
Definition euclidean_init (shape : list Z) : res (Z * layout) :=
  match shape with [] => Raise TypeError | _ => array_manifold (prod_shape shape) end.
Definition complex_euclidean_init (shape : list Z) : res (Z * layout) :=
  match shape with [] => Raise TypeError | _ => array_manifold (2 * prod_shape shape) end.
(** euclidean.py 152-162 and 194-204 *)
Definition symmetric_init (n k : Z) : res (Z * layout) :=
  if k <? 1 then Raise ValueError else array_manifold (int_half (k * n * (n + 1))).
Definition skew_symmetric_init (n k : Z) : res (Z * layout) :=
  if k <? 1 then Raise ValueError else array_manifold (int_half (k * n * (n - 1))).

(** src/pymanopt/manifolds/sphere.py 100-112 *)
Definition sphere_init (shape : list Z) : res (Z * layout) :=
  match shape with [] => Raise TypeError | _ => array_manifold (prod_shape shape - 1) end.
(** sphere.py 128-136, 163-173 and 192-202: [shape] is the shape of the given matrix and [rank] the value of
    [np.linalg.matrix_rank] on the projector. *)
Definition sphere_subspace_init (shape : list Z) (rank : Z) : res (Z * layout) :=
  match shape with
  | [rows; columns] => if rows <? columns then Raise ValueError else array_manifold (rank - 1)
  | _ => Raise ValueError
  end.

(** src/pymanopt/manifolds/complex_circle.py 22-28 *)
Definition complex_circle_init (n : Z) : res (Z * layout) := array_manifold n.
(** src/pymanopt/manifolds/oblique.py 20-25 *)
Definition oblique_init (m n : Z) : res (Z * layout) := array_manifold ((m - 1) * n).
(** src/pymanopt/manifolds/positive.py 37-59 *)
Definition positive_init (m n k : Z) : res (Z * layout) := array_manifold (k * m * n).

(** src/pymanopt/manifolds/stiefel.py 46-70; the only attributes that fit are [_retraction_qr] and
    [_retraction_polar] *)
Definition known_retraction (name : string) : bool := String.eqb name "qr" || String.eqb name "polar".
Definition stiefel_init (n p k : Z) (retraction : string) : res (Z * layout) :=
  if (n <? p) || (p <? 1) then Raise ValueError
  else if k <? 1 then Raise ValueError
  else let* m := array_manifold (k * (n * p - int_half (p * (p + 1)))) in
       if known_retraction retraction then Ok m else Raise ValueError.
(** src/pymanopt/manifolds/grassmann.py 54-71 and 158-175 *)
Definition grassmann_init (n p k : Z) : res (Z * layout) :=
  if (n <? p) || (p <? 1) then Raise ValueError
  else if k <? 1 then Raise ValueError
  else array_manifold (k * (n * p - p ^ 2)).
Definition complex_grassmann_init (n p k : Z) : res (Z * layout) :=
  if (n <? p) || (p <? 1) then Raise ValueError
  else if k <? 1 then Raise ValueError
  else array_manifold (2 * k * (n * p - p ^ 2)).

(** src/pymanopt/manifolds/group.py 22-28, 144-155 and 208-219.  [scipy.special.comb n 2] is zero below 2. *)
Definition comb2 (n : Z) : Z := if n <? 2 then 0 else int_half (n * (n - 1)).
Definition so_init (n k : Z) (retraction : string) : res (Z * layout) :=
  if k <? 1 then Raise ValueError
  else let* m := array_manifold (k * comb2 n) in
       if known_retraction retraction then Ok m else Raise ValueError.
Definition unitary_init (n k : Z) (retraction : string) : res (Z * layout) :=
  if k <? 1 then Raise ValueError
  else let* m := array_manifold (k * n ^ 2) in
       if known_retraction retraction then Ok m else Raise ValueError.

(** src/pymanopt/manifolds/hyperbolic.py 38-53 *)
Definition poincare_init (n k : Z) : res (Z * layout) :=
  if n <? 1 then Raise ValueError else if k <? 1 then Raise ValueError else array_manifold (k * n).

(** src/pymanopt/manifolds/positive_definite.py 143-155, 173-185 and 200-212 *)
Definition spd_init (n k : Z) : res (Z * layout) := array_manifold (int_half (k * n * (n + 1))).
Definition hpd_init (n k : Z) : res (Z * layout) := array_manifold (k * n * (n + 1)).
Definition shpd_init (n k : Z) : res (Z * layout) := array_manifold (k * n * (n + 1) - k).

(** src/pymanopt/manifolds/psd.py 111-114, 153-156 and 207-216 *)
Definition psd_init (n k : Z) : res (Z * layout) := array_manifold (Z.quot (2 * (k * n) - k * (k - 1)) 2).
Definition complex_psd_init (n k : Z) : res (Z * layout) := array_manifold (2 * k * n - k * k).
Definition elliptope_init (n k : Z) : res (Z * layout) :=
  array_manifold (Z.quot (2 * (n * (k - 1)) - k * (k - 1)) 2).

(** src/pymanopt/manifolds/fixed_rank.py 58-67 *)
Definition fixed_rank_init (m n k : Z) : res (Z * layout) :=
  let* _ := stiefel_init m k 1 "qr" in
  let* _ := stiefel_init n k 1 "qr" in
  manifold_init (DInt ((m + n - k) * k)) (LInt 3).
