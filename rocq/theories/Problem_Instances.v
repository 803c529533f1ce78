(** Concrete arrays, manifolds and functions that the properties of problems and products are tried on. *)
From Coq Require Import ZArith List Bool Reals Lra.
From Verif Require Import Num_Model Num_Instances Problem_Model Product_Model.
Import ListNotations.
Open Scope R_scope.

(** Complex numbers as zero-dimensional arrays. *)
Definition CR := (R * R)%type.
Definition cmul (x y : CR) : CR := (fst x * fst y - snd x * snd y, fst x * snd y + snd x * fst y).
Definition cconj (x : CR) : CR := (fst x, - snd x).
Definition C0d : Arrays Rnum :=
  mkArrays Rnum CR (fun _ => None) cconj (fun x => (- fst x, - snd x))
    (fun x y => Ok (fst x + fst y, snd x + snd y)) (fun x y => Ok (fst x - fst y, snd x - snd y))
    (fun s x => (s * fst x, s * snd x)) (fun x s => (fst x / s, snd x / s)).

Definition A (x y : R) : val C0d := Arr ((x, y) : C0d).

(** The unitary group U(1) as src/pymanopt/manifolds/group.py represents it: points
    are unit complex numbers, tangent vectors elements of the Lie algebra, and
    the embedding multiplies by the point (line 53).  Only some methods. *)
Definition u1_call (m : meth) (args : list (val C0d)) : res (val C0d) :=
  match m, args with
  | MEmbedding, [Arr x; Arr v] => Ok (Arr (cmul x v : C0d))
  | MGradient, [Arr x; Arr g] => Ok (Arr (cmul (cconj x) g : C0d))
  | MInner, [Arr x; Arr a; Arr b] => Ok (Num (fst (cmul (cconj a) b) : Rnum))
  | MRandomPoint, [] => Ok (A 1 0)
  | MRandomTangent, [_] => Ok (A 0 1)
  | MDist, [Arr x; Arr y] =>
      Ok (Num (Rabs (fst (x : CR) - fst (y : CR)) + Rabs (snd (x : CR) - snd (y : CR)) : Rnum))
  | MRetraction, [Arr x; Arr v] => Ok (Arr (x : C0d))
  | MZero, [_] => Ok (A 0 0)
  | _, _ => Raise NotImplementedError
  end.
Definition u1 : manifold C0d := mkManifold false 1 (Flat 1) (Ok (1 : Rnum)) u1_call.

(** A manifold whose points are three arrays. *)
Definition triple_call (m : meth) (args : list (val C0d)) : res (val C0d) :=
  match m, args with
  | MEmbedding, [_; v] => Ok v
  | MGradient, [_; g] => Ok g
  | _, _ => Raise NotImplementedError
  end.
Definition triple : manifold C0d := mkManifold false 3 (Flat 3) (Ok (1 : Rnum)) triple_call.

(** The product of the two. *)
Definition mixed : manifold C0d :=
  mkManifold true 4 (Groups [1; 3]%Z) (product_typical_dist [u1; triple]) (product_call [u1; triple]).
Lemma mixed_init : product_init [u1; triple] = Ok mixed.
Proof. reflexivity. Qed.

Definition mixed_point : val C0d :=
  Seq CList [A 0 1; Seq CTuple [A 1 0; A 2 0; A 3 0]].

(** A function that returns its arguments, as a list; one that returns the second half of them; one
    that returns a number. *)
Definition echo : ufun C0d := fun args => Ok (Seq CList args).
Definition echo_vectors : ufun C0d := fun args =>
  Ok (Seq CTuple (skipn (Nat.div2 (length args)) args)).
Definition one_value : ufun C0d := fun _ => Ok (Num (1 : Rnum)).

Definition np_func (f : ufun C0d) (m : manifold C0d) : func C0d :=
  mkFunc f (numpy_backend C0d) f (num_values (mf_layout m)).

(** A differentiation library for one-valued functions: all derivatives are 1. *)
Definition ones (n : Z) : list (val C0d) := repeat (A 1 0) (Z.to_nat n).
Definition ad_ones : Autodiff C0d :=
  mkAutodiff _ C0d (fun _ n _ => Ok (ones n)) (fun _ n _ _ => Ok (ones n)).
