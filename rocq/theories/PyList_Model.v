(** Python list indexing. *)
From Coq Require Import ZArith List Bool.
From Verif Require Import Num_Model.
Import ListNotations.

(** The position an index denotes: negative indices count from the end. *)
Definition py_index {A} (l : list A) (i : Z) : option nat :=
  let n := Z.of_nat (length l) in
  let j := if (i <? 0)%Z then (i + n)%Z else i in
  if ((0 <=? j) && (j <? n))%Z then Some (Z.to_nat j) else None.

(** [l[i]] *)
Definition py_get {A} (l : list A) (i : Z) : res A :=
  match py_index l i with
  | Some k => match nth_error l k with Some a => Ok a | None => Raise IndexError end
  | None => Raise IndexError
  end.

Fixpoint set_nth {A} (l : list A) (k : nat) (a : A) : list A :=
  match l, k with
  | [], _ => []
  | _ :: t, O => a :: t
  | h :: t, S k' => h :: set_nth t k' a
  end.

(** [l[i] = a] *)
Definition py_set {A} (l : list A) (i : Z) (a : A) : res (list A) :=
  match py_index l i with
  | Some k => Ok (set_nth l k a)
  | None => Raise IndexError
  end.

(** [l[:-1]] *)
Definition py_init {A} (l : list A) : list A := removelast l.

(** [[l[i] for i in order]] *)
Fixpoint py_take {A} (l : list A) (order : list nat) : res (list A) :=
  match order with
  | [] => Ok []
  | i :: rest =>
      let* a := py_get l (Z.of_nat i) in
      let* t := py_take l rest in
      Ok (a :: t)
  end.
