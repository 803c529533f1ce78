(** Vocabulary for the line-search properties, independent of the model. *)
From Coq Require Import ZArith List Bool.
From Verif Require Import Num_Model.
Import ListNotations.

(** [j] contractions of an initial step. *)
Fixpoint contracted {A : Type} (contract : A -> A) (a : A) (j : nat) : A :=
  match j with O => a | S j => contract (contracted contract a j) end.

(** [J] is the first index satisfying [P], except that the search gives up at [m]. *)
Definition first_index_upto (P : nat -> Prop) (m J : nat) : Prop :=
  J <= m /\ (forall j, j < J -> ~ P j) /\ (P J \/ J = m).

Section S.
Context {N : NumOps} (M : Mfd N) (f : pt M -> N) (x : pt M) (d : tv M).

(** The point reached from [x] along [d] with step [a]. *)
Definition along (a : N) : pt M := m_retr M x (t_scale M a d).

(** The Armijo sufficient-decrease test fails at step [a]. *)
Definition armijo_fails (suff f0 df0 a : N) : Prop :=
  nlt N (nadd N f0 (nmul N (nmul N suff a) df0)) (f (along a)) = true.
End S.

(** The step lengths a searcher starts from. *)
Definition bt_initial_step {N : NumOps} (init optimism : N) (oldf0 : option N)
  (f0 df0 norm_d a0 : N) : Prop :=
  match oldf0 with
  | None => ndiv N init norm_d = Ok a0
  | Some o => exists q, ndiv N (nmul N (n_of_Z N 2) (nsub N f0 o)) df0 = Ok q /\
                        a0 = nmul N q optimism
  end.
Definition ad_initial_step {N : NumOps} (init : N) (oldalpha : option N)
  (norm_d a0 : N) : Prop :=
  match oldalpha with
  | None => ndiv N init norm_d = Ok a0
  | Some o => a0 = o
  end.
