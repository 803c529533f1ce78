(** A one-dimensional Euclidean manifold, used for concrete runs.
    Models [Euclidean(1)], src/pymanopt/manifolds/euclidean.py lines 7-65, with an array of
    one entry represented by that entry. *)
From Coq Require Import ZArith List Bool SpecFloat Reals.
From Verif Require Import Num_Model Num_Instances LineSearch_Model Optimizer_Model.
Import ListNotations.

Definition E1 (N : NumOps) : Mfd N :=
  {| pt := N; tv := N; m_dim := 1; m_typical_dist := Ok (nsqrt N (n_of_Z N 1));
     m_inner := fun _ u v => nmul N u v;
     m_ip_py := true;
     m_norm := fun _ v => nsqrt N (nmul N v v);
     m_retr := fun x v => nadd N x v;
     m_exp := fun x v => nadd N x v;
     m_log := fun x y => nsub N y x;
     m_dist := fun x y => nsqrt N (nmul N (nsub N x y) (nsub N x y));
     m_transp := fun _ _ v => v;
     m_to_tangent := fun _ v => v;
     m_zero := fun _ => n_of_Z N 0;
     m_pair_mean := fun x y => nmul N (nadd N x y) (lit 1 2);
     t_neg := nneg N; t_add := nadd N; t_sub := nsub N; t_scale := nmul N |}.

(** binary64 with an arbitrary choice for the unused power function. *)
Definition F : NumOps := f64 (fun x _ => x).

(** Cost [x^2] with its derivatives and the identity preconditioner. *)
Definition square (N : NumOps) : OptProblem (E1 N) :=
  {| p_cost := fun x : pt (E1 N) => nmul N x x : N;
     p_grad := fun x : pt (E1 N) => nmul N (n_of_Z N 2) x : tv (E1 N);
     p_hess := fun (x : pt (E1 N)) (v : tv (E1 N)) => nmul N (n_of_Z N 2) v : tv (E1 N);
     p_prec := fun _ v => v |}.

(** The default stopping parameters (optimizer.py lines 41-50) with a given iteration budget, logging on. *)
Definition stop_default (N : NumOps) (maxit : Z) : stop_params N :=
  {| max_time := n_of_Z N 1000; max_iterations := maxit; min_gradient_norm := lit 1 1000000;
     min_step_size := lit 1 10000000000; max_cost_evaluations := 5000; verbosity := 0;
     log_verbosity := 1 |}.

(** A clock that never advances. *)
Definition still (N : NumOps) : nat -> N := fun _ => n_of_Z N 0.

(** To run a model function by evaluation: only a boolean is computed. *)
Definition ok_and {A} (r : res A) (test : A -> bool) : bool :=
  match r with Ok a => test a | Raise _ => false end.
Lemma ok_and_exists {A} (r : res A) (test : A -> bool) :
  ok_and r test = true -> exists a, r = Ok a /\ test a = true.
Proof. destruct r; simpl; [eauto|discriminate]. Qed.

Definition is_zero_division {A} (r : res A) : bool :=
  match r with Raise ZeroDivisionError => true | _ => false end.
Lemma raises_zero_division {A} (r : res A) : is_zero_division r = true -> r = Raise ZeroDivisionError.
Proof. destruct r as [|[]]; simpl; try discriminate; auto. Qed.

(** Equality test on binary64 data (bit patterns, all NaN equal). *)
Definition sf_eqb (a b : spec_float) : bool :=
  match a, b with
  | S754_nan, S754_nan => true
  | S754_zero s, S754_zero s' => Bool.eqb s s'
  | S754_infinity s, S754_infinity s' => Bool.eqb s s'
  | S754_finite s m e, S754_finite s' m' e' => Bool.eqb s s' && Pos.eqb m m' && Z.eqb e e'
  | _, _ => false
  end.
Lemma sf_eqb_eq a b : sf_eqb a b = true <-> a = b.
Proof.
  destruct a, b; simpl; split; try discriminate; auto; intros H;
    repeat match goal with H : (_ && _) = true |- _ => apply andb_prop in H as [? ?] end;
    repeat match goal with
    | H : Bool.eqb _ _ = true |- _ => apply Bool.eqb_prop in H
    | H : Pos.eqb _ _ = true |- _ => apply Pos.eqb_eq in H
    | H : Z.eqb _ _ = true |- _ => apply Z.eqb_eq in H end; subst; auto;
    injection H; intros; subst; rewrite ?Bool.eqb_reflx, ?Pos.eqb_refl, ?Z.eqb_refl; auto.
Qed.

(** The Euclidean plane, [Euclidean(2)], src/pymanopt/manifolds/euclidean.py lines 7-65. *)
Definition E2 (N : NumOps) : Mfd N :=
  let dot (u v : N * N) := nadd N (nmul N (fst u) (fst v)) (nmul N (snd u) (snd v)) in
  let op2 (f : N -> N -> N) (u v : N * N) := (f (fst u) (fst v), f (snd u) (snd v)) in
  {| pt := N * N; tv := N * N; m_dim := 2; m_typical_dist := Ok (nsqrt N (n_of_Z N 2));
     m_inner := fun _ u v => dot u v;
     m_ip_py := true;
     m_norm := fun _ v => nsqrt N (dot v v);
     m_retr := op2 (nadd N);
     m_exp := op2 (nadd N);
     m_log := fun x y => op2 (nsub N) y x;
     m_dist := fun x y => nsqrt N (dot (op2 (nsub N) x y) (op2 (nsub N) x y));
     m_transp := fun _ _ v => v;
     m_to_tangent := fun _ v => v;
     m_zero := fun _ => (n_of_Z N 0, n_of_Z N 0);
     m_pair_mean := fun x y => let s := op2 (nadd N) x y in (nmul N (fst s) (lit 1 2), nmul N (snd s) (lit 1 2));
     t_neg := fun v => (nneg N (fst v), nneg N (snd v));
     t_add := op2 (nadd N); t_sub := op2 (nsub N);
     t_scale := fun a v => (nmul N a (fst v), nmul N a (snd v)) |}.
