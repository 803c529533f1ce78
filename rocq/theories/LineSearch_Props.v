(** Properties C01-C05: the line searches. *)
From Coq Require Import ZArith List Bool SpecFloat Reals.
From Verif Require Import Num_Model Num_Spec Num_Instances LineSearch_Model LineSearch_Spec
  LineSearch_Proofs Euclid1.
Import ListNotations.

(** ** C01 *)
(** Whatever the numbers, manifold, cost and searcher history are: the searcher stays
    (with step length 0) or returns a point whose cost is not greater than the given one. *)
Theorem C01_backtracking_never_worse : forall (N : NumOps) (M : Mfd N) p oldf0 (f : pt M -> N)
  x d f0 df0 st s y calls,
  bt_search M p oldf0 f x d f0 df0 = Ok (st, (s, y), calls) ->
  (y = x /\ s = nmul N (n_of_Z N 0) (m_norm M x d)) \/ nlt N f0 (f y) = false.
Proof. exact (@bt_no_worse). Qed.
Print Assumptions C01_backtracking_never_worse.
Theorem C01_adaptive_never_worse : forall (N : NumOps) (M : Mfd N) p oldalpha (f : pt M -> N)
  x d f0 df0 st s y calls,
  ad_search M p oldalpha f x d f0 df0 = Ok (st, (s, y), calls) ->
  (y = x /\ s = nmul N (n_of_Z N 0) (m_norm M x d)) \/ nlt N f0 (f y) = false.
Proof. exact (@ad_no_worse). Qed.
Print Assumptions C01_adaptive_never_worse.
(** Minimising x^2 from 1.5 along -3: the step is taken, to 0.5. *)
Example C01_instance : exists st s,
  bt_search (E1 F) bt_default None (p_cost (square F)) (lit 3 2) (nneg F (n_of_Z F 3)) (lit 9 4) (nneg F (n_of_Z F 9))
  = Ok (st, (s, lit 1 2), [lit 1 2]).
Proof. do 2 eexists. vm_compute. reflexivity. Qed.

(** ** C02 *)
Theorem C02_backtracking_first_armijo_step : forall (N : NumOps) (M : Mfd N) p oldf0 (f : pt M -> N) x d f0 df0 a0,
  bt_initial_step (bt_init p) (bt_optimism p) oldf0 f0 df0 (m_norm M x d) a0 ->
  let alpha := contracted (nmul N (bt_contraction p)) a0 in
  exists J,
    first_index_upto (fun j => ~ armijo_fails M f x d (bt_suff p) f0 df0 (alpha j))
      (Z.to_nat (bt_maxit p)) J /\
    bt_search M p oldf0 f x d f0 df0 =
      Ok (Some f0,
          (if nlt N f0 (f (along M x d (alpha J)))
           then (nmul N (n_of_Z N 0) (m_norm M x d), x)
           else (nmul N (alpha J) (m_norm M x d), along M x d (alpha J))),
          map (fun j => along M x d (alpha j)) (seq 0 (S J))).
Proof. exact (@bt_search_spec). Qed.
Print Assumptions C02_backtracking_first_armijo_step.
Theorem C02_backtracking_evaluations : forall (N : NumOps) (M : Mfd N) p oldf0 (f : pt M -> N) x d f0 df0 st sy calls,
  bt_search M p oldf0 f x d f0 df0 = Ok (st, sy, calls) ->
  (1 <= Z.of_nat (length calls) <= Z.max (bt_maxit p) 0 + 1)%Z.
Proof. exact (@bt_eval_bound). Qed.
Print Assumptions C02_backtracking_evaluations.
(** Two contractions: steps 1, 1/2, 1/4 from x = 1/4 along -1 (norm 1). *)
Example C02_instance : exists st s,
  bt_initial_step (bt_init (N:=F) bt_default) (bt_optimism bt_default) None (lit 1 16) (nneg F (lit 1 2))
    (m_norm (E1 F) (lit 1 4) (nneg F (n_of_Z F 1))) (n_of_Z F 1) /\
  bt_search (E1 F) bt_default None (p_cost (square F)) (lit 1 4) (nneg F (n_of_Z F 1)) (lit 1 16) (nneg F (lit 1 2))
  = Ok (st, (s, n_of_Z F 0), [nneg F (lit 3 4); nneg F (lit 1 4); n_of_Z F 0]).
Proof. do 2 eexists. split; vm_compute; reflexivity. Qed.

(** ** C03 *)
Theorem C03_adaptive_first_armijo_step : forall (N : NumOps) (M : Mfd N) p oldalpha (f : pt M -> N) x d f0 df0 a0,
  ad_initial_step (ad_init p) oldalpha (m_norm M x d) a0 ->
  let alpha := contracted (fun a => nmul N a (ad_contraction p)) a0 in
  exists J,
    first_index_upto (fun j => ~ armijo_fails M f x d (ad_suff p) f0 df0 (alpha j))
      (Z.to_nat (ad_maxit p)) J /\
    ad_search M p oldalpha f x d f0 df0 =
      let final := if nlt N f0 (f (along M x d (alpha J))) then n_of_Z N 0 else alpha J in
      Ok (Some (if Nat.eqb (S J) 2 then final else nmul N (n_of_Z N 2) final),
          (nmul N final (m_norm M x d),
           if nlt N f0 (f (along M x d (alpha J))) then x else along M x d (alpha J)),
          map (fun j => along M x d (alpha j)) (seq 0 (S J))).
Proof. exact (@ad_search_spec). Qed.
Print Assumptions C03_adaptive_first_armijo_step.
Theorem C03_adaptive_evaluations : forall (N : NumOps) (M : Mfd N) p oldalpha (f : pt M -> N) x d f0 df0 st sy calls,
  ad_search M p oldalpha f x d f0 df0 = Ok (st, sy, calls) ->
  (1 <= Z.of_nat (length calls) <= Z.max (ad_maxit p) 0 + 1)%Z.
Proof. exact (@ad_eval_bound). Qed.
Print Assumptions C03_adaptive_evaluations.
(** One evaluation: the accepted step 1/3 is doubled. Two evaluations: it is kept. *)
Example C03_instance :
  (exists s, ad_search (E1 F) ad_default None (p_cost (square F)) (lit 3 2) (nneg F (n_of_Z F 3)) (lit 9 4) (nneg F (n_of_Z F 9))
     = Ok (Some (lit 2 3), (s, lit 1 2), [lit 1 2])) /\
  (exists s, ad_search (E1 F) ad_default None (p_cost (square F)) (lit 1 2) (nneg F (n_of_Z F 1)) (lit 1 4) (nneg F (n_of_Z F 1))
     = Ok (Some (lit 1 2), (s, n_of_Z F 0), [nneg F (lit 1 2); n_of_Z F 0])).
Proof. split; eexists; vm_compute; reflexivity. Qed.

(** ** C04 (the code violates the property) *)
(** In binary64 whenever the costs tried before were too high and the next tried
    point has cost NaN, the searcher moves to that point. *)
Theorem C04_nan_point_is_accepted : forall powf (M : Mfd (f64 powf)) p oldf0 (f : pt M -> f64 powf) x d f0 df0 a0 J,
  bt_initial_step (bt_init p) (bt_optimism p) oldf0 f0 df0 (m_norm M x d) a0 ->
  let alpha := contracted (nmul (f64 powf) (bt_contraction p)) a0 in
  nisnan (f64 powf) (f (along M x d (alpha J))) = true -> J <= Z.to_nat (bt_maxit p) ->
  (forall j, j < J -> armijo_fails M f x d (bt_suff p) f0 df0 (alpha j)) ->
  exists st s calls, bt_search M p oldf0 f x d f0 df0 = Ok (st, (s, along M x d (alpha J)), calls).
Proof. exact (fun powf M => bt_nan M (f64_laws powf)). Qed.
Print Assumptions C04_nan_point_is_accepted.
(** cost sqrt(x) + 1, which is NaN for negative x, from x = 1/4 with slope -1:
    the search leaves a point with cost 3/2 for a point with cost NaN. *)
Theorem C04_refuted : exists (f : F -> F) (x d f0 df0 s y : F) st calls,
  f0 = f x /\ nisnan F (f x) = false /\
  bt_search (E1 F) bt_default None f x d f0 df0 = Ok (st, (s, y), calls) /\
  nisnan F (f y) = true /\ y <> x.
Proof.
  exists (fun x => nadd F (nsqrt F x) (n_of_Z F 1)), (lit 1 4), (nneg F (n_of_Z F 1)),
    (lit 3 2), (nneg F (n_of_Z F 1)).
  do 4 eexists.
  split; [vm_compute; reflexivity|split; [vm_compute; reflexivity|split; [vm_compute; reflexivity|split;
    [vm_compute; reflexivity|vm_compute; discriminate]]]].
Qed.
Print Assumptions C04_refuted.

(** ** C05 (the code violates the property) *)
(** In exact arithmetic an adaptive searcher whose remembered step is 0 tries only
    the null step, in every later call, and remembers 0 again. *)
Theorem C05_zero_step_is_permanent : forall (M : Mfd Rnum) (p : ad_params) (f : pt M -> R) x d f0 df0,
  exists calls, ad_search M p (Some 0%R) f x d f0 df0 =
    Ok (Some 0%R, (0%R, if Rltb f0 (f (along M x d 0%R)) then x else along M x d 0%R), calls) /\
    Forall (fun y => y = along M x d 0%R) calls.
Proof. exact ad_stuck. Qed.
Print Assumptions C05_zero_step_is_permanent.
(** binary64, default parameters, cost x^2 at 2^-20 with its gradient: the step is
    rejected, 0 is remembered, and the next call from the point 1 (where the gradient is
    2) only tries the point 1. *)
Theorem C05_refuted : exists (x : F) st calls calls2,
  let g := p_grad (square F) in let f := p_cost (square F) in
  ad_search (E1 F) ad_default None f x (nneg F (g x)) (f x) (nneg F (nmul F (g x) (g x)))
    = Ok (st, (n_of_Z F 0, x), calls) /\
  ad_search (E1 F) ad_default st f (n_of_Z F 1) (nneg F (g (n_of_Z F 1))) (n_of_Z F 1) (nneg F (n_of_Z F 4))
    = Ok (st, (n_of_Z F 0, n_of_Z F 1), calls2) /\
  Forall (fun y => y = n_of_Z F 1) calls2.
Proof.
  exists (lit 1 1048576). do 3 eexists. cbn zeta.
  split; [vm_compute; reflexivity|split; [vm_compute; reflexivity|]].
  repeat constructor.
Qed.
Print Assumptions C05_refuted.
