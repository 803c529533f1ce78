(** Single matrices under [A |-> O A Q] with unitary [O] and [Q] *)
From Coq Require Import Reals.
From mathcomp Require Import all_ssreflect all_algebra.
From Verif Require Import Rstruct MCRing Mat_Base Geometry_Spec Linalg_Spec Calculus Components Multi_Model Multi_Proofs Stiefel_Proofs
  Sphere_Model Sphere_Proofs Expm Grassmann_Proofs Grassmann_Log.
Set Implicit Arguments.
Unset Strict Implicit.
Unset Printing Implicit Defensive.
Import GRing.Theory Num.Theory Order.TTheory.
Local Open Scope ring_scope.

Section Turn.
Variables (R : rcfType) (F : starField R) (n p : nat).
Implicit Types (A B X V : 'M[F]_(n, p)) (usv : 'M[F]_(n, p) * 'rV[R]_p * 'M[F]_p).
Definition unitary q (Q : 'M[F]_q) : Prop := Q *m Q^H = 1%:M.
Lemma unitaryC q (Q : 'M[F]_q) : unitary Q -> Q^H *m Q = 1%:M. Proof. exact: mulmx1C. Qed.
Variables (O : 'M[F]_n) (Q : 'M[F]_p).
Hypotheses (uO : unitary O) (uQ : unitary Q).
Definition turn A := O *m A *m Q.
Lemma turnD A B : turn (A + B) = turn A + turn B. Proof. by rewrite /turn mulmxDr mulmxDl. Qed.
Lemma turnN A : turn (- A) = - turn A. Proof. by rewrite /turn mulmxN mulNmx. Qed.
Lemma turnB A B : turn (A - B) = turn A - turn B. Proof. by rewrite turnD turnN. Qed.
Lemma turn0 : turn 0 = 0. Proof. by rewrite /turn mulmx0 mul0mx. Qed.
Lemma turnZ a A : turn (a *: A) = a *: turn A. Proof. by rewrite /turn -scalemxAr -scalemxAl. Qed.
Lemma turn_inner A B : inner (turn A) (turn B) = inner A B.
Proof. by rewrite /turn inner_mulr -mulmxA uQ mulmx1 inner_mull mulmxA (unitaryC uO) mul1mx. Qed.
(** products of an adjoint and a matrix *)
Lemma turn_gram A B : (turn A)^H *m turn B = Q^H *m (A^H *m B) *m Q.
Proof. by rewrite /turn !adjmxM !mulmxA -[_ *m O^H *m O]mulmxA (unitaryC uO) mulmx1. Qed.
Lemma turn_mul A (C : 'M[F]_p) : turn A *m (Q^H *m C *m Q) = turn (A *m C).
Proof. by rewrite /turn !mulmxA -[_ *m Q *m Q^H]mulmxA uQ mulmx1. Qed.
Lemma turn_orthonormal A : orthonormal A -> orthonormal (turn A).
Proof. by move=> h; rewrite /orthonormal turn_gram h mulmx1; apply: unitaryC. Qed.
Lemma turn_horizontal X V : horizontal X V -> horizontal (turn X) (turn V).
Proof. by move=> h; rewrite /horizontal turn_gram h mulmx0 mul0mx. Qed.
Lemma turn_gr_proj X V : gr_proj (turn X) (turn V) = turn (gr_proj X V).
Proof. by rewrite /gr_proj turn_gram turn_mul -turnB. Qed.
Lemma turn_gr_hess X g h V : gr_hess (turn X) (turn g) (turn h) (turn V) = turn (gr_hess X g h V).
Proof. by rewrite /gr_hess turn_gram turn_mul turn_gr_proj -turnB. Qed.
Lemma turn_svd A usv : valid_svd A usv -> valid_svd (turn A) (O *m usv.1.1, usv.1.2, usv.2 *m Q).
Proof. by move=> V; apply: (svd_right (svd_left V (unitaryC uO))). Qed.
(** the polar factor of a matrix of full rank is unique *)
Lemma polar_factor_unique A usv usv' : \rank A = p -> valid_svd A usv -> valid_svd A usv' ->
  usv.1.1 *m usv.2 = usv'.1.1 *m usv'.2.
Proof.
move=> rk V V'; have E (w : 'M[F]_(n, p) * 'rV[R]_p * 'M[F]_p) : valid_svd A w -> A = w.1.1 *m w.2 *m eigfun id (righteig w).
  case: w => [[u s] vt] [_ [vv [_ {1}->]]].
  by rewrite eigfun_id /righteig /= adjmxK !mulmxA -(mulmxA u vt) vv mulmx1.
have U : eigfun id (righteig usv) \in unitmx.
  move: (rk); rewrite {1}(E _ V) => rk'; rewrite -row_free_unit /row_free eqn_leq rank_leq_row /= -[X in (X <= _)%N]rk'.
  exact: mxrankM_maxr.
have := E _ V; rewrite {1}(E _ V') (righteig_unique id V' V) => /(congr1 (mulmx^~ (invmx (eigfun id (righteig usv))))).
by rewrite !mulmxK // => ->.
Qed.
Lemma turn_polar A usv usv' : \rank A = p -> valid_svd A usv -> valid_svd (turn A) usv' ->
  usv'.1.1 *m usv'.2 = turn (usv.1.1 *m usv.2).
Proof.
move=> rk V V'; have r : \rank (turn A) = p.
  by rewrite /turn mxrankMfree ?row_free_unit ?(proj1 (mulmx1_unit uQ)) // eqmxMfull ?row_full_unit ?(proj1 (mulmx1_unit uO)).
by rewrite (polar_factor_unique r V' (turn_svd V)) /turn !mulmxA.
Qed.
End Turn.

Section Log.
Variables (F : starField RR) (n p : nat).
Implicit Types (X Y : 'M[F]_(n, p)) (usv : 'M[F]_(n, p) * 'rV[RR]_p * 'M[F]_p).
Variables (O : 'M[F]_n) (Q : 'M[F]_p).
Hypotheses (uO : unitary O) (uQ : unitary Q).
Lemma invmx_turn (A : 'M[F]_p) : invmx (Q^H *m A *m Q) = Q^H *m invmx A *m Q.
Proof.
have q1 : Q \in unitmx := proj1 (mulmx1_unit uQ); have q2 : Q^H \in unitmx := proj2 (mulmx1_unit uQ).
have U : (Q^H *m A *m Q \in unitmx) = (A \in unitmx) by rewrite !unitmx_mul q1 q2 andbT.
have [uA|nA] := boolP (A \in unitmx); last by rewrite /invmx U (negbTE nA).
have E : Q^H *m A *m Q *m (Q^H *m invmx A *m Q) = 1%:M.
  by rewrite !mulmxA -[_ *m Q *m Q^H]mulmxA uQ mulmx1 -[_ *m A *m invmx A]mulmxA mulmxV // mulmx1 (unitaryC uQ).
have U' : Q^H *m A *m Q \in unitmx by rewrite U.
by rewrite -[RHS](mulKmx U') E mulmx1.
Qed.
Lemma turn_logB X Y : grlogB (turn O Q X) (turn O Q Y) = turn O Q (grlogB X Y).
Proof.
rewrite /grlogB !turn_gram // invmx_turn.
set Z := invmx _ ; rewrite /turn !adjmxM !(adjmxM, adjmxB, adjmxK) !mulmxA.
by rewrite -[_ *m Q *m Q^H]mulmxA uQ mulmx1 -mulmxBl -[_ *m Q *m Q^H]mulmxA uQ mulmx1 -!mulmxA -mulmxBr !mulmxA.
Qed.
Lemma turn_log X Y usv usv' : valid_svd (grlogB X Y) usv -> valid_svd (grlogB (turn O Q X) (turn O Q Y)) usv' ->
  grlog usv' = turn O Q (grlog usv).
Proof.
rewrite turn_logB => V V'; rewrite /grlog.
have H (x : RR) : 0 <= x -> (atan x : RR) = x * (atan x / x).
  by move=> _; have [->|x0] := eqVneq x 0; [rewrite mul0r; exact: atan00|rewrite mulrC divfK].
by rewrite (svdfun_unique H V' (turn_svd uO uQ V)) /svdfun /turn /= !mulmxA.
Qed.
(** horizontal even when [Y^H X] is singular *)
Lemma log_horizontal X Y usv : orthonormal X -> valid_svd (grlogB X Y) usv -> horizontal X (grlog usv).
Proof.
move=> OX V; apply: (svdfun_horizontal _ V atan00); rewrite /horizontal /grlogB -[X in X^H *m _](adjmxK X) -adjmxM adjmxK.
by rewrite -(mulmxA (invmx _)) mulmxBl -(mulmxA (Y^H *m X)) OX mulmx1 subrr mulmx0 adjmx0.
Qed.
End Log.
