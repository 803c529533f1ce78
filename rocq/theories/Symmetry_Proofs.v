(** C103, C104: a symmetry relates a manifold to itself as in Equivariance_Spec.v *)
From Coq Require Import ZArith List Bool.
From Verif Require Import Num_Model LineSearch_Model Optimizer_Model TrustRegions_Model NelderMead_Model ParticleSwarm_Model
  Equivariance_Spec Equivariance_Proofs Symmetry_Spec.
Import ListNotations.

Section Symmetry.
Context {N : NumOps} (M : Mfd N).
Variables (on : pt M -> Prop) (tangent : pt M -> tv M -> Prop) (move : pt M -> pt M) (push : tv M -> tv M).
Local Notation same_point := (moved_point M on move).
Local Notation same_vector := (moved_vector M tangent push).
Hypothesis S : symmetry M on tangent move push.

Lemma sy_same : same_steps M M same_point same_vector.
Proof.
  split; try reflexivity; unfold moved_point, moved_vector.
  - intros x y u u' v v' [? ->] [? ->] [? ->]. symmetry; apply (sy_inner _ _ _ _ _ S); assumption.
  - intros x y u u' [? ->] [? ->]. symmetry; apply (sy_norm _ _ _ _ _ S); assumption.
  - intros x y u u' [? ->] [? ->]. destruct (sy_retr _ _ _ _ _ S x u) as [A B]; auto.
  - intros x y z w u u' [? ->] [? ->] [? ->]. destruct (sy_transp _ _ _ _ _ S x z u) as [A B]; auto.
  - intros x y u u' [? ->] [? ->]. destruct (sy_to_tangent _ _ _ _ _ S x u) as [A B]; auto.
  - intros x y [? ->]. destruct (sy_zero _ _ _ _ _ S x) as [A B]; auto.
  - intros x y u u' [? ->] [? ->]. destruct (sy_neg _ _ _ _ _ S x u) as [A B]; auto.
  - intros x y u u' v v' [? ->] [? ->] [? ->]. destruct (sy_add _ _ _ _ _ S x u v) as [A B]; auto.
  - intros x y u u' v v' [? ->] [? ->] [? ->]. destruct (sy_sub _ _ _ _ _ S x u v) as [A B]; auto.
  - intros x y a u u' [? ->] [? ->]. destruct (sy_scale _ _ _ _ _ S x a u) as [A B]; auto.
Qed.
Lemma sy_mixed x y z w u u' v v' : same_point x y -> same_point z w -> same_vector x y u u' -> same_vector z w v v' ->
    m_inner M x u v = m_inner M y u' v'.
Proof. intros [? ->] [? ->] [? ->] [? ->]. symmetry; apply (sy_inner _ _ _ _ _ S); assumption. Qed.
Lemma sy_problem p p' : moved_problem M on tangent move push p p' -> same_problem M M same_point same_vector p p'.
Proof.
  intros P; split; unfold moved_point, moved_vector.
  - intros x y [? ->]; symmetry; apply (mp_cost _ _ _ _ _ _ _ P); assumption.
  - intros x y [? ->]; destruct (mp_grad _ _ _ _ _ _ _ P x); auto.
  - intros x y u u' [? ->] [? ->]; destruct (mp_hess _ _ _ _ _ _ _ P x u); auto.
  - intros x y u u' [? ->] [? ->]; destruct (mp_prec _ _ _ _ _ _ _ P x u); auto.
Qed.
Lemma sy_runs : runs_move M on tangent move push.
Proof.
  intros p p' x sp clock P Hx. pose proof (sy_problem _ _ P) as P'. pose proof sy_same as G.
  assert (X : same_point x (move x)) by (split; auto).
  pose proof (same_bt_searcher (M := M) (M' := M) same_point same_vector G) as B.
  pose proof (same_ad_searcher (M := M) (M' := M) same_point same_vector G) as A.
  split; [|split; [|split; [|split]]].
  - intros bp s. eapply same_sd_run; try eassumption; [apply B|reflexivity].
  - intros ap s. eapply same_sd_run; try eassumption; [apply A|reflexivity].
  - intros bp s rule ov. apply (same_cg_run same_point same_vector G p p' P' _ _ eq (B _) sp clock); auto.
    intros a a' Ha; apply (same_beta_mixed same_point same_vector G); [exact sy_mixed|exact Ha].
  - intros ap s rule ov. apply (same_cg_run same_point same_vector G p p' P' _ _ eq (A _) sp clock); auto.
    intros a a' Ha; apply (same_beta_mixed same_point same_vector G); [exact sy_mixed|exact Ha].
  - intros tp mi ma Db D0 draws draws' fuel H. eapply same_tr_run; try eassumption.
    intros k z w [Hz ->]. destruct (H k z Hz). split; auto.
Qed.
Lemma sy_swarm : log_symmetry M on tangent move push -> swarm_moves M on tangent move push.
Proof.
  intros L cost cost' base clock uniform rtv rtv' o st st' Hc Hr Hst. pose proof sy_same as G.
  assert (L' : same_logs M M same_point same_vector).
  { intros x y z w [Hx ->] [Hz ->]. destruct (L x z Hx Hz). split; auto. }
  apply (same_ps_run same_point same_vector G L').
  - intros x y [Hx ->]. symmetry; apply Hc; assumption.
  - intros k z w [Hz ->]. destruct (Hr k z Hz). split; auto.
  - exact Hst.
Qed.
Lemma sy_simplex : log_symmetry M on tangent move push -> mean_symmetry M on move -> simplex_moves M on move.
Proof.
  intros L Me cost cost' base sp clock clock_k argsort bp start start' o st st' Hc Hs Hst. pose proof sy_same as G.
  assert (L' : same_logs M M same_point same_vector).
  { intros x y z w [Hx ->] [Hz ->]. destruct (L x z Hx Hz). split; auto. }
  assert (Me' : same_means M M same_point).
  { split; intros x y z w [Hx ->] [Hz ->]; [symmetry; apply Me; assumption|]. destruct (sy_mean _ _ _ Me x z Hx Hz). split; auto. }
  intros centroid centroid'. apply (same_nm_run same_point same_vector G L'); try assumption.
  - intros x y [Hx ->]. symmetry; apply Hc; assumption.
  - intros k l l' Hl; apply (same_centroid same_point same_vector G L' Me') with (Rs := eq); auto.
    exact (same_bt_searcher same_point same_vector G bp).
Qed.
End Symmetry.
