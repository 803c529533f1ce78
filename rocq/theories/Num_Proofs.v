(** Generic facts about [loop] and comparisons. *)
From Coq Require Import ZArith List Bool Lia Sorted.
From Verif Require Import Num_Model Num_Spec.
Import ListNotations.

Lemma bind_ok {A B} (r : res A) (k : A -> res B) b :
  bind r k = Ok b -> exists a, r = Ok a /\ k a = Ok b.
Proof. destruct r; simpl; [eauto|discriminate]. Qed.

Lemma loop_inv {S R} (body : S -> res (step_out S R)) (I : S -> Prop) (Q : R -> Prop) :
  (forall s s', I s -> body s = Ok (Continue s') -> I s') ->
  (forall s r, I s -> body s = Ok (Stop r) -> Q r) ->
  forall fuel s r, I s -> loop body fuel s = Ok r -> Q r.
Proof.
  intros Hc Hs; induction fuel as [|n IH]; intros s r HI H; simpl in H; [discriminate|].
  destruct (body s) as [[s'|r']|e] eqn:E; simpl in H; try discriminate; eauto.
  injection H as <-; eauto.
Qed.

Lemma loop_fuel {S R} (body : S -> res (step_out S R)) (I : S -> Prop) (m : S -> nat) :
  (forall s, I s -> body s <> Raise OutOfFuel) ->
  (forall s s', I s -> body s = Ok (Continue s') -> I s' /\ m s' < m s) ->
  forall fuel s, I s -> m s < fuel -> loop body fuel s <> Raise OutOfFuel.
Proof.
  intros Hn Hc; induction fuel as [|n IH]; intros s HI Hm; [lia|]; simpl.
  pose proof (Hn s HI).
  destruct (body s) as [[s'|r']|e] eqn:E; simpl; try discriminate; auto.
  - destruct (Hc _ _ HI E). apply IH; auto; lia.
  - congruence.
Qed.

Section O.
Context {N : NumOps} (L : OrderLaws N).
Lemma not_gt_le (x y : N) : nisnan N x = false -> nisnan N y = false ->
  nlt N y x = false -> nle N x y = true.
Proof. intros. rewrite (le_lt_total N L) by auto. rewrite H1; reflexivity. Qed.
Lemma lt_irrefl (x : N) : nlt N x x = false.
Proof.
  destruct (nisnan N x) eqn:E; [apply (nan_lt_l N L); auto|].
  pose proof (le_refl N L x E). rewrite (le_lt_total N L) in H by auto.
  destruct (nlt N x x); auto.
Qed.
Lemma lt_asym (x y : N) : nlt N x y = true -> nlt N y x = false.
Proof.
  intros H. destruct (nlt N y x) eqn:E; auto.
  pose proof (lt_le_trans N L x y x H (lt_le N L _ _ E)).
  rewrite lt_irrefl in H0; discriminate.
Qed.
Lemma le_not_nan (x y : N) : nle N x y = true -> nisnan N x = false /\ nisnan N y = false.
Proof.
  intros H; split.
  - destruct (nisnan N x) eqn:E; auto. rewrite (nan_le_l N L) in H; auto; discriminate.
  - destruct (nisnan N y) eqn:E; auto. rewrite (nan_le_r N L) in H; auto; discriminate.
Qed.
Lemma lt_not_nan (x y : N) : nlt N x y = true -> nisnan N x = false /\ nisnan N y = false.
Proof. intros; apply le_not_nan, (lt_le N L); auto. Qed.
End O.
