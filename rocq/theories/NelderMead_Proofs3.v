(** Nelder-Mead: which move an iteration makes. *)
From Coq Require Import ZArith List Bool Sorted Permutation Lia.
From Verif Require Import Num_Model Num_Spec Num_Proofs PyList_Model LineSearch_Model Optimizer_Model Optimizer_Spec
  Optimizer_Proofs NelderMead_Model NelderMead_Spec NelderMead_Proofs.
Import ListNotations.

Lemma py_get_last {A} (l : list A) a : py_get l (-1) = Ok a -> exists f, l = f ++ [a].
Proof.
  intros H. apply py_get_ok in H as (k & K & E). apply py_index_last in K.
  destruct l as [|b l] using rev_ind; [discriminate|]. exists l.
  rewrite app_length in K. simpl in K. rewrite nth_error_app2 in E by lia.
  replace (k - length l) with 0 in E by lia. simpl in E. congruence.
Qed.
Lemma py_get_second {A} (l : list A) (w a : A) : py_get (l ++ [w]) (-2) = Ok a -> exists f, l = f ++ [a].
Proof.
  intros H. apply py_get_ok in H as (k & K & E). apply py_index_inv in K as [_ K].
  change (-2 <? 0)%Z with true in K. cbv iota in K. rewrite app_length in K. cbn [length] in K.
  destruct l as [|b l] using rev_ind; [cbn [length] in K; lia|]. exists l.
  rewrite app_length in K. cbn [length] in K. rewrite <- app_assoc in E. rewrite nth_error_app2 in E by lia.
  replace (k - length l) with 0 in E by lia. simpl in E. congruence.
Qed.
Lemma set_nth_last {A} (f : list A) w a : set_nth (f ++ [w]) (length f) a = f ++ [a].
Proof. induction f; simpl; congruence. Qed.
Lemma set_nth_mid {A} (f : list A) w t a : set_nth (f ++ w :: t) (length f) a = f ++ a :: t.
Proof. induction f; simpl; congruence. Qed.

Section Move.
Context {N : NumOps} {M : Mfd N}.
Variables (cost : pt M -> N) (o : nm_obj N) (centroid : Z -> list (pt M) -> res (pt M)).

Lemma nm_replace_last f w x c xs' costs' : nm_replace (M:=M) (f ++ [w]) (map cost (f ++ [w])) x c = Ok (xs', costs') ->
  xs' = f ++ [x].
Proof.
  intros E. unfold nm_replace in E. apply bind_ok in E as (c' & _ & E). apply bind_ok in E as (y & E2 & E).
  injection E as <- _. apply py_set_ok in E2 as (k & K & -> & _). apply py_index_last in K.
  rewrite app_length in K. simpl in K. replace k with (length f) by lia. apply set_nth_last.
Qed.

Lemma nm_shrink_points x0 n : forall done todo costs calls xs' costs' calls',
  nm_shrink cost x0 n (Z.of_nat (length done)) (done ++ todo) costs calls = Ok (xs', costs', calls') ->
  xs' = done ++ map (m_pair_mean M x0) (firstn n todo) ++ skipn n todo.
Proof.
  induction n as [|n IH]; intros done todo costs calls xs' costs' calls' E; cbn [nm_shrink] in E.
  - injection E as <- _ _. reflexivity.
  - apply bind_ok in E as (xi & E1 & E). cbv zeta in E.
    apply bind_ok in E as (xs1 & E2 & E). apply bind_ok in E as (c1 & _ & E).
    apply py_get_ok in E1 as (k & K & E1). apply py_index_inv in K as [K1 K2].
    destruct (Z.ltb_spec (Z.of_nat (length done)) 0); [lia|].
    assert (k = length done) as -> by lia. rewrite app_length in K1.
    destruct todo as [|t todo]; [simpl in K1; lia|].
    rewrite nth_error_app2, Nat.sub_diag in E1 by lia. simpl in E1. injection E1 as ->.
    apply py_set_ok in E2 as (k & K & -> & _). apply py_index_inv in K as [_ K].
    destruct (Z.ltb_spec (Z.of_nat (length done)) 0); [lia|]. assert (k = length done) as -> by lia.
    rewrite set_nth_mid in E.
    replace (Z.of_nat (length done) + 1)%Z with (Z.of_nat (length (done ++ [m_pair_mean M x0 xi]))) in E
      by (rewrite app_length; simpl; lia).
    change (m_pair_mean M x0 xi :: todo) with ([m_pair_mean M x0 xi] ++ todo) in E. rewrite app_assoc in E.
    apply IH in E. rewrite E, <- app_assoc. reflexivity.
Qed.

Lemma nm_move_moves it xs evals xs' costs' evals' calls :
  nm_move cost o centroid it xs (map cost xs) evals = Ok (xs', costs', evals', calls) ->
  exists front worst xbar, xs = front ++ [worst] /\ centroid it front = Ok xbar /\
    nm_moves cost (nm_reflection o) (nm_expansion o) (nm_contraction o) xbar front worst xs'.
Proof.
  intros E. unfold nm_move in E.
  apply bind_ok in E as (xbar & Ex & E). apply bind_ok in E as (worst & Ew & E). cbv zeta in E.
  apply py_get_last in Ew as (front & ->). exists front, worst, xbar.
  split; [reflexivity|]. split; [unfold py_init in Ex; rewrite removelast_last in Ex; exact Ex|].
  set (xr := m_retr M xbar (t_scale M (nneg N (nm_reflection o)) (m_log M xbar worst))) in *.
  set (xe := m_retr M xbar (t_scale M (nneg N (nm_expansion o)) (m_log M xbar worst))) in *.
  set (xoc := m_retr M xbar (t_scale M (nneg N (nm_contraction o)) (m_log M xbar worst))) in *.
  set (xic := m_retr M xbar (t_scale M (nm_contraction o) (m_log M xbar worst))) in *.
  apply bind_ok in E as (c0 & E0 & E).
  apply py_get0 in E0 as [t Ht].
  assert (exists best rest, front ++ [worst] = best :: rest /\ c0 = cost best) as (best & rest & EB & ->).
  { destruct (front ++ [worst]) as [|b r]; [discriminate|]. exists b, r. split; auto. simpl in Ht. congruence. }
  clear Ht.
  apply bind_ok in E as (hon & Eh & E).
  assert (SND : forall c2, py_get (map cost (front ++ [worst])) (-2) = Ok c2 ->
     exists second rest', front = rest' ++ [second] /\ c2 = cost second).
  { intros c2 G. rewrite map_app in G. apply py_get_second in G as (f & G).
    destruct front as [|b front] using rev_ind; [destruct f; discriminate|]. clear IHfront.
    rewrite map_app in G. apply app_inj_tail in G as [_ G]. exists b, front. split; auto. }
  destruct hon.
  { destruct (nle N (cost best) (cost xr)) eqn:A; [|discriminate].
    apply bind_ok in Eh as (c2 & G & H2). apply SND in G as (second & rest' & F2 & ->).
    injection H2 as H2.
    apply bind_ok in E as ([xs1 c1] & E1 & E). injection E as <- _ _ _.
    apply nm_replace_last in E1 as ->.
    destruct front as [|b front]; [destruct rest'; discriminate|].
    simpl in EB. assert (b = best) as -> by congruence.
    eapply (MvReflect _ _ _ _ _ _ _ xr best second front rest'); eauto. }
  destruct (nlt N (cost xr) (cost best)) eqn:L0.
  { assert (xs' = front ++ [if nlt N (cost xe) (cost xr) then xe else xr]) as ->.
    { destruct (nlt N (cost xe) (cost xr)) eqn:L1;
        apply bind_ok in E as ([xs1 c1] & E1 & E); injection E as <- _ _ _; eapply nm_replace_last; eauto. }
    apply (MvExpand _ _ _ _ _ _ _ xr xe best); auto. rewrite EB. reflexivity. }
  apply bind_ok in E as (c2 & E2 & E). apply bind_ok in E as (c1 & E1 & E).
  apply SND in E2 as (second & rest' & F2 & ->).
  assert (c1 = cost worst) as ->.
  { apply py_get_last in E1 as (f & E1). rewrite map_app in E1. simpl in E1. apply app_inj_tail in E1 as [_ E1]. auto. }
  assert (HON : nle N (cost best) (cost xr) = true -> nlt N (cost xr) (cost second) = false).
  { intros A. rewrite A in Eh. apply bind_ok in Eh as (c2 & G & H2). apply SND in G as (s2 & r2 & F3 & ->).
    assert (s2 = second) as -> by (rewrite F2 in F3; apply app_inj_tail in F3 as [_ F3]; auto).
    injection H2 as H2. exact H2. }
  assert (SHR : forall ev cl,
    bind (py_get (front ++ [worst]) 0) (fun x0 =>
      bind (nm_shrink cost x0 (Z.to_nat (m_dim M)) 1 (front ++ [worst]) (map cost (front ++ [worst])) cl)
        (fun '(xs2, costs2, calls2) => Ok (xs2, costs2, (ev + m_dim M)%Z, calls2))) = Ok (xs', costs', evals', calls) ->
    xs' = best :: map (m_pair_mean M best) (firstn (Z.to_nat (m_dim M)) rest) ++ skipn (Z.to_nat (m_dim M)) rest).
  { intros ev cl Q. apply bind_ok in Q as (x0 & G & Q). apply py_get0 in G as [t0 G].
    assert (x0 = best) as -> by congruence.
    apply bind_ok in Q as ([[xs2 cs2] cl2] & Q2 & Q). injection Q as <- _ _ _.
    rewrite EB in Q2. apply (nm_shrink_points best _ [best]) in Q2. exact Q2. }
  destruct (nle N (cost second) (cost xr)) eqn:G2; [destruct (nlt N (cost xr) (cost worst)) eqn:G1|].
  - destruct (nle N (cost xoc) (cost xr)) eqn:G3.
    + apply bind_ok in E as ([xs1 cc1] & Er & E). injection E as <- _ _ _. apply nm_replace_last in Er as ->.
      eapply (MvOutside _ _ _ _ _ _ _ xr xoc); eauto.
    + apply SHR in E as ->. eapply (MvShrink _ _ _ _ _ _ _ xr); eauto; intros; congruence.
  - destruct (nle N (cost xic) (cost worst)) eqn:G3.
    + apply bind_ok in E as ([xs1 cc1] & Er & E). injection E as <- _ _ _. apply nm_replace_last in Er as ->.
      eapply (MvInside _ _ _ _ _ _ _ xr xic); eauto.
    + apply SHR in E as ->. eapply (MvShrink _ _ _ _ _ _ _ xr); eauto; intros; congruence.
  - apply SHR in E as ->. eapply (MvShrink _ _ _ _ _ _ _ xr); eauto; intros; congruence.
Qed.
End Move.

Section Run.
Context {N : NumOps} {M : Mfd N}.
Variables (cost : pt M -> N) (o : nm_obj N) (sp : stop_params N) (clock : nat -> N)
  (argsort : list N -> list nat) (centroid : Z -> list (pt M) -> res (pt M)).
Hypothesis Hsort : is_argsort argsort.
Hypothesis L : OrderLaws N.
Hypothesis Hdim : (0 <= m_dim M)%Z.

(** Consecutive simplices. *)
Definition nm_linked (k : nat) (xs xs' : list (pt M)) : Prop :=
  exists front worst xbar ys, xs = front ++ [worst] /\ centroid (Z.of_nat (S k)) front = Ok xbar /\
    nm_moves cost (nm_reflection o) (nm_expansion o) (nm_contraction o) xbar front worst ys /\
    Permutation xs' ys.

Definition nm_chain (tr : list (list (pt M) * list N)) : Prop :=
  forall k xs c xs' c', nth_error tr k = Some (xs, c) -> nth_error tr (S k) = Some (xs', c') -> nm_linked k xs xs'.

Definition nm_link_inv (s : nm_state M) : Prop :=
  n_costs s = map cost (n_x s) /\ n_iteration s = Z.of_nat (length (n_trace s)) /\ nm_chain (n_trace s) /\
  forall k xs c, S k = length (n_trace s) -> nth_error (n_trace s) k = Some (xs, c) -> nm_linked k xs (n_x s).

Lemma nm_chain_snoc tr xs c : nm_chain tr ->
  (forall k ys d, S k = length tr -> nth_error tr k = Some (ys, d) -> nm_linked k ys xs) ->
  nm_chain (tr ++ [(xs, c)]).
Proof.
  intros C H k ys d ys' d' E1 E2.
  destruct (Nat.lt_ge_cases (S k) (length tr)) as [LT|GE].
  - rewrite nth_error_app1 in E1, E2 by lia. eapply C; eauto.
  - rewrite nth_error_app2 in E2 by lia.
    destruct (S k - length tr) as [|j] eqn:Ej; [|destruct j; discriminate].
    injection E2 as <- <-. rewrite nth_error_app1 in E1 by lia. eapply H; eauto. lia.
Qed.

Lemma nm_linked_perm k xs ys zs : nm_linked k xs ys -> Permutation zs ys -> nm_linked k xs zs.
Proof. intros (f & w & xb & ms & A & B & C & D) P. exists f, w, xb, ms. eauto using Permutation_trans. Qed.

Lemma nm_link_step st s s' : nm_link_inv s ->
  nm_body cost o sp clock argsort centroid st s = Ok (Continue s') -> nm_link_inv s'.
Proof.
  intros (I1 & I2 & I3 & I4) E. unfold nm_body in E. cbv zeta in E.
  apply bind_ok in E as ([xs costs] & E1 & E).
  rewrite I1 in E1. destruct (nm_sort_ok cost argsort Hsort (n_x s)) as (xs1 & S1 & S2 & S3).
  rewrite S1 in E1. injection E1 as <- <-.
  destruct (check_stopping _ _ _ _ _ _ _); [apply bind_ok in E as (? & _ & E); discriminate|].
  apply bind_ok in E as ([[[xs2 costs2] ev] cl] & E2 & E). injection E as <-.
  unfold nm_link_inv. cbn [n_costs n_x n_iteration n_trace].
  destruct (nm_move_ok L cost o centroid _ _ _ _ _ _ _ Hdim S3 E2) as (C & _).
  assert (LEN : length (n_trace s ++ [(xs1, map cost xs1)]) = S (length (n_trace s))) by (rewrite app_length; simpl; lia).
  split; [auto|]. split; [rewrite LEN; lia|]. split.
  - apply nm_chain_snoc; auto. intros k ys d K1 K2. eapply nm_linked_perm; [apply (I4 _ _ _ K1 K2)|auto].
  - intros k ys d K1 K2. rewrite LEN in K1. injection K1 as ->.
    rewrite nth_error_app2, Nat.sub_diag in K2 by lia. injection K2 as <- <-.
    rewrite I2 in E2. replace (Z.of_nat (length (n_trace s)) + 1)%Z with (Z.of_nat (S (length (n_trace s)))) in E2 by lia.
    apply nm_move_moves in E2 as (f & w & xb & A & B & D).
    exists f, w, xb, xs2. repeat split; auto.
Qed.

Lemma nm_loop_chain xs r tr : nm_loop cost o sp clock argsort centroid xs = Ok (r, tr) -> nm_chain tr.
Proof.
  unfold nm_loop. cbv zeta. intros E. apply bind_ok in E as ([xs1 c1] & E1 & E).
  destruct (nm_sort_ok cost argsort Hsort xs) as (xs2 & S1 & S2 & S3). rewrite S1 in E1. injection E1 as <- <-.
  refine (loop_inv _ nm_link_inv (fun '(_, tr) => nm_chain tr) _ _ _ _ (r, tr) _ E).
  - intros s s' I Hb. eapply nm_link_step; eauto.
  - intros s [r' tr'] (I1 & I2 & I3 & I4) Hb. unfold nm_body in Hb. cbv zeta in Hb.
    apply bind_ok in Hb as ([ys d] & B1 & Hb).
    rewrite I1 in B1. destruct (nm_sort_ok cost argsort Hsort (n_x s)) as (ys1 & T1 & T2 & T3).
    rewrite T1 in B1. injection B1 as <- <-.
    destruct (check_stopping _ _ _ _ _ _ _); [|apply bind_ok in Hb as ([[[? ?] ?] ?] & _ & Hb); discriminate].
    apply bind_ok in Hb as (x & _ & Hb). injection Hb as _ <-.
    apply nm_chain_snoc; auto. intros k zs d K1 K2. eapply nm_linked_perm; [apply (I4 _ _ _ K1 K2)|auto].
  - unfold nm_link_inv. simpl. repeat split; auto; intros k; intros; destruct k; discriminate.
Qed.
End Run.
