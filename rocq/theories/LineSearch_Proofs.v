From Coq Require Import ZArith List Bool Lia.
From Verif Require Import Num_Model Num_Spec LineSearch_Model LineSearch_Spec.
Import ListNotations.

Section P.
Context {N : NumOps} (M : Mfd N).
Variables (contract : N -> N) (suff : N) (maxit : Z) (f : pt M -> N)
  (x : pt M) (d : tv M) (f0 df0 a0 : N).

Let al j := contracted contract a0 j.
Let trial j := along M x d (al j).
Let st j := mkLs (M:=M) (al j) (trial j) (f (trial j)) (1 + Z.of_nat j)
              (rev (map trial (seq 0 (S j)))).

Lemma ls_loop_from : forall k j, k = Z.to_nat maxit - j -> j <= Z.to_nat maxit ->
  (forall i, i < j -> armijo_fails M f x d suff f0 df0 (al i)) ->
  exists J, first_index_upto (fun i => ~ armijo_fails M f x d suff f0 df0 (al i))
              (Z.to_nat maxit) J /\
    loop (ls_while M contract suff maxit f x d f0 df0) (S k) (st j) = Ok (st J).
Proof.
  induction k as [|k IH]; intros j Hk Hj Hbefore.
  - exists j. split.
    + split; [lia|split]; [intros i Hi H; apply H; auto|right; lia].
    + cbn [loop]. unfold ls_while. cbn [st v_alpha v_newf v_count v_calls].
      replace (1 + Z.of_nat j <=? maxit)%Z with false by (symmetry; apply Z.leb_gt; lia).
      rewrite andb_false_r. reflexivity.
  - destruct (nlt N (nadd N f0 (nmul N (nmul N suff (al j)) df0)) (f (trial j))) eqn:E.
    + destruct (IH (S j)) as (J & HJ & HL); try lia.
      { intros i Hi. destruct (Nat.eq_dec i j); [subst; exact E|apply Hbefore; lia]. }
      exists J. split; auto.
      change (loop (ls_while M contract suff maxit f x d f0 df0) (S (S k)) (st j))
        with (bind (ls_while M contract suff maxit f x d f0 df0 (st j))
               (fun o => match o with Stop r => Ok r | Continue s' =>
                  loop (ls_while M contract suff maxit f x d f0 df0) (S k) s' end)).
      assert (EQ : ls_while M contract suff maxit f x d f0 df0 (st j) = Ok (Continue (st (S j)))).
      { unfold ls_while, st. cbn [v_alpha v_newf v_count v_calls].
        rewrite E. replace (1 + Z.of_nat j <=? maxit)%Z with true
          by (symmetry; apply Z.leb_le; lia).
        cbn [andb]. f_equal. f_equal. 
        replace (1 + Z.of_nat j + 1)%Z with (1 + Z.of_nat (S j))%Z by lia.
        rewrite (seq_S (S j) 0), map_app, rev_app_distr. reflexivity. }
      rewrite EQ. exact HL.
    + exists j. split.
      * split; [lia|split]; [intros i Hi H; apply H; auto|].
        left. unfold armijo_fails. fold (trial j). rewrite E. discriminate.
      * cbn [loop]. unfold ls_while. cbn [st v_alpha v_newf v_count v_calls].
        rewrite E. reflexivity.
Qed.

Lemma ls_loop_spec : exists J,
  first_index_upto (fun i => ~ armijo_fails M f x d suff f0 df0 (al i)) (Z.to_nat maxit) J /\
  loop (ls_while M contract suff maxit f x d f0 df0) (ls_fuel maxit)
    (mkLs a0 (m_retr M x (t_scale M a0 d)) (f (m_retr M x (t_scale M a0 d))) 1
      [m_retr M x (t_scale M a0 d)]) = Ok (st J).
Proof.
  apply (ls_loop_from (Z.to_nat maxit) 0); lia.
Qed.
End P.

Section Q.
Context {N : NumOps} (M : Mfd N).

Lemma bt_search_spec (p : bt_params) oldf0 (f : pt M -> N) x d f0 df0 a0 :
  bt_initial_step (bt_init p) (bt_optimism p) oldf0 f0 df0 (m_norm M x d) a0 ->
  let alpha := contracted (nmul N (bt_contraction p)) a0 in
  exists J,
    first_index_upto (fun j => ~ armijo_fails M f x d (bt_suff p) f0 df0 (alpha j))
      (Z.to_nat (bt_maxit p)) J /\
    bt_search M p oldf0 f x d f0 df0 =
      Ok (Some f0,
          (if nlt N f0 (f (along M x d (alpha J)))
           then (nmul N (n_of_Z N 0) (m_norm M x d), x)
           else (nmul N (alpha J) (m_norm M x d), along M x d (alpha J))),
          map (fun j => along M x d (alpha j)) (seq 0 (S J))).
Proof.
  intros Hinit alpha.
  destruct (ls_loop_spec M (nmul N (bt_contraction p)) (bt_suff p) (bt_maxit p) f x d f0 df0 a0)
    as (J & HJ & HL).
  exists J. split; [exact HJ|].
  unfold bt_search.
  assert (E : match oldf0 with
    | Some old => let* a := ndiv N (nmul N (n_of_Z N 2) (nsub N f0 old)) df0 in
                  Ok (nmul N a (bt_optimism p))
    | None => ndiv N (bt_init p) (m_norm M x d) end = Ok a0).
  { unfold bt_initial_step in Hinit. destruct oldf0; auto.
    destruct Hinit as (q & -> & ->). reflexivity. }
  rewrite E. cbn [bind].
  change (fun a : N => nmul N (bt_contraction p) a) with (nmul N (bt_contraction p)).
  rewrite HL. cbn [bind v_newf v_alpha v_newx v_calls].
  rewrite rev_involutive. unfold alpha.
  destruct (nlt N f0 _); reflexivity.
Qed.

Lemma ad_search_spec (p : ad_params) oldalpha (f : pt M -> N) x d f0 df0 a0 :
  ad_initial_step (ad_init p) oldalpha (m_norm M x d) a0 ->
  let alpha := contracted (fun a => nmul N a (ad_contraction p)) a0 in
  exists J,
    first_index_upto (fun j => ~ armijo_fails M f x d (ad_suff p) f0 df0 (alpha j))
      (Z.to_nat (ad_maxit p)) J /\
    ad_search M p oldalpha f x d f0 df0 =
      let final := if nlt N f0 (f (along M x d (alpha J))) then n_of_Z N 0 else alpha J in
      Ok (Some (if Nat.eqb (S J) 2 then final else nmul N (n_of_Z N 2) final),
          (nmul N final (m_norm M x d),
           if nlt N f0 (f (along M x d (alpha J))) then x else along M x d (alpha J)),
          map (fun j => along M x d (alpha j)) (seq 0 (S J))).
Proof.
  intros Hinit alpha.
  destruct (ls_loop_spec M (fun a => nmul N a (ad_contraction p)) (ad_suff p) (ad_maxit p) f x d f0 df0 a0)
    as (J & HJ & HL).
  exists J. split; [exact HJ|].
  unfold ad_search.
  assert (E : match oldalpha with
    | Some a => Ok a
    | None => ndiv N (ad_init p) (m_norm M x d) end = Ok a0).
  { unfold ad_initial_step in Hinit. destruct oldalpha; auto. subst; auto. }
  rewrite E. cbn [bind].
  rewrite HL. cbn [bind v_newf v_alpha v_newx v_calls v_count].
  rewrite rev_involutive. unfold alpha.
  replace (1 + Z.of_nat J =? 2)%Z with (Nat.eqb (S J) 2).
  2:{ destruct (Nat.eqb_spec (S J) 2), (Z.eqb_spec (1 + Z.of_nat J) 2); auto; lia. }
  destruct (nlt N f0 _); reflexivity.
Qed.

Lemma bt_initial_ok p oldf0 (f : pt M -> N) x d f0 df0 st sy calls :
  bt_search M p oldf0 f x d f0 df0 = Ok (st, sy, calls) ->
  exists a0, bt_initial_step (bt_init p) (bt_optimism p) oldf0 f0 df0 (m_norm M x d) a0.
Proof.
  unfold bt_search, bt_initial_step. destruct oldf0.
  - destruct (ndiv N (nmul N (n_of_Z N 2) (nsub N f0 n)) df0) eqn:E; cbn [bind]; [|discriminate].
    intros _; eauto.
  - destruct (ndiv N (bt_init p) (m_norm M x d)) eqn:E; cbn [bind]; [|discriminate]. eauto.
Qed.

Lemma ad_initial_ok p oldalpha (f : pt M -> N) x d f0 df0 st sy calls :
  ad_search M p oldalpha f x d f0 df0 = Ok (st, sy, calls) ->
  exists a0, ad_initial_step (ad_init p) oldalpha (m_norm M x d) a0.
Proof.
  unfold ad_search, ad_initial_step. destruct oldalpha; eauto.
  destruct (ndiv N (ad_init p) (m_norm M x d)) eqn:E; cbn [bind]; [|discriminate]. eauto.
Qed.

(** No-worse-point guarantee in the form used by the optimizers. *)
Definition ls_safe (LS : LineSearcher M) : Prop :=
  forall st f x d f0 df0 st' s y calls,
  ls_search LS st f x d f0 df0 = Ok (st', (s, y), calls) ->
  y = x \/ (In y calls /\ nlt N f0 (f y) = false).

Lemma bt_safe p : ls_safe (bt_searcher M p).
Proof.
  intros st f x d f0 df0 st' s y calls H. simpl in H.
  destruct (bt_initial_ok _ _ _ _ _ _ _ _ _ _ H) as (a0 & Ha).
  destruct (bt_search_spec _ _ f _ _ _ _ _ Ha) as (J & HJ & E).
  rewrite E in H. injection H as _ H <-.
  destruct (nlt N f0 _) eqn:E2; injection H as _ <-; auto.
  right; split; auto.
  exact (in_map (fun j => along M x d (contracted (nmul N (bt_contraction p)) a0 j))
           (seq 0 (S J)) J (proj2 (in_seq (S J) 0 J) ltac:(lia))).
Qed.
Lemma ad_safe p : ls_safe (ad_searcher M p).
Proof.
  intros st f x d f0 df0 st' s y calls H. simpl in H.
  destruct (ad_initial_ok _ _ _ _ _ _ _ _ _ _ H) as (a0 & Ha).
  destruct (ad_search_spec _ _ f _ _ f0 df0 _ Ha) as (J & HJ & E).
  rewrite E in H. cbn zeta in H. injection H as _ _ H <-.
  destruct (nlt N f0 _) eqn:E2; subst y; auto.
  right; split; auto.
  exact (in_map (fun j => along M x d (contracted (fun a => nmul N a (ad_contraction p)) a0 j))
           (seq 0 (S J)) J (proj2 (in_seq (S J) 0 J) ltac:(lia))).
Qed.

End Q.

(** * Corollaries *)
Section R.
Context {N : NumOps} (M : Mfd N).

Lemma bt_no_worse p oldf0 (f : pt M -> N) x d f0 df0 st s y calls :
  bt_search M p oldf0 f x d f0 df0 = Ok (st, (s, y), calls) ->
  (y = x /\ s = nmul N (n_of_Z N 0) (m_norm M x d)) \/ nlt N f0 (f y) = false.
Proof.
  intros H. destruct (bt_initial_ok M _ _ _ _ _ _ _ _ _ _ H) as (a0 & Ha).
  destruct (bt_search_spec M _ _ f _ _ _ _ _ Ha) as (J & HJ & E).
  rewrite E in H. injection H as _ H _.
  destruct (nlt N f0 _) eqn:E2; injection H as <- <-; auto.
Qed.
Lemma ad_no_worse p olda (f : pt M -> N) x d f0 df0 st s y calls :
  ad_search M p olda f x d f0 df0 = Ok (st, (s, y), calls) ->
  (y = x /\ s = nmul N (n_of_Z N 0) (m_norm M x d)) \/ nlt N f0 (f y) = false.
Proof.
  intros H. destruct (ad_initial_ok M _ _ _ _ _ _ _ _ _ _ H) as (a0 & Ha).
  destruct (ad_search_spec M _ _ f _ _ f0 df0 _ Ha) as (J & HJ & E).
  rewrite E in H. cbn zeta in H. injection H as _ H1 H2 _.
  destruct (nlt N f0 _) eqn:E2; subst; auto.
Qed.

Lemma bt_eval_bound p oldf0 (f : pt M -> N) x d f0 df0 st sy calls :
  bt_search M p oldf0 f x d f0 df0 = Ok (st, sy, calls) ->
  (1 <= Z.of_nat (length calls) <= Z.max (bt_maxit p) 0 + 1)%Z.
Proof.
  intros H. destruct (bt_initial_ok M _ _ _ _ _ _ _ _ _ _ H) as (a0 & Ha).
  destruct (bt_search_spec M _ _ f _ _ _ _ _ Ha) as (J & (HJ & _) & E).
  assert (calls = map (fun j => along M x d (contracted (nmul N (bt_contraction p)) a0 j)) (seq 0 (S J)))
    as -> by congruence. rewrite map_length, seq_length. lia.
Qed.
Lemma ad_eval_bound p olda (f : pt M -> N) x d f0 df0 st sy calls :
  ad_search M p olda f x d f0 df0 = Ok (st, sy, calls) ->
  (1 <= Z.of_nat (length calls) <= Z.max (ad_maxit p) 0 + 1)%Z.
Proof.
  intros H. destruct (ad_initial_ok M _ _ _ _ _ _ _ _ _ _ H) as (a0 & Ha).
  destruct (ad_search_spec M _ _ f _ _ f0 df0 _ Ha) as (J & (HJ & _) & E).
  cbn zeta in E.
  assert (calls = map (fun j => along M x d (contracted (fun a => nmul N a (ad_contraction p)) a0 j)) (seq 0 (S J)))
    as -> by congruence. rewrite map_length, seq_length. lia.
Qed.

(** NaN at the finally tried point: the step is accepted. *)
Lemma bt_nan (L : OrderLaws N) p oldf0 (f : pt M -> N) x d f0 df0 a0 J :
  bt_initial_step (bt_init p) (bt_optimism p) oldf0 f0 df0 (m_norm M x d) a0 ->
  let alpha := contracted (nmul N (bt_contraction p)) a0 in
  nisnan N (f (along M x d (alpha J))) = true -> J <= Z.to_nat (bt_maxit p) ->
  (forall j, j < J -> armijo_fails M f x d (bt_suff p) f0 df0 (alpha j)) ->
  exists st s calls, bt_search M p oldf0 f x d f0 df0 = Ok (st, (s, along M x d (alpha J)), calls).
Proof.
  intros Ha alpha Hn HJm Hbefore.
  destruct (bt_search_spec M _ _ f _ _ _ _ _ Ha) as (J' & (HJ & Hb & Hst) & E).
  assert (J' = J) as ->.
  { destruct (Nat.lt_trichotomy J' J) as [Hlt|[?|Hlt]]; auto.
    - exfalso. destruct Hst as [Hst|Hst]; [apply Hst, Hbefore; auto|lia].
    - exfalso. apply (Hb J Hlt). intros Hf. unfold armijo_fails in Hf.
      fold alpha in Hf. rewrite (nan_lt_r N L) in Hf; [discriminate|auto]. }
  rewrite E. rewrite (nan_lt_r N L) by auto. eauto.
Qed.
End R.

From Coq Require Import Reals Lra.
From Verif Require Import Num_Instances.
(** An adaptive searcher that remembers the step 0, in exact arithmetic. *)
Lemma ad_stuck (M : Mfd Rnum) (p : ad_params) (f : pt M -> R) x d f0 df0 :
  exists calls, ad_search M p (Some 0%R) f x d f0 df0 =
    Ok (Some 0%R, (0%R, if Rltb f0 (f (along M x d 0%R)) then x else along M x d 0%R), calls) /\
    Forall (fun y => y = along M x d 0%R) calls.
Proof.
  assert (H0 : forall j, contracted (fun a => nmul Rnum a (ad_contraction p)) (0%R : Rnum) j = 0%R).
  { induction j as [|j IH]; [reflexivity|]. cbn [contracted]. rewrite IH. apply Rmult_0_l. }
  destruct (ad_search_spec M p (Some 0%R) f x d f0 df0 0%R eq_refl) as (J & HJ & E).
  eexists. split.
  - rewrite E. cbn zeta. rewrite H0.
    simpl nlt. replace (if Rltb f0 (f (along M x d 0%R)) then n_of_Z Rnum 0 else 0%R) with 0%R
      by (destruct (Rltb _ _); reflexivity).
    simpl nmul. rewrite Rmult_0_l, Rmult_0_r.
    destruct (Nat.eqb (S J) 2); reflexivity.
  - apply Forall_forall. intros y Hy. apply in_map_iff in Hy as (j & <- & _). rewrite H0. auto.
Qed.
