(** C111: the line search of the mixture of Gaussians notebook. *)
From Coq Require Import ZArith List Bool Lia SpecFloat.
From Verif Require Import Num_Model Num_Spec Num_Instances LineSearch_Model LineSearch_Spec LineSearch_Proofs Euclid1 MoGSearch_Model.
Import ListNotations.

Section Spec.
Context {N : NumOps} (M : Mfd N) (f : pt M -> option N) (x : pt M) (d : tv M).
(** The search goes on from step [a]: the objective can be computed there and fails the Armijo test. *)
Definition goes_on (suff f0 df0 a : N) : Prop :=
  exists v, f (along M x d a) = Some v /\ nlt N (nadd N f0 (nmul N (nmul N suff a) df0)) v = true.
End Spec.

Section Proofs.
Context {N : NumOps} (M : Mfd N) (f : pt M -> option N) (replace : pt M -> pt M -> pt M).
Variables (p : bt_params (N := N)) (x : pt M) (d : tv M) (f0 df0 a0 : N).
Let al j := contracted (nmul N (bt_contraction p)) a0 j.
Let trial j := along M x d (al j).
Let st j := attempt M f replace (al j) d (1 + Z.of_nat j) x.
Let body := mog_while M f replace (bt_contraction p) (bt_suff p) (bt_maxit p) d f0 df0.
Let on j := goes_on M f x d (bt_suff p) f0 df0 (al j).
(** What the search returns when it stops at [j]. *)
Let outcome j :=
  match f (trial j) with
  | Some v => (Some (Some f0, if nlt N f0 v then (nmul N (n_of_Z N 0) (m_norm M x d), x) else (nmul N (al j) (m_norm M x d), trial j)), x)
  | None => (match f (replace (trial j) x) with
             | Some _ => Some (Some f0, (nmul N (al j) (m_norm M x d), replace (trial j) x)) | None => None end, replace (trial j) x)
  end.
Let finish (s : mog_vars M + pt M) : res (option (option N * (N * pt M)) * pt M) :=
  match s with
  | inr x' => Ok (None, x')
  | inl v => let '(alpha', newx') :=
      if nlt N f0 (g_newf _ v) && negb (g_reset _ v) then (n_of_Z N 0, g_x _ v) else (g_alpha _ v, g_newx _ v) in
      Ok (Some (Some f0, (nmul N alpha' (m_norm M x d), newx')), g_x _ v)
  end.

Lemma step_on j : on j -> j < Z.to_nat (bt_maxit p) -> body (st j) = Ok (Continue (st (S j))).
Proof.
  intros (v & E & A) Hj. unfold body, st, attempt at 1, newxnewf. fold (along M x d (al j)). rewrite E.
  cbn [mog_while g_newf g_alpha g_count g_reset g_x]. rewrite A.
  replace (1 + Z.of_nat j <=? bt_maxit p)%Z with true by (symmetry; apply Z.leb_le; lia).
  cbn [andb negb]. replace (1 + Z.of_nat j + 1)%Z with (1 + Z.of_nat (S j))%Z by lia. reflexivity.
Qed.
Lemma step_stop j : ~ on j \/ j = Z.to_nat (bt_maxit p) -> exists s, body (st j) = Ok (Stop s) /\ finish s = Ok (outcome j).
Proof.
  intros H. unfold body, st, attempt, newxnewf, outcome. fold (along M x d (al j)). fold (trial j).
  destruct (f (trial j)) as [v|] eqn:E.
  - cbn [mog_while g_newf g_alpha g_count g_reset g_x].
    assert (C : (nlt N (nadd N f0 (nmul N (nmul N (bt_suff p) (al j)) df0)) v && (1 + Z.of_nat j <=? bt_maxit p)%Z && negb false) = false).
    { destruct H as [H|H].
      - destruct (nlt N _ v) eqn:A; [|reflexivity]. exfalso; apply H. exists v; split; auto.
      - replace (1 + Z.of_nat j <=? bt_maxit p)%Z with false by (symmetry; apply Z.leb_gt; lia). now rewrite andb_false_r. }
    rewrite C. eexists; split; [reflexivity|]. cbn. rewrite andb_true_r. destruct (nlt N f0 v); reflexivity.
  - destruct (f (replace (trial j) x)) as [v|] eqn:E'.
    + cbn [mog_while g_newf g_alpha g_count g_reset g_x]. rewrite andb_false_r. eexists; split; [reflexivity|].
      cbn. rewrite andb_false_r. reflexivity.
    + cbn [mog_while]. eexists; split; reflexivity.
Qed.
Lemma on_dec j : on j \/ ~ on j.
Proof.
  unfold on, goes_on. destruct (f _) as [v|]; [|right; intros (v & E & _); discriminate].
  destruct (nlt N (nadd N f0 (nmul N (nmul N (bt_suff p) (al j)) df0)) v) eqn:A.
  - left; exists v; auto.
  - right; intros (w & E & B). injection E as ->. congruence.
Qed.
Lemma run_from : forall k j, k = Z.to_nat (bt_maxit p) - j -> j <= Z.to_nat (bt_maxit p) -> (forall i, i < j -> on i) ->
  exists J, first_index_upto (fun i => ~ on i) (Z.to_nat (bt_maxit p)) J /\
    bind (loop body (S (S k)) (st j)) finish = Ok (outcome J).
Proof.
  induction k as [|k IH]; intros j Hk Hj Hb.
  - exists j. split; [split; [lia|split; [intros i Hi H; apply H; auto|right; lia]]|].
    destruct (step_stop j) as (s & E & F); [right; lia|]. cbn [loop]. rewrite E. exact F.
  - destruct (on_dec j) as [O|O].
    + destruct (IH (S j)) as (J & HJ & HL); try lia.
      { intros i Hi. destruct (Nat.eq_dec i j); [now subst|apply Hb; lia]. }
      exists J; split; auto.
      change (loop body (S (S (S k))) (st j)) with
        (bind (body (st j)) (fun o => match o with Stop r => Ok r | Continue s' => loop body (S (S k)) s' end)).
      rewrite step_on; auto; lia.
    + exists j. split; [split; [lia|split; [intros i Hi H; apply H; auto|left; exact O]]|].
      destruct (step_stop j) as (s & E & F); [left; exact O|].
      change (loop body (S (S (S k))) (st j)) with
        (bind (body (st j)) (fun o => match o with Stop r => Ok r | Continue s' => loop body (S (S k)) s' end)).
      rewrite E. exact F.
Qed.
Lemma search_spec oldf0 : bt_initial_step (bt_init p) (bt_optimism p) oldf0 f0 df0 (m_norm M x d) a0 ->
  exists J, first_index_upto (fun i => ~ on i) (Z.to_nat (bt_maxit p)) J /\
    mog_search M f replace p oldf0 x d f0 df0 = Ok (outcome J).
Proof.
  intros Hi. destruct (run_from (Z.to_nat (bt_maxit p)) 0) as (J & HJ & HL); try lia.
  exists J; split; auto. unfold mog_search.
  assert (E : match oldf0 with
    | Some old => let* a := ndiv N (nmul N (n_of_Z N 2) (nsub N f0 old)) df0 in Ok (nmul N a (bt_optimism p))
    | None => ndiv N (bt_init p) (m_norm M x d) end = Ok a0).
  { unfold bt_initial_step in Hi. destruct oldf0; auto. destruct Hi as (q & -> & ->). reflexivity. }
  rewrite E. exact HL.
Qed.
End Proofs.

(** The search stops at the first step (of at most [max_iterations] contractions) at which the objective cannot be computed or passes
    the Armijo test.  In the first case the point returned, and the caller's own point, is [replace]d, whatever its cost. *)
Theorem C111_first_step : forall (N : NumOps) (M : Mfd N) (f : pt M -> option N) replace p oldf0 x d f0 df0 a0,
  bt_initial_step (bt_init p) (bt_optimism p) oldf0 f0 df0 (m_norm M x d) a0 ->
  let alpha := contracted (nmul N (bt_contraction p)) a0 in
  exists J, first_index_upto (fun j => ~ goes_on M f x d (bt_suff p) f0 df0 (alpha j)) (Z.to_nat (bt_maxit p)) J /\
    let y := along M x d (alpha J) in
    mog_search M f replace p oldf0 x d f0 df0 = Ok
      match f y with
      | Some v => (Some (Some f0, if nlt N f0 v then (nmul N (n_of_Z N 0) (m_norm M x d), x) else (nmul N (alpha J) (m_norm M x d), y)), x)
      | None => (match f (replace y x) with
                 | Some _ => Some (Some f0, (nmul N (alpha J) (m_norm M x d), replace y x))
                 | None => None end, replace y x)
      end.
Proof. intros; apply search_spec; assumption. Qed.
Print Assumptions C111_first_step.

(** With an objective that can be computed everywhere it is the back-tracking search of the library, and the caller's point is kept. *)
Theorem C111_backtracking : forall (N : NumOps) (M : Mfd N) (f : pt M -> N) replace p oldf0 x d f0 df0,
  mog_search M (fun y => Some (f y)) replace p oldf0 x d f0 df0 =
  let* (st, sy, _) := bt_search M p oldf0 f x d f0 df0 in Ok (Some (st, sy), x).
Proof.
  intros.
  assert (I : (exists a0, bt_initial_step (bt_init p) (bt_optimism p) oldf0 f0 df0 (m_norm M x d) a0) \/
              exists e, match oldf0 with
    | Some old => let* a := ndiv N (nmul N (n_of_Z N 2) (nsub N f0 old)) df0 in Ok (nmul N a (bt_optimism p))
    | None => ndiv N (bt_init p) (m_norm M x d) end = Raise e).
  { unfold bt_initial_step. destruct oldf0.
    - destruct (ndiv N _ df0); [left; eauto|right; eexists; reflexivity].
    - destruct (ndiv N _ _); [left; eauto|right; eexists; reflexivity]. }
  destruct I as [(a0 & I)|(e & I)].
  - destruct (C111_first_step N M (fun y => Some (f y)) replace p oldf0 x d f0 df0 a0 I) as (J & (HJ & HB & HS) & E).
    destruct (bt_search_spec M p oldf0 f x d f0 df0 a0 I) as (J' & (HJ' & HB' & HS') & E').
    assert (Q : forall j, goes_on M (fun y => Some (f y)) x d (bt_suff p) f0 df0 (contracted (nmul N (bt_contraction p)) a0 j) <->
                          armijo_fails M f x d (bt_suff p) f0 df0 (contracted (nmul N (bt_contraction p)) a0 j)).
    { intros j; split; [intros (v & F & A); injection F as <-; exact A|intros A; eexists; split; [reflexivity|exact A]]. }
    assert (J = J').
    { destruct (Nat.lt_trichotomy J J') as [L|[L|L]]; auto; exfalso.
      - destruct HS as [H|H]; [|lia]. apply (HB' J L). intros A; apply H; apply Q; exact A.
      - destruct HS' as [H|H]; [|lia]. apply (HB J' L). intros A; apply H; apply Q; exact A. }
    subst J'. rewrite E, E'. cbn [bind]. destruct (nlt N f0 _); reflexivity.
  - unfold mog_search, bt_search. rewrite I. reflexivity.
Qed.
Print Assumptions C111_backtracking.

(** Not so in general: the point returned can be worse, and the caller's point is overwritten.  On the line with the objective
    [x^2], undefined below 0: from 1/2 along -1 the search tries -1/2, and leaves 1/2 for the replacement 5, reporting the step 1. *)
Theorem C111_refuted : exists (f : F -> option F) (replace : F -> F -> F) (x d f0 df0 s y : F) st,
  f x = Some f0 /\ mog_search (E1 F) f replace bt_default None x d f0 df0 = Ok (Some (st, (s, y)), y) /\
  y <> x /\ exists v, f y = Some v /\ nlt F f0 v = true /\ s <> nabs F (nsub F y x).
Proof.
  exists (fun x => if nlt F x (n_of_Z F 0) then None else Some (nmul F x x)), (fun _ _ => n_of_Z F 5),
    (lit 1 2), (nneg F (n_of_Z F 1)), (lit 1 4), (nneg F (n_of_Z F 1)).
  do 3 eexists. split; [vm_compute; reflexivity|]. split; [vm_compute; reflexivity|].
  split; [vm_compute; discriminate|]. eexists. split; [vm_compute; reflexivity|]. split; [vm_compute; reflexivity|vm_compute; discriminate].
Qed.
Print Assumptions C111_refuted.
