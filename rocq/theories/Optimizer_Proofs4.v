(** Conjugate gradient: the recurrence of the search directions over whole runs. *)
From Coq Require Import ZArith List Bool Lia.
From Verif Require Import Num_Model Num_Spec Num_Proofs LineSearch_Model Optimizer_Model Optimizer_Spec Optimizer_Proofs.
Import ListNotations.

Section CG.
Context {N : NumOps} {M : Mfd N}.
Variables (prob : OptProblem M) (LS : LineSearcher M) (sp : stop_params N) (clock : nat -> N)
  (rule : beta_args M -> res N) (orth : N) (x0 : pt M).

Definition cg_follows (c c' : pt M * tv M * N * N) : Prop :=
  let '(x, d, f0, df0) := c in let '(x', d', _, _) := c' in
  (exists ls ls' step calls, ls_search LS ls (p_cost prob) x d f0 df0 = Ok (ls', (step, x'), calls)) /\
  exists k, conjugate prob rule orth x d x' k /\ d' = or_restart prob x' k.

Fixpoint chain_rev (l : list (pt M * tv M * N * N)) : Prop :=
  match l with
  | c' :: (c :: _) as rest => cg_follows c c' /\ chain_rev rest
  | [(x, d, _, _)] => x = x0 /\ d = t_neg M (p_prec prob x0 (p_grad prob x0))
  | [] => True
  end.

Definition dir_inv (s : cg_state (recording LS)) : Prop :=
  chain_rev (snd (cg_ls s)) /\ cg_iteration s = Z.of_nat (length (snd (cg_ls s))) /\
  match snd (cg_ls s) with
  | [] => cg_x s = x0 /\ cg_dir s = t_neg M (p_prec prob x0 (p_grad prob x0))
  | (x, d, f0, df0) :: _ =>
      (exists ls ls' step calls, ls_search LS ls (p_cost prob) x d f0 df0 = Ok (ls', (step, cg_x s), calls)) /\
      conjugate prob rule orth x d (cg_x s) (cg_dir s)
  end.

Lemma dir_step start s s' : cg_inv prob (recording LS) sp x0 s -> dir_inv s ->
  cg_body prob (recording LS) sp clock rule orth start s = Ok (Continue s') -> dir_inv s'.
Proof.
  intros [_ IC IG IN IP IGP _ _ _] (D1 & DI & D2) H. unfold cg_body in H.
  destruct (check_stopping _ _ _ _ _ _ _ _); [discriminate|].
  destruct (cg_direction s) as [d df0] eqn:Ed.
  apply bind_ok in H as (((ls & (step & x')) & calls') & E & H).
  apply bind_ok in H as (og & O & H). apply bind_ok in H as (nd & ND & H). injection H as <-.
  simpl ls_search in E. apply bind_ok in E as (((l' & [st' y']) & c') & Hs & E). injection E as <- <- <- <-.
  unfold dir_inv. cbn [cg_ls cg_x cg_dir snd cg_iteration].
  assert (DD : d = or_restart prob (cg_x s) (cg_dir s)).
  { unfold cg_direction in Ed. unfold or_restart. rewrite IP, IG in Ed. destruct (nle N _ _); congruence. }
  rewrite IG in O.
  split; [|split; [cbn [length]; lia|split]].
  - cbn [chain_rev]. destruct (snd (cg_ls s)) as [|[[[px pd] pf] pdf] rest].
    + destruct D2 as [Dx Dd]. rewrite Dx in DD |- *. split; [reflexivity|]. rewrite DD, Dd. unfold or_restart. match goal with |- context [if ?b then _ else _] => destruct b end; reflexivity.
    + split; auto. destruct D2 as [DL Dc]. split; auto. exists (cg_dir s). auto.
  - eauto 6.
  - destruct (nle N orth (nabs N og)) eqn:EO.
    + injection ND as <-. eapply CgFar; eauto.
    + cbv zeta in ND. apply bind_ok in ND as (beta & B & ND). injection ND as <-.
      rewrite IG, IGP, IP, IG, IN in B. eapply CgBeta; eauto.
Qed.

Lemma cg_run_dirs ls0 r ls : cg_run prob (recording LS) sp clock rule orth (ls0, []) x0 = Ok (r, ls) ->
  chain_rev (snd ls) /\ r_iterations r = (Z.of_nat (length (snd ls)) + 1)%Z.
Proof.
  unfold cg_run. intros H. apply bind_ok in H as (u & _ & H).
  refine (loop_inv _ (fun s => cg_inv prob (recording LS) sp x0 s /\ dir_inv s)
     (fun '(r, l) => chain_rev (snd l) /\ r_iterations r = (Z.of_nat (length (snd l)) + 1)%Z) _ _ _ _ (r, ls) _ H).
  - intros s s' [HI HF] Hb. split; [eapply cg_inv_step; eauto|]. eapply dir_step; eauto.
  - intros s [r' l'] [HI HF] Hb. apply cg_body_inv in Hb.
    destruct Hb as (_ & _ & _ & IT & _ & _ & _ & ->). destruct HF as (F1 & F2 & _). split; auto. lia.
  - split; [apply cg_inv_init|]. unfold dir_inv. simpl. auto.
Qed.

Lemma chain_rev_nth l : chain_rev l -> forall k c c', nth_error (rev l) k = Some c -> nth_error (rev l) (S k) = Some c' -> cg_follows c c'.
Proof.
  induction l as [|a l IH]; intros C k c c' E1 E2; [destruct k; discriminate|].
  cbn [rev] in E1, E2.
  destruct l as [|b l].
  - cbn in E2. destruct k; discriminate.
  - destruct a as [[[? ?] ?] ?]. destruct C as [C1 C2]. destruct (Nat.lt_ge_cases (S k) (length (rev (b :: l)))) as [LT|GE].
    + rewrite nth_error_app1 in E1, E2 by lia. eapply IH; eauto.
    + assert (S k = length (rev (b :: l))) as LE.
      { assert (S k < length (rev (b :: l) ++ [(p, t, n, n0)])) as LL by (apply nth_error_Some; congruence).
        rewrite app_length in LL. simpl length in LL at 2. lia. }
      rewrite nth_error_app2, LE, Nat.sub_diag in E2 by lia. injection E2 as <-.
      rewrite nth_error_app1 in E1 by lia. cbn [rev] in E1, LE. rewrite app_length in LE. simpl in LE.
      rewrite nth_error_app2 in E1 by lia. replace (k - length (rev l)) with 0 in E1 by lia. injection E1 as <-. auto.
Qed.

Lemma chain_rev_hd l : chain_rev l -> match rev l with (x, d, _, _) :: _ => x = x0 /\ d = t_neg M (p_prec prob x0 (p_grad prob x0)) | [] => True end.
Proof.
  induction l as [|a l IH]; simpl; auto. destruct l as [|b l]; [destruct a as [[[? ?] ?] ?]; auto|].
  destruct a as [[[? ?] ?] ?]. intros [_ C]. specialize (IH C). destruct (rev (b :: l)) as [|c tl] eqn:E.
  - apply (f_equal (@length _)) in E. rewrite rev_length in E. discriminate.
  - rewrite <- app_comm_cons. auto.
Qed.
End CG.
