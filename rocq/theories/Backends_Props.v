(** C99: gradients and Hessians delivered by the automatic differentiation backends. *)
From Coq Require Import ZArith List Bool Reals Lra Lia ClassicalEpsilon.
From Coquelicot Require Import Coquelicot.
From Verif Require Import Num_Model Problem_Model Problem_Props Backends_Model Backends_Spec Backends_Proofs.
Import ListNotations.
Local Open Scope R_scope.

(** * Autograd *)
Theorem C99_autograd : forall (lib : autograd_lib) f x, autograd_promise lib -> point x ->
  (forall G, is_gradient f x G -> ag_gradient lib f (length x) x = Ok (answer (length x) G)) /\
  (forall g D v, second_derivative f g x D -> like x v ->
     ag_hessian lib f (length x) (x ++ v) = Ok (answer (length x) (D v))).
Proof.
  intros lib f x P Hx. split.
  - intros G HG. unfold ag_gradient. rewrite (P f x G Hx HG), map_conj_conj.
    apply deliver_ok. symmetry. apply like_length. apply HG.
  - intros g D v H2 Hv. unfold ag_hessian. pose proof (like_length _ _ Hv) as E. rewrite C42_bisect by exact E.
    cbn [bind]. unfold ag_hvp.
    pose proof (slope_gradient f g x D v Hx H2 Hv) as S.
    assert (S' : is_gradient (ag_vector_dot_gradient lib f (length x) v) x (D v)).
    { split; [apply S|]. intros w Hw. apply is_derive_ext with (2 := proj2 S w Hw). intros t.
      pose proof (like_move x t w Hx Hw) as Hm. pose proof (like_length _ _ Hm) as E1.
      destruct H2 as (Hg & _). specialize (Hg _ Hm).
      unfold ag_vector_dot_gradient. rewrite E1, (P f _ _ (like_point _ _ Hm) Hg).
      pose proof (like_length _ _ (proj1 Hg)) as E2.
      rewrite (combine_seq none none) by (rewrite map_length; lia). rewrite inner_seq by lia. rewrite map_length.
      apply rsum_ext. intros i _. cbn [fst snd]. change none with (np_conj none) at 3. rewrite map_nth.
      symmetry. apply contraction. }
    rewrite (P _ x (D v) Hx S'), map_conj_conj. apply deliver_ok. symmetry. apply like_length. apply S.
Qed.

(** * Jax *)
Lemma arr_derivative_conj c d : arr_derivative c d -> arr_derivative (fun t => np_conj (c t)) (np_conj d).
Proof.
  intros (H1 & H2). split.
  - intros t. destruct (H1 t) as (A & B & K). split; [exact A|]. split; [unfold np_conj; cbn; now rewrite !map_length|].
    intros Hk j. rewrite entry_conj. unfold Cconj, Im. cbn. specialize (K Hk j). unfold Im in K. rewrite K. ring.
  - intros j. destruct (H2 j) as [D1 D2]. split.
    + rewrite entry_conj. apply is_derive_ext with (2 := D1). intros t. now rewrite entry_conj.
    + rewrite entry_conj. change (Im (Cconj (entry d j))) with (- Im (entry d j)).
      apply is_derive_ext with (fun t => - Im (entry (c t) j)).
      * intros t. now rewrite entry_conj.
      * apply (is_derive_opp (fun t => Im (entry (c t) j)) 0 (Im (entry d j))). exact D2.
Qed.
Lemma arr_derivative_ext c c' d : (forall t, c t = c' t) -> arr_derivative c d -> arr_derivative c' d.
Proof.
  intros E (H1 & H2). split; [intros t; rewrite <- E; apply H1|].
  intros j. destruct (H2 j) as [D1 D2].
  split; [apply is_derive_ext with (2 := D1)|apply is_derive_ext with (2 := D2)]; intros t; now rewrite E.
Qed.

Theorem C99_jax : forall (lib : jax_lib) f x, jax_promise lib -> point x ->
  (forall G, is_gradient f x G -> jx_gradient lib f (length x) x = Ok (answer (length x) G)) /\
  (forall g D v, second_derivative f g x D -> like x v ->
     jx_hessian lib f (length x) (x ++ v) = Ok (answer (length x) (D v))).
Proof.
  intros lib f x [P Q] Hx. split.
  - intros G HG. unfold jx_gradient. rewrite (P f x G Hx HG), map_conj_conj.
    apply deliver_ok. symmetry. apply like_length. apply HG.
  - intros g D v (Hg & HD & _) Hv. unfold jx_hessian. pose proof (like_length _ _ Hv) as E. rewrite C42_bisect by exact E.
    cbn [bind]. destruct (HD v Hv) as [L1 L2]. pose proof (like_length _ _ L1) as E1.
    assert (F : forall y, like x y -> jx_grad lib f (length x) y = map np_conj (g y)).
    { intros y Hy. rewrite (like_length _ _ Hy). apply P; [now apply like_point in Hy|auto]. }
    rewrite (Q (jx_grad lib f (length x)) x v (map np_conj (D v)) Hx Hv).
    + rewrite map_conj_conj. apply deliver_ok. now symmetry.
    + now rewrite map_length.
    + intros y Hy. rewrite F by exact Hy. rewrite map_length.
      pose proof (like_length _ _ Hy). pose proof (like_length _ _ (proj1 (Hg y Hy))). lia.
    + intros i Hi. change none with (np_conj none) at 2. rewrite map_nth.
      apply arr_derivative_ext with (2 := arr_derivative_conj _ _ (L2 i Hi)). intros t.
      rewrite F by now apply like_move. change none with (np_conj none) at 2. now rewrite map_nth.
Qed.

(** * Recorded graphs *)
Lemma same_zeros a : same a (zeros_like a).
Proof.
  split; [reflexivity|]. split; [unfold zeros_like; cbn; now rewrite map_length|].
  intros _ j. rewrite entry_zeros. reflexivity.
Qed.
Lemma zero_arr a b : same a b -> (forall j, entry b j = RtoC 0) -> b = zeros_like a.
Proof.
  intros (H1 & H2 & _) Z. destruct (same_zeros a) as (K1 & K2 & _). apply arr_eq; [congruence|congruence|].
  intros j _. now rewrite Z, entry_zeros.
Qed.
Lemma move_zeros a t : move_arr a t (zeros_like a) = a.
Proof.
  destruct (same_zeros a) as (K1 & K2 & _).
  apply arr_eq; [reflexivity|now apply length_move|]. intros j _. rewrite entry_move, entry_zeros by exact K2.
  destruct (entry a j) as [u w]. unfold Cplus, Cmult, RtoC. cbn. f_equal; ring.
Qed.
Lemma inner_arr_zeros a b : inner_arr a (zeros_like b) = 0.
Proof.
  unfold inner_arr. apply rsum_zero. intros j _. rewrite entry_zeros, Re_conj_mult. unfold Re, Im, RtoC. cbn. ring.
Qed.

(** A function that is not connected to an argument has the partial gradient zero. *)
Lemma unconnected_zero n (t : tracked R) x G i : sound_graph n t -> point x -> length x = n -> (i < n)%nat ->
  nth i (connected t) false = false -> is_gradient (value t) x G -> nth i G none = zeros_like (nth i x none).
Proof.
  intros [_ S] Hx L Hi F [HG HD].
  pose proof (like_nth _ _ i HG ltac:(lia)) as Hs. apply zero_arr; [exact Hs|].
  set (pick := fun j => if Nat.eqb j i then nth i G none else zeros_like (nth j x none)).
  set (v := map pick (seq 0 n)).
  assert (Lv : length v = n) by (unfold v; now rewrite map_length, seq_length).
  assert (Nv : forall j, (j < n)%nat -> nth j v none = pick j).
  { intros j Hj. unfold v. rewrite nth_indep with (d' := pick 0%nat) by (rewrite map_length, seq_length; lia).
    rewrite map_nth, seq_nth by lia. reflexivity. }
  assert (Hv : like x v).
  { apply like_of_nth; [lia|]. intros j Hj. rewrite Nv by lia. unfold pick.
    destruct (Nat.eqb_spec j i) as [->|_]; [exact Hs|apply same_zeros]. }
  assert (E : inner G v = 0).
  { pose proof (is_derive_unique _ _ _ (HD v Hv)) as <-.
    transitivity (Derive (fun _ => value t x) 0); [|apply Derive_const]. apply Derive_ext. intros s. symmetry.
    apply S; auto; [now apply like_move|]. intros j Hj Cj. rewrite nth_move by lia. rewrite Nv by lia. unfold pick.
    destruct (Nat.eqb_spec j i) as [->|_]; [congruence|]. symmetry. apply move_zeros. }
  pose proof (like_length _ _ HG) as LG. rewrite inner_seq in E by lia.
  assert (Z : inner_arr (nth i G none) (nth i v none) = 0).
  { apply (rsum_zero_inv (fun j => inner_arr (nth j G none) (nth j v none)) (seq 0 (length G)));
      [|exact E|apply in_seq; lia].
    intros j Hj. apply in_seq in Hj. rewrite Nv by lia. unfold pick.
    destruct (Nat.eqb_spec j i) as [->|_]; [apply inner_arr_pos|rewrite inner_arr_zeros; lra]. }
  rewrite Nv in Z by lia. unfold pick in Z. rewrite Nat.eqb_refl in Z. apply inner_arr_def. exact Z.
Qed.

Lemma sanitized grads x G n (t : tracked R) : graph_gradients grads -> sound_graph n t -> point x -> length x = n ->
  is_gradient (value t) x G ->
  sanitize_gradients x (map (option_map (fun g => value g x)) (grads t)) = G.
Proof.
  intros P S Hx L HG. destruct (P n t S) as [L1 H]. pose proof (like_length _ _ (proj1 HG)) as L2.
  unfold sanitize_gradients. set (h := fun tg : arr * option arr => _).
  apply nth_ext with (d := h (none, None)) (d' := none); [rewrite map_length, combine_length, map_length; lia|].
  intros i Hi. rewrite map_length, combine_length, map_length in Hi.
  rewrite map_nth, combine_nth by (rewrite map_length; lia).
  change (@None arr) with (option_map (fun g => value g x) (@None (tracked arr))) at 1. rewrite map_nth.
  destruct (H i ltac:(lia)) as [H0 H1]. destruct (nth i (connected t) false) eqn:F.
  - destruct (H1 eq_refl) as (g & -> & _ & Hv). cbn. apply Hv; auto.
  - rewrite (H0 eq_refl). cbn. symmetry. eapply unconnected_zero; eauto. lia.
Qed.

(** * PyTorch *)
Lemma torch_core lib n t x G : torch_promise lib -> sound_graph n t -> requires_grad t = true -> point x -> length x = n ->
  is_gradient (value t) x G ->
  (let* grads := th_backward lib t x in Ok (sanitize_gradients x grads)) = Ok G.
Proof.
  intros P S R Hx L HG. unfold th_backward. rewrite R. cbn [bind]. f_equal. eapply sanitized; eauto.
Qed.

Lemma nth_or_flags a b i : length a = length b -> nth i (or_flags a b) false = nth i a false || nth i b false.
Proof.
  intros E. unfold or_flags. set (f := fun p : bool * bool => fst p || snd p).
  change false with (f (false, false)) at 1. rewrite map_nth, combine_nth by exact E. reflexivity.
Qed.
Lemma requires_or_flags a b : length a = length b ->
  existsb (fun b => b) (or_flags a b) = existsb (fun b => b) a || existsb (fun b => b) b.
Proof.
  revert b. induction a as [|p a IH]; intros [|q b] E; cbn in E; try discriminate; auto.
  unfold or_flags in *. cbn. rewrite IH by lia. destruct p, q, (existsb _ a), (existsb _ b); reflexivity.
Qed.

Definition term (gv : option (tracked arr) * arr) (y : args) : R :=
  match fst gv with Some g => Re (tensordot (np_conj (value g y)) (snd gv)) | None => 0 end.
Definition live (gv : option (tracked arr) * arr) : bool :=
  match fst gv with Some g => requires_grad g | None => false end.
Lemma dot_product_spec n gvs :
  (forall gv, In gv gvs -> exists g, fst gv = Some g /\ sound_graph n g) ->
  exists d, th_dot_product n gvs = Ok d /\ sound_graph n d /\
    (forall y, value d y = rsum (map (fun gv => term gv y) gvs)) /\ requires_grad d = existsb live gvs.
Proof.
  induction gvs as [|[g v] gvs IH]; intros H; cbn [th_dot_product].
  - eexists; split; [reflexivity|]. split; [split; [apply repeat_length|reflexivity]|]. split; [reflexivity|].
    unfold requires_grad. cbn. clear H. induction n; auto.
  - destruct (IH (fun gv K => H gv (or_intror K))) as (d & -> & [L1 S1] & V & Q).
    destruct (H (g, v) (or_introl eq_refl)) as (g' & E & [L2 S2]). cbn in E. subst g. cbn [bind].
    eexists; split; [reflexivity|]. split; [split|split].
    + cbn. unfold or_flags. rewrite map_length, combine_length. lia.
    + intros x y Hp Hl Hn K. cbn.
      assert (K' : forall i, (i < n)%nat -> nth i (connected g') false || nth i (connected d) false = true -> nth i x none = nth i y none).
      { intros i Hi F. apply K; auto. cbn. rewrite nth_or_flags by lia. exact F. }
      rewrite (S2 x y Hp Hl Hn), (S1 x y Hp Hl Hn); auto; intros i Hi F; apply K'; auto; rewrite F; auto with bool.
    + intros y. cbn. rewrite V. reflexivity.
    + unfold requires_grad at 1. cbn [connected]. rewrite requires_or_flags by lia.
      change (existsb live ((Some g', v) :: gvs)) with (requires_grad g' || existsb live gvs).
      rewrite <- Q. reflexivity.
Qed.

Lemma dot_product_none n gvs : (exists gv, In gv gvs /\ fst gv = None) -> th_dot_product n gvs = Raise AttributeError.
Proof.
  intros (gv & Hi & Hn). induction gvs as [|[g v] gvs IH]; [destruct Hi|]. destruct Hi as [<-|Hi].
  - cbn in Hn. subst g. reflexivity.
  - cbn. destruct g; [|reflexivity]. now rewrite IH.
Qed.

Theorem C99_pytorch : forall (lib : torch_lib) (f : tracked R) x,
  torch_promise lib -> sound_graph (length x) f -> point x -> requires_grad f = true ->
  (forall G, is_gradient (value f) x G -> th_gradient lib f (length x) x = Ok (answer (length x) G)) /\
  (forall g D v, second_derivative (value f) g x D -> like x v ->
     (forall i, (i < length x)%nat -> nth i (connected f) false = true) ->
     (exists i h, nth i (th_grad lib f) None = Some h /\ requires_grad h = true) ->
     th_hessian lib f (length x) (x ++ v) = Ok (answer (length x) (D v))).
Proof.
  intros lib f x P S Hx R. split.
  - intros G HG. unfold th_gradient. rewrite (torch_core lib (length x) f x G) by auto.
    apply deliver_ok. symmetry. apply like_length. apply HG.
  - intros g D v H2 Hv All (k & h & Hk & Rh). unfold th_hessian. pose proof (like_length _ _ Hv) as E.
    rewrite C42_bisect by exact E. cbn [bind]. rewrite R.
    destruct (P (length x) f S) as [L1 H].
    set (gvs := combine (th_grad lib f) v).
    assert (Lg : length gvs = length x) by (unfold gvs; rewrite combine_length; lia).
    assert (Ng : forall i, nth i gvs (None, none) = (nth i (th_grad lib f) None, nth i v none)).
    { intros i. unfold gvs. apply combine_nth. lia. }
    destruct (dot_product_spec (length x) gvs) as (d & -> & Sd & Vd & Rd).
    { intros gv Hgv. apply In_nth with (d := (None, none)) in Hgv. destruct Hgv as (i & Hi & <-).
      rewrite Ng. destruct (H i ltac:(lia)) as [_ H1]. destruct (H1 (All i ltac:(lia))) as (g' & -> & Sg & _).
      exists g'. split; [reflexivity|exact Sg]. }
    cbn [bind].
    assert (Rd' : requires_grad d = true).
    { rewrite Rd. apply existsb_exists. exists (nth k gvs (None, none)). split.
      - apply nth_In. destruct (Nat.lt_ge_cases k (length gvs)); auto.
        rewrite nth_overflow in Hk by lia. discriminate.
      - rewrite Ng, Hk. exact Rh. }
    pose proof (slope_gradient (value f) g x D v Hx H2 Hv) as Sl.
    assert (Sl' : is_gradient (value d) x (D v)).
    { split; [apply Sl|]. intros w Hw. apply is_derive_ext with (2 := proj2 Sl w Hw). intros t.
      pose proof (like_move x t w Hx Hw) as Hm. destruct H2 as (Hg & _). specialize (Hg _ Hm).
      pose proof (like_length _ _ Hm) as E1. pose proof (like_length _ _ (proj1 Hg)) as E2.
      rewrite Vd, inner_seq by lia. symmetry.
      replace gvs with (map (fun i => nth i gvs (None, none)) (seq 0 (length gvs))) at 1.
      - rewrite map_map, Lg. replace (length (g (move x t w))) with (length x) by lia.
        apply rsum_ext. intros i Hi. apply in_seq in Hi. rewrite Ng. unfold term. cbn [fst snd].
        destruct (H i ltac:(lia)) as [_ H1]. destruct (H1 (All i ltac:(lia))) as (g' & -> & _ & Vg).
        rewrite (Vg _ _ (like_point _ _ Hm) Hg) by lia. apply contraction.
      - apply nth_ext with (d := nth 0 gvs (None, none)) (d' := (None, none)); [now rewrite map_length, seq_length|].
        intros i Hi. rewrite map_length, seq_length in Hi.
        rewrite (map_nth (fun i => nth i gvs (None, none)) (seq 0 (length gvs)) 0%nat), seq_nth by lia. reflexivity. }
    rewrite (torch_core lib (length x) d x (D v)) by auto.
    apply deliver_ok. symmetry. apply like_length. apply Sl.
Qed.

(** What happens outside these conditions: a function computed without its arguments has neither gradient nor Hessian;
    with an argument that is not used the Hessian fails; and so it does if no gradient depends on the arguments. *)
Theorem C99_pytorch_failures : forall (lib : torch_lib) (f : tracked R) x v,
  torch_promise lib -> sound_graph (length x) f -> length x = length v ->
  (requires_grad f = false ->
     th_gradient lib f (length x) x = Raise RuntimeError /\ th_hessian lib f (length x) (x ++ v) = Raise RuntimeError) /\
  (forall i, requires_grad f = true -> (i < length x)%nat -> nth i (connected f) false = false ->
     th_hessian lib f (length x) (x ++ v) = Raise AttributeError) /\
  (requires_grad f = true -> (forall i, (i < length x)%nat -> nth i (connected f) false = true) ->
   (forall i h, nth i (th_grad lib f) None = Some h -> requires_grad h = false) ->
     th_hessian lib f (length x) (x ++ v) = Raise RuntimeError).
Proof.
  intros lib f x v P S E. destruct (P (length x) f S) as [L1 H]. split; [|split].
  - intros R. unfold th_gradient, th_hessian, th_backward. rewrite C42_bisect by exact E. cbn [bind]. rewrite R. auto.
  - intros i R Hi F. unfold th_hessian. rewrite C42_bisect by exact E. cbn [bind]. rewrite R.
    replace (th_dot_product (length x) (combine (th_grad lib f) v)) with (@Raise (tracked Rdefinitions.R) AttributeError); [reflexivity|].
    symmetry. apply dot_product_none. exists (nth i (combine (th_grad lib f) v) (None, none)). split.
    + apply nth_In. rewrite combine_length. lia.
    + rewrite combine_nth by lia. cbn. apply (H i Hi). exact F.
  - intros R All Q. unfold th_hessian. rewrite C42_bisect by exact E. cbn [bind]. rewrite R.
    set (gvs := combine (th_grad lib f) v).
    assert (Lg : length gvs = length x) by (unfold gvs; rewrite combine_length; lia).
    assert (Ng : forall i, nth i gvs (None, none) = (nth i (th_grad lib f) None, nth i v none)).
    { intros i. unfold gvs. apply combine_nth. lia. }
    destruct (dot_product_spec (length x) gvs) as (d & -> & Sd & Vd & Rd).
    { intros gv Hgv. apply In_nth with (d := (None, none)) in Hgv. destruct Hgv as (i & Hi & <-).
      rewrite Ng. destruct (H i ltac:(lia)) as [_ H1]. destruct (H1 (All i ltac:(lia))) as (g' & -> & Sg & _).
      exists g'. split; [reflexivity|exact Sg]. }
    cbn [bind]. unfold th_backward. replace (requires_grad d) with false; [reflexivity|].
    rewrite Rd. symmetry. apply not_true_is_false. intros K. apply existsb_exists in K. destruct K as (gv & Hgv & K).
    apply In_nth with (d := (None, none)) in Hgv. destruct Hgv as (i & Hi & <-). rewrite Ng in K. unfold live in K.
    cbn [fst] in K. destruct (nth i (th_grad lib f) None) as [h|] eqn:Eh; [|discriminate].
    rewrite (Q i h Eh) in K. discriminate.
Qed.

(** * TensorFlow *)
(** A curve of arrays that does not move has the derivative zero. *)
Lemma constant_derivative c d a : arr_derivative c d -> (forall t, c t = a) -> d = zeros_like a.
Proof.
  intros (H1 & H2) Hc. apply zero_arr; [rewrite <- (Hc 0); apply H1|]. intros j. destruct (H2 j) as [D1 D2].
  apply is_derive_unique in D1, D2.
  assert (Z1 : Re (entry d j) = 0).
  { rewrite <- D1. transitivity (Derive (fun _ => Re (entry a j)) 0); [|apply Derive_const].
    apply Derive_ext. intros t. now rewrite Hc. }
  assert (Z2 : Im (entry d j) = 0).
  { rewrite <- D2. transitivity (Derive (fun _ => Im (entry a j)) 0); [|apply Derive_const].
    apply Derive_ext. intros t. now rewrite Hc. }
  destruct (entry d j) as [u w]. unfold Re, Im, RtoC in *. cbn in *. congruence.
Qed.
Lemma zeros_same a b : same a b -> zeros_like b = zeros_like a.
Proof.
  intros Hs. apply zero_arr; [|apply entry_zeros]. apply same_trans with b; [exact Hs|apply same_zeros].
Qed.
Lemma same_zeros_of a b : same a (zeros_like b) -> zeros_like b = zeros_like a.
Proof. intros Hs. apply zero_arr; [exact Hs|apply entry_zeros]. Qed.
Lemma zeros_zeros a : zeros_like (zeros_like a) = zeros_like a.
Proof. apply zeros_same. apply same_zeros. Qed.
Lemma existsb_none l i : existsb (fun b : bool => b) l = false -> nth i l false = false.
Proof.
  revert i. induction l as [|b l IH]; intros [|i] H; cbn in *; auto; apply orb_false_iff in H; [tauto|apply IH; tauto].
Qed.

Theorem C99_tensorflow : forall (lib : tf_lib) (f : tracked R) x,
  tf_promise lib -> sound_graph (length x) f -> point x ->
  (forall G, is_gradient (value f) x G -> tf_gradient lib f (length x) x = Ok (answer (length x) G)) /\
  (forall g D v, second_derivative (value f) g x D -> like x v ->
     (forall i, (i < length x)%nat -> nth i (connected f) false = true) \/ tf_jvp_none lib = Ok None ->
     tf_hessian lib f (length x) (x ++ v) = Ok (answer (length x) (D v))).
Proof.
  intros lib f x [P Q] S Hx. split.
  - intros G HG. unfold tf_gradient. rewrite (sanitized (tf_grad lib) x G (length x) f) by auto.
    apply deliver_ok. symmetry. apply like_length. apply HG.
  - intros g D v (Hg & HD & _) Hv Used. unfold tf_hessian. pose proof (like_length _ _ Hv) as E.
    rewrite C42_bisect by exact E. cbn [bind].
    destruct (HD v Hv) as [L1 L2]. pose proof (like_length _ _ L1) as E1.
    destruct (P (length x) f S) as [L3 H].
    set (jv := fun g : option (tracked arr) => match g with Some g => tf_jvp lib g x v | None => None end).
    assert (J : tf_jvps lib (tf_grad lib f) x v = Ok (map jv (tf_grad lib f))).
    { assert (K : forall o, In o (tf_grad lib f) -> o = None -> tf_jvp_none lib = Ok None).
      { intros o Ho ->. destruct Used as [Used|]; [|assumption].
        apply In_nth with (d := None) in Ho. destruct Ho as (i & Hi & Ei).
        destruct (H i ltac:(lia)) as [_ H1]. destruct (H1 (Used i ltac:(lia))) as (h & Eh & _). congruence. }
      revert K. generalize (tf_grad lib f). clear. intros l K. induction l as [|[o|] l IH]; [reflexivity| |].
      - cbn. rewrite (IH (fun p Hp => K p (or_intror Hp))). reflexivity.
      - cbn. rewrite (K None (or_introl eq_refl) eq_refl), (IH (fun p Hp => K p (or_intror Hp))). reflexivity. }
    rewrite J. cbn [bind].
    replace (sanitize_gradients x (map jv (tf_grad lib f))) with (D v); [apply deliver_ok; now symmetry|].
    unfold sanitize_gradients. set (h := fun tg : arr * option arr => _).
    apply nth_ext with (d := none) (d' := h (none, None)); [rewrite map_length, combine_length, map_length; lia|].
    intros i Hi. rewrite map_nth, combine_nth by (rewrite map_length; lia).
    change (@None arr) with (jv None) at 1. rewrite map_nth.
    specialize (L2 i ltac:(lia)). destruct (H i ltac:(lia)) as [H0 H1].
    pose proof (like_nth _ _ i L1 ltac:(lia)) as Sd.
    destruct (nth i (connected f) false) eqn:F.
    + destruct (H1 eq_refl) as (gi & -> & Sg & Vg).
      assert (C : forall t, value gi (move x t v) = nth i (g (move x t v)) none).
      { intros t. pose proof (like_move x t v Hx Hv) as Hm.
        apply Vg; [now apply like_point in Hm|now apply Hg|symmetry; now apply like_length]. }
      assert (L4 : arr_derivative (fun t => value gi (move x t v)) (nth i (D v) none)).
      { apply arr_derivative_ext with (2 := L2). intros t. now rewrite C. }
      cbn [jv]. rewrite (Q (length x) gi x v (nth i (D v) none) Sg Hx Hv eq_refl L4).
      destruct (requires_grad gi) eqn:R; [reflexivity|]. unfold h. cbn.
      apply zero_arr; [exact Sd|].
      rewrite (constant_derivative _ _ (value gi x) L4); [apply entry_zeros|].
      intros t. symmetry. destruct Sg as [_ Sg]. apply Sg; auto; [now apply like_move|].
      intros k _ Hk. rewrite (existsb_none _ k R) in Hk. discriminate.
    + rewrite (H0 eq_refl). cbn. apply zero_arr; [exact Sd|].
      rewrite (constant_derivative _ _ (zeros_like (nth i x none)) L2); [apply entry_zeros|].
      intros t. pose proof (like_move x t v Hx Hv) as Hm.
      rewrite (unconnected_zero (length x) f (move x t v) (g (move x t v)) i); auto;
        [|now apply like_point in Hm|symmetry; now apply like_length|lia].
      apply zeros_same. apply like_nth; [exact Hm|lia].
Qed.

(** * Libraries that keep the promises *)
Definition the_gradient (f : args -> R) (x : args) : list arr := epsilon (inhabits []) (fun G => is_gradient f x G).
Lemma the_gradient_eq f x G : point x -> is_gradient f x G -> the_gradient f x = G.
Proof.
  intros Hx HG. apply (gradient_unique f x); auto. unfold the_gradient.
  apply (epsilon_spec (inhabits []) (fun G => is_gradient f x G)). now exists G.
Qed.
Definition the_derivative (c : R -> arr) : arr := epsilon (inhabits none) (arr_derivative c).
Lemma the_derivative_eq c d : arr_derivative c d -> the_derivative c = d.
Proof.
  intros H. apply (arr_derivative_unique c); auto. apply (epsilon_spec (inhabits none) (arr_derivative c)). now exists d.
Qed.

Definition an_autograd : autograd_lib := mkAutograd (fun f _ x => map np_conj (the_gradient f x)).
Definition a_jax : jax_lib := mkJax (fun f _ x => map np_conj (the_gradient f x))
  (fun F x v => (F x, map (fun i => the_derivative (fun t => nth i (F (move x t v)) none)) (seq 0 (length x)))).
(** Gradients that do not change with the arguments are not connected to them. *)
Definition graph (t : tracked R) : list (option (tracked arr)) :=
  let n := length (connected t) in
  map (fun i => if nth i (connected t) false then
         let g := fun x => nth i (the_gradient (value t) x) none in
         Some (mkTracked g (if excluded_middle_informative (forall x y, point x -> like x y -> length x = n -> g x = g y)
                            then repeat false n else repeat true n))
       else None) (seq 0 n).
Definition a_torch : torch_lib := mkTorch graph.
Definition a_tf : tf_lib := mkTf graph
  (fun g x v => if requires_grad g then Some (the_derivative (fun t => value g (move x t v))) else None) (Ok None).

Lemma graph_ok : graph_gradients graph.
Proof.
  intros n t [L S]. unfold graph. rewrite L. split; [now rewrite map_length, seq_length|].
  intros i Hi. set (F := fun i : nat => _).
  assert (E : nth i (map F (seq 0 n)) None = F i).
  { rewrite nth_indep with (d' := F 0%nat) by (rewrite map_length, seq_length; lia). rewrite map_nth, seq_nth by lia. reflexivity. }
  rewrite E. unfold F. split; intros ->; [reflexivity|]. eexists. split; [reflexivity|]. split; [split|].
  - cbn. destruct (excluded_middle_informative _); apply repeat_length.
  - intros x y Hx Hl Hn K. cbn in *. destruct (excluded_middle_informative _) as [Cst|_]; [now apply Cst|].
    replace y with x; [reflexivity|]. pose proof (like_length _ _ Hl).
    apply nth_ext with (d := none) (d' := none); [lia|]. intros k Hk. apply K; [lia|].
    rewrite nth_indep with (d' := true) by (rewrite repeat_length; lia). apply nth_repeat.
  - intros x G Hx HG _. cbn. now rewrite (the_gradient_eq _ _ G).
Qed.

Theorem C99_promises : autograd_promise an_autograd /\ jax_promise a_jax /\ torch_promise a_torch /\ tf_promise a_tf.
Proof.
  split; [|split; [|split]].
  - intros f x G Hx HG. cbn. now rewrite (the_gradient_eq _ _ G).
  - split.
    + intros f x G Hx HG. cbn. now rewrite (the_gradient_eq _ _ G).
    + intros F x v D Hx Hv L _ H. cbn.
      set (d := fun i => the_derivative (fun t => nth i (F (move x t v)) none)).
      apply nth_ext with (d := d 0%nat) (d' := none); [now rewrite map_length, seq_length|].
      intros i Hi. rewrite map_length, seq_length in Hi. rewrite map_nth, seq_nth by lia.
      apply the_derivative_eq. apply H. lia.
  - apply graph_ok.
  - split; [apply graph_ok|]. intros n g x v d S Hx Hv L H. cbn. destruct (requires_grad g); [|reflexivity].
    f_equal. now apply the_derivative_eq.
Qed.

(** * A cost: half the sum of the squared absolute values of all entries *)
Lemma inner_arr_sym a b : length (entries a) = length (entries b) -> inner_arr a b = inner_arr b a.
Proof. intros E. unfold inner_arr. rewrite E. apply rsum_ext. intros j _. rewrite !Re_conj_mult. ring. Qed.
Lemma inner_sym x v w : like x v -> like x w -> inner v w = inner w v.
Proof.
  intros Hv Hw. pose proof (like_length _ _ Hv). pose proof (like_length _ _ Hw).
  rewrite !inner_seq by lia. replace (length w) with (length v) by lia. apply rsum_ext.
  intros i Hi. apply in_seq in Hi. apply inner_arr_sym.
  apply (same_back (nth i x none)); apply like_nth; auto; lia.
Qed.
Definition half_square (y : args) : R := inner y y / 2.
Lemma half_square_gradient y : point y -> is_gradient half_square y y.
Proof.
  intros Hy. split; [now apply like_refl|]. intros v Hv. unfold half_square.
  pose proof (like_length _ _ Hv) as E.
  apply is_derive_ext with (fun t => (inner y y + t * inner y v + t * (inner y v + t * inner v v)) / 2).
  { intros t. pose proof (like_move y t v Hy Hv) as Hm.
    rewrite (inner_move y t v (move y t v)) by (auto; now apply like_length).
    rewrite (inner_sym y y (move y t v)), (inner_sym y v (move y t v)) by (auto using like_refl).
    rewrite !inner_move by auto. rewrite (inner_sym y v y) by (auto using like_refl). reflexivity. }
  auto_derive; [exact I|]. field.
Qed.
Lemma half_square_second x : point x -> second_derivative half_square (fun y => y) x (fun v => v).
Proof.
  intros Hx. split; [|split].
  - intros y Hy. apply half_square_gradient. now apply like_point in Hy.
  - intros v Hv. split; [exact Hv|]. intros i Hi. pose proof (like_length _ _ Hv) as E.
    pose proof (like_nth _ _ i Hv Hi) as Hs. split.
    + intros t. apply (same_back (nth i x none)); [|exact Hs]. apply like_nth; [now apply like_move|exact Hi].
    + destruct Hs as (_ & S2 & _). intros j. split.
      * apply is_derive_ext with (fun t => Re (entry (nth i x none) j) + t * Re (entry (nth i v none) j)).
        { intros t. rewrite nth_move by exact E. rewrite entry_move by exact S2. unfold Cplus, Cmult, RtoC, Re. cbn. ring. }
        auto_derive; [exact I|ring].
      * apply is_derive_ext with (fun t => Im (entry (nth i x none) j) + t * Im (entry (nth i v none) j)).
        { intros t. rewrite nth_move by exact E. rewrite entry_move by exact S2. unfold Cplus, Cmult, RtoC, Im. cbn. ring. }
        auto_derive; [exact I|ring].
  - intros v w. apply inner_sym.
Qed.

(** A complex array with two entries and a real one with one; a direction of the same kinds. *)
Definition x0 : args := [mkArr true [(1, 2); (3, 0)]; mkArr false [(4, 0)]].
Definition v0 : args := [mkArr true [(0, 1); (5, -1)]; mkArr false [(-2, 0)]].
Lemma sound_real (z : R) : sound_arr (mkArr false [(z, 0)]).
Proof. intros _ [|[|j]]; reflexivity. Qed.
Lemma x0_point : point x0.
Proof. repeat constructor; [discriminate|apply sound_real]. Qed.
Lemma v0_like : like x0 v0.
Proof. repeat constructor; [discriminate|apply sound_real]. Qed.

Definition f0 : tracked R := mkTracked half_square [true; true].
Lemma f0_sound : sound_graph (length x0) f0.
Proof.
  split; [reflexivity|]. intros x y _ Hl L K. pose proof (like_length _ _ Hl) as E.
  replace y with x; [reflexivity|]. apply nth_ext with (d := none) (d' := none); [exact E|].
  intros i Hi. cbn in L. apply K; [cbn; lia|]. destruct i as [|[|i]]; [reflexivity|reflexivity|lia].
Qed.
Lemma f0_live : exists i h, nth i (th_grad a_torch f0) None = Some h /\ requires_grad h = true.
Proof.
  exists 0%nat. eexists. split; [reflexivity|]. unfold requires_grad. cbn [connected].
  destruct (excluded_middle_informative _) as [Cst|_]; [exfalso|reflexivity].
  specialize (Cst x0 v0 x0_point v0_like eq_refl). cbn [value f0] in Cst.
  rewrite (the_gradient_eq _ x0 x0 x0_point (half_square_gradient _ x0_point)) in Cst.
  pose proof (like_point _ _ v0_like) as Pv.
  rewrite (the_gradient_eq _ v0 v0 Pv (half_square_gradient _ Pv)) in Cst.
  cbn in Cst. injection Cst. intros. lra.
Qed.

Example C99_instance :
  ag_gradient an_autograd half_square 2 x0 = Ok (Several x0) /\ ag_hessian an_autograd half_square 2 (x0 ++ v0) = Ok (Several v0) /\
  jx_gradient a_jax half_square 2 x0 = Ok (Several x0) /\ jx_hessian a_jax half_square 2 (x0 ++ v0) = Ok (Several v0) /\
  th_gradient a_torch f0 2 x0 = Ok (Several x0) /\ th_hessian a_torch f0 2 (x0 ++ v0) = Ok (Several v0) /\
  tf_gradient a_tf f0 2 x0 = Ok (Several x0) /\ tf_hessian a_tf f0 2 (x0 ++ v0) = Ok (Several v0).
Proof.
  destruct C99_promises as (P1 & P2 & P3 & P4).
  pose proof x0_point as Hx. pose proof v0_like as Hv. pose proof (half_square_second x0 Hx) as H2.
  pose proof (half_square_gradient x0 Hx) as H1.
  destruct (C99_autograd _ half_square x0 P1 Hx) as [A1 A2].
  destruct (C99_jax _ half_square x0 P2 Hx) as [B1 B2].
  destruct (C99_pytorch _ f0 x0 P3 f0_sound Hx eq_refl) as [D1 D2].
  destruct (C99_tensorflow _ f0 x0 P4 f0_sound Hx) as [E1 E2].
  assert (All : forall i, (i < length x0)%nat -> nth i (connected f0) false = true).
  { intros [|[|i]] Hi; cbn in Hi; [reflexivity|reflexivity|lia]. }
  split; [exact (A1 _ H1)|]. split; [exact (A2 _ _ v0 H2 Hv)|].
  split; [exact (B1 _ H1)|]. split; [exact (B2 _ _ v0 H2 Hv)|].
  split; [exact (D1 _ H1)|]. split; [exact (D2 _ _ v0 H2 Hv All f0_live)|].
  split; [exact (E1 _ H1)|exact (E2 _ _ v0 H2 Hv (or_introl All))].
Qed.

(** * A linear cost: the real part of the first entry *)
Definition first (y : args) : R := Re (entry (nth 0 y none) 0).
Definition unit_arr (a : arr) : arr :=
  mkArr (is_complex a) (match entries a with [] => [] | _ :: l => RtoC 1 :: map (fun _ => RtoC 0) l end).
Definition first_gradient (y : args) : list arr :=
  match y with [] => [] | a :: l => unit_arr a :: map zeros_like l end.
Lemma same_unit a b : same a b -> unit_arr a = unit_arr b /\ zeros_like a = zeros_like b.
Proof.
  destruct a as [k l], b as [k' l']. intros (E1 & E2 & _). cbn in *. subst k'. unfold unit_arr, zeros_like. cbn.
  assert (Z : forall l l' : list C, length l = length l' -> map (fun _ => RtoC 0) l = map (fun _ => RtoC 0) l').
  { induction l0 as [|z l0 IH]; intros [|z' l1] E; cbn in *; try discriminate; auto. now rewrite (IH l1) by lia. }
  split; f_equal; auto. destruct l, l'; cbn in *; try discriminate; auto. now rewrite (Z l l') by lia.
Qed.
Lemma first_gradient_const x y : like x y -> first_gradient x = first_gradient y.
Proof.
  intros H. destruct H as [|a b x y Hs H]; [reflexivity|]. cbn. f_equal; [now apply same_unit|].
  induction H as [|c d x y Hc H IH]; [reflexivity|]. cbn. rewrite IH. f_equal. now apply same_unit.
Qed.
Lemma unit_same a : same a (unit_arr a).
Proof.
  destruct a as [k [|z l]]; (split; [reflexivity|split; [cbn; now rewrite ?map_length|]]); intros _ j; unfold entry, unit_arr; cbn.
  - now destruct j.
  - destruct j; cbn; [reflexivity|]. rewrite (map_nth (fun _ => RtoC 0) l (RtoC 0)). reflexivity.
Qed.
Lemma unit_inner a v : same a v -> inner_arr (unit_arr a) v = Re (entry v 0).
Proof.
  destruct a as [k [|z l]]; intros (_ & E & _); unfold inner_arr, unit_arr; cbn.
  - destruct v as [k' [|]]; cbn in E; [reflexivity|discriminate].
  - unfold rsum. cbn. set (s := fold_right _ _ _). replace s with 0; [unfold Re; ring|].
    symmetry. unfold s. change (fold_right Rplus 0) with rsum. apply rsum_zero. intros j Hj.
    apply in_seq in Hj. destruct j as [|j]; [lia|]. unfold entry at 1 2. cbn.
    change 0 with (Re (RtoC 0)) at 3. 
    rewrite (map_nth (fun _ => RtoC 0) l (RtoC 0)). unfold RtoC, Re. cbn. ring.
Qed.
Lemma first_is_gradient y : point y -> is_gradient first y (first_gradient y).
Proof.
  intros Hy. split.
  - destruct y as [|a y]; cbn; constructor; [apply unit_same|].
    clear Hy. induction y as [|b y IH]; cbn; constructor; [apply same_zeros|exact IH].
  - intros v Hv. unfold first.
    replace (inner (first_gradient y) v) with (Re (entry (nth 0 v none) 0)).
    + apply is_derive_ext with (fun t => Re (entry (nth 0 y none) 0) + t * Re (entry (nth 0 v none) 0)).
      * intros t. rewrite nth_move by now apply like_length.
        rewrite entry_move; [unfold Cplus, Cmult, RtoC, Re; cbn; ring|].
        destruct Hv as [|a b y v Hs Hv]; [reflexivity|]. apply Hs.
      * auto_derive; [exact I|ring].
    + destruct Hv as [|a b y v Hs Hv]; [reflexivity|]. unfold inner. cbn -[inner_arr].
      rewrite (unit_inner a b Hs). unfold rsum. cbn -[inner_arr]. set (s := fold_right _ _ _). replace s with 0; [ring|].
      symmetry. unfold s. clear. change (fold_right Rplus 0) with rsum. revert v.
      induction y as [|a y IH]; intros [|b v]; cbn -[inner_arr]; try reflexivity.
      rewrite IH. replace (inner_arr (zeros_like a) b) with 0; [ring|].
      symmetry. unfold inner_arr. apply rsum_zero. intros j _. rewrite entry_zeros, Re_conj_mult. unfold Re, Im, RtoC. cbn. ring.
Qed.
Lemma like_zeros x : like x (map zeros_like x).
Proof. unfold like. induction x; cbn; constructor; auto. apply same_zeros. Qed.
Lemma inner_zeros x w : inner (map zeros_like x) w = 0.
Proof.
  unfold inner. apply rsum_zero. intros [a b] H. cbn. apply in_combine_l in H. apply in_map_iff in H. destruct H as (c & <- & _).
  unfold inner_arr. apply rsum_zero. intros j _. rewrite entry_zeros, Re_conj_mult. unfold Re, Im, RtoC. cbn. ring.
Qed.
Lemma first_second x : point x -> second_derivative first first_gradient x (fun _ => map zeros_like x).
Proof.
  intros Hx. split; [|split].
  - intros y Hy. apply first_is_gradient. now apply like_point in Hy.
  - intros v Hv. split; [apply like_zeros|]. intros i Hi.
    assert (E : forall t, nth i (first_gradient (move x t v)) none = nth i (first_gradient x) none).
    { intros t. now rewrite <- (first_gradient_const x (move x t v)) by now apply like_move. }
    pose proof (like_nth _ _ i (proj1 (first_is_gradient x Hx)) Hi) as S1.
    pose proof (like_nth _ _ i (like_zeros x) Hi) as S2.
    assert (Z : forall j, entry (nth i (map zeros_like x) none) j = RtoC 0).
    { intros j. change none with (zeros_like none). rewrite map_nth. apply entry_zeros. }
    split.
    + intros t. rewrite E. exact (same_back _ _ _ S1 S2).
    + intros j. rewrite Z. split.
      * apply is_derive_ext with (fun _ => Re (entry (nth i (first_gradient x) none) j)); [intros t; now rewrite E|].
        apply (is_derive_const (Re (entry (nth i (first_gradient x) none) j)) 0).
      * apply is_derive_ext with (fun _ => Im (entry (nth i (first_gradient x) none) j)); [intros t; now rewrite E|].
        apply (is_derive_const (Im (entry (nth i (first_gradient x) none) j)) 0).
  - intros v w _ _. now rewrite !inner_zeros.
Qed.
Lemma first_sound n k : (length k = n)%nat -> nth 0 k false = true -> sound_graph n (mkTracked first k).
Proof.
  intros L F. split; [exact L|]. intros x y _ Hl Hn K. cbn in *. unfold first.
  destruct k as [|b k]; [discriminate|]. cbn in L. now rewrite (K 0%nat ltac:(lia) F).
Qed.

(** A linear cost has the Hessian zero, but with PyTorch the Hessian operator raises RuntimeError; and AttributeError if
    the cost has a further argument that it does not use. *)
Theorem C99_pytorch_refuted : exists (lib : torch_lib), torch_promise lib /\
  (exists (f : tracked R) x g D v, sound_graph (length x) f /\ point x /\ like x v /\ requires_grad f = true /\
     second_derivative (value f) g x D /\ th_gradient lib f (length x) x = Ok (answer (length x) (g x)) /\
     th_hessian lib f (length x) (x ++ v) = Raise RuntimeError) /\
  (exists (f : tracked R) x g D v, sound_graph (length x) f /\ point x /\ like x v /\ requires_grad f = true /\
     second_derivative (value f) g x D /\ th_gradient lib f (length x) x = Ok (answer (length x) (g x)) /\
     th_hessian lib f (length x) (x ++ v) = Raise AttributeError).
Proof.
  destruct C99_promises as (_ & _ & P & _). exists a_torch. split; [exact P|].
  assert (Hx1 : point [mkArr false [(4, 0)]]) by (repeat constructor; apply sound_real).
  assert (Hv1 : like [mkArr false [(4, 0)]] [mkArr false [(-2, 0)]]) by (repeat constructor; apply sound_real).
  split.
  - pose (f := mkTracked first [true]). exists f, [mkArr false [(4, 0)]], first_gradient, (fun _ => map zeros_like [mkArr false [(4, 0)]]),
      [mkArr false [(-2, 0)]].
    assert (S : sound_graph (length [mkArr false [(4, 0)]]) f) by (apply first_sound; reflexivity).
    split; [exact S|]. split; [exact Hx1|]. split; [exact Hv1|]. split; [reflexivity|].
    split; [now apply first_second|]. split.
    + apply (C99_pytorch a_torch f _ P S Hx1 eq_refl). now apply first_is_gradient.
    + apply (C99_pytorch_failures a_torch f _ [mkArr false [(-2, 0)]] P S eq_refl); [reflexivity| |].
      * intros [|i] Hi; [reflexivity|cbn in Hi; lia].
      * intros [|i] h Eh; [|now destruct i].
        cbn in Eh. injection Eh as <-. unfold requires_grad. cbn [connected].
        destruct (excluded_middle_informative _) as [_|N]; [reflexivity|]. exfalso. apply N.
        intros x y Hx Hl _. pose proof (like_point _ _ Hl) as Hy.
        rewrite (the_gradient_eq _ _ _ Hx (first_is_gradient x Hx)), (the_gradient_eq _ _ _ Hy (first_is_gradient y Hy)).
        now rewrite (first_gradient_const x y).
  - pose (f := mkTracked first [true; false]). exists f, x0, first_gradient, (fun _ => map zeros_like x0), v0.
    assert (S : sound_graph (length x0) f) by (apply first_sound; reflexivity).
    pose proof x0_point as Hx. pose proof v0_like as Hv.
    split; [exact S|]. split; [exact Hx|]. split; [exact Hv|]. split; [reflexivity|].
    split; [now apply first_second|]. split.
    + apply (C99_pytorch a_torch f _ P S Hx eq_refl). now apply first_is_gradient.
    + apply (proj1 (proj2 (C99_pytorch_failures a_torch f x0 v0 P S eq_refl)) 1%nat); [reflexivity|cbn; lia|reflexivity].
Qed.

(** With an odd number of arrays every Hessian operator raises ValueError. *)
Theorem C99_odd : forall (a : autograd_lib) (j : jax_lib) (t : torch_lib) (k : tf_lib) f (ft : tracked R) n (l : args),
  Nat.odd (length l) = true ->
  ag_hessian a f n l = Raise ValueError /\ jx_hessian j f n l = Raise ValueError /\
  th_hessian t ft n l = Raise ValueError /\ tf_hessian k ft n l = Raise ValueError.
Proof.
  intros a j t k f ft n l H. destruct (C42_bisect_exact _ l [] []) as [_ B]. specialize (B H).
  unfold ag_hessian, jx_hessian, th_hessian, tf_hessian. rewrite B. auto.
Qed.

