(** Nelder-Mead: whole runs. *)
From Coq Require Import ZArith List Bool Sorted Permutation Lia.
From Verif Require Import Num_Model Num_Spec Num_Proofs PyList_Model LineSearch_Model Optimizer_Model Optimizer_Spec
  Optimizer_Proofs Optimizer_Proofs2 NelderMead_Model NelderMead_Spec NelderMead_Proofs.
Import ListNotations.

Section NM.
Context {N : NumOps} {M : Mfd N} (L : OrderLaws N).
Variables (cost : pt M -> N) (o : nm_obj N) (sp : stop_params N) (clock : nat -> N)
  (argsort : list N -> list nat) (centroid : Z -> list (pt M) -> res (pt M)).
Hypothesis Hsort : is_argsort argsort.
Hypothesis Hdim : (0 <= m_dim M)%Z.
Variable xs0 : list (pt M).
Notation body := (nm_body cost o sp clock argsort centroid).
Notation heads tr := (firsts (map snd tr)).
Notation no_nan l := (no_nan cost l).

Record entry_ok (e : list (pt M) * list N) : Prop := {
  eo_costs : snd e = map cost (fst e);
  eo_len : length (fst e) = length xs0;
  eo_sorted : sorted_nan_last (snd e) }.

(** Some vertex has a cost at most [c]. *)
Definition covered (xs : list (pt M)) (c : N) := exists q, In q xs /\ nle N (cost q) c = true.
Definition some_number (xs : list (pt M)) := exists p, In p xs /\ nisnan N (cost p) = false.

Record nm_inv (s : nm_state M) : Prop := {
  ni_costs : n_costs s = map cost (n_x s);
  ni_len : length (n_x s) = length xs0;
  ni_evals : (n_evals s + Z.of_nat (length xs0) = m_dim M + 1 + Z.of_nat (length (n_calls s)))%Z;
  ni_budget : (n_evals s <= Z.max (m_dim M + 1) (max_cost_evaluations sp + m_dim M + 1))%Z;
  ni_it : n_iteration s = Z.of_nat (length (n_trace s));
  ni_it_le : (n_iteration s <= Z.max 0 (max_iterations sp - 1))%Z;
  ni_trace : Forall entry_ok (n_trace s);
  ni_sub : forall p, In p (n_x s) -> In p (n_calls s);
  ni_tsub : forall e p, In e (n_trace s) -> In p (fst e) -> In p (n_calls s);
  ni_first : forall e t, n_trace s = e :: t -> Permutation (fst e) xs0;
  ni_start : n_trace s = [] -> Permutation (n_x s) xs0;
  ni_cover : no_nan (n_calls s) -> forall p, In p (n_calls s) -> covered (n_x s) (cost p);
  ni_number : some_number xs0 -> some_number (n_x s) /\ nonincreasing (heads (n_trace s)) /\
              forall c, In c (heads (n_trace s)) -> covered (n_x s) c }.

Record nm_post (r : result N (pt M)) (tr : list (list (pt M) * list N)) : Prop := {
  np_trace : Forall entry_ok tr;
  np_first : exists e t, tr = e :: t /\ Permutation (fst e) xs0;
  np_sub : forall e p, In e tr -> In p (fst e) -> In p (r_calls r);
  np_last : exists tr' h t cs, tr = tr' ++ [(h :: t, cs)] /\ r_point r = h;
  np_cost : r_cost r = cost (r_point r);
  np_it : r_iterations r = Z.of_nat (length tr) /\ (1 <= r_iterations r <= Z.max 1 (max_iterations sp))%Z;
  np_evals : exists n, r_cost_evaluations r = Some n /\
     (n + Z.of_nat (length xs0) + 1 = m_dim M + 1 + Z.of_nat (length (r_calls r)))%Z /\
     (n <= Z.max (m_dim M + 1) (max_cost_evaluations sp + m_dim M + 1))%Z;
  np_log : r_log r = log_init (pt M) sp;
  np_best : no_nan (r_calls r) -> forall p, In p (r_calls r) -> nle N (r_cost r) (cost p) = true;
  np_mono : some_number xs0 -> nonincreasing (heads tr) /\
            forall c, In c (heads tr) -> nle N (r_cost r) c = true;
  np_reason : exists tick n, r_cost_evaluations r = Some n /\ 
     check_stopping sp clock tick (clock 0) (r_iterations r) None None n = Some (r_stopping_criterion r) }.

Lemma heads_app (tr : list (list (pt M) * list N)) e : heads (tr ++ [e]) = heads tr ++ firsts [snd e].
Proof. unfold firsts. rewrite map_app, flat_map_app. reflexivity. Qed.

Lemma sorted_head_number xs : sorted_nan_last (map cost xs) -> some_number xs ->
  exists h t, xs = h :: t /\ nisnan N (cost h) = false /\ forall c, covered xs c -> nle N (cost h) c = true.
Proof.
  intros S (p & Hp & Hn). destruct xs as [|h t]; [destruct Hp|]. exists h, t. split; auto.
  assert (Hh : nisnan N (cost h) = false).
  { destruct Hp as [->|Hp]; auto. simpl in S. pose proof (sorted_head _ _ S _ (in_map cost _ _ Hp) Hn) as Q.
    destruct (nisnan N (cost h)) eqn:E; auto. rewrite (nan_le_l N L) in Q by auto. discriminate. }
  split; auto. intros c (q & Hq & Hc). destruct Hq as [<-|Hq]; auto.
  assert (nisnan N (cost q) = false) by (destruct (nisnan N (cost q)) eqn:E; auto; rewrite (nan_le_l N L) in Hc by auto; discriminate).
  apply (le_trans N L _ (cost q)); auto. apply (sorted_head _ _ S); auto. apply in_map; auto.
Qed.

Lemma covered_perm xs xs' c : Permutation xs xs' -> covered xs c -> covered xs' c.
Proof. intros P (q & Hq & Hc). exists q. split; auto. eapply Permutation_in; eauto. Qed.

(** The sorted simplex of an iteration. *)
Lemma nm_sorted s : nm_inv s -> exists xs, nm_sort argsort (n_x s) (n_costs s) = Ok (xs, map cost xs) /\
  Permutation xs (n_x s) /\ entry_ok (xs, map cost xs) /\
  (some_number xs0 -> some_number xs /\ nonincreasing (heads (n_trace s ++ [(xs, map cost xs)])) /\
     forall c, In c (heads (n_trace s ++ [(xs, map cost xs)])) -> exists h t, xs = h :: t /\ nle N (cost h) c = true).
Proof.
  intros I. destruct (nm_sort_ok cost argsort Hsort (n_x s)) as (xs & E & P & S). rewrite (ni_costs s I).
  exists xs. split; auto. split; auto. split.
  { split; simpl; auto. rewrite (Permutation_length P). apply (ni_len s I). }
  intros H0. destruct (ni_number s I H0) as (A & B & C).
  assert (A' : some_number xs).
  { destruct A as (p & Hp & Hn). exists p. split; auto. eapply Permutation_in; [apply Permutation_sym; exact P|auto]. }
  destruct (sorted_head_number xs S A') as (h & t & -> & Hh & Hc).
  split; auto. rewrite heads_app. simpl.
  assert (G : forall c, In c (heads (n_trace s)) -> nle N (cost h) c = true).
  { intros c Hin. apply Hc. eapply covered_perm; [apply Permutation_sym; exact P|]. auto. }
  split.
  - apply SSorted_app_one; auto.
  - intros c Hin. exists h, t. split; auto. apply in_app_or in Hin as [Hin|[<-|[]]]; auto. apply (le_refl N L); auto.
Qed.

Lemma nm_step s s' : nm_inv s -> body (clock 0) s = Ok (Continue s') -> nm_inv s' /\
  n_iteration s' = (n_iteration s + 1)%Z /\ (n_iteration s' < max_iterations sp)%Z.
Proof.
  intros I E. unfold nm_body in E. destruct (nm_sorted s I) as (xs & Es & P & EO & Hnum).
  rewrite Es in E. cbn [bind] in E. cbv zeta in E.
  destruct (check_stopping _ _ _ _ _ _ _ _) as [rs|] eqn:Ec.
  { apply bind_ok in E as (? & _ & E). discriminate. }
  apply bind_ok in E as ([[[xs' cs'] ev'] calls] & Em & E). injection E as <-.
  pose proof (check_stopping_cases sp clock (n_tick s) (clock 0) (n_iteration s + 1) None None (n_evals s)) as Hc.
  rewrite Ec in Hc. pose proof (Hc CIterations) as Hci. pose proof (Hc CEvaluations) as Hce. simpl in Hci, Hce.
  destruct (nm_move_ok L cost o centroid _ _ _ _ _ _ _ Hdim (eo_sorted _ EO) Em) as (B1 & B2 & B3 & B4 & B5 & B6 & B7).
  assert (Hxs : forall p, In p xs -> In p (n_calls s)).
  { intros p Hp. apply (ni_sub s I). eapply Permutation_in; eauto. }
  split; [|simpl; lia]. split; simpl; try apply I; auto.
  - rewrite B2. apply (eo_len _ EO).
  - rewrite B3, app_length. pose proof (ni_evals s I). lia.
  - lia.
  - rewrite app_length, (ni_it s I). simpl. lia.
  - lia.
  - apply Forall_app. split; [apply I|]. constructor; auto.
  - intros p Hp. apply in_or_app. destruct (B5 p Hp); auto.
  - intros e p He Hp. apply in_or_app. left. apply in_app_or in He as [He|[<-|[]]]; [eapply (ni_tsub s I); eauto|auto].
  - intros e t He. destruct (n_trace s) as [|e0 t0] eqn:Et.
    + simpl in He. injection He as <- _. simpl. transitivity (n_x s); auto. apply (ni_start s I). auto.
    + simpl in He. injection He as <- _. eapply (ni_first s I). eauto.
  - intros He. destruct (n_trace s); discriminate.
  - intros Hn p Hp.
    assert (Hn1 : no_nan (n_calls s)) by (intros q Hq; apply Hn; apply in_or_app; auto).
    assert (Hn2 : no_nan calls) by (intros q Hq; apply Hn; apply in_or_app; auto).
    assert (Hn3 : no_nan xs) by (intros q Hq; auto).
    apply in_app_or in Hp as [Hp|Hp].
    + destruct (ni_cover s I Hn1 p Hp) as (q & Hq & Hle).
      assert (C : covered xs (cost p)) by (eapply covered_perm; [apply Permutation_sym; exact P|exists q; auto]).
      assert (SN : some_number xs).
      { destruct C as (z & Hz & _). exists z. auto. }
      destruct (sorted_head_number xs (eo_sorted _ EO) SN) as (h & t & Hxt & Hh & Hcov).
      destruct (B6 h t Hxt) as [(t' & Ht')|(z & Hz & Hlt)].
      * exists h. split; [rewrite Ht'; left; auto|]. apply Hcov; auto.
      * exists z. split; auto. apply (le_trans N L _ (cost h)); [apply (lt_le N L); auto|apply Hcov; auto].
    + apply B7; auto.
  - intros H0. destruct (Hnum H0) as (A & B & C).
    destruct (sorted_head_number xs (eo_sorted _ EO) A) as (h & t & Hxt & Hh & Hcov).
    split; [|split; auto].
    + destruct (B6 h t Hxt) as [(t' & Ht')|(z & Hz & Hlt)].
      * exists h. split; auto. rewrite Ht'. left. auto.
      * exists z. split; auto. destruct (nisnan N (cost z)) eqn:Ez; auto. rewrite (nan_lt_l N L) in Hlt by auto. discriminate.
    + intros c Hin. destruct (C c Hin) as (h' & t'' & Q & Hle).
      assert (h' = h) as -> by congruence.
      destruct (B6 h t Hxt) as [(t' & Ht')|(z & Hz & Hlt)].
      * exists h. split; auto. rewrite Ht'. left. auto.
      * exists z. split; auto. apply (le_trans N L _ (cost h)); auto. apply (lt_le N L); auto.
Qed.

Lemma nm_stop s r tr : nm_inv s -> body (clock 0) s = Ok (Stop (r, tr)) -> nm_post r tr.
Proof.
  intros I E. unfold nm_body in E. destruct (nm_sorted s I) as (xs & Es & P & EO & Hnum).
  rewrite Es in E. cbn [bind] in E. cbv zeta in E.
  destruct (check_stopping _ _ _ _ _ _ _ _) as [rs|] eqn:Ec.
  2:{ apply bind_ok in E as ([[[xs' cs'] ev'] calls] & Em & E). discriminate. }
  apply bind_ok in E as (x & Ex & E). apply py_get0 in Ex as (t & ->). injection E as <- <-.
  assert (Hxs : forall p, In p (x :: t) -> In p (n_calls s)).
  { intros p Hp. apply (ni_sub s I). eapply Permutation_in; eauto. }
  split; cbn [r_point r_cost r_iterations r_cost_evaluations r_log r_calls r_stopping_criterion].
  - apply Forall_app. split; [apply I|]. constructor; auto.
  - destruct (n_trace s) as [|e0 t0] eqn:Et.
    + exists (x :: t, map cost (x :: t)), []. split; auto. simpl fst. transitivity (n_x s); auto. apply (ni_start s I). auto.
    + exists e0, (t0 ++ [(x :: t, map cost (x :: t))]). split; auto. eapply (ni_first s I). eauto.
  - intros e p He Hp. apply in_or_app. left. apply in_app_or in He as [He|[<-|[]]]; [eapply (ni_tsub s I); eauto|auto].
  - exists (n_trace s), x, t, (map cost (x :: t)). auto.
  - reflexivity.
  - rewrite app_length. cbn [length]. pose proof (ni_it_le s I). pose proof (ni_it s I). split; lia.
  - exists (n_evals s). split; auto. split; [|apply I]. rewrite app_length. cbn [length]. pose proof (ni_evals s I). lia.
  - reflexivity.
  - intros Hn p Hp.
    assert (Hn1 : no_nan (n_calls s)) by (intros q Hq; apply Hn; apply in_or_app; auto).
    assert (SN : some_number (x :: t)).
    { exists x. split; [left; auto|]. apply Hn1, Hxs. left. auto. }
    destruct (sorted_head_number (x :: t) (eo_sorted _ EO) SN) as (h & t' & Q & Hh & Hcov).
    assert (h = x) as -> by congruence.
    apply in_app_or in Hp as [Hp|[<-|[]]]; [|apply (le_refl N L); auto].
    apply Hcov. eapply covered_perm; [apply Permutation_sym; exact P|]. apply (ni_cover s I Hn1). auto.
  - intros H0. destruct (Hnum H0) as (A & B & C). split; auto.
    intros c Hin. destruct (C c Hin) as (h' & t'' & Q & Hle). assert (h' = x) as -> by congruence. auto.
  - exists (n_tick s), (n_evals s). auto.
Qed.

Lemma nm_loop_init xs : Permutation xs xs0 -> nm_inv (mkNmState xs (map cost xs) (m_dim M + 1) 0 1 xs0 []).
Proof.
  intros P. split; simpl; auto; try lia.
  - apply Permutation_length; auto.
  - intros p Hp. apply (Permutation_in _ P); auto.
  - intros; discriminate.
  - intros Hn p Hp. exists p. split; [eapply Permutation_in; [apply Permutation_sym; exact P|auto]|]. apply (le_refl N L). apply Hn. auto.
  - intros (p & Hp & Hn). split; [exists p; split; auto; eapply Permutation_in; [apply Permutation_sym; exact P|auto]|].
    split; [constructor|intros ? []].
Qed.

Lemma nm_loop_post r tr : nm_loop cost o sp clock argsort centroid xs0 = Ok (r, tr) -> nm_post r tr.
Proof.
  unfold nm_loop. destruct (nm_sort_ok cost argsort Hsort xs0) as (xs & E & P & S). rewrite E. cbn [bind].
  intros H. refine (loop_inv (body (clock 0)) nm_inv (fun q => nm_post (fst q) (snd q)) _ _ _ _ (r, tr) (nm_loop_init xs P) H).
  - intros s s' I E'. apply (nm_step s s' I E').
  - intros s [r' tr'] I E'. apply (nm_stop s r' tr' I E').
Qed.

Lemma nm_move_fuel it xs costs ev : (forall it xs, centroid it xs <> Raise OutOfFuel) ->
  nm_move cost o centroid it xs costs ev <> Raise OutOfFuel.
Proof.
  intros Hcen. 
  assert (Gf : forall A (l : list A) i, py_get l i <> Raise OutOfFuel).
  { intros A l i. unfold py_get. destruct (py_index l i); [destruct (nth_error l n)|]; discriminate. }
  assert (Sf : forall A (l : list A) i a, py_set l i a <> Raise OutOfFuel).
  { intros A l i a. unfold py_set. destruct (py_index l i); discriminate. }
  assert (Bf : forall A B (m : res A) (k : A -> res B), m <> Raise OutOfFuel -> (forall a, k a <> Raise OutOfFuel) ->
    bind m k <> Raise OutOfFuel).
  { intros A B m k H1 H2. destruct m; simpl; auto. congruence. }
  assert (Rf : forall xs cs x c, nm_replace (M:=M) xs cs x c <> Raise OutOfFuel).
  { intros. unfold nm_replace. apply Bf; auto; intros; apply Bf; auto; discriminate. }
  assert (Shf : forall x0 n i xs cs calls, nm_shrink cost x0 n i xs cs calls <> Raise OutOfFuel).
  { intros x0 n. induction n; intros; simpl; [discriminate|]. auto 10. }
  unfold nm_move.
  apply Bf; auto. intros xbar. apply Bf; auto. intros worst. cbv zeta. apply Bf; auto. intros c0. apply Bf.
  { destruct (nle _ _ _); [|discriminate]. apply Bf; auto. discriminate. }
  intros [|].
  { apply Bf; auto. intros [? ?]. discriminate. }
  destruct (nlt _ _ c0).
  { destruct (nlt _ _ _); (apply Bf; auto; intros [? ?]; discriminate). }
  apply Bf; auto. intros c2. apply Bf; auto. intros c1.
  match goal with |- context [match ?X with pair _ _ => _ end] => destruct X as [[[[xc cc]|] ev'] calls] end.
  - apply Bf; auto. intros [? ?]. discriminate.
  - apply Bf; auto. intros. apply Bf; auto. intros [[? ?] ?]. discriminate.
Qed.

Lemma nm_loop_fuel : (forall it xs, centroid it xs <> Raise OutOfFuel) ->
  nm_loop cost o sp clock argsort centroid xs0 <> Raise OutOfFuel.
Proof.
  intros Hcen. unfold nm_loop. destruct (nm_sort_ok cost argsort Hsort xs0) as (xs & E & P & S). rewrite E. cbn [bind].
  apply (loop_fuel _ nm_inv (fun s => Z.to_nat (max_iterations sp - n_iteration s))).
  - intros s I. unfold nm_body. destruct (nm_sorted s I) as (ys & Es & _). rewrite Es. cbn [bind]. cbv zeta.
    destruct (check_stopping _ _ _ _ _ _ _ _).
    + destruct (py_get ys 0) eqn:G; cbn [bind]; [discriminate|]. unfold py_get in G. 
      destruct (py_index ys 0); [destruct (nth_error ys n)|]; congruence.
    + pose proof (nm_move_fuel (n_iteration s + 1) ys (map cost ys) (n_evals s) Hcen) as Q.
      destruct (nm_move _ _ _ _ _ _ _) as [[[[? ?] ?] ?]|e]; cbn [bind]; [discriminate|congruence].
  - intros s s' I E'. destruct (nm_step s s' I E') as (I' & Q1 & Q2). split; auto. lia.
  - apply nm_loop_init; auto.
  - unfold iter_fuel. simpl. lia.
Qed.
End NM.

(** The centroid computation of the code never runs out of fuel. *)
Lemma compute_centroid_fuel {N : NumOps} (L : OrderLaws N) {M : Mfd N} (LS : LineSearcher M) ls0 sp clock x0 points :
  builtin_searcher LS -> compute_centroid LS ls0 sp clock x0 points <> Raise OutOfFuel.
Proof.
  intros HB. unfold compute_centroid.
  match goal with |- bind (sd_run ?a ?b ?c ?d ?e ?f) _ <> _ =>
    pose proof (sd_run_fuel a b c d e f (builtin_fuel L M LS HB)) as Q; destruct (sd_run a b c d e f) as [[? ?]|] end;
    cbn [bind]; congruence.
Qed.

(** * The run function *)
Section Run.
Context {N : NumOps} {M : Mfd N} (L : OrderLaws N).
Variables (cost : pt M -> N) (base : stop_params N) (clock : nat -> N)
  (argsort : list N -> list nat) (centroid : Z -> list (pt M) -> res (pt M)).
Hypothesis Hsort : is_argsort argsort.
Hypothesis Hdim : (0 <= m_dim M)%Z.

Definition nm_budgets (o : nm_obj N) : Z * Z :=
  (match nm_max_evals o with None => Z.max 1000 (2 * m_dim M) | Some k => k end,
   match nm_max_iterations o with None => Z.max 2000 (4 * m_dim M) | Some k => k end).

Lemma nm_run_post o st o' r tr : nm_run cost base clock argsort centroid o st = (o', Ok (r, tr)) ->
  exists xs0, nm_simplex st = Ok xs0 /\
    nm_post cost (mkStop (max_time base) (snd (nm_budgets o)) (min_gradient_norm base) (min_step_size base)
       (fst (nm_budgets o)) (verbosity base) (log_verbosity base)) clock xs0 r tr.
Proof.
  intros H. unfold nm_run in H. cbv zeta in H. 
  assert (E := f_equal snd H). cbn [snd] in E. apply bind_ok in E as (xs0 & E1 & E2).
  exists xs0. split; auto. apply (nm_loop_post L cost _ _ clock argsort centroid Hsort Hdim xs0 r tr E2).
Qed.
Lemma nm_run_fuel o st : (forall it xs, centroid it xs <> Raise OutOfFuel) ->
  snd (nm_run cost base clock argsort centroid o st) <> Raise OutOfFuel.
Proof.
  intros Hc. unfold nm_run. cbv zeta. cbn [snd].
  destruct (nm_simplex st) as [xs|e] eqn:E; cbn [bind].
  - apply nm_loop_fuel; auto.
  - destruct st; simpl in E; try (destruct (negb _)); congruence.
Qed.
End Run.

(** * An argsort *)
Section Argsort.
Context {N : NumOps} (L : OrderLaws N).
Definition before (a b : N) : bool := nle N a b || nisnan N b.
Fixpoint ins (costs : list N) (i : nat) (l : list nat) : list nat :=
  match l with
  | [] => [i]
  | j :: t => match nth_error costs i, nth_error costs j with
              | Some a, Some b => if before a b then i :: l else j :: ins costs i t
              | _, _ => i :: l
              end
  end.
(** Insertion sort of the indices. *)
Definition isort (costs : list N) : list nat := fold_right (ins costs) [] (seq 0 (length costs)).

Lemma ins_perm costs i l : Permutation (ins costs i l) (i :: l).
Proof.
  induction l as [|j t IH]; simpl; auto.
  destruct (nth_error costs i), (nth_error costs j); auto. destruct (before _ _); auto.
  rewrite IH. apply perm_swap.
Qed.
Lemma isort_perm costs : Permutation (isort costs) (seq 0 (length costs)).
Proof.
  unfold isort. induction (seq 0 (length costs)) as [|i l IH]; simpl; auto.
  rewrite ins_perm. auto.
Qed.
Lemma before_total a b : before a b = false -> before b a = true.
Proof.
  unfold before. destruct (nle N a b) eqn:E; simpl; [discriminate|]. intros Hb.
  destruct (nisnan N a) eqn:Ha; [apply orb_true_r|]. rewrite (le_lt_total N L) in E by auto.
  destruct (nlt N b a) eqn:Q; [|discriminate]. rewrite (lt_le N L) by auto. reflexivity.
Qed.
Lemma before_trans a b c : before a b = true -> before b c = true -> before a c = true.
Proof.
  unfold before. intros H1 H2. destruct (nisnan N c) eqn:Hc; [apply orb_true_r|].
  rewrite orb_false_r in *. destruct (nisnan N b) eqn:Hb; [rewrite (nan_le_l N L) in H2 by auto; discriminate|].
  rewrite orb_false_r in H1. apply (le_trans N L _ b); auto.
Qed.
Definition good (costs : list N) (i j : nat) : Prop :=
  forall a b, nth_error costs i = Some a -> nth_error costs j = Some b -> before a b = true.
Lemma ins_sorted costs i l : i < length costs -> Forall (fun j => j < length costs) l ->
  StronglySorted (good costs) l -> StronglySorted (good costs) (ins costs i l).
Proof.
  intros Hi Hl S. induction S as [|j t S IH F]; simpl; [repeat constructor|].
  inversion Hl as [|? ? Hj Ht]; subst.
  destruct (nth_error costs i) as [a|] eqn:Ea; [|apply nth_error_None in Ea; lia].
  destruct (nth_error costs j) as [b|] eqn:Eb; [|apply nth_error_None in Eb; lia].
  destruct (before a b) eqn:E.
  - constructor; [constructor; auto|]. constructor.
    + intros a' b' A B. congruence.
    + rewrite Forall_forall in *. intros k Hk a' c A C. apply (before_trans a' b c); [congruence|].
      apply (F k Hk); auto.
  - constructor; auto. apply Forall_forall. intros k Hk.
    apply (Permutation_in _ (ins_perm costs i t)) in Hk as [<-|Hk].
    + intros b' a' B A. apply before_total. congruence.
    + rewrite Forall_forall in F. auto.
Qed.
Lemma isort_ok : is_argsort isort.
Proof.
  intros costs. split; [apply isort_perm|]. intros sorted E.
  assert (S : StronglySorted (good costs) (isort costs) /\ Forall (fun j => j < length costs) (isort costs)).
  { unfold isort. assert (H : Forall (fun j => j < length costs) (seq 0 (length costs))).
    { apply Forall_forall. intros j Hj. apply in_seq in Hj. lia. }
    induction H as [|i l Hi Hl [IH1 IH2]]; simpl; [split; constructor|]. split; [apply ins_sorted; auto|].
    eapply Permutation_Forall; [apply Permutation_sym, ins_perm|]. constructor; auto. }
  destruct S as [S _]. unfold sorted_nan_last. revert sorted E.
  induction S as [|i l S IH F]; intros [|a t] E; simpl in E; try discriminate; [constructor|].
  assert (E1 : nth_error costs i = Some a) by congruence.
  assert (E2 : map (nth_error costs) l = map Some t) by congruence.
  constructor; auto. apply Forall_forall. intros b Hb.
  assert (Hb' : In (Some b) (map (nth_error costs) l)) by (rewrite E2; apply in_map; auto).
  apply in_map_iff in Hb' as (j & Ej & Hj). rewrite Forall_forall in F.
  specialize (F j Hj a b E1 Ej). unfold before in F. apply orb_prop in F. tauto.
Qed.
End Argsort.
