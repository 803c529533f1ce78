(** Properties C29-C31 and the Nelder-Mead parts of C06, C15-C18 and C35. *)
From Coq Require Import ZArith List Bool Sorted Permutation SpecFloat Lia.
From Verif Require Import Num_Model Num_Spec Num_Instances Num_Proofs PyList_Model LineSearch_Model Optimizer_Model Optimizer_Spec
  Optimizer_Proofs NelderMead_Model NelderMead_Spec NelderMead_Proofs NelderMead_Proofs2 NelderMead_Proofs3 Euclid1.
Import ListNotations.

(** Budgets in force during a run: those of the object, or the defaults of the code. *)
Definition evals_budget {N} (M : Mfd N) (o : nm_obj N) : Z :=
  match nm_max_evals o with Some k => k | None => Z.max 1000 (2 * m_dim M) end.
Definition iterations_budget {N} (M : Mfd N) (o : nm_obj N) : Z :=
  match nm_max_iterations o with Some k => k | None => Z.max 2000 (4 * m_dim M) end.

(** ** Concrete runs used below: a simplex in the plane, cost x^2 + 2 y^2, the mean as centroid.
    The random simplex is (1,1), (2,1), (1,3). *)
Definition nm_cost2 (p : pt (E2 F)) : F := nadd F (nmul F (fst p) (fst p)) (nmul F (n_of_Z F 2) (nmul F (snd p) (snd p))).
Definition nm_mean2 (_ : Z) (l : list (pt (E2 F))) : res (pt (E2 F)) :=
  match l with
  | [p; q] => Ok (nmul F (nadd F (fst p) (fst q)) (lit 1 2), nmul F (nadd F (snd p) (snd q)) (lit 1 2))
  | _ => Raise ValueError
  end.
Definition nm_default (N : NumOps) (evals its : option Z) : nm_obj N := mkNm evals its (n_of_Z N 1) (n_of_Z N 2) (lit 1 2).
Definition nm_run2 its := snd (nm_run nm_cost2 (stop_default F 0) (still F) isort nm_mean2 (nm_default F None (Some its))
  (NmRandom (M:=E2 F) [(n_of_Z F 1, n_of_Z F 1); (n_of_Z F 2, n_of_Z F 1); (n_of_Z F 1, n_of_Z F 3)])).

(** ** C29 *)
(** The trace lists the sorted simplex and its costs at every iteration.  Any number system with IEEE comparisons, any
    manifold, cost (also NaN), clock, centroid computation and sorting. *)
Theorem C29_nelder_mead_simplex : forall (N : NumOps), OrderLaws N -> forall (M : Mfd N), (0 <= m_dim M)%Z ->
  forall (cost : pt M -> N) base clock argsort centroid o st o' r trace xs0,
  is_argsort argsort ->
  nm_run cost base clock argsort centroid o st = (o', Ok (r, trace)) -> nm_simplex st = Ok xs0 ->
  r_iterations r = Z.of_nat (length trace) /\
  Forall (fun it => let '(xs, costs) := it in
    costs = map cost xs /\ length xs = length xs0 /\ length costs = length xs0 /\ sorted_nan_last costs /\
    forall p, In p xs -> In p (r_calls r)) trace /\
  (exists costs rest, trace = costs :: rest /\ Permutation (fst costs) xs0) /\
  (exists before last, trace = before ++ [last] /\ hd_error (fst last) = Some (r_point r)) /\
  r_cost r = cost (r_point r).
Proof.
  intros N L M Hd cost base clock argsort centroid o st o' r tr xs0 Hs H E.
  destruct (nm_run_post L cost base clock argsort centroid Hs Hd o st o' r tr H) as (xs1 & E1 & Q).
  assert (xs1 = xs0) as -> by congruence. split; [apply Q|]. split; [|split; [apply Q|split; [|apply Q]]].
  - apply Forall_forall. intros [xs cs] Hin. pose proof (np_trace _ _ _ _ _ _ Q) as T. rewrite Forall_forall in T.
    destruct (T _ Hin) as [A B C]. simpl in A, B, C. subst cs. rewrite map_length. repeat split; auto.
    intros p Hp. exact (np_sub _ _ _ _ _ _ Q _ p Hin Hp).
  - destruct (np_last _ _ _ _ _ _ Q) as (tr' & h & t & cs & A & B). exists tr', (h :: t, cs). split; auto. simpl. congruence.
Qed.
Print Assumptions C29_nelder_mead_simplex.
(** Sorting exists: insertion sort. *)
Theorem C29_sorting_exists : forall (N : NumOps), OrderLaws N -> is_argsort (N:=N) isort.
Proof. exact (@isort_ok). Qed.
Print Assumptions C29_sorting_exists.
Example C29_instance : exists rt, nm_run2 6 = Ok rt /\
  (Nat.eqb (length (snd rt)) 6 && nlt F (r_cost (fst rt)) (lit 1 1) && Nat.leb 10 (length (r_calls (fst rt)))) = true.
Proof. apply ok_and_exists. vm_compute. reflexivity. Qed.

(** ** C30 *)
(** The best cost never increases (as soon as one initial vertex has a cost that is not NaN; later NaN costs are
    allowed), and the returned cost is not above any of them. *)
Theorem C30_best_never_increases : forall (N : NumOps), OrderLaws N -> forall (M : Mfd N), (0 <= m_dim M)%Z ->
  forall (cost : pt M -> N) base clock argsort centroid o st o' r trace xs0,
  is_argsort argsort ->
  nm_run cost base clock argsort centroid o st = (o', Ok (r, trace)) -> nm_simplex st = Ok xs0 ->
  (exists p, In p xs0 /\ nisnan N (cost p) = false) ->
  nonincreasing (firsts (map snd trace)) /\ length (firsts (map snd trace)) = length trace /\
  (forall c, In c (firsts (map snd trace)) -> nle N (r_cost r) c = true) /\
  (forall p, In p xs0 -> nisnan N (cost p) = false -> nle N (r_cost r) (cost p) = true).
Proof.
  intros N L M Hd cost base clock argsort centroid o st o' r tr xs0 Hs H E Hn.
  destruct (nm_run_post L cost base clock argsort centroid Hs Hd o st o' r tr H) as (xs1 & E1 & Q).
  assert (xs1 = xs0) as -> by congruence.
  destruct (np_mono _ _ _ _ _ _ Q Hn) as [A B].
  assert (Hne : forall e, In e tr -> exists a t, snd e = a :: t).
  { intros e He. pose proof (np_trace _ _ _ _ _ _ Q) as T. rewrite Forall_forall in T. destruct (T e He) as [T1 T2 T3].
    destruct Hn as (p & Hp & _). rewrite T1. destruct (fst e); [destruct xs0; [destruct Hp|discriminate]|]. simpl. eauto. }
  repeat split; auto.
  - clear -Hne. induction tr as [|e t IH]; auto. unfold firsts in *. simpl. rewrite app_length, IH by (intros; apply Hne; right; auto).
    destruct (Hne e (or_introl eq_refl)) as (a & u & ->). reflexivity.
  - intros p Hp Hpn. destruct (np_first _ _ _ _ _ _ Q) as (e & t & Et & P).
    pose proof (np_trace _ _ _ _ _ _ Q) as T. rewrite Et in T. inversion T as [|? ? [T1 T2 T3] _]; subst.
    destruct (Hne e (or_introl eq_refl)) as (a & u & Ea).
    assert (Ha : nle N (r_cost r) a = true).
    { apply B. unfold firsts. simpl. rewrite Ea. left. auto. }
    assert (Hin : In (cost p) (a :: u)).
    { rewrite <- Ea, T1. apply in_map. eapply Permutation_in; [apply Permutation_sym; exact P|auto]. }
    destruct Hin as [<-|Hin]; auto. apply (le_trans N L _ a); auto. rewrite Ea in T3. apply (sorted_head _ _ T3); auto.
Qed.
Print Assumptions C30_best_never_increases.
(** If no evaluated cost is NaN the returned point is the best of all points at which the cost was evaluated. *)
Theorem C30_best_of_all_evaluated : forall (N : NumOps), OrderLaws N -> forall (M : Mfd N), (0 <= m_dim M)%Z ->
  forall (cost : pt M -> N) base clock argsort centroid o st o' r trace,
  is_argsort argsort ->
  nm_run cost base clock argsort centroid o st = (o', Ok (r, trace)) ->
  (forall p, In p (r_calls r) -> nisnan N (cost p) = false) ->
  forall p, In p (r_calls r) -> nle N (r_cost r) (cost p) = true.
Proof.
  intros N L M Hd cost base clock argsort centroid o st o' r tr Hs H.
  destruct (nm_run_post L cost base clock argsort centroid Hs Hd o st o' r tr H) as (xs1 & E1 & Q).
  exact (np_best _ _ _ _ _ _ Q).
Qed.
Print Assumptions C30_best_of_all_evaluated.
Example C30_instance : exists rt, nm_run2 6 = Ok rt /\
  (forallb (fun p => negb (nisnan F (nm_cost2 p))) (r_calls (fst rt)) &&
   nlt F (r_cost (fst rt)) (nm_cost2 (n_of_Z F 1, n_of_Z F 1))) = true.
Proof. apply ok_and_exists. vm_compute. reflexivity. Qed.
(** That needs the absence of NaN: on the line with vertices 1 and 3, contraction factor 1/4 and cost (x - 3/2)^2 (NaN from 5/2
    on), the inside contraction evaluates 3/2, compares its cost 0 with the NaN of the worst vertex, and drops it. *)
Example C30_nan_drops_the_best : exists rt,
  snd (nm_run (fun x : pt (E1 F) => if nlt F x (lit 5 2) then nmul F (nsub F x (lit 3 2)) (nsub F x (lit 3 2)) else S754_nan : F)
    (stop_default F 0) (still F) isort (fun _ l => match l with p :: _ => Ok p | [] => Raise ValueError end)
    (mkNm None (Some 2%Z) (n_of_Z F 1) (n_of_Z F 2) (lit 1 4)) (NmRandom (M:=E1 F) [n_of_Z F 1; n_of_Z F 3])) = Ok rt /\
  (existsb (sf_eqb (lit (N:=F) 3 2)) (r_calls (fst rt)) && sf_eqb (r_cost (fst rt)) (lit (N:=F) 1 4)) = true.
Proof. apply ok_and_exists. vm_compute. reflexivity. Qed.

(** ** C31 (the code violates the property) *)
(** Every simplex of the documented size is refused. *)
Theorem C31_documented_size_refused : forall (N : NumOps) (M : Mfd N) (cost : pt M -> N) base clock argsort centroid o l,
  Z.of_nat (length l) = (m_dim M + 1)%Z ->
  snd (nm_run cost base clock argsort centroid o (NmSequence l)) = Raise ValueError.
Proof.
  intros. unfold nm_run. cbv zeta. cbn [snd nm_simplex]. rewrite H, Z.eqb_refl. reflexivity.
Qed.
Print Assumptions C31_documented_size_refused.
(** Every other non-empty list is taken: with an iteration budget of one the run succeeds. *)
Theorem C31_other_sizes_accepted : forall (N : NumOps), OrderLaws N -> forall (M : Mfd N) (cost : pt M -> N) base clock argsort centroid o l,
  is_argsort argsort -> Z.of_nat (length l) <> (m_dim M + 1)%Z -> l <> [] -> nm_max_iterations o = Some 1%Z ->
  exists r trace, snd (nm_run cost base clock argsort centroid o (NmSequence l)) = Ok (r, trace) /\ In (r_point r) l.
Proof.
  intros N L M cost base clock argsort centroid o l Hs Hl Hne Ho.
  unfold nm_run. cbv zeta. cbn [snd nm_simplex]. apply Z.eqb_neq in Hl. rewrite Hl. cbn [negb bind].
  unfold nm_loop. destruct (nm_sort_ok cost argsort Hs l) as (xs & E & P & Ss). rewrite E. cbn [bind].
  destruct (nm_sort_ok cost argsort Hs xs) as (ys & E2 & P2 & Ss2).
  unfold nm_fill. cbn [nm_max_iterations nm_max_evals]. rewrite Ho. unfold iter_fuel. cbn [max_iterations].
  change (S (Z.to_nat 1)) with 2. cbn [loop]. unfold nm_body at 1. cbn [n_x n_costs n_iteration]. rewrite E2. cbn [bind].
  cbv zeta. 
  match goal with |- context [check_stopping ?a ?b ?c ?d ?e ?f ?g ?h] => destruct (check_stopping a b c d e f g h) eqn:Ec end.
  2:{ apply check_stopping_none_iter in Ec. simpl in Ec. lia. }
  assert (P3 : Permutation ys l) by (transitivity xs; auto).
  destruct ys as [|y t].
  { apply Permutation_nil in P3. congruence. }
  assert (G : py_get (y :: t) 0 = Ok y).
  { unfold py_get. change 0%Z with (Z.of_nat 0). rewrite (py_index_nat (y :: t) 0) by (simpl; lia). reflexivity. }
  rewrite G. cbn [bind]. eexists. eexists. split; [reflexivity|]. simpl.
  eapply Permutation_in; [exact P3|]. left. auto.
Qed.
Print Assumptions C31_other_sizes_accepted.
(** In the plane, a list of three points is refused and a list of two is accepted. *)
Theorem C31_refuted : 
  snd (nm_run nm_cost2 (stop_default F 0) (still F) isort nm_mean2 (nm_default F None (Some 6%Z))
    (NmSequence (M:=E2 F) [(n_of_Z F 1, n_of_Z F 1); (n_of_Z F 2, n_of_Z F 1); (n_of_Z F 1, n_of_Z F 3)])) = Raise ValueError /\
  exists r trace, snd (nm_run nm_cost2 (stop_default F 0) (still F) isort nm_mean2 (nm_default F None (Some 1%Z))
    (NmSequence (M:=E2 F) [(n_of_Z F 1, n_of_Z F 1); (n_of_Z F 2, n_of_Z F 1)])) = Ok (r, trace).
Proof.
  split; [apply C31_documented_size_refused; reflexivity|].
  destruct (C31_other_sizes_accepted F (f64_laws _) (E2 F) nm_cost2 (stop_default F 0) (still F) isort nm_mean2
    (nm_default F None (Some 1%Z)) [(n_of_Z F 1, n_of_Z F 1); (n_of_Z F 2, n_of_Z F 1)]) as (r & tr & A & _).
  - apply isort_ok, f64_laws.
  - simpl. lia.
  - discriminate.
  - reflexivity.
  - exists r, tr. exact A.
Qed.
Print Assumptions C31_refuted.
(** An empty list leads to an IndexError. *)
Theorem C31_empty_list : forall (N : NumOps), OrderLaws N -> forall (M : Mfd N) (cost : pt M -> N) base clock argsort centroid o,
  is_argsort argsort -> (0 <= m_dim M)%Z -> nm_max_iterations o = Some 1%Z ->
  snd (nm_run cost base clock argsort centroid o (NmSequence (M:=M) [])) = Raise IndexError.
Proof.
  intros N L M cost base clock argsort centroid o Hs Hd Ho.
  unfold nm_run. cbv zeta. cbn [snd nm_simplex length]. destruct (Z.eqb_spec (Z.of_nat 0) (m_dim M + 1)%Z); [lia|]. cbn [negb bind].
  unfold nm_loop. destruct (nm_sort_ok cost argsort Hs []) as (xs & E & P & Ss). rewrite E. cbn [bind].
  apply Permutation_sym, Permutation_nil in P as ->.
  unfold nm_fill. cbn [nm_max_iterations nm_max_evals]. rewrite Ho. unfold iter_fuel. cbn [max_iterations].
  change (S (Z.to_nat 1)) with 2. cbn [loop]. unfold nm_body at 1. cbn [n_x n_costs n_iteration].
  simpl map in *. rewrite E. cbn [bind]. cbv zeta.
  match goal with |- context [check_stopping ?a ?b ?c ?d ?e ?f ?g ?h] => destruct (check_stopping a b c d e f g h) eqn:Ec end.
  - reflexivity.
  - apply check_stopping_none_iter in Ec. simpl in Ec. lia.
Qed.
Print Assumptions C31_empty_list.

(** ** C06 (Nelder-Mead part): the reported reason is the first criterion met at the last iteration. *)
Theorem C06_nelder_mead_reason : forall (N : NumOps), OrderLaws N -> forall (M : Mfd N), (0 <= m_dim M)%Z ->
  forall (cost : pt M -> N) base clock argsort centroid o st o' r trace,
  is_argsort argsort ->
  nm_run cost base clock argsort centroid o st = (o', Ok (r, trace)) ->
  exists tick evals, r_cost_evaluations r = Some evals /\
    let sp := mkStop (max_time base) (iterations_budget M o) (min_gradient_norm base) (min_step_size base) (evals_budget M o)
                (verbosity base) (log_verbosity base) in
    first_criterion (criterion_met sp (clock (S tick)) (clock 0) (r_iterations r) None None evals)
      (reason_criterion (r_stopping_criterion r)) /\
    reason_data (r_stopping_criterion r) (r_iterations r) (nsub N (clock tick) (clock 0)).
Proof.
  intros N L M Hd cost base clock argsort centroid o st o' r tr Hs H.
  destruct (nm_run_post L cost base clock argsort centroid Hs Hd o st o' r tr H) as (xs1 & E1 & Q).
  destruct (np_reason _ _ _ _ _ _ Q) as (tick & n & A & B). exists tick, n. split; auto.
  pose proof (check_stopping_cases (mkStop (max_time base) (iterations_budget M o) (min_gradient_norm base) (min_step_size base) (evals_budget M o)
                (verbosity base) (log_verbosity base)) clock tick (clock 0) (r_iterations r) None None n) as C.
  change (snd (nm_budgets o)) with (iterations_budget M o) in B. change (fst (nm_budgets o)) with (evals_budget M o) in B.
  rewrite B in C. exact C.
Qed.
Print Assumptions C06_nelder_mead_reason.

(** ** C15 (Nelder-Mead part): with the centroid computed by steepest descent as in the code, from any
    (random) initial point per iteration, any readings of the clock, and either line searcher. *)
Theorem C15_nelder_mead_terminates : forall (N : NumOps), OrderLaws N -> forall (M : Mfd N), (0 <= m_dim M)%Z ->
  forall (cost : pt M -> N) base clock argsort LS ls0 sp' clock' draw o st,
  is_argsort argsort -> builtin_searcher LS ->
  let run := nm_run cost base clock argsort (fun k pts => compute_centroid LS ls0 sp' (clock' k) (draw k) pts) o st in
  snd run <> Raise OutOfFuel /\
  forall r trace, snd run = Ok (r, trace) ->
  (1 <= r_iterations r <= Z.max 1 (iterations_budget M o))%Z.
Proof.
  intros N L M Hd cost base clock argsort LS ls0 sp' clock' draw o st Hs HB run. split.
  - apply nm_run_fuel; auto. intros. apply compute_centroid_fuel; auto.
  - intros r tr H. destruct run as [o' q] eqn:E. simpl in H. subst q.
    destruct (nm_run_post L cost base clock argsort _ Hs Hd o st o' r tr E) as (xs1 & E1 & Q).
    apply (np_it _ _ _ _ _ _ Q).
Qed.
Print Assumptions C15_nelder_mead_terminates.
(** A complete run of the code's algorithm on the line, centroid included. *)
Example C15_nelder_mead_instance : exists rt,
  snd (nm_run (fun x : pt (E1 F) => nmul F x x : F) (stop_default F 0) (still F) isort
    (fun _ pts => compute_centroid (bt_searcher (E1 F) bt_default) None (stop_default F 0) (still F) (n_of_Z F 5) pts)
    (nm_default F None (Some 3%Z)) (NmRandom (M:=E1 F) [n_of_Z F 3; n_of_Z F 7])) = Ok rt /\
  (Z.eqb (r_iterations (fst rt)) 3) = true.
Proof. apply ok_and_exists. vm_compute. reflexivity. Qed.

(** ** C16 (violated): the log of a Nelder-Mead run has no entries. *)
Theorem C16_nelder_mead_log_is_empty : forall (N : NumOps), OrderLaws N -> forall (M : Mfd N), (0 <= m_dim M)%Z ->
  forall (cost : pt M -> N) base clock argsort centroid o st o' r trace,
  is_argsort argsort ->
  nm_run cost base clock argsort centroid o st = (o', Ok (r, trace)) ->
  (1 <= r_iterations r)%Z /\ r_log r = (if (1 <=? log_verbosity base)%Z then Some [] else None).
Proof.
  intros N L M Hd cost base clock argsort centroid o st o' r tr Hs H.
  destruct (nm_run_post L cost base clock argsort centroid Hs Hd o st o' r tr H) as (xs1 & E1 & Q).
  split; [|exact (np_log _ _ _ _ _ _ Q)]. pose proof (np_it _ _ _ _ _ _ Q). lia.
Qed.
Print Assumptions C16_nelder_mead_log_is_empty.

(** ** C17 (violated) *)
(** A run stores the budgets it computed for its manifold; with both budgets given by the user the
    object does not change. *)
Theorem C17_nelder_mead_budgets_stick : forall (N : NumOps) (M : Mfd N) (cost : pt M -> N) base clock argsort centroid o st,
  fst (nm_run cost base clock argsort centroid o st) =
  mkNm (Some (evals_budget M o)) (Some (iterations_budget M o)) (nm_reflection o) (nm_expansion o) (nm_contraction o).
Proof. intros. unfold nm_run, nm_fill, evals_budget, iterations_budget. simpl. destruct (nm_max_evals o), (nm_max_iterations o); reflexivity. Qed.
Print Assumptions C17_nelder_mead_budgets_stick.
Theorem C17_nelder_mead_explicit_budgets : forall (N : NumOps) (M M' : Mfd N) (cost : pt M -> N) (cost' : pt M' -> N)
  base clock argsort centroid base' clock' argsort' centroid' o st st' e i,
  nm_max_evals o = Some e -> nm_max_iterations o = Some i ->
  nm_run cost base clock argsort centroid (fst (nm_run cost' base' clock' argsort' centroid' o st')) st =
  nm_run cost base clock argsort centroid o st.
Proof.
  intros. rewrite (C17_nelder_mead_budgets_stick N M'). unfold evals_budget, iterations_budget. rewrite H, H0.
  destruct o; simpl in *; subst. reflexivity.
Qed.
Print Assumptions C17_nelder_mead_explicit_budgets.
(** A manifold of dimension 600 (any: only its dimension matters). *)
Definition nm_dim600 : Mfd F :=
  {| pt := F; tv := F; m_dim := 600; m_typical_dist := m_typical_dist (E1 F); m_inner := m_inner (E1 F);
     m_ip_py := true; m_norm := m_norm (E1 F); m_retr := m_retr (E1 F); m_exp := m_exp (E1 F); m_log := m_log (E1 F);
     m_dist := m_dist (E1 F); m_transp := m_transp (E1 F); m_to_tangent := m_to_tangent (E1 F); m_zero := m_zero (E1 F);
     m_pair_mean := m_pair_mean (E1 F); t_neg := t_neg (E1 F); t_add := t_add (E1 F); t_sub := t_sub (E1 F); t_scale := t_scale (E1 F) |}.
(** A constant cost on the line: with a fresh object the run stops after 1000 evaluations, with an
    object that was used before on a manifold of dimension 600 after 1200. *)
Theorem C17_nelder_mead_refuted : forall (cost : pt nm_dim600 -> F) base clock argsort centroid st,
  let run o := snd (nm_run (fun _ : pt (E1 F) => n_of_Z F 0 : F) (stop_default F 0) (still F) isort
    (fun _ l => match l with p :: _ => Ok p | [] => Raise ValueError end)
    o (NmRandom (M:=E1 F) [n_of_Z F 3; n_of_Z F 7])) in
  let fresh := nm_default F None None in
  let used := fst (nm_run cost base clock argsort centroid fresh st) in
  (exists a, run fresh = Ok a /\ match r_cost_evaluations (fst a) with Some e => Z.eqb e 1000 | None => false end = true) /\
  (exists a, run used = Ok a /\ match r_cost_evaluations (fst a) with Some e => Z.eqb e 1200 | None => false end = true).
Proof.
  intros cost base clock argsort centroid st run fresh used. unfold used. rewrite C17_nelder_mead_budgets_stick.
  split; apply ok_and_exists; vm_compute; reflexivity.
Qed.
Print Assumptions C17_nelder_mead_refuted.

(** ** C18 (violated): the final call of the cost is not counted, and the count assumes dim + 1 vertices.
    For a random simplex (dim + 1 vertices) the report is exactly one too small. *)
Theorem C18_nelder_mead_count : forall (N : NumOps), OrderLaws N -> forall (M : Mfd N), (0 <= m_dim M)%Z ->
  forall (cost : pt M -> N) base clock argsort centroid o st o' r trace xs0,
  is_argsort argsort ->
  nm_run cost base clock argsort centroid o st = (o', Ok (r, trace)) -> nm_simplex st = Ok xs0 ->
  exists n, r_cost_evaluations r = Some n /\
    (Z.of_nat (length (r_calls r)) = n + 1 + (Z.of_nat (length xs0) - (m_dim M + 1)))%Z.
Proof.
  intros N L M Hd cost base clock argsort centroid o st o' r tr xs0 Hs H E.
  destruct (nm_run_post L cost base clock argsort centroid Hs Hd o st o' r tr H) as (xs1 & E1 & Q).
  assert (xs1 = xs0) as -> by congruence. destruct (np_evals _ _ _ _ _ _ Q) as (n & A & B & _). exists n. split; auto. lia.
Qed.
Print Assumptions C18_nelder_mead_count.
Corollary C18_nelder_mead_off_by_one : forall (N : NumOps), OrderLaws N -> forall (M : Mfd N), (0 <= m_dim M)%Z ->
  forall (cost : pt M -> N) base clock argsort centroid o draws o' r trace,
  is_argsort argsort -> Z.of_nat (length draws) = (m_dim M + 1)%Z ->
  nm_run cost base clock argsort centroid o (NmRandom draws) = (o', Ok (r, trace)) ->
  exists n, r_cost_evaluations r = Some n /\ Z.of_nat (length (r_calls r)) = (n + 1)%Z.
Proof.
  intros N L M Hd cost base clock argsort centroid o draws o' r tr Hs Hl H.
  destruct (C18_nelder_mead_count N L M Hd cost base clock argsort centroid o _ o' r tr _ Hs H eq_refl) as (n & A & B).
  exists n. split; auto. rewrite B, firstn_length. lia.
Qed.
Print Assumptions C18_nelder_mead_off_by_one.

(** ** C35 (Nelder-Mead part): at most the dim + 2 evaluations of one iteration above the budget. *)
Theorem C35_nelder_mead_budget : forall (N : NumOps), OrderLaws N -> forall (M : Mfd N), (0 <= m_dim M)%Z ->
  forall (cost : pt M -> N) base clock argsort centroid o st o' r trace,
  is_argsort argsort ->
  nm_run cost base clock argsort centroid o st = (o', Ok (r, trace)) ->
  exists n, r_cost_evaluations r = Some n /\
    (n <= Z.max (m_dim M + 1) (evals_budget M o - 1 + (m_dim M + 2)))%Z.
Proof.
  intros N L M Hd cost base clock argsort centroid o st o' r tr Hs H.
  destruct (nm_run_post L cost base clock argsort centroid Hs Hd o st o' r tr H) as (xs1 & E1 & Q).
  destruct (np_evals _ _ _ _ _ _ Q) as (n & A & _ & B). exists n. split; auto.
  change (max_cost_evaluations _) with (evals_budget M o) in B. lia.
Qed.
Print Assumptions C35_nelder_mead_budget.
Example C35_nelder_mead_instance : exists rt,
  snd (nm_run nm_cost2 (stop_default F 0) (still F) isort nm_mean2 (nm_default F (Some 7%Z) None)
  (NmRandom (M:=E2 F) [(n_of_Z F 1, n_of_Z F 1); (n_of_Z F 2, n_of_Z F 1); (n_of_Z F 1, n_of_Z F 3)])) = Ok rt /\
  match r_cost_evaluations (fst rt) with Some n => Z.leb 7 n && Z.leb n 10 | None => false end = true.
Proof. apply ok_and_exists. vm_compute. reflexivity. Qed.

(** ** C84 *)
(** Between two consecutive iterations the simplex changes by exactly one of the documented moves, made
    with the centroid of all vertices but the worst, computed with the iteration number. *)
Theorem C84_nelder_mead_moves : forall (N : NumOps), OrderLaws N -> forall (M : Mfd N), (0 <= m_dim M)%Z ->
  forall (cost : pt M -> N) base clock argsort centroid o st o' r trace,
  is_argsort argsort ->
  nm_run cost base clock argsort centroid o st = (o', Ok (r, trace)) ->
  forall k xs costs xs' costs',
  nth_error trace k = Some (xs, costs) -> nth_error trace (S k) = Some (xs', costs') ->
  exists front worst xbar moved,
    xs = front ++ [worst] /\ centroid (Z.of_nat (S k)) front = Ok xbar /\
    nm_moves cost (nm_reflection o) (nm_expansion o) (nm_contraction o) xbar front worst moved /\
    Permutation xs' moved.
Proof.
  intros N L M Hd cost base clock argsort centroid o st o' r tr Hs H k xs c xs' c' E1 E2.
  unfold nm_run in H. injection H as _ H. apply bind_ok in H as (xs0 & _ & H).
  exact (nm_loop_chain cost _ _ clock argsort centroid Hs L Hd xs0 r tr H k xs c xs' c' E1 E2).
Qed.
Print Assumptions C84_nelder_mead_moves.
(** A run with several moves; the simplex does change. *)
Example C84_instance : exists rt, nm_run2 6 = Ok rt /\
  (match nth_error (snd rt) 0, nth_error (snd rt) 5 with
   | Some (_, a :: _), Some (_, b :: _) => nlt F b a
   | _, _ => false
   end) = true.
Proof. apply ok_and_exists. vm_compute. reflexivity. Qed.
