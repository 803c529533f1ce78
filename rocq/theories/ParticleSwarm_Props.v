(** Properties C32-C34 and the particle swarm parts of C06, C15-C18 and C35. *)
From Coq Require Import ZArith List Bool Sorted SpecFloat Lia.
From Verif Require Import Num_Model Num_Spec Num_Instances Num_Proofs LineSearch_Model Optimizer_Model Optimizer_Spec
  Optimizer_Proofs ParticleSwarm_Model ParticleSwarm_Spec ParticleSwarm_Proofs ParticleSwarm_Proofs2 Euclid1.
Import ListNotations.

(** The run's parameters: those of the object, or the defaults of the code. *)
Definition ps_evals_budget {N} (M : Mfd N) (o : ps_obj N) : Z :=
  match ps_max_evals o with Some k => k | None => Z.max 5000 (2 * m_dim M) end.
Definition ps_iterations_budget {N} (M : Mfd N) (o : ps_obj N) : Z :=
  match ps_max_iterations o with Some k => k | None => Z.max 500 (4 * m_dim M) end.
Definition ps_default_population {N} (M : Mfd N) (o : ps_obj N) : Z :=
  match ps_population o with Some k => k | None => Z.min 40 (10 * m_dim M) end.
(** The initial swarm. *)
Definition ps_initial {N} {M : Mfd N} (o : ps_obj N) (st : ps_start M) : list (pt M) :=
  match st with
  | PsRandom draws => map draws (seq 0 (Z.to_nat (ps_default_population M o)))
  | PsList l | PsTuple l => l
  | PsOther => []
  end.
Definition ps_outcome {N} {M : Mfd N} (t : ps_obj N * res (result N (pt M) * list (swarm M)) * option (list (pt M))) := snd (fst t).

Lemma ps_run_post {N} (L : OrderLaws N) {M : Mfd N} (cost : pt M -> N) base clock uniform rtv o st r tr :
  ps_outcome (ps_run cost base clock uniform rtv o st) = Ok (r, tr) ->
  ps_initial o st <> [] /\
  ps_post cost (mkStop (max_time base) (ps_iterations_budget M o) (min_gradient_norm base) (min_step_size base)
       (ps_evals_budget M o) (verbosity base) (log_verbosity base)) clock (ps_initial o st) r tr.
Proof.
  intros H. unfold ps_outcome, ps_run, ps_swarm, ps_fill in H. 
  destruct st as [draws|l|l|]; cbn [fst snd bind] in H; [| | |discriminate];
    change (match ps_population o with Some k => k | None => Z.min 40 (10 * m_dim M) end) with (ps_default_population M o) in H.
  - assert (Hne : ps_initial o (PsRandom draws) <> []).
    { intros Q. unfold ps_initial in Q. cbn [ps_population] in H. rewrite Q in H. discriminate H. }
    split; auto. eapply ps_loop_post; [exact L|exact Hne| |exact H].
    unfold ps_population_size. cbn [ps_population]. unfold ps_initial. rewrite map_length, seq_length.
    destruct (Z.leb_spec (ps_default_population M o) 0); [|lia].
    exfalso. apply Hne. unfold ps_initial. replace (Z.to_nat (ps_default_population M o)) with 0 by lia. reflexivity.
  - assert (Hne : l <> []) by (intros ->; discriminate H).
    split; auto. eapply ps_loop_post; [exact L|exact Hne| |exact H]. reflexivity.
  - assert (Hne : l <> []) by (intros ->; discriminate H).
    split; auto. eapply ps_loop_post; [exact L|exact Hne| |exact H]. reflexivity.
Qed.

(** ** A concrete run: cost (x - 1)^2 on the line, particles 3 and -2, random numbers 1/2, unit velocities. *)
Definition ps_cost1 (x : pt (E1 F)) : F := nmul F (nsub F x (n_of_Z F 1)) (nsub F x (n_of_Z F 1)).
Definition ps_default (N : NumOps) evals its pop : ps_obj N := mkPs evals its pop (lit 14 10) (lit 14 10).
Definition ps_run1 its := ps_run ps_cost1 (stop_default F 0) (still F) (fun _ => lit 1 2) (fun _ _ => n_of_Z F 1)
  (ps_default F None (Some its) None) (PsList (M:=E1 F) [n_of_Z F 3; n_of_Z F (-2)]).

(** ** C32 *)
(** At every iteration (the trace lists the swarm at the start of each): each personal best cost is the cost of the stored
    personal best position and the global best cost that of the stored global best position, both evaluated before. *)
Theorem C32_bookkeeping : forall (N : NumOps), OrderLaws N -> forall (M : Mfd N) (cost : pt M -> N) base clock uniform rtv o st r trace,
  ps_outcome (ps_run cost base clock uniform rtv o st) = Ok (r, trace) ->
  Forall (fun sw =>
    length (sw_x sw) = length (ps_initial o st) /\ length (sw_y sw) = length (ps_initial o st) /\
    sw_fy sw = map cost (sw_y sw) /\ sw_fbest sw = cost (sw_xbest sw) /\
    In (sw_xbest sw) (sw_calls sw) /\ (forall y, In y (sw_y sw) -> In y (sw_calls sw))) trace /\
  r_iterations r = Z.of_nat (length trace) /\
  (exists before last, trace = before ++ [last] /\ r_point r = sw_xbest last /\ r_calls r = sw_calls last) /\
  r_cost r = cost (r_point r).
Proof.
  intros N L M cost base clock uniform rtv o st r tr H.
  destruct (ps_run_post L cost base clock uniform rtv o st r tr H) as [_ Q].
  destruct (pp_last _ _ _ _ _ _ Q) as (tr' & sw & E1 & E2 & E3 & E4 & E5 & [A1 A2 A3 A4 A5 A6 A7]).
  split; [|split; [|split]].
  - apply Forall_forall. intros s Hs. pose proof (pp_trace _ _ _ _ _ _ Q) as T. rewrite Forall_forall in T.
    destruct (T s Hs) as [B1 B2 B3 B4 [B5 B5'] B6 B7]. auto 10.
  - apply (pp_it _ _ _ _ _ _ Q).
  - exists tr', sw. auto.
  - congruence.
Qed.
Print Assumptions C32_bookkeeping.
(** From one iteration to any later one the global best and each personal best stay the same or decrease strictly. *)
Theorem C32_never_increases : forall (N : NumOps), OrderLaws N -> forall (M : Mfd N) (cost : pt M -> N) base clock uniform rtv o st r trace,
  ps_outcome (ps_run cost base clock uniform rtv o st) = Ok (r, trace) ->
  StronglySorted (fun a b =>
    (sw_fbest b = sw_fbest a \/ nlt N (sw_fbest b) (sw_fbest a) = true) /\
    forall i fa fb, nth_error (sw_fy a) i = Some fa -> nth_error (sw_fy b) i = Some fb -> fb = fa \/ nlt N fb fa = true) trace.
Proof.
  intros N L M cost base clock uniform rtv o st r tr H.
  destruct (ps_run_post L cost base clock uniform rtv o st r tr H) as [_ Q]. exact (pp_sorted _ _ _ _ _ _ Q).
Qed.
Print Assumptions C32_never_increases.
(** If no initial cost is NaN, the returned cost is at most every cost that was evaluated (and is not NaN). *)
Theorem C32_best_of_all_evaluated : forall (N : NumOps), OrderLaws N -> forall (M : Mfd N) (cost : pt M -> N) base clock uniform rtv o st r trace,
  ps_outcome (ps_run cost base clock uniform rtv o st) = Ok (r, trace) ->
  (forall p, In p (ps_initial o st) -> nisnan N (cost p) = false) ->
  (forall p, In p (r_calls r) -> nisnan N (cost p) = false -> nle N (r_cost r) (cost p) = true) /\
  Forall (fun sw => (forall y, In y (sw_y sw) -> nle N (sw_fbest sw) (cost y) = true) /\
    forall p, In p (sw_calls sw) -> nisnan N (cost p) = false -> nle N (sw_fbest sw) (cost p) = true) trace.
Proof.
  intros N L M cost base clock uniform rtv o st r tr H Hn.
  destruct (ps_run_post L cost base clock uniform rtv o st r tr H) as [_ Q].
  destruct (pp_last _ _ _ _ _ _ Q) as (tr' & sw & E1 & E2 & E3 & E4 & E5 & [A1 A2 A3 A4 A5 A6 A7]).
  split.
  - rewrite E3, E5. apply (A6 Hn).
  - apply Forall_forall. intros s Hs. pose proof (pp_trace _ _ _ _ _ _ Q) as T. rewrite Forall_forall in T.
    apply (so_min _ _ _ (T s Hs) Hn).
Qed.
Print Assumptions C32_best_of_all_evaluated.
(** A single NaN in the initial population spoils the run: the returned cost is NaN, whatever is found later. *)
Theorem C32_nan_is_sticky : forall (N : NumOps), OrderLaws N -> forall (M : Mfd N) (cost : pt M -> N) base clock uniform rtv o st r trace,
  ps_outcome (ps_run cost base clock uniform rtv o st) = Ok (r, trace) ->
  (exists p, In p (ps_initial o st) /\ nisnan N (cost p) = true) ->
  nisnan N (r_cost r) = true.
Proof.
  intros N L M cost base clock uniform rtv o st r tr H Hn.
  destruct (ps_run_post L cost base clock uniform rtv o st r tr H) as [_ Q].
  destruct (pp_last _ _ _ _ _ _ Q) as (tr' & sw & E1 & E2 & E3 & E4 & E5 & [A1 A2 A3 A4 A5 A6 A7]).
  rewrite E3. auto.
Qed.
Print Assumptions C32_nan_is_sticky.
Example C32_instance : exists a, ps_outcome (ps_run1 4) = Ok a /\
  (forallb (fun p => negb (nisnan F (ps_cost1 p))) (r_calls (fst a)) && Nat.eqb (length (snd a)) 4 &&
   nlt F (r_cost (fst a)) (ps_cost1 (n_of_Z F 3)) && nlt F (r_cost (fst a)) (ps_cost1 (n_of_Z F (-2)))) = true.
Proof. apply ok_and_exists. vm_compute. reflexivity. Qed.
Example C32_nan_instance : exists a,
  ps_outcome (ps_run (fun x : pt (E1 F) => if nlt F (n_of_Z F 2) x then S754_nan else ps_cost1 x : F) (stop_default F 0) (still F)
    (fun _ => lit 1 2) (fun _ _ => n_of_Z F 1) (ps_default F None (Some 4%Z) None) (PsList (M:=E1 F) [n_of_Z F 3; n_of_Z F (-2)])) = Ok a /\
  sf_eqb (r_cost (fst a)) S754_nan = true.
Proof. apply ok_and_exists. vm_compute. reflexivity. Qed.

(** ** C33 (the code violates the property) *)
(** The cost is called at the initial positions, once more at the initial positions, and then at the positions of every
    iteration but the last: the final positions are never evaluated (unless visited before). *)
Theorem C33_final_positions_not_evaluated : forall (N : NumOps), OrderLaws N -> forall (M : Mfd N) (cost : pt M -> N) base clock uniform rtv o st r trace,
  ps_outcome (ps_run cost base clock uniform rtv o st) = Ok (r, trace) ->
  exists before last, trace = before ++ [last] /\ r_calls r = ps_initial o st ++ concat (map sw_x before) /\
    sw_x (hd last trace) = ps_initial o st.
Proof.
  intros N L M cost base clock uniform rtv o st r tr H.
  destruct (ps_run_post L cost base clock uniform rtv o st r tr H) as [_ Q].
  destruct (pp_last _ _ _ _ _ _ Q) as (tr' & sw & E1 & E2 & E3 & E4 & E5 & _).
  exists tr', sw. split; auto. split; auto. destruct (pp_first _ _ _ _ _ _ Q) as (a & t & Et & Ea). rewrite Et. exact Ea.
Qed.
Print Assumptions C33_final_positions_not_evaluated.
(** A run whose last swarm contains a better position than the one returned. *)
Theorem C33_refuted : exists a, ps_outcome (ps_run1 2) = Ok a /\
  existsb (fun sw => existsb (fun x => nlt F (ps_cost1 x) (r_cost (fst a))) (sw_x sw)) (snd a) = true.
Proof. apply ok_and_exists. vm_compute. reflexivity. Qed.
Print Assumptions C33_refuted.

(** ** C34 (the code violates the property) *)
(** After a successful run the list passed as initial_point holds the last positions of the swarm. *)
Theorem C34_list_is_overwritten : forall (N : NumOps) (M : Mfd N) (cost : pt M -> N) base clock uniform rtv o l r before last,
  let out := ps_run cost base clock uniform rtv o (PsList l) in
  ps_outcome out = Ok (r, before ++ [last]) -> snd out = Some (sw_x last).
Proof.
  intros N M cost base clock uniform rtv o l r before last out H. unfold out, ps_outcome, ps_run in *.
  cbv zeta in *. cbn [fst snd ps_swarm] in *. rewrite H. rewrite rev_app_distr. reflexivity.
Qed.
Print Assumptions C34_list_is_overwritten.
Theorem C34_refuted : exists a l, ps_outcome (ps_run1 2) = Ok a /\ snd (ps_run1 2) = Some l /\
  match l with [p; q] => negb (sf_eqb p (n_of_Z F 3)) && negb (sf_eqb q (n_of_Z F (-2))) | _ => false end = true.
Proof.
  assert (H : match ps_run1 2 with
    | (_, Ok _, Some [p; q]) => negb (sf_eqb p (n_of_Z F 3)) && negb (sf_eqb q (n_of_Z F (-2))) | _ => false end = true)
    by (vm_compute; reflexivity).
  unfold ps_outcome. destruct (ps_run1 2) as [[o' [a|]] [l|]]; try discriminate.
  exists a, l. repeat split. destruct l as [|p [|q [|]]]; try discriminate. exact H.
Qed.
Print Assumptions C34_refuted.
(** A tuple is accepted, but the first move raises TypeError; only runs of a single iteration survive. *)
Theorem C34_tuples_fail : forall (N : NumOps), OrderLaws N -> forall (M : Mfd N) (cost : pt M -> N) base clock uniform rtv o l r trace,
  ps_outcome (ps_run cost base clock uniform rtv o (PsTuple l)) = Ok (r, trace) -> r_iterations r = 1%Z.
Proof.
  intros N L M cost base clock uniform rtv o l r trace H. unfold ps_outcome, ps_run in H. cbv zeta in H. cbn [fst snd ps_swarm bind] in H.
  unfold ps_loop in H. destruct (combine _ _); [discriminate|]. destruct (argmin_from _ _) as [xb fb].
  apply bind_ok in H as (u & _ & H). unfold iter_fuel in H. cbn [loop] in H. apply bind_ok in H as (out & Hb & H).
  unfold ps_body in Hb. cbv zeta in Hb. destruct (ps_check _ _ _ _ _ _ _) as [[rs|] tick].
  - injection Hb as <-. injection H as <- _. reflexivity.
  - apply bind_ok in Hb as (frac & _ & Hb). discriminate.
Qed.
Print Assumptions C34_tuples_fail.

(** ** C06 (particle swarm part) *)
Theorem C06_particle_swarm_reason : forall (N : NumOps), OrderLaws N -> forall (M : Mfd N) (cost : pt M -> N) base clock uniform rtv o st r trace,
  ps_outcome (ps_run cost base clock uniform rtv o st) = Ok (r, trace) ->
  exists tick evals, r_cost_evaluations r = Some evals /\
    let sp := mkStop (max_time base) (ps_iterations_budget M o) (min_gradient_norm base) (min_step_size base) (ps_evals_budget M o)
                (verbosity base) (log_verbosity base) in
    first_criterion (criterion_met sp (clock (S tick)) (clock 0) (r_iterations r) None None evals)
      (reason_criterion (r_stopping_criterion r)) /\
    reason_data (r_stopping_criterion r) (r_iterations r) (nsub N (clock tick) (clock 0)).
Proof.
  intros N L M cost base clock uniform rtv o st r tr H.
  destruct (ps_run_post L cost base clock uniform rtv o st r tr H) as [_ Q].
  destruct (pp_reason _ _ _ _ _ _ Q) as (tick & n & A & B). exists tick, n. split; auto.
  pose proof (check_stopping_cases (mkStop (max_time base) (ps_iterations_budget M o) (min_gradient_norm base) (min_step_size base) (ps_evals_budget M o)
                (verbosity base) (log_verbosity base)) clock tick (clock 0) (r_iterations r) None None n) as C.
  rewrite B in C. exact C.
Qed.
Print Assumptions C06_particle_swarm_reason.

(** ** C15 (particle swarm part) *)
Theorem C15_particle_swarm_terminates : forall (N : NumOps), OrderLaws N -> forall (M : Mfd N) (cost : pt M -> N) base clock uniform rtv o st,
  let run := ps_outcome (ps_run cost base clock uniform rtv o st) in
  run <> Raise OutOfFuel /\
  forall r trace, run = Ok (r, trace) -> (1 <= r_iterations r <= Z.max 1 (ps_iterations_budget M o))%Z.
Proof.
  intros N L M cost base clock uniform rtv o st run. split.
  - unfold run, ps_outcome, ps_run, ps_swarm, ps_fill. destruct st as [draws|l|l|]; cbn [fst snd bind]; [| | |discriminate].
    + cbn [ps_population]. set (x0 := map draws _). destruct x0 as [|a t] eqn:E; [discriminate|]. rewrite <- E.
      apply ps_loop_fuel; auto; [rewrite E; discriminate|]. unfold ps_population_size. cbn [ps_population].
      unfold x0. rewrite map_length, seq_length.
      match goal with |- ?k = Z.of_nat (Z.to_nat ?k) => destruct (Z.leb_spec k 0); [|lia] end.
      unfold x0 in E. exfalso. match type of E with map _ (seq 0 (Z.to_nat ?k)) = _ => replace (Z.to_nat k) with 0 in E by lia end.
      discriminate E.
    + destruct l as [|a t] eqn:E; [discriminate|]. apply ps_loop_fuel; auto. discriminate.
    + destruct l as [|a t] eqn:E; [discriminate|]. apply ps_loop_fuel; auto. discriminate.
  - intros r tr H. destruct (ps_run_post L cost base clock uniform rtv o st r tr H) as [_ Q]. apply (pp_it _ _ _ _ _ _ Q).
Qed.
Print Assumptions C15_particle_swarm_terminates.

(** ** C16 (violated): the log of a particle swarm run has no entries. *)
Theorem C16_particle_swarm_log_is_empty : forall (N : NumOps), OrderLaws N -> forall (M : Mfd N) (cost : pt M -> N) base clock uniform rtv o st r trace,
  ps_outcome (ps_run cost base clock uniform rtv o st) = Ok (r, trace) ->
  (1 <= r_iterations r)%Z /\ r_log r = (if (1 <=? log_verbosity base)%Z then Some [] else None).
Proof.
  intros N L M cost base clock uniform rtv o st r tr H. destruct (ps_run_post L cost base clock uniform rtv o st r tr H) as [_ Q].
  split; [|exact (pp_log _ _ _ _ _ _ Q)]. pose proof (pp_it _ _ _ _ _ _ Q). lia.
Qed.
Print Assumptions C16_particle_swarm_log_is_empty.

(** ** C17 (violated) *)
(** A run stores the budgets and the population size it used. *)
Theorem C17_particle_swarm_parameters_stick : forall (N : NumOps) (M : Mfd N) (cost : pt M -> N) base clock uniform rtv o st,
  fst (fst (ps_run cost base clock uniform rtv o st)) =
  mkPs (Some (ps_evals_budget M o)) (Some (ps_iterations_budget M o))
    (Some match st with PsList l | PsTuple l => Z.of_nat (length l) | _ => ps_default_population M o end)
    (ps_nostalgia o) (ps_social o).
Proof. intros. destruct st; reflexivity. Qed.
Print Assumptions C17_particle_swarm_parameters_stick.
(** Two runs on the plane, with a fresh object (20 particles) and with one used before on the line (10 particles). *)
Theorem C17_particle_swarm_refuted : forall (cost : pt (E1 F) -> F) base clock uniform rtv draws,
  let run o := ps_outcome (ps_run (fun p : pt (E2 F) => nmul F (fst p) (fst p) : F) (stop_default F 0) (still F) (fun _ => lit 1 2)
    (fun _ _ => (n_of_Z F 1, n_of_Z F 1)) o (PsRandom (M:=E2 F) (fun k => (n_of_Z F (Z.of_nat k), n_of_Z F 1)))) in
  let fresh := ps_default F None (Some 1%Z) None in
  let used := fst (fst (ps_run cost base clock uniform rtv fresh (PsRandom draws))) in
  (exists a, run fresh = Ok a /\ match r_cost_evaluations (fst a) with Some e => Z.eqb e 20 | None => false end = true) /\
  (exists a, run used = Ok a /\ match r_cost_evaluations (fst a) with Some e => Z.eqb e 10 | None => false end = true).
Proof.
  intros cost base clock uniform rtv draws run fresh used. unfold used. rewrite C17_particle_swarm_parameters_stick.
  split; apply ok_and_exists; vm_compute; reflexivity.
Qed.
Print Assumptions C17_particle_swarm_refuted.

(** ** C18 (particle swarm part): the count is right. *)
Theorem C18_particle_swarm_count : forall (N : NumOps), OrderLaws N -> forall (M : Mfd N) (cost : pt M -> N) base clock uniform rtv o st r trace,
  ps_outcome (ps_run cost base clock uniform rtv o st) = Ok (r, trace) ->
  r_cost_evaluations r = Some (Z.of_nat (length (r_calls r))).
Proof.
  intros N L M cost base clock uniform rtv o st r tr H. destruct (ps_run_post L cost base clock uniform rtv o st r tr H) as [_ Q].
  apply (pp_evals _ _ _ _ _ _ Q).
Qed.
Print Assumptions C18_particle_swarm_count.
Example C18_particle_swarm_instance : exists a, ps_outcome (ps_run1 4) = Ok a /\
  match r_cost_evaluations (fst a) with Some e => Z.eqb e 8 | None => false end = true.
Proof. apply ok_and_exists. vm_compute. reflexivity. Qed.

(** ** C35 (particle swarm part): at most one iteration's evaluations above the budget. *)
Theorem C35_particle_swarm_budget : forall (N : NumOps), OrderLaws N -> forall (M : Mfd N) (cost : pt M -> N) base clock uniform rtv o st r trace,
  ps_outcome (ps_run cost base clock uniform rtv o st) = Ok (r, trace) ->
  let population := Z.of_nat (length (ps_initial o st)) in
  exists n, r_cost_evaluations r = Some n /\ (n <= Z.max population (ps_evals_budget M o - 1 + population))%Z.
Proof.
  intros N L M cost base clock uniform rtv o st r tr H population. destruct (ps_run_post L cost base clock uniform rtv o st r tr H) as [_ Q].
  destruct (pp_evals _ _ _ _ _ _ Q) as [A B]. eexists. split; [exact A|exact B].
Qed.
Print Assumptions C35_particle_swarm_budget.

Lemma combine_seq_nth {A} : forall (l : list A) k i x, nth_error l i = Some x ->
  nth_error (combine (seq k (length l)) l) i = Some (k + i, x).
Proof.
  induction l as [|a l IH]; intros k [|i] x Hi; try discriminate; cbn [length seq combine nth_error] in *.
  - rewrite Nat.add_0_r. congruence.
  - rewrite (IH (S k) i x Hi). f_equal. f_equal. lia.
Qed.

(** ** C85 *)
(** There is a sequence of velocities, starting with the random tangent vectors drawn at the initial particles, such that in
    every iteration each particle's velocity and position change by the documented rule, and its personal best
    becomes its position exactly when that position has lower cost. *)
Theorem C85_particle_motion : forall (N : NumOps), OrderLaws N -> forall (M : Mfd N) (cost : pt M -> N) base clock uniform rtv o st r trace,
  ps_outcome (ps_run cost base clock uniform rtv o st) = Ok (r, trace) ->
  let x0 := ps_initial o st in
  exists V : nat -> list (tv M),
    (forall i x, nth_error x0 i = Some x -> nth_error (V 0) i = Some (rtv i x)) /\
    forall t sw sw', nth_error trace t = Some sw -> nth_error trace (S t) = Some sw' ->
    exists w prev,
      inertia_weight (Z.of_nat (S t)) (ps_iterations_budget M o) w /\
      match t with O => prev = x0 | S t' => option_map sw_x (nth_error trace t') = Some prev end /\
      forall i x, nth_error (sw_x sw) i = Some x ->
      exists xprev y v v',
        nth_error prev i = Some xprev /\ nth_error (sw_y sw) i = Some y /\
        nth_error (V t) i = Some v /\ nth_error (V (S t)) i = Some v' /\
        v' = new_velocity (ps_nostalgia o) (ps_social o) uniform w x xprev y (sw_xbest sw) v (2 * (t * length x0 + i)) /\
        nth_error (sw_x sw') i = Some (m_retr M x v') /\
        nth_error (sw_y sw') i = Some (if nlt N (cost x) (cost y) then x else y).
Proof.
  intros N L M cost base clock uniform rtv o st r tr H x0.
  assert (exists V, V 0 = init_v rtv x0 /\ motion cost o (mkStop (max_time base) (ps_iterations_budget M o) (min_gradient_norm base) (min_step_size base)
       (ps_evals_budget M o) (verbosity base) (log_verbosity base)) uniform x0 V tr) as (V & V0 & MO).
  { unfold ps_outcome, ps_run, ps_swarm, ps_fill in H.
    destruct st as [draws|l|l|]; cbn [fst snd bind] in H; [| | |discriminate];
      apply ps_loop_motion in H; auto. }
  exists V. split.
  - intros i x Hi. rewrite V0. unfold init_v. apply (map_nth_error (fun p => rtv (fst p) (snd p)) i _ (d := (i, x))).
    exact (combine_seq_nth x0 0 i x Hi).
  - intros t sw sw' E1 E2.
    assert (exists prev, before x0 tr t = Some prev) as [prev PV].
    { destruct t as [|t]; [simpl; eauto|]. simpl. destruct (nth_error tr t) eqn:E; simpl; eauto.
      apply nth_error_None in E. assert (S t < length tr) by (apply nth_error_Some; congruence). lia. }
    destruct (MO t sw' E2 sw prev E1 PV) as (w & W & K). exists w, prev. split; [exact W|]. split; [|exact K].
    destruct t; simpl in PV; congruence.
Qed.
Print Assumptions C85_particle_motion.
Example C85_instance : exists rt, ps_outcome (ps_run1 3) = Ok rt /\
  (match nth_error (snd rt) 0, nth_error (snd rt) 2 with
   | Some a, Some b => match sw_x a, sw_x b with x :: _, y :: _ => negb (nle F y x && nle F x y) | _, _ => false end
   | _, _ => false
   end) = true.
Proof. apply ok_and_exists. vm_compute. reflexivity. Qed.
