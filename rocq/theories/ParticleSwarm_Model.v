(** Particle swarm: src/pymanopt/optimizers/particle_swarm.py. *)
From Coq Require Import ZArith List Bool.
From Verif Require Import Num_Model LineSearch_Model Optimizer_Model.
Import ListNotations.
Local Open Scope num_scope.

Section PS.
Context {N : NumOps} {M : Mfd N}.

(** ParticleSwarm.__init__, lines 24-40. *)
Record ps_obj := mkPs {
  ps_max_evals : option Z; ps_max_iterations : option Z; ps_population : option Z;
  ps_nostalgia : N; ps_social : N }.

(** Lines 63-68: defaults are stored on the object. *)
Definition ps_fill (o : ps_obj) : ps_obj :=
  mkPs (Some match ps_max_evals o with None => Z.max 5000 (2 * m_dim M) | Some k => k end)
       (Some match ps_max_iterations o with None => Z.max 500 (4 * m_dim M) | Some k => k end)
       (Some match ps_population o with None => Z.min 40 (10 * m_dim M) | Some k => k end)
       (ps_nostalgia o) (ps_social o).

(** The argument [initial_point]: absent (the points drawn at random), a list, a tuple, or something else. *)
Inductive ps_start := PsRandom (draws : nat -> pt M) | PsList (l : list (pt M)) | PsTuple (l : list (pt M)) | PsOther.

(** Lines 72-86: the object after the population size was forced (line 83), and the swarm. *)
Definition ps_swarm (o : ps_obj) (st : ps_start) : ps_obj * res (list (pt M)) :=
  let forced l := (* assigning an equal value (line 78) changes nothing *)
    mkPs (ps_max_evals o) (ps_max_iterations o) (Some (Z.of_nat (length l))) (ps_nostalgia o) (ps_social o) in
  match st with
  | PsRandom draws =>
      (o, Ok (map draws (seq 0 (Z.to_nat match ps_population o with Some k => k | None => 0 end))))
  | PsList l | PsTuple l => (forced l, Ok l)
  | PsOther => (o, Raise ValueError)
  end.

(** [costs.argmin()], line 103: the first NaN if there is one, else the first minimum. *)
Fixpoint argmin_from (best : pt M * N) (l : list (pt M * N)) : pt M * N :=
  match l with
  | [] => best
  | c :: t =>
      if nisnan N (snd best) then best
      else argmin_from (if nisnan N (snd c) || (snd c <? snd best) then c else best) t
  end.

(** The swarm: positions [x], personal bests [y] with costs [fy], global best; [sw_calls] lists the points at
    which the cost was called so far (not part of the code).  The array [costs] is written (line 192) but not read
    after line 104 and is left out. *)
Record swarm := mkSwarm {
  sw_x : list (pt M); sw_y : list (pt M); sw_fy : list N; sw_xbest : pt M; sw_fbest : N; sw_calls : list (pt M) }.

Variables (cost : pt M -> N) (o : ps_obj) (sp : stop_params N) (clock : nat -> N) (uniform : nat -> N).
(** [is_list]: positions can be assigned (the initial population is not a tuple). *)
Variable is_list : bool.

Record ps_state := mkPsState {
  p_swarm : swarm; p_xprev : list (pt M); p_v : list (tv M); p_evals : Z; p_iteration : Z; p_tick : nat;
  p_draws : nat; p_trace : list swarm }.

(** Lines 138-145: one stopping test per particle, each reading the clock twice. *)
Fixpoint ps_check (n : nat) (tick : nat) (start_time : N) (iteration evals : Z) : option (stop_reason N) * nat :=
  match n with
  | O => (None, tick)
  | S n' =>
      match check_stopping sp clock tick start_time iteration None None evals with
      | Some r => (Some r, tick + 2)%nat
      | None => ps_check n' (tick + 2) start_time iteration evals
      end
  end.

(** Lines 157-179: the new velocities; two random numbers per particle, from number [k] on. *)
Fixpoint ps_velocities (w : N) (xbest : pt M) (xs ys xprevs : list (pt M)) (vs : list (tv M)) (k : nat) : list (tv M) :=
  match xs, ys, xprevs, vs with
  | xi :: xs, yi :: ys, xiprev :: xprevs, vi :: vs =>
      let inertia := t_scale M w (m_transp M xiprev xi vi) in           (* 167 *)
      let nostalgia := t_scale M (uniform k * ps_nostalgia o) (m_log M xi yi) in (* 168-172 *)
      let social := t_scale M (uniform (S k) * ps_social o) (m_log M xi xbest) in (* 173-177 *)
      t_add M (t_add M inertia nostalgia) social
        :: ps_velocities w xbest xs ys xprevs vs (S (S k))              (* 179 *)
  | _, _, _, _ => []
  end.

(** Lines 185-200.  The cost is evaluated at the position before the move. *)
Fixpoint ps_update (xs : list (pt M)) (vs : list (tv M)) (ys : list (pt M)) (fys : list N) (xbest : pt M) (fbest : N)
  : list (pt M) * list (pt M) * list N * pt M * N :=
  match xs, vs, ys, fys with
  | xi :: xs, vi :: vs, yi :: ys, fyi :: fys =>
      let xi' := m_retr M xi vi in                                      (* 187 *)
      let fxi := cost xi in                                             (* 189 *)
      let '(yi', fyi', xbest', fbest') :=
        if fxi <? fyi then                                              (* 194 *)
          (xi, fxi, if fxi <? fbest then xi else xbest, if fxi <? fbest then fxi else fbest) (* 195-200 *)
        else (yi, fyi, xbest, fbest) in
      let '(xs', ys', fys', xbest'', fbest'') := ps_update xs vs ys fys xbest' fbest' in
      (xi' :: xs', yi' :: ys', fyi' :: fys', xbest'', fbest'')
  | _, _, _, _ => ([], [], [], xbest, fbest)
  end.

Definition ps_population_size : Z := match ps_population o with Some k => k | None => 0%Z end.

(** One iteration, lines 129-201, and the result, lines 203-210.  Besides the result: the swarm at the start of each
    iteration (not part of the code), and the final positions. *)
Definition ps_body (start_time : N) (s : ps_state) : res (step_out ps_state (result N (pt M) * list swarm)) :=
  let iteration := (p_iteration s + 1)%Z in                             (* 129 *)
  let sw := p_swarm s in
  let trace := p_trace s ++ [sw] in
  let '(stop, tick) := ps_check (length (sw_x sw)) (p_tick s) start_time iteration (p_evals s) in
  match stop with
  | Some reason =>
      Ok (Stop (mkResult (sw_xbest sw) (sw_fbest sw) iteration reason (clock tick - start_time) (Some (p_evals s))
                  None None (log_init (pt M) sp) (sw_calls sw), trace))
  | None =>
      let* frac := ndiv_py N #iteration #(max_iterations sp) in
      let w := lit 4 10 + lit 5 10 * (#1 - frac) in                     (* 154 *)
      let v := ps_velocities w (sw_xbest sw) (sw_x sw) (sw_y sw) (p_xprev s) (p_v s) (p_draws s) in
      if is_list then
        let '(x', y', fy', xbest', fbest') :=
          ps_update (sw_x sw) v (sw_y sw) (sw_fy sw) (sw_xbest sw) (sw_fbest sw) in
        Ok (Continue (mkPsState (mkSwarm x' y' fy' xbest' fbest' (sw_calls sw ++ sw_x sw)) (sw_x sw) v (* 182 *)
              (p_evals s + ps_population_size)%Z iteration tick         (* 201 *)
              (p_draws s + 2 * length (sw_x sw)) trace))
      else Raise TypeError                                              (* 187: item assignment on a tuple *)
  end.

(** Lines 88-210 for a given initial swarm; [rtv i] is the random tangent vector drawn for particle [i]. *)
Definition ps_loop (rtv : nat -> pt M -> tv M) (x : list (pt M)) : res (result N (pt M) * list swarm) :=
  let v := map (fun p => rtv (fst p) (snd p)) (combine (seq 0 (length x)) x) in (* 95 *)
  let fy := map cost x in                                               (* 98-99 *)
  match combine x fy with
  | [] => Raise ValueError                                              (* 103: argmin of an empty sequence *)
  | c :: t =>
      let '(xbest, fbest) := argmin_from c t in                         (* 103-105 *)
      let* _ := format_length_check sp in                               (* 107-108 *)
      loop (ps_body (clock 0%nat)) (iter_fuel sp)
        (mkPsState (mkSwarm x x fy xbest fbest x) x v ps_population_size 0 1 0 []) (* 89, 92, 100, 125-126 *)
  end.
End PS.
Arguments ps_obj : clear implicits.
Arguments ps_start {N} M.
Arguments swarm {N} M.
Arguments ps_state {N} M.

(** ParticleSwarm.run, lines 42-210: the object after the run, the outcome, and the list passed as
    [initial_point] after the run.  [x] is that list itself (line 84), so that it holds the positions at the start of the last
    iteration (the last element of the trace); if the run raises the list is not modelled. *)
Definition ps_run {N : NumOps} {M : Mfd N} (cost : pt M -> N) (base : stop_params N) (clock : nat -> N)
  (uniform : nat -> N) (rtv : nat -> pt M -> tv M) (o : ps_obj N) (st : ps_start M)
  : ps_obj N * res (result N (pt M) * list (swarm M)) * option (list (pt M)) :=
  let '(o, x) := ps_swarm (M:=M) (ps_fill (M:=M) o) st in
  let sp := mkStop (max_time base)
    match ps_max_iterations o with Some k => k | None => 0%Z end
    (min_gradient_norm base) (min_step_size base)
    match ps_max_evals o with Some k => k | None => 0%Z end
    (verbosity base) (log_verbosity base) in
  let is_list := match st with PsTuple _ => false | _ => true end in
  let outcome := let* x := x in ps_loop cost o sp clock uniform is_list rtv x in
  let caller := match st, outcome with
    | PsList _, Ok (_, trace) => match rev trace with sw :: _ => Some (sw_x sw) | [] => None end
    | PsTuple l, _ => Some l
    | _, _ => None
    end in
  (o, outcome, caller).
