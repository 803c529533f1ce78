(** Nelder-Mead: src/pymanopt/optimizers/nelder_mead.py. *)
From Coq Require Import ZArith List Bool.
From Verif Require Import Num_Model PyList_Model LineSearch_Model Optimizer_Model.
Import ListNotations.
Local Open Scope num_scope.

(** * compute_centroid, lines 11-33.
    The Karcher mean is computed by [SteepestDescent(max_iterations=15, verbosity=0)] from a random
    point [x0]. [sum] starts with 0 (costs) or the zero vector (line 26).
    The Hessian and preconditioner of the problem are not used by steepest descent. *)
Section Centroid.
Context {N : NumOps} {M : Mfd N}.

(** Lines 15-18.  The division by the integer 2 is one of NumPy scalars or of Python floats;
    it cannot raise. *)
Definition karcher_cost (points : list (pt M)) (y : pt M) : N :=
  match ndiv N (fold_left (fun acc p => acc + m_dist M y p * m_dist M y p) points #0) #2 with
  | Ok q => q
  | Raise _ => #0
  end.
(** Lines 21-27. *)
Definition karcher_gradient (points : list (pt M)) (y : pt M) : tv M :=
  t_neg M (fold_left (fun acc p => t_add M acc (m_log M y p)) points (m_zero M y)).
Definition karcher_problem (points : list (pt M)) : OptProblem M :=
  mkOptProblem N M (karcher_cost points) (karcher_gradient points)
    (fun _ v => v) (fun _ v => v).
(** Lines 29-33, with the default stopping parameters [sp] except for the iteration budget; [LS] and [ls0]
    are the default line searcher and its initial state. *)
Definition compute_centroid (LS : LineSearcher M) (ls0 : ls_state LS) (sp : stop_params N)
  (clock : nat -> N) (x0 : pt M) (points : list (pt M)) : res (pt M) :=
  let sp := mkStop (max_time sp) 15 (min_gradient_norm sp) (min_step_size sp)
                   (max_cost_evaluations sp) 0 (log_verbosity sp) in
  let* (r, _) := sd_run (karcher_problem points) LS sp clock ls0 x0 in
  Ok (r_point r).
End Centroid.

Section NM.
Context {N : NumOps} {M : Mfd N}.

(** NelderMead.__init__, lines 53-69.  [None] budgets are filled in by [run]. *)
Record nm_obj := mkNm {
  nm_max_evals : option Z; nm_max_iterations : option Z;
  nm_reflection : N; nm_expansion : N; nm_contraction : N }.

(** Lines 92-95: defaults are stored on the object. *)
Definition nm_fill (o : nm_obj) : nm_obj :=
  mkNm (Some match nm_max_evals o with None => Z.max 1000 (2 * m_dim M) | Some k => k end)
       (Some match nm_max_iterations o with None => Z.max 2000 (4 * m_dim M) | Some k => k end)
       (nm_reflection o) (nm_expansion o) (nm_contraction o).

(** The argument [initial_point]. *)
Inductive nm_start := NmRandom (draws : list (pt M)) | NmSequence (l : list (pt M)) | NmOther.

(** Lines 98-110.  [draws] are the random points, one per vertex.  The size test is as in
    the code: a sequence is taken if its length differs from dim + 1. *)
Definition nm_simplex (st : nm_start) : res (list (pt M)) :=
  let num_points := (m_dim M + 1)%Z in
  match st with
  | NmRandom draws => Ok (firstn (Z.to_nat num_points) draws)
  | NmSequence l => if negb (Z.of_nat (length l) =? num_points)%Z then Ok l else Raise ValueError
  | NmOther => Raise ValueError
  end.

Variables (cost : pt M -> N) (o : nm_obj) (sp : stop_params N) (clock : nat -> N)
  (argsort : list N -> list nat) (centroid : Z -> list (pt M) -> res (pt M)).

(** Lines 118-120 and 140-142.  [argsort] is [np.argsort]; the same permutation is applied to
    costs and points. *)
Definition nm_sort (xs : list (pt M)) (costs : list N) : res (list (pt M) * list N) :=
  let order := argsort costs in
  let* costs' := py_take costs order in
  let* xs' := py_take xs order in
  Ok (xs', costs').

(** Local variables at the start of an iteration.  [n_calls]: the points
    at which the cost was called so far; [n_trace]: the sorted simplices of
    the iterations so far (neither is part of the code). *)
Record nm_state := mkNmState {
  n_x : list (pt M); n_costs : list N; n_evals : Z; n_iteration : Z; n_tick : nat;
  n_calls : list (pt M); n_trace : list (list (pt M) * list N) }.

(** Lines 222-226: the loop over [np.arange(1, dim + 1)], from index [i], [n] indices left. *)
Fixpoint nm_shrink (x0 : pt M) (n : nat) (i : Z) (xs : list (pt M)) (costs : list N) (calls : list (pt M))
  : res (list (pt M) * list N * list (pt M)) :=
  match n with
  | O => Ok (xs, costs, calls)
  | S n' =>
      let* xi := py_get xs i in
      let xi' := m_pair_mean M x0 xi in                                 (* 224 *)
      let* xs := py_set xs i xi' in
      let* costs := py_set costs i (cost xi') in                        (* 225 *)
      nm_shrink x0 n' (i + 1)%Z xs costs (calls ++ [xi'])
  end.

(** Replace the worst vertex, e.g. lines 171-173. *)
Definition nm_replace (xs : list (pt M)) (costs : list N) (x : pt M) (c : N)
  : res (list (pt M) * list N) :=
  let* costs := py_set costs (-1)%Z c in
  let* xs := py_set xs (-1)%Z x in
  Ok (xs, costs).

(** Lines 155-226 on a sorted simplex: the new simplex, its costs, the new
    evaluation count and the cost calls made. *)
Definition nm_move (iteration : Z) (xs : list (pt M)) (costs : list N) (evals : Z)
  : res (list (pt M) * list N * Z * list (pt M)) :=
  let* xbar := centroid iteration (py_init xs) in                       (* 156 *)
  let* worst := py_get xs (-1)%Z in
  let vec := m_log M xbar worst in                                      (* 159 *)
  let xr := m_retr M xbar (t_scale M (- nm_reflection o) vec) in        (* 162 *)
  let costr := cost xr in                                               (* 163 *)
  let evals := (evals + 1)%Z in
  let* c0 := py_get costs 0%Z in
  (* Python evaluates [costs[-2]] only if [costr >= costs[0]] *)
  let* honorable := if costr >=? c0 then (let* c2 := py_get costs (-2)%Z in Ok (costr <? c2))
                    else Ok false in                                    (* 168 *)
  if honorable : bool then
    let* (xs, costs) := nm_replace xs costs xr costr in Ok (xs, costs, evals, [xr]) (* 171-173 *)
  else if costr <? c0 then                                              (* 176 *)
    let xe := m_retr M xbar (t_scale M (- nm_expansion o) vec) in       (* 177 *)
    let coste := cost xe in
    let evals := (evals + 1)%Z in
    if coste <? costr then                                              (* 180 *)
      let* (xs, costs) := nm_replace xs costs xe coste in Ok (xs, costs, evals, [xr; xe])
    else
      let* (xs, costs) := nm_replace xs costs xr costr in Ok (xs, costs, evals, [xr; xe]) (* 189-191 *)
  else
    let* c2 := py_get costs (-2)%Z in
    let* c1 := py_get costs (-1)%Z in
    (* outcome of lines 195-217: the accepted contraction, if any, and the call made *)
    let '(accepted, evals, calls) :=
      if costr >=? c2 then
        if costr <? c1 then                                             (* 196 *)
          let xoc := m_retr M xbar (t_scale M (- nm_contraction o) vec) in (* 198 *)
          let costoc := cost xoc in
          ((if costoc <=? costr then Some (xoc, costoc) else None), (evals + 1)%Z, [xr; xoc]) (* 201 *)
        else
          let xic := m_retr M xbar (t_scale M (nm_contraction o) vec) in (* 209 *)
          let costic := cost xic in
          ((if costic <=? c1 then Some (xic, costic) else None), (evals + 1)%Z, [xr; xic]) (* 212 *)
      else (None, evals, [xr]) in
    match accepted with
    | Some (xc, cc) => let* (xs, costs) := nm_replace xs costs xc cc in Ok (xs, costs, evals, calls)
    | None =>
        let* x0 := py_get xs 0%Z in                                     (* 222 *)
        let* (xs, costs, calls) := nm_shrink x0 (Z.to_nat (m_dim M)) 1 xs costs calls in
        Ok (xs, costs, (evals + m_dim M)%Z, calls)                      (* 226 *)
    end.

(** One iteration, lines 131-226, and the result, lines 228-237. *)
Definition nm_body (start_time : N) (s : nm_state)
  : res (step_out nm_state (result N (pt M) * list (list (pt M) * list N))) :=
  let iteration := (n_iteration s + 1)%Z in                             (* 131 *)
  let* (xs, costs) := nm_sort (n_x s) (n_costs s) in                    (* 140-142 *)
  let trace := n_trace s ++ [(xs, costs)] in
  match check_stopping sp clock (n_tick s) start_time iteration None None (n_evals s) with (* 144-148 *)
  | Some reason =>
      let* x := py_get xs 0%Z in                                        (* 228 *)
      Ok (Stop (mkResult x (cost x) iteration reason
                  (clock (n_tick s + 2)%nat - start_time) (Some (n_evals s)) None None
                  (log_init (pt M) sp) (n_calls s ++ [x]), trace))
  | None =>
      let* (xs, costs, evals, calls) := nm_move iteration xs costs (n_evals s) in
      Ok (Continue (mkNmState xs costs evals iteration (n_tick s + 2) (n_calls s ++ calls) trace))
  end.

(** Lines 112-237 for a given initial simplex. *)
Definition nm_loop (xs : list (pt M)) : res (result N (pt M) * list (list (pt M) * list N)) :=
  let costs := map cost xs in                                           (* 114 *)
  let* (xs', costs') := nm_sort xs costs in                             (* 118-120 *)
  loop (nm_body (clock 0%nat)) (iter_fuel sp)
    (mkNmState xs' costs' (m_dim M + 1) 0 1 xs []).                     (* 115, 124-128 *)
End NM.
Arguments nm_obj : clear implicits.
Arguments nm_start {N} M.
Arguments nm_state {N} M.

(** NelderMead.run, lines 71-237.  [base] holds the parameters of the base class; the two budgets are those of the object
    after filling in defaults.  Returns the object after the run, and the outcome. *)
Definition nm_run {N : NumOps} {M : Mfd N} (cost : pt M -> N) (base : stop_params N) (clock : nat -> N)
  (argsort : list N -> list nat) (centroid : Z -> list (pt M) -> res (pt M)) (o : nm_obj N) (st : nm_start M)
  : nm_obj N * res (result N (pt M) * list (list (pt M) * list N)) :=
  let o := nm_fill (M := M) o in
  let sp := mkStop (max_time base)
    match nm_max_iterations o with Some k => k | None => 0%Z end
    (min_gradient_norm base) (min_step_size base)
    match nm_max_evals o with Some k => k | None => 0%Z end
    (verbosity base) (log_verbosity base) in
  (o, let* xs := nm_simplex st in nm_loop cost o sp clock argsort centroid xs).
