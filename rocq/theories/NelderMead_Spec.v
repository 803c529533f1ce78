(** Vocabulary for the properties of the derivative-free optimizers. *)
From Coq Require Import ZArith List Bool Sorted Permutation.
From Verif Require Import Num_Model.
Import ListNotations.

(** Ascending, all NaN at the end: the order produced by NumPy's sorting. *)
Definition sorted_nan_last {N : NumOps} (l : list N) : Prop :=
  StronglySorted (fun a b => nle N a b = true \/ nisnan N b = true) l.

(** What [np.argsort] guarantees: the indices, permuted so that the values are ascending.  Nothing is said about the order of
    equal values. *)
Definition is_argsort {N : NumOps} (argsort : list N -> list nat) : Prop :=
  forall costs, Permutation (argsort costs) (seq 0 (length costs)) /\
    forall sorted, map (nth_error costs) (argsort costs) = map Some sorted -> sorted_nan_last sorted.


(** The first number of each list, in order: the best cost at each iteration of Nelder-Mead. *)
Definition firsts {A} (l : list (list A)) : list A := flat_map (fun c => match c with [] => [] | a :: _ => [a] end) l.

(** The moves of the Nelder-Mead method on a simplex listed from best to worst: [front] are all
    vertices but the [worst], [second] the last of them and [best] the first, [xbar] the centroid
    of [front].  [along t] is the point reached from the centroid by [t] times the direction to the
    worst vertex.  The coefficients are those of reflection, expansion and contraction. *)
Section Moves.
Context {N : NumOps} {M : Mfd N}.
Variables (cost : pt M -> N) (reflection expansion contraction : N) (xbar : pt M).
Inductive nm_moves (front : list (pt M)) (worst : pt M) : list (pt M) -> Prop :=
  | MvReflect r best second rest rest' :
      (* not better than the best, but better than the second worst: reflect *)
      r = m_retr M xbar (t_scale M (nneg N reflection) (m_log M xbar worst)) ->
      front = best :: rest -> front = rest' ++ [second] ->
      nle N (cost best) (cost r) = true -> nlt N (cost r) (cost second) = true ->
      nm_moves front worst (front ++ [r])
  | MvExpand r e best :
      (* better than the best: try to expand *)
      r = m_retr M xbar (t_scale M (nneg N reflection) (m_log M xbar worst)) ->
      e = m_retr M xbar (t_scale M (nneg N expansion) (m_log M xbar worst)) ->
      hd_error (front ++ [worst]) = Some best ->
      nlt N (cost r) (cost best) = true ->
      nm_moves front worst (front ++ [if nlt N (cost e) (cost r) then e else r])
  | MvOutside r c second rest' :
      (* between the second worst and the worst: contract outside *)
      r = m_retr M xbar (t_scale M (nneg N reflection) (m_log M xbar worst)) ->
      c = m_retr M xbar (t_scale M (nneg N contraction) (m_log M xbar worst)) ->
      front = rest' ++ [second] ->
      nle N (cost second) (cost r) = true -> nlt N (cost r) (cost worst) = true ->
      nle N (cost c) (cost r) = true ->
      nm_moves front worst (front ++ [c])
  | MvInside r c second rest' :
      (* not better than the worst: contract inside *)
      r = m_retr M xbar (t_scale M (nneg N reflection) (m_log M xbar worst)) ->
      c = m_retr M xbar (t_scale M contraction (m_log M xbar worst)) ->
      front = rest' ++ [second] ->
      nle N (cost second) (cost r) = true -> nlt N (cost r) (cost worst) = false ->
      nle N (cost c) (cost worst) = true ->
      nm_moves front worst (front ++ [c])
  | MvShrink r best rest second rest' :
      (* none of the above succeeded: move all other vertices halfway to the best; if there are more
         than dim + 1 vertices the surplus ones stay *)
      r = m_retr M xbar (t_scale M (nneg N reflection) (m_log M xbar worst)) ->
      front ++ [worst] = best :: rest -> front = rest' ++ [second] ->
      nlt N (cost r) (cost best) = false ->
      (nle N (cost best) (cost r) = true -> nlt N (cost r) (cost second) = false) ->
      (nle N (cost second) (cost r) = true -> nlt N (cost r) (cost worst) = true ->
       nle N (cost (m_retr M xbar (t_scale M (nneg N contraction) (m_log M xbar worst)))) (cost r) = false) ->
      (nle N (cost second) (cost r) = true -> nlt N (cost r) (cost worst) = false ->
       nle N (cost (m_retr M xbar (t_scale M contraction (m_log M xbar worst)))) (cost worst) = false) ->
      nm_moves front worst
        (best :: map (m_pair_mean M best) (firstn (Z.to_nat (m_dim M)) rest) ++ skipn (Z.to_nat (m_dim M)) rest).
End Moves.
