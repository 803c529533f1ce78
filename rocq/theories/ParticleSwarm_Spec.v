(** How the particles of a swarm move. *)
From Coq Require Import ZArith List Bool.
From Verif Require Import Num_Model.
Import ListNotations.
Local Open Scope num_scope.

Section Motion.
Context {N : NumOps} {M : Mfd N}.
Variables (nostalgia social : N) (uniform : nat -> N).

(** The new velocity of a particle at [x] that came from [xprev] with velocity [v], whose best position
    was [y], in a swarm whose best position was [xbest]; inertia weight [w]; the two random numbers
    used are numbers [k] and [k + 1]. *)
Definition new_velocity (w : N) (x xprev y xbest : pt M) (v : tv M) (k : nat) : tv M :=
  t_add M (t_add M (t_scale M w (m_transp M xprev x v))
                   (t_scale M (uniform k * nostalgia) (m_log M x y)))
          (t_scale M (uniform (S k) * social) (m_log M x xbest)).

(** The inertia weight falls linearly from 0.9 to 0.4. *)
Definition inertia_weight (iteration budget : Z) (w : N) : Prop :=
  exists q, ndiv_py N #iteration #budget = Ok q /\ w = lit 4 10 + lit 5 10 * (#1 - q).
End Motion.
