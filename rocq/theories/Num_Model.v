(** Numbers, Python outcomes and the manifold interface used by the optimizers.

    The optimizers are written in Python and compute with Python floats and
    NumPy scalars.  The model is parametrised by a record [NumOps] of number
    operations.  [Num_Instances.v] gives IEEE-754 binary64 (standard library
    [SpecFloat]) and the real numbers. *)
From Coq Require Import ZArith List Bool.
Import ListNotations.

(** Python exceptions that occur in the modelled code. *)
Inductive exn :=
  | ZeroDivisionError | ValueError | TypeError | IndexError | AttributeError
  | UnboundLocalError | NotImplementedError | AssertionError | RuntimeError
  | OverflowError | KeyError
  (* not a Python exception: marks a model loop whose fuel ran out *)
  | OutOfFuel.

(** Outcome of a Python call: a value or a raised exception. *)
Inductive res (A : Type) := Ok (a : A) | Raise (e : exn).
Arguments Ok {A} _.
Arguments Raise {A} _.

Definition bind {A B} (r : res A) (k : A -> res B) : res B :=
  match r with Ok a => k a | Raise e => Raise e end.
Notation "'let*' x ':=' e 'in' k" := (bind e (fun x => k))
  (at level 200, x pattern, e at level 100, k at level 200).

(** The arithmetic the optimizers use.
    - [nlt]/[nle] are Python's [<]/[<=]; [a > b] is [nlt b a], [a >= b] is
      [nle b a].  They are [false] if an operand is NaN.
    - [ndiv] is division where at least one operand is a NumPy scalar: it never
      raises in binary64 (0/0 is NaN, 1/0 is inf, with a warning).
    - [ndiv_py] is division of two Python floats: raises ZeroDivisionError
      on a zero divisor.
    - [npow] is [**] with a non-integer exponent (only used by the inner solver of
      trust regions); integer powers are written as products. *)
Record NumOps := mkNumOps {
  num :> Type;
  n_of_Z : Z -> num;
  nadd : num -> num -> num;
  nsub : num -> num -> num;
  nmul : num -> num -> num;
  ndiv : num -> num -> res num;
  ndiv_py : num -> num -> res num;
  nneg : num -> num;
  nabs : num -> num;
  nsqrt : num -> num;
  npow : num -> num -> num;
  nlt : num -> num -> bool;
  nle : num -> num -> bool;
  nisnan : num -> bool }.

Declare Scope num_scope.
Delimit Scope num_scope with num.
Notation "x + y" := (nadd _ x y) : num_scope.
Notation "x - y" := (nsub _ x y) : num_scope.
Notation "x * y" := (nmul _ x y) : num_scope.
Notation "- x" := (nneg _ x) : num_scope.
Notation "x <? y" := (nlt _ x y) : num_scope.
Notation "x <=? y" := (nle _ x y) : num_scope.
Notation "x >? y" := (nlt _ y x) : num_scope.
Notation "x >=? y" := (nle _ y x) : num_scope.
Notation "# z" := (n_of_Z _ z) (at level 8, format "# z") : num_scope.

(** Python's [max(a, b)] returns [b] if [b > a] and [a] otherwise. *)
Definition pymax {N : NumOps} (a b : N) : N := if (b >? a)%num then b else a.
(** Python's [min(a, b)] returns [b] if [b < a] and [a] otherwise. *)
Definition pymin {N : NumOps} (a b : N) : N := if (b <? a)%num then b else a.

(** Decimal literals such as [0.25] or [1e-4]: the correctly rounded quotient of
    two integers.  In binary64 the division of two exactly represented integers
    is correctly rounded, so [lit 1 10] is the double nearest to 0.1.  If the
    number system refused the division (never for a non-zero denominator) the
    literal would be 0. *)
Definition lit {N : NumOps} (a b : Z) : N :=
  match ndiv N (n_of_Z N a) (n_of_Z N b) with Ok q => q | Raise _ => n_of_Z N 0 end.

(** The manifold operations the optimizers call (methods of
    src/pymanopt/manifolds/manifold.py, lines 33-456) together with the vector operations
    [+], [-], unary [-] and scaling of the tangent vector objects.
    Points and tangent vectors are abstract.  Methods are pure functions (random
    draws are supplied separately).
    [m_ip_py] says that [inner_product] returns a Python float (it does
    for the Euclidean manifolds: src/pymanopt/manifolds/euclidean.py line 22)
    rather than a NumPy scalar. *)
Record Mfd (N : NumOps) := mkMfd {
  pt : Type;
  tv : Type;
  m_dim : Z;
  m_typical_dist : res N;
  m_inner : pt -> tv -> tv -> N;
  m_ip_py : bool;
  m_norm : pt -> tv -> N;
  m_retr : pt -> tv -> pt;
  m_exp : pt -> tv -> pt;
  m_log : pt -> pt -> tv;
  m_dist : pt -> pt -> N;
  m_transp : pt -> pt -> tv -> tv;
  m_to_tangent : pt -> tv -> tv;
  m_zero : pt -> tv;
  m_pair_mean : pt -> pt -> pt;
  t_neg : tv -> tv;
  t_add : tv -> tv -> tv;
  t_sub : tv -> tv -> tv;
  t_scale : N -> tv -> tv }.
Arguments pt {N} _.
Arguments tv {N} _.
Arguments m_dim {N} _.
Arguments m_typical_dist {N} _.
Arguments m_inner {N} _ _ _ _.
Arguments m_ip_py {N} _.
Arguments m_norm {N} _ _ _.
Arguments m_retr {N} _ _ _.
Arguments m_exp {N} _ _ _.
Arguments m_log {N} _ _ _.
Arguments m_dist {N} _ _ _.
Arguments m_transp {N} _ _ _ _.
Arguments m_to_tangent {N} _ _ _.
Arguments m_zero {N} _ _.
Arguments m_pair_mean {N} _ _ _.
Arguments t_neg {N} _ _.
Arguments t_add {N} _ _ _.
Arguments t_sub {N} _ _ _.
Arguments t_scale {N} _ _ _.

(** Division of two values returned by [inner_product]: a Python-float
    division or a NumPy division, depending on the manifold. *)
Definition ip_div {N} (M : Mfd N) (a b : N) : res N :=
  if m_ip_py M then ndiv_py N a b else ndiv N a b.

(** [while True:] loops.  One execution of the body either continues with a new
    state or leaves the loop with a value; it may raise.  [loop] runs at most
    [fuel] iterations and answers [Raise OutOfFuel] if that is not enough. *)
Inductive step_out (S R : Type) := Continue (s : S) | Stop (r : R).
Arguments Continue {S R} _.
Arguments Stop {S R} _.

Fixpoint loop {S R} (body : S -> res (step_out S R)) (fuel : nat) (s : S) : res R :=
  match fuel with
  | O => Raise OutOfFuel
  | S fuel' =>
      let* o := body s in
      match o with
      | Stop r => Ok r
      | Continue s' => loop body fuel' s'
      end
  end.
