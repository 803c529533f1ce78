(** Derivatives of functions of several real and complex arrays, and what the differentiation libraries promise. *)
From Coq Require Import ZArith List Bool Reals.
From Coquelicot Require Import Coquelicot.
From Verif Require Import Num_Model Backends_Model.
Import ListNotations.
Local Open Scope R_scope.

(** * Calculus *)
(** Arrays of the same kind and size; the entries of real arrays are real. *)
Definition sound_arr (a : arr) : Prop := is_complex a = false -> forall j, Im (entry a j) = 0.
Definition same (a b : arr) : Prop := is_complex a = is_complex b /\ length (entries a) = length (entries b) /\ sound_arr b.
(** [v] is a direction in which [x] can be moved: as many arrays, of the same kinds and sizes *)
Definition like (x v : args) : Prop := List.Forall2 same x v.

(** [x + t v] *)
Definition move_arr (a : arr) (t : R) (b : arr) : arr :=
  mkArr (is_complex a) (map (fun zw => Cplus (fst zw) (Cmult (RtoC t) (snd zw))) (combine (entries a) (entries b))).
Definition move (x : args) (t : R) (v : args) : args := map (fun ab => move_arr (fst ab) t (snd ab)) (combine x v).

(** The real inner product: sum of [Re(conj(g) v)] over all entries of all arrays. *)
Definition inner_arr (a b : arr) : R :=
  rsum (map (fun j => Re (Cmult (Cconj (entry a j)) (entry b j))) (seq 0 (length (entries a)))).
Definition inner (g v : list arr) : R := rsum (map (fun ab => inner_arr (fst ab) (snd ab)) (combine g v)).

(** [G] is the Euclidean gradient of [f] at [x]: the derivative of [f] along every direction [v] is the inner product. *)
Definition is_gradient (f : args -> R) (x : args) (G : list arr) : Prop :=
  like x G /\ forall v, like x v -> is_derive (fun t => f (move x t v)) 0 (inner G v).

(** [d] is the derivative at time 0 of a curve of arrays. *)
Definition arr_derivative (c : R -> arr) (d : arr) : Prop :=
  (forall t, same (c t) d) /\
  forall j, is_derive (fun t => Re (entry (c t) j)) 0 (Re (entry d j)) /\
            is_derive (fun t => Im (entry (c t) j)) 0 (Im (entry d j)).

(** [f] has the gradient field [g] everywhere, [g] has at [x] along each direction [v] the derivative [D v], and this
    second derivative is symmetric (as it is for functions with continuous second derivatives). *)
Definition second_derivative (f : args -> R) (g : args -> list arr) (x : args) (D : args -> list arr) : Prop :=
  (forall y, like x y -> is_gradient f y (g y)) /\
  (forall v, like x v -> like x (D v) /\
     forall i, (i < length x)%nat -> arr_derivative (fun t => nth i (g (move x t v)) none) (nth i (D v) none)) /\
  (forall v w, like x v -> like x w -> inner (D v) w = inner (D w) v).

(** A well-formed point. *)
Definition point (x : args) : Prop := List.Forall sound_arr x.

(** The answer [l] of an operator for [n] arguments: a single array is handed over without its list. *)
Definition answer (n : nat) (l : list arr) : ret := match n, l with 1%nat, [a] => One a | _, _ => Several l end.

(** * The promises *)
(** Autograd and Jax return the conjugate of the gradient. *)
Definition autograd_promise (lib : autograd_lib) : Prop :=
  forall f x G, point x -> is_gradient f x G -> ag_grad lib f (length x) x = map np_conj G.
Definition jax_promise (lib : jax_lib) : Prop :=
  (forall f x G, point x -> is_gradient f x G -> jx_grad lib f (length x) x = map np_conj G) /\
  (forall F x v D, point x -> like x v -> length D = length x ->
     (forall y, like x y -> length (F y) = length x) ->
     (forall i, (i < length x)%nat -> arr_derivative (fun t => nth i (F (move x t v)) none) (nth i D none)) ->
     snd (jx_jvp lib F x v) = D).

(** The graph is sound: a tensor does not depend on the leaves to which it is not connected. *)
Definition sound_graph {A} (n : nat) (t : tracked A) : Prop :=
  length (connected t) = n /\
  forall x y, point x -> like x y -> length x = n ->
    (forall i, (i < n)%nat -> nth i (connected t) false = true -> nth i x none = nth i y none) ->
    value t x = value t y.
(** The gradients PyTorch and TensorFlow return: [None] exactly for leaves that are not connected; otherwise the
    gradient, again as a tensor with a sound graph. *)
Definition graph_gradients (grads : tracked R -> list (option (tracked arr))) : Prop :=
  forall n t, sound_graph n t -> length (grads t) = n /\
    forall i, (i < n)%nat ->
      (nth i (connected t) false = false -> nth i (grads t) None = None) /\
      (nth i (connected t) false = true -> exists g, nth i (grads t) None = Some g /\ sound_graph n g /\
         forall x G, point x -> is_gradient (value t) x G -> length x = n -> value g x = nth i G none).
Definition torch_promise (lib : torch_lib) : Prop := graph_gradients (th_grad lib).
Definition tf_promise (lib : tf_lib) : Prop :=
  graph_gradients (tf_grad lib) /\
  (forall n g x v d, sound_graph n g -> point x -> like x v -> length x = n ->
     arr_derivative (fun t => value g (move x t v)) d ->
     tf_jvp lib g x v = if requires_grad g then Some d else None).
