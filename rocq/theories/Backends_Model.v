(** The four automatic differentiation backends:
    src/pymanopt/autodiff/backends/_autograd.py, _jax.py, _pytorch.py, _tensorflow.py.

    Arrays are real or complex; the entries are exact complex numbers in row-major order (shapes are left out: the code
    only contracts all axes of two arrays of the same shape).  The differentiation libraries are arguments; what
    their documentation promises is stated in Backends_Spec. *)
From Coq Require Import ZArith List Bool Reals.
From Coquelicot Require Import Coquelicot.
From Verif Require Import Num_Model Problem_Model.
Import ListNotations.

Record arr := mkArr { is_complex : bool; entries : list C }.
Definition args := list arr.
Definition entry (a : arr) (j : nat) : C := nth j (entries a) (RtoC 0).
Definition none : arr := mkArr false [].

(** [np.conj], [jnp.conj], [Tensor.conj] *)
Definition np_conj (a : arr) : arr := mkArr (is_complex a) (map Cconj (entries a)).
(** [np.zeros_like], [torch.zeros_like] *)
Definition zeros_like (a : arr) : arr := mkArr (is_complex a) (map (fun _ => RtoC 0) (entries a)).
(** [np.tensordot(a, b, axes=b.ndim)] for arrays of the same shape: the sum of the products of the entries *)
Definition tensordot (a b : arr) : C :=
  fold_right (fun j s => Cplus (Cmult (entry a j) (entry b j)) s) (RtoC 0) (seq 0 (length (entries a))).
Definition rsum (l : list R) : R := fold_right Rplus 0%R l.

(** What an operator returns: one array, or a list. *)
Inductive ret := One (a : arr) | Several (l : list arr).
(** [unpack_singleton_sequence_return_value] if [num_arguments == 1], tools/__init__.py 36-50. *)
Definition deliver (num_arguments : nat) (result : res (list arr)) : res ret :=
  let* l := result in
  if Nat.eqb num_arguments 1 then match l with [a] => Ok (One a) | _ => Raise ValueError end
  else Ok (Several l).

(* ------------------------------------------------------------------ *)
(** ** Autograd *)
(** [autograd.grad(f, argnum=list(range(n)))] applied to the arguments *)
Record autograd_lib := mkAutograd { ag_grad : (args -> R) -> nat -> args -> list arr }.

(** _autograd.py lines 35-42, conjugate_result 15-20 *)
Definition ag_gradient (lib : autograd_lib) (f : args -> R) (n : nat) (a : args) : res ret :=
  deliver n (Ok (map np_conj (ag_grad lib f n a))).

(** lines 48-56; the last argument [vectors] is not differentiated *)
Definition ag_vector_dot_gradient (lib : autograd_lib) (f : args -> R) (n : nat) (vectors : list arr) (a : args) : R :=
  rsum (map (fun gv => Re (tensordot (fst gv) (snd gv))) (combine (ag_grad lib f n a) vectors)).
(** lines 44-58 *)
Definition ag_hvp (lib : autograd_lib) (f : args -> R) (n : nat) (a : args) (vectors : list arr) : list arr :=
  ag_grad lib (ag_vector_dot_gradient lib f n vectors) n a.
(** lines 60-76 *)
Definition ag_hessian (lib : autograd_lib) (f : args -> R) (n : nat) (a : args) : res ret :=
  deliver n (let* (arguments, vectors) := bisect_sequence a in
             Ok (map np_conj (ag_hvp lib f n arguments vectors))).

(* ------------------------------------------------------------------ *)
(** ** Jax *)
(** [jax.grad(f, argnums=range(n))] and [jax.jvp(F, primals, tangents)], which returns the value and the derivative *)
Record jax_lib := mkJax {
  jx_grad : (args -> R) -> nat -> args -> list arr;
  jx_jvp : (args -> list arr) -> args -> args -> list arr * list arr }.

(** _jax.py lines 52-59; [to_ndarray] 34-39 changes the container only *)
Definition jx_gradient (lib : jax_lib) (f : args -> R) (n : nat) (a : args) : res ret :=
  deliver n (Ok (map np_conj (jx_grad lib f n a))).
(** lines 61-80 *)
Definition jx_hessian (lib : jax_lib) (f : args -> R) (n : nat) (a : args) : res ret :=
  deliver n (let* (arguments, vectors) := bisect_sequence a in
             Ok (map np_conj (snd (jx_jvp lib (jx_grad lib f n) arguments vectors)))).

(* ------------------------------------------------------------------ *)
(** ** PyTorch *)
(** A tensor computed from the leaves (the arguments): its value as a function of theirs, and to which of them the
    recorded graph connects it. *)
Record tracked (A : Type) := mkTracked { value : args -> A; connected : list bool }.
Arguments mkTracked {A} _ _.
Arguments value {A} _ _.
Arguments connected {A} _.
(** [requires_grad] *)
Definition requires_grad {A} (t : tracked A) : bool := existsb (fun b => b) (connected t).

(** [torch.autograd.grad(t, leaves, create_graph=True, allow_unused=True)] for a tensor that requires gradients *)
Record torch_lib := mkTorch { th_grad : tracked R -> list (option (tracked arr)) }.

(** [t.backward()] and then the attributes [grad] of the leaves *)
Definition th_backward (lib : torch_lib) (t : tracked R) (leaves : args) : res (list (option arr)) :=
  if requires_grad t then Ok (map (option_map (fun g => value g leaves)) (th_grad lib t)) else Raise RuntimeError.

(** _pytorch.py lines 49-55 *)
Definition sanitize_gradients (tensors : args) (grads : list (option arr)) : list arr :=
  map (fun tg => match snd tg with None => zeros_like (fst tg) | Some g => g end) (combine tensors grads).

(** lines 57-68.  The user's function is given by the tensor it computes. *)
Definition th_gradient (lib : torch_lib) (f : tracked R) (n : nat) (a : args) : res ret :=
  deliver n (let* grads := th_backward lib f a in Ok (sanitize_gradients a grads)).

(** The loop of lines 84-88; [None] has no method [conj]. *)
Definition or_flags (a b : list bool) : list bool := map (fun p => fst p || snd p) (combine a b).
Fixpoint th_dot_product (n : nat) (gvs : list (option (tracked arr) * arr)) : res (tracked R) :=
  match gvs with
  | [] => Ok (mkTracked (fun _ => 0%R) (repeat false n))
  | (None, _) :: _ => Raise AttributeError
  | (Some g, v) :: rest =>
      let* d := th_dot_product n rest in
      Ok (mkTracked (fun x => Rplus (Re (tensordot (np_conj (value g x)) v)) (value d x))
            (or_flags (connected g) (connected d)))
  end.
(** lines 70-96 *)
Definition th_hessian (lib : torch_lib) (f : tracked R) (n : nat) (a : args) : res ret :=
  deliver n (
    let* (arguments, vectors) := bisect_sequence a in
    if requires_grad f then
      let* dot := th_dot_product (length arguments) (combine (th_grad lib f) vectors) in
      let* grads := th_backward lib dot arguments in
      Ok (sanitize_gradients arguments grads)
    else Raise RuntimeError).

(* ------------------------------------------------------------------ *)
(** ** TensorFlow *)
(** [tape.gradient(t, sources)] and [accumulator.jvp] of one tensor; what [jvp] does with [None] is left open *)
Record tf_lib := mkTf {
  tf_grad : tracked R -> list (option (tracked arr));
  tf_jvp : tracked arr -> args -> args -> option arr;
  tf_jvp_none : res (option arr) }.

(** _tensorflow.py lines 44-57, _sanitize_gradient 29-35 *)
Definition tf_gradient (lib : tf_lib) (f : tracked R) (n : nat) (a : args) : res ret :=
  deliver n (Ok (sanitize_gradients a (map (option_map (fun g => value g a)) (tf_grad lib f)))).
Fixpoint tf_jvps (lib : tf_lib) (grads : list (option (tracked arr))) (a vectors : args) : res (list (option arr)) :=
  match grads with
  | [] => Ok []
  | g :: rest =>
      let* d := match g with Some g => Ok (tf_jvp lib g a vectors) | None => tf_jvp_none lib end in
      let* ds := tf_jvps lib rest a vectors in
      Ok (d :: ds)
  end.
(** lines 59-77 *)
Definition tf_hessian (lib : tf_lib) (f : tracked R) (n : nat) (a : args) : res ret :=
  deliver n (
    let* (arguments, vectors) := bisect_sequence a in
    let* ds := tf_jvps lib (tf_grad lib f) arguments vectors in
    Ok (sanitize_gradients arguments ds)).
