(** Points as Python objects, cost functions, autodiff backends and the [Problem] class.

    Source files: src/pymanopt/core/problem.py, src/pymanopt/autodiff/__init__.py,
    src/pymanopt/autodiff/backends/_numpy.py and _autograd.py,
    src/pymanopt/tools/__init__.py, src/pymanopt/manifolds/manifold.py.

    Python callables are pure functions of their positional arguments that
    return a value or raise.  What is stateful in the source (the operators a
    [Problem] and a [Function] remember) is explicit state here. *)
From Coq Require Import ZArith List Bool String.
From Verif Require Import Num_Model PyList_Model.
Import ListNotations.
Open Scope Z_scope.

(** NumPy arrays, abstract.  [arr_rows a] are the items one gets by iterating over
    [a] (none for a zero-dimensional array, which cannot be iterated and has no
    length).  Addition and subtraction may fail (shapes that do not broadcast). *)
Record Arrays (N : NumOps) := mkArrays {
  arr :> Type;
  arr_rows : arr -> option (list arr);
  arr_conj : arr -> arr;
  arr_neg : arr -> arr;
  arr_add : arr -> arr -> res arr;
  arr_sub : arr -> arr -> res arr;
  arr_scale : N -> arr -> arr;
  arr_div : arr -> N -> arr }.
Arguments arr {N} _.
Arguments arr_rows {N} _ _.
Arguments arr_conj {N} _ _.
Arguments arr_neg {N} _ _.
Arguments arr_add {N} _ _ _.
Arguments arr_sub {N} _ _ _.
Arguments arr_scale {N} _ _ _.
Arguments arr_div {N} _ _ _.

(** The sequence classes points and tangent vectors are represented with; all
    of them are subclasses of [list] or [tuple]:
    product.py line 134, fixed_rank.py lines 222-236. *)
Inductive pycls := CList | CTuple | CProductTV | CFixedRankPoint | CFixedRankTV.

(** Python values: numbers, arrays, sequences. *)
Inductive val {N : NumOps} (AR : Arrays N) :=
  | Num (x : N)
  | Arr (a : AR)
  | Seq (c : pycls) (l : list (val AR)).
Arguments Num {N AR} _.
Arguments Arr {N AR} _.
Arguments Seq {N AR} _ _.

(** List comprehension over a function that may raise. *)
Definition mapM {A B} (f : A -> res B) : list A -> res (list B) :=
  fix go l := match l with
  | [] => Ok []
  | a :: t => let* b := f a in let* u := go t in Ok (b :: u)
  end.

(** [isinstance(v, (list, tuple))] *)
Definition is_seq {N} {AR : Arrays N} (v : val AR) : bool :=
  match v with Seq _ _ => true | _ => false end.

(** The items of [v] in iteration order; also its length: [len(v)], [*v], [zip(v)]. *)
Definition items {N} {AR : Arrays N} (v : val AR) : res (list (val AR)) :=
  match v with
  | Num _ => Raise TypeError
  | Arr a => match arr_rows AR a with Some l => Ok (map Arr l) | None => Raise TypeError end
  | Seq _ l => Ok l
  end.

(** The class of a slice [v[i:j]]: slices of (named) tuples are tuples, slices of list
    subclasses are lists. *)
Definition slice_cls (c : pycls) : pycls :=
  match c with
  | CList | CProductTV => CList
  | CTuple | CFixedRankPoint | CFixedRankTV => CTuple
  end.

(** [l[i:j]] for [0 <= i <= j]. *)
Definition slice {A} (l : list A) (i j : Z) : list A :=
  firstn (Z.to_nat (j - i)) (skipn (Z.to_nat i) l).

(** A callable of positional arguments. *)
Definition ufun {N} (AR : Arrays N) := list (val AR) -> res (val AR).

(* ------------------------------------------------------------------ *)
(** ** Helpers: src/pymanopt/tools/__init__.py *)

(** [unpack_singleton_sequence_return_value], lines 36-50. *)
Definition unpack_singleton {N} {AR : Arrays N} (f : ufun AR) : ufun AR :=
  fun args =>
    let* r := f args in
    match r with
    | Seq _ [x] => Ok x
    | _ => Raise ValueError
    end.

(** [bisect_sequence], lines 53-57. *)
Definition bisect_sequence {A} (s : list A) : res (list A * list A) :=
  let n := Z.of_nat (List.length s) in
  if (n mod 2 =? 1)%Z then Raise ValueError
  else Ok (slice s 0 (n / 2), slice s (n / 2) n).

(** The kinds of object [is_sequence] is asked about: those registered with Python's
    abstract [Sequence] class ([list], [tuple], [range], byte strings, [deque])
    and some that are not. *)
Inductive pykind :=
  | KList | KTuple | KStr | KRange | KBytes | KDeque
  | KArray | KNumber | KNone | KDict | KSet | KGenerator.

(** [isinstance(instance, typing.Sequence)] *)
Definition abc_sequence (k : pykind) : bool :=
  match k with
  | KList | KTuple | KStr | KRange | KBytes | KDeque => true
  | _ => false
  end.

(** [is_sequence], lines 60-63. *)
Definition is_sequence (k : pykind) : bool :=
  negb (match k with KStr => true | _ => false end) && abc_sequence k.

(* ------------------------------------------------------------------ *)
(** ** Manifolds as objects: src/pymanopt/manifolds/manifold.py *)

(** [point_layout]: an integer, or a sequence of integers. *)
Inductive layout := Flat (n : Z) | Groups (l : list Z).

(** The methods manifold objects have. *)
Inductive meth :=
  | MInner | MNorm | MDist | MProjection | MToTangent | MGradient | MHessian
  | MExp | MRetraction | MLog | MRandomPoint | MRandomTangent | MTransport
  | MPairMean | MZero | MEmbedding.

(** A manifold object.  [mf_call m method args] is [m.method( *args )]; random
    methods return the value drawn. *)
Record manifold {N} (AR : Arrays N) := mkManifold {
  mf_product : bool;  (* isinstance(m, Product) *)
  mf_dim : Z;
  mf_layout : layout;
  mf_typical_dist : res N;
  mf_call : meth -> ufun AR }.
Arguments mkManifold {N AR} _ _ _ _ _.
Arguments mf_product {N AR} _.
Arguments mf_dim {N AR} _.
Arguments mf_layout {N AR} _.
Arguments mf_typical_dist {N AR} _.
Arguments mf_call {N AR} _ _ _.

(** [num_values], lines 102-107. *)
Definition num_values (l : layout) : Z :=
  match l with Flat n => n | Groups g => fold_right Z.add 0 g end.

(** What is passed to [Manifold.__init__] as [dimension] and [point_layout]. *)
Inductive dim_arg := DInt (z : Z) | DFloat.
Inductive layout_arg := LInt (z : Z) | LSeq (l : list Z) | LSeqBad | LOther.
(* [LSeqBad]: a sequence with an entry that cannot be compared with 0 *)

(** [Manifold.__init__], lines 52-80. *)
Definition manifold_init (d : dim_arg) (l : layout_arg) : res (Z * layout) :=
  match d with
  | DFloat => Raise TypeError
  | DInt z =>
      if (z <? 0) then Raise ValueError
      else match l with
      | LOther => Raise TypeError
      | LSeqBad => Raise TypeError
      | LSeq g => if forallb (fun n => n >? 0) g then Ok (z, Groups g) else Raise ValueError
      | LInt n => if n <=? 0 then Raise ValueError else Ok (z, Flat n)
      end
  end.

(* ------------------------------------------------------------------ *)
(** ** Functions and backends: src/pymanopt/autodiff/__init__.py *)

(** A backend: availability, [prepare_function], [generate_gradient_operator] and
    [generate_hessian_operator] (backends/_backend.py lines 40-88).  Generating an
    operator may raise. *)
Record backend {N} (AR : Arrays N) := mkBackend {
  b_available : bool;
  b_prepare : ufun AR -> ufun AR;
  b_gradient : ufun AR -> Z -> res (ufun AR);
  b_hessian : ufun AR -> Z -> res (ufun AR) }.
Arguments mkBackend {N AR} _ _ _ _.
Arguments b_available {N AR} _.
Arguments b_prepare {N AR} _ _.
Arguments b_gradient {N AR} _ _ _.
Arguments b_hessian {N AR} _ _ _.

(** backends/_numpy.py lines 4-23. *)
Definition numpy_backend {N} (AR : Arrays N) : backend AR :=
  mkBackend true (fun f => f)
    (fun _ _ => Raise NotImplementedError) (fun _ _ => Raise NotImplementedError).

(** [conjugate_result], backends/_autograd.py lines 15-20. *)
Definition conj_val {N} {AR : Arrays N} (v : val AR) : val AR :=
  match v with Arr a => Arr (arr_conj AR a) | _ => v end.
Definition conjugate_result {N} {AR : Arrays N} (f : ufun AR) : ufun AR :=
  fun args => let* r := f args in let* l := items r in Ok (Seq CList (map conj_val l)).

(** The differentiation library: [ad_grad f n args] is the tuple of the [n]
    partial derivatives of [f], [ad_hvp f n args vectors] the tuple of the [n] components of the
    Hessian applied to [vectors]. *)
Record Autodiff {N} (AR : Arrays N) := mkAutodiff {
  ad_grad : ufun AR -> Z -> list (val AR) -> res (list (val AR));
  ad_hvp : ufun AR -> Z -> list (val AR) -> list (val AR) -> res (list (val AR)) }.
Arguments ad_grad {N AR} _ _ _ _.
Arguments ad_hvp {N AR} _ _ _ _ _.

(** backends/_autograd.py lines 35-42. *)
Definition autograd_gradient {N} {AR : Arrays N} (ad : Autodiff AR) (f : ufun AR) (n : Z)
    : res (ufun AR) :=
  let gradient :=
    conjugate_result (fun args => let* l := ad_grad ad f n args in Ok (Seq CTuple l)) in
  if n =? 1 then Ok (unpack_singleton gradient) else Ok gradient.

(** backends/_autograd.py lines 60-76. *)
Definition autograd_hessian {N} {AR : Arrays N} (ad : Autodiff AR) (f : ufun AR) (n : Z)
    : res (ufun AR) :=
  let wrapper := fun args =>
    let* (arguments, vectors) := bisect_sequence args in
    conjugate_result
      (fun _ => let* l := ad_hvp ad f n arguments vectors in Ok (Seq CTuple l)) [] in
  if n =? 1 then Ok (unpack_singleton wrapper) else Ok wrapper.

(** backends/_autograd.py lines 23-76, with the library installed. *)
Definition autograd_backend {N} {AR : Arrays N} (ad : Autodiff AR) : backend AR :=
  mkBackend true (fun f => f) (autograd_gradient ad) (autograd_hessian ad).

(** A decorated function, class [Function] lines 7-40; what it remembers ([_gradient] and
    [_hessian]) is in the state below. *)
Record func {N} (AR : Arrays N) := mkFunc {
  f_original : ufun AR;
  f_backend : backend AR;
  f_function : ufun AR;
  f_num_arguments : Z }.
Arguments mkFunc {N AR} _ _ _ _.
Arguments f_original {N AR} _.
Arguments f_backend {N AR} _.
Arguments f_function {N AR} _.
Arguments f_num_arguments {N AR} _.

(** [Function.__init__], lines 8-20, for an object that is callable ([Some f]) or not. *)
Definition func_init {N} {AR : Arrays N} (function : option (ufun AR)) (m : manifold AR)
    (b : backend AR) : res (func AR) :=
  match function with
  | None => Raise TypeError
  | Some f =>
      if negb (b_available b) then Raise RuntimeError
      else Ok (mkFunc f b (b_prepare b f) (num_values (mf_layout m)))
  end.

(** What [inspect.getfullargspec] reports. *)
Record argspec := mkArgspec {
  as_args : list string;
  as_varargs : option string;
  as_varkw : option string;
  as_defaults : nat;  (* number of defaults *)
  as_kwonlyargs : list string }.

Definition truthy_list {A} (l : list A) : bool := match l with [] => false | _ => true end.
Definition truthy_opt {A} (o : option A) : bool := match o with None => false | _ => true end.

(** The object given to a decorator as the manifold, and the object decorated
    ([None]: [getfullargspec] raises TypeError, as it does for a non-callable). *)
Inductive manifold_arg {N} (AR : Arrays N) := IsManifold (m : manifold AR) | NotManifold.
Arguments IsManifold {N AR} _.
Arguments NotManifold {N AR}.

(** [backend_decorator_factory(backend_cls)(manifold)(function)], lines 43-89. *)
Definition decorate {N} {AR : Arrays N} (b : backend AR) (m : manifold_arg AR)
    (function : option (argspec * ufun AR)) : res (func AR) :=
  match m with
  | NotManifold => Raise TypeError
  | IsManifold m =>
      match function with
      | None => Raise TypeError
      | Some (sp, f) =>
          if (truthy_list (as_args sp) && truthy_opt (as_varargs sp))
             || negb (truthy_list (as_args sp) || truthy_opt (as_varargs sp))
             || (truthy_opt (as_varkw sp) || truthy_list (as_kwonlyargs sp))
          then Raise ValueError
          else func_init (Some f) m b
      end
  end.

(* ------------------------------------------------------------------ *)
(** ** Wrapping user functions: src/pymanopt/core/problem.py *)

(** The loop of [_flatten_arguments], lines 125-134.  The arguments are
    taken one by one instead of by index; their number has been checked. *)
Fixpoint flatten_loop {N} {AR : Arrays N} (sig : list Z) (args : list (val AR))
    : res (list (val AR)) :=
  match sig, args with
  | group_size :: sig', argument :: args' =>
      let* here :=
        if group_size =? 1 then
          if is_seq argument then Raise AssertionError else Ok [argument]
        else
          let* l := items argument in
          if Z.of_nat (List.length l) =? group_size then Ok l else Raise AssertionError in
      let* rest := flatten_loop sig' args' in
      Ok (here ++ rest)%list
  | _, _ => Ok []
  end.

(** [_flatten_arguments], lines 122-134. *)
Definition flatten_arguments {N} {AR : Arrays N} (arguments : val AR) (sig : list Z)
    : res (list (val AR)) :=
  let* l := items arguments in
  if Z.of_nat (List.length l) =? Z.of_nat (List.length sig) then flatten_loop sig l
  else Raise AssertionError.

(** The grouping loop, lines 156-165; [c] is the class of the returned sequence. *)
Fixpoint group_loop {N} {AR : Arrays N} (c : pycls) (values : list (val AR)) (sig : list Z)
    (i : Z) : res (list (val AR)) :=
  match sig with
  | [] => Ok []
  | group_size :: sig' =>
      let* group :=
        if group_size =? 1 then py_get values i
        else Ok (Seq (slice_cls c) (slice values i (i + group_size))) in
      let* rest := group_loop c values sig' (i + group_size) in
      Ok (group :: rest)
  end.

(** The body of [wrapper] in [_group_return_values], lines 149-165. *)
Definition group_values {N} {AR : Arrays N} (sig : list Z) (return_values : val AR)
    : res (val AR) :=
  match return_values with
  | Seq c l =>
      if Z.of_nat (List.length l) =? fold_right Z.add 0 sig then
        let* groups := group_loop c l sig 0 in Ok (Seq CList groups)
      else Raise ValueError
  | _ => Raise ValueError
  end.

(** [_wrap_function], lines 169-193. *)
Definition wrap_function {N} {AR : Arrays N} (lay : layout) (f : ufun AR) (point : val AR)
    : res (val AR) :=
  match lay with
  | Groups sig => let* l := flatten_arguments point sig in f l
  | Flat n => if n =? 1 then f [point] else let* l := items point in f l
  end.

(** [_wrap_gradient_operator], lines 195-200. *)
Definition wrap_gradient {N} {AR : Arrays N} (lay : layout) (f : ufun AR) (point : val AR)
    : res (val AR) :=
  match lay with
  | Groups sig => let* r := wrap_function lay f point in group_values sig r
  | Flat _ => wrap_function lay f point
  end.

(** [_wrap_hessian_operator], lines 202-237. *)
Definition wrap_hessian {N} {AR : Arrays N} (m : manifold AR) (embed : bool) (f : ufun AR)
    (point vector : val AR) : res (val AR) :=
  let wrapper vector :=
    match mf_layout m with
    | Groups sig =>
        let* p := flatten_arguments point sig in
        let* v := flatten_arguments vector sig in
        let* r := f (p ++ v)%list in
        group_values sig r
    | Flat n =>
        if n =? 1 then f [point; vector]
        else let* p := items point in let* v := items vector in f (p ++ v)%list
    end in
  if embed then let* e := mf_call m MEmbedding [point; vector] in wrapper e
  else wrapper vector.

(* ------------------------------------------------------------------ *)
(** ** The [Problem] object *)

(** A value passed as one of the function arguments of [Problem]. *)
Inductive fun_arg {N} (AR : Arrays N) := FNone | FFunction (f : func AR) | FOther.
Arguments FNone {N AR}.
Arguments FFunction {N AR} _.
Arguments FOther {N AR}.

(** [_validate_function], lines 115-120. *)
Definition validate_function {N} {AR : Arrays N} (a : fun_arg AR) : res unit :=
  match a with FOther => Raise ValueError | _ => Ok tt end.

Definition given {N} {AR : Arrays N} (a : fun_arg AR) : bool :=
  match a with FNone => false | _ => true end.

(** Calling the object passed as cost; calling [None] is a TypeError. *)
Definition call_arg {N} {AR : Arrays N} (a : fun_arg AR) : ufun AR :=
  match a with FFunction f => f_function f | _ => fun _ => Raise TypeError end.

(** The operators stored in [_riemannian_gradient] and [_riemannian_hessian]: wrapped user functions, or
    the closures of lines 255-258 and 276-282, which look up the Euclidean operators
    when they are called. *)
Inductive gop {N} (AR : Arrays N) := GWrapped (w : val AR -> res (val AR)) | GDerived.
Inductive hop {N} (AR : Arrays N) :=
  HWrapped (w : val AR -> val AR -> res (val AR)) | HDerived.
Arguments GWrapped {N AR} _.
Arguments GDerived {N AR}.
Arguments HWrapped {N AR} _.
Arguments HDerived {N AR}.

(** One entry per call of [generate_gradient_operator] / [generate_hessian_operator];
    the flag says whether it returned. *)
Inductive gen_event := GenGradient (returned : bool) | GenHessian (returned : bool).

(** What a [Problem] and its cost [Function] remember. *)
Record pstate {N} (AR : Arrays N) := mkPState {
  s_fn_gradient : option (ufun AR);       (* cost._gradient *)
  s_fn_hessian : option (ufun AR);        (* cost._hessian *)
  s_egrad : option (val AR -> res (val AR));
  s_ehess : option (val AR -> val AR -> res (val AR));
  s_rgrad : option (gop AR);
  s_rhess : option (hop AR);
  s_log : list gen_event }.
Arguments mkPState {N AR} _ _ _ _ _ _ _.
Arguments s_fn_gradient {N AR} _.
Arguments s_fn_hessian {N AR} _.
Arguments s_egrad {N AR} _.
Arguments s_ehess {N AR} _.
Arguments s_rgrad {N AR} _.
Arguments s_rhess {N AR} _.
Arguments s_log {N AR} _.

(** What is fixed at construction. *)
Record problem {N} (AR : Arrays N) := mkProblem {
  p_manifold : manifold AR;
  p_original_cost : fun_arg AR;
  p_cost : val AR -> res (val AR);
  p_preconditioner : val AR -> val AR -> res (val AR) }.
Arguments mkProblem {N AR} _ _ _ _.
Arguments p_manifold {N AR} _.
Arguments p_original_cost {N AR} _.
Arguments p_cost {N AR} _ _.
Arguments p_preconditioner {N AR} _ _ _.

Definition opt_arg {N} {AR : Arrays N} {B} (a : fun_arg AR) (k : ufun AR -> B) : option B :=
  match a with FFunction f => Some (k (f_function f)) | _ => None end.

(** [Problem.__init__], lines 45-108.  The cost [Function] is fresh: nothing generated yet. *)
Definition problem_init {N} {AR : Arrays N} (m : manifold AR)
    (cost euclidean_gradient riemannian_gradient euclidean_hessian riemannian_hessian : fun_arg AR)
    (preconditioner : option (val AR -> val AR -> res (val AR)))
    : res (problem AR * pstate AR) :=
  let* _ := validate_function cost in
  let* _ := validate_function euclidean_gradient in
  let* _ := validate_function euclidean_hessian in
  let* _ := validate_function riemannian_gradient in
  let* _ := validate_function riemannian_hessian in
  if given euclidean_gradient && given riemannian_gradient then Raise ValueError
  else if given euclidean_hessian && given riemannian_hessian then Raise ValueError
  else
    let lay := mf_layout m in
    Ok (mkProblem m cost (wrap_function lay (call_arg cost))
          (match preconditioner with Some c => c | None => fun _ v => Ok v end),
        mkPState None None
          (opt_arg euclidean_gradient (wrap_gradient lay))
          (opt_arg euclidean_hessian (wrap_hessian m true))
          (option_map GWrapped (opt_arg riemannian_gradient (wrap_gradient lay)))
          (option_map HWrapped (opt_arg riemannian_hessian (wrap_hessian m false)))
          []).

(** [Function.get_gradient_operator], autodiff/__init__.py lines 25-30.  On [None] as cost the
    attribute lookup fails. *)
Definition get_gradient_operator {N} {AR : Arrays N} (a : fun_arg AR) (s : pstate AR)
    : pstate AR * res (ufun AR) :=
  match a with
  | FFunction f =>
      match s_fn_gradient s with
      | Some g => (s, Ok g)
      | None =>
          let r := b_gradient (f_backend f) (f_original f) (f_num_arguments f) in
          match r with
          | Ok g => (mkPState (Some g) (s_fn_hessian s) (s_egrad s) (s_ehess s) (s_rgrad s)
                       (s_rhess s) (s_log s ++ [GenGradient true]), Ok g)
          | Raise e => (mkPState None (s_fn_hessian s) (s_egrad s) (s_ehess s) (s_rgrad s)
                       (s_rhess s) (s_log s ++ [GenGradient false]), Raise e)
          end
      end
  | _ => (s, Raise AttributeError)
  end.

(** [Function.get_hessian_operator], autodiff/__init__.py lines 32-37. *)
Definition get_hessian_operator {N} {AR : Arrays N} (a : fun_arg AR) (s : pstate AR)
    : pstate AR * res (ufun AR) :=
  match a with
  | FFunction f =>
      match s_fn_hessian s with
      | Some g => (s, Ok g)
      | None =>
          let r := b_hessian (f_backend f) (f_original f) (f_num_arguments f) in
          match r with
          | Ok g => (mkPState (s_fn_gradient s) (Some g) (s_egrad s) (s_ehess s) (s_rgrad s)
                       (s_rhess s) (s_log s ++ [GenHessian true]), Ok g)
          | Raise e => (mkPState (s_fn_gradient s) None (s_egrad s) (s_ehess s) (s_rgrad s)
                       (s_rhess s) (s_log s ++ [GenHessian false]), Raise e)
          end
      end
  | _ => (s, Raise AttributeError)
  end.

(** Property [euclidean_gradient], problem.py lines 243-249. *)
Definition get_egrad {N} {AR : Arrays N} (p : problem AR) (s : pstate AR)
    : pstate AR * res (val AR -> res (val AR)) :=
  match s_egrad s with
  | Some g => (s, Ok g)
  | None =>
      let '(s1, r) := get_gradient_operator (p_original_cost p) s in
      match r with
      | Ok f =>
          let g := wrap_gradient (mf_layout (p_manifold p)) f in
          (mkPState (s_fn_gradient s1) (s_fn_hessian s1) (Some g) (s_ehess s1) (s_rgrad s1)
             (s_rhess s1) (s_log s1), Ok g)
      | Raise e => (s1, Raise e)
      end
  end.

(** Property [euclidean_hessian], lines 263-270. *)
Definition get_ehess {N} {AR : Arrays N} (p : problem AR) (s : pstate AR)
    : pstate AR * res (val AR -> val AR -> res (val AR)) :=
  match s_ehess s with
  | Some g => (s, Ok g)
  | None =>
      let '(s1, r) := get_hessian_operator (p_original_cost p) s in
      match r with
      | Ok f =>
          let g := wrap_hessian (p_manifold p) true f in
          (mkPState (s_fn_gradient s1) (s_fn_hessian s1) (s_egrad s1) (Some g) (s_rgrad s1)
             (s_rhess s1) (s_log s1), Ok g)
      | Raise e => (s1, Raise e)
      end
  end.

(** Property [riemannian_gradient], lines 251-261. *)
Definition get_rgrad {N} {AR : Arrays N} (p : problem AR) (s : pstate AR)
    : pstate AR * gop AR :=
  match s_rgrad s with
  | Some g => (s, g)
  | None =>
      (mkPState (s_fn_gradient s) (s_fn_hessian s) (s_egrad s) (s_ehess s) (Some GDerived)
         (s_rhess s) (s_log s), GDerived)
  end.

(** Property [riemannian_hessian], lines 272-285. *)
Definition get_rhess {N} {AR : Arrays N} (p : problem AR) (s : pstate AR)
    : pstate AR * hop AR :=
  match s_rhess s with
  | Some g => (s, g)
  | None =>
      (mkPState (s_fn_gradient s) (s_fn_hessian s) (s_egrad s) (s_ehess s) (s_rgrad s)
         (Some HDerived) (s_log s), HDerived)
  end.

(** [problem.euclidean_gradient(point)] *)
Definition call_egrad {N} {AR : Arrays N} (p : problem AR) (s : pstate AR) (point : val AR)
    : pstate AR * res (val AR) :=
  let '(s1, r) := get_egrad p s in
  (s1, let* g := r in g point).

(** [problem.euclidean_hessian(point, vector)] *)
Definition call_ehess {N} {AR : Arrays N} (p : problem AR) (s : pstate AR)
    (point vector : val AR) : pstate AR * res (val AR) :=
  let '(s1, r) := get_ehess p s in
  (s1, let* h := r in h point vector).

(** Calling the object the property [riemannian_gradient] returns: lines 255-258. *)
Definition call_gop {N} {AR : Arrays N} (p : problem AR) (g : gop AR) (s : pstate AR)
    (point : val AR) : pstate AR * res (val AR) :=
  match g with
  | GWrapped w => (s, w point)
  | GDerived =>
      let '(s1, r) := call_egrad p s point in
      (s1, let* e := r in mf_call (p_manifold p) MGradient [point; e])
  end.

(** Calling the object the property [riemannian_hessian] returns: lines 276-282. *)
Definition call_hop {N} {AR : Arrays N} (p : problem AR) (h : hop AR) (s : pstate AR)
    (point vector : val AR) : pstate AR * res (val AR) :=
  match h with
  | HWrapped w => (s, w point vector)
  | HDerived =>
      let '(s1, r) := call_egrad p s point in
      match r with
      | Raise e => (s1, Raise e)
      | Ok eg =>
          let '(s2, r2) := call_ehess p s1 point vector in
          (s2, let* eh := r2 in mf_call (p_manifold p) MHessian [point; eg; eh; vector])
      end
  end.

(** [problem.riemannian_gradient(point)], [problem.riemannian_hessian(point, vector)] *)
Definition call_rgrad {N} {AR : Arrays N} (p : problem AR) (s : pstate AR) (point : val AR)
    : pstate AR * res (val AR) :=
  let '(s1, g) := get_rgrad p s in call_gop p g s1 point.
Definition call_rhess {N} {AR : Arrays N} (p : problem AR) (s : pstate AR)
    (point vector : val AR) : pstate AR * res (val AR) :=
  let '(s1, h) := get_rhess p s in call_hop p h s1 point vector.

(** What a user can do with a problem's operators: read a property, or read it and call the result. *)
Inductive use {N} (AR : Arrays N) :=
  | UseCost (p : val AR)
  | ReadEgrad | ReadRgrad | ReadEhess | ReadRhess
  | UseEgrad (p : val AR) | UseRgrad (p : val AR)
  | UseEhess (p v : val AR) | UseRhess (p v : val AR).
Arguments UseCost {N AR} _.
Arguments ReadEgrad {N AR}.
Arguments ReadRgrad {N AR}.
Arguments ReadEhess {N AR}.
Arguments ReadRhess {N AR}.
Arguments UseEgrad {N AR} _.
Arguments UseRgrad {N AR} _.
Arguments UseEhess {N AR} _ _.
Arguments UseRhess {N AR} _ _.

(** One use; reading alone shows only whether it raised. *)
Definition do_use {N} {AR : Arrays N} (p : problem AR) (s : pstate AR) (u : use AR)
    : pstate AR * res (option (val AR)) :=
  let some (sr : pstate AR * res (val AR)) :=
    let '(s1, r) := sr in (s1, let* v := r in Ok (Some v)) in
  match u with
  | UseCost x => (s, let* v := p_cost p x in Ok (Some v))
  | ReadEgrad => let '(s1, r) := get_egrad p s in (s1, let* _ := r in Ok None)
  | ReadEhess => let '(s1, r) := get_ehess p s in (s1, let* _ := r in Ok None)
  | ReadRgrad => (fst (get_rgrad p s), Ok None)
  | ReadRhess => (fst (get_rhess p s), Ok None)
  | UseEgrad x => some (call_egrad p s x)
  | UseRgrad x => some (call_rgrad p s x)
  | UseEhess x v => some (call_ehess p s x v)
  | UseRhess x v => some (call_rhess p s x v)
  end.

Fixpoint do_uses {N} {AR : Arrays N} (p : problem AR) (s : pstate AR) (us : list (use AR))
    : pstate AR :=
  match us with [] => s | u :: us' => do_uses p (fst (do_use p s u)) us' end.

(* ------------------------------------------------------------------ *)
(** ** Attribute assignment *)

(** The attribute dictionary of a problem; [O] is the type of attribute values. *)
Definition attrs (O : Type) := list (string * O).
Fixpoint attr_get {O} (d : attrs O) (k : string) : option O :=
  match d with
  | [] => None
  | (k', o) :: d' => if String.eqb k k' then Some o else attr_get d' k
  end.
Definition attr_set {O} (d : attrs O) (k : string) (o : O) : attrs O := (k, o) :: d.
Definition attr_del {O} (d : attrs O) (k : string) : attrs O :=
  filter (fun e => negb (String.eqb k (fst e))) d.

(** The read-only properties of the class, lines 239-285. *)
Definition property_names : list string :=
  ["cost"; "euclidean_gradient"; "riemannian_gradient"; "euclidean_hessian";
   "riemannian_hessian"]%string.

Definition is_property (k : string) : bool := existsb (String.eqb k) property_names.

(** [problem.key = value]: [__setattr__], lines 110-113.  For the names of properties,
    [hasattr] evaluates the property ([prop key] is the exception this raises, if any:
    [hasattr] absorbs only AttributeError) and the assignment fails because the property
    has no setter. *)
Definition set_attribute {O} (prop : string -> option exn) (d : attrs O) (key : string) (value : O)
    : attrs O * res unit :=
  let has :=
    if is_property key then
      match prop key with
      | None => Ok true
      | Some AttributeError => Ok false
      | Some e => Raise e
      end
    else Ok (truthy_opt (attr_get d key)) in
  match has with
  | Raise e => (d, Raise e)
  | Ok h =>
      if h && (String.eqb key "manifold" || String.eqb key "preconditioner")
      then (d, Raise AttributeError)
      else if is_property key then (d, Raise AttributeError)
      else (attr_set d key value, Ok tt)
  end.

(** [del problem.key] is not overridden: it removes the attribute. *)
Definition del_attribute {O} (d : attrs O) (key : string) : attrs O * res unit :=
  match attr_get d key with
  | None => (d, Raise AttributeError)
  | Some _ => (attr_del d key, Ok tt)
  end.

(** The assignments of [Problem.__init__] in order, lines 56, 78-108. *)
Definition init_attributes {O} (prop : string -> option exn)
    (manifold original_cost cost eg eh rg rh preconditioner : O) : attrs O :=
  let set d kv := fst (set_attribute prop d (fst kv) (snd kv)) in
  fold_left set
    [("manifold", manifold); ("_original_cost", original_cost); ("_cost", cost);
     ("_euclidean_gradient", eg); ("_euclidean_hessian", eh); ("_riemannian_gradient", rg);
     ("_riemannian_hessian", rh); ("preconditioner", preconditioner)]%string [].
