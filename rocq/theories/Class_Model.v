(** Python classes as far as method resolution needs them, and the class hierarchy of the manifolds (C51, C92). *)
From Coq Require Import List Bool.
Import ListNotations.

(** ** The language: class statements, the C3 linearisation and attribute lookup *)

(** The public methods and properties of src/pymanopt/manifolds/manifold.py, lines 111-443. *)
Inductive name :=
  | typical_dist | inner_product | projection | norm | random_point | random_tangent_vector | zero_vector | dist
  | euclidean_to_riemannian_gradient | euclidean_to_riemannian_hessian | retraction | exp | log | transport | pair_mean
  | to_tangent_space | embedding | weingarten.
Definition name_eqb (a b : name) : bool.
Proof.
  refine (match a, b with
  | typical_dist, typical_dist => true | inner_product, inner_product => true | projection, projection => true
  | norm, norm => true | random_point, random_point => true | random_tangent_vector, random_tangent_vector => true
  | zero_vector, zero_vector => true | dist, dist => true
  | euclidean_to_riemannian_gradient, euclidean_to_riemannian_gradient => true
  | euclidean_to_riemannian_hessian, euclidean_to_riemannian_hessian => true
  | retraction, retraction => true | exp, exp => true | log, log => true | transport, transport => true
  | pair_mean, pair_mean => true | to_tangent_space, to_tangent_space => true | embedding, embedding => true
  | weingarten, weingarten => true | _, _ => false end).
Defined.

(** The calls a method body makes on its own object. *)
Inductive selfcall := CSelf (m : name) | CSuper (m : name).
(** What a [def] of a class body defines: a method with the calls it makes, an [abc.abstractmethod], or one wrapped in
    [raise_not_implemented_error] (manifold.py, lines 9-17; the property [typical_dist], lines 111-124, raises the same
    error). *)
Inductive kind := Plain (calls : list selfcall) | Abstract | NotImpl.
(** Statements of a class body: [def m(...): ...] and [m = target]. *)
Inductive stmt := Def (m : name) (k : kind) | Alias (m target : name).

Section Classes.
Context {K : Type} (K_eqb : K -> K -> bool).

(** A function object: the class body and the [def] it comes from. *)
Record func := Func { f_class : K; f_def : name; f_kind : kind }.
Definition namespace : Type := list (name * func).
Fixpoint lookup (ns : namespace) (m : name) : option func :=
  match ns with
  | [] => None
  | (m', f) :: ns' => if name_eqb m' m then Some f else lookup ns' m
  end.
(** Executing a class body; [None] is a [NameError].  Later bindings come first in the list. *)
Fixpoint exec_body (k : K) (body : list stmt) (ns : namespace) : option namespace :=
  match body with
  | [] => Some ns
  | Def m kd :: body' => exec_body k body' ((m, Func k m kd) :: ns)
  | Alias m target :: body' =>
      match lookup ns target with
      | Some f => exec_body k body' ((m, f) :: ns)
      | None => None
      end
  end.

(** The C3 merge: repeatedly the first head which is in no tail.  [None]: no consistent order, a [TypeError]. *)
Definition mem (k : K) (l : list K) : bool := existsb (K_eqb k) l.
Definition heads (ls : list (list K)) : list K := flat_map (fun l => match l with [] => [] | h :: _ => [h] end) ls.
Definition candidate (ls : list (list K)) (h : K) : bool := forallb (fun l => negb (mem h (tl l))) ls.
Definition behead (h : K) (l : list K) : list K :=
  match l with [] => [] | x :: l' => if K_eqb x h then l' else l end.
Fixpoint merge (fuel : nat) (ls : list (list K)) : option (list K) :=
  match heads ls, fuel with
  | [], _ => Some []
  | _, O => None
  | hs, S fuel =>
      match find (candidate ls) hs with
      | None => None
      | Some h => option_map (cons h) (merge fuel (map (behead h) ls))
      end
  end.

(** Class statements executed in order: each computes its resolution order from those of its bases and its namespace
    from its body. *)
Record classdef := ClassDef { d_name : K; d_bases : list K; d_body : list stmt }.
Record class := Class { c_name : K; c_mro : list K; c_ns : namespace }.
Definition environment : Type := list class.
Fixpoint find_class (env : environment) (k : K) : option class :=
  match env with
  | [] => None
  | c :: env' => if K_eqb (c_name c) k then Some c else find_class env' k
  end.
Fixpoint all_some {A} (l : list (option A)) : option (list A) :=
  match l with
  | [] => Some []
  | None :: _ => None
  | Some a :: l' => option_map (cons a) (all_some l')
  end.
Definition define (env : environment) (d : classdef) : option class :=
  match all_some (map (fun b => option_map c_mro (find_class env b)) (d_bases d)) with
  | None => None
  | Some mros =>
      let ls := mros ++ [d_bases d] in
      match merge (length (concat ls)) ls, exec_body (d_name d) (d_body d) [] with
      | Some l, Some ns => Some (Class (d_name d) (d_name d :: l) ns)
      | _, _ => None
      end
  end.
Fixpoint load (env : environment) (ds : list classdef) : option environment :=
  match ds with
  | [] => Some env
  | d :: ds' => match define env d with None => None | Some c => load (c :: env) ds' end
  end.

(** Attribute lookup along a resolution order, and [super()] in a method of class [k]. *)
Fixpoint resolve_in (env : environment) (order : list K) (m : name) : option func :=
  match order with
  | [] => None
  | k :: order' =>
      match find_class env k with
      | Some c => match lookup (c_ns c) m with Some f => Some f | None => resolve_in env order' m end
      | None => resolve_in env order' m
      end
  end.
Definition order_of (env : environment) (k : K) : list K :=
  match find_class env k with Some c => c_mro c | None => [] end.
Definition resolve (env : environment) (k : K) (m : name) : option func := resolve_in env (order_of env k) m.
Fixpoint after (k : K) (order : list K) : list K :=
  match order with [] => [] | x :: order' => if K_eqb x k then order' else after k order' end.
Definition resolve_super (env : environment) (k owner : K) (m : name) : option func :=
  resolve_in env (after owner (order_of env k)) m.

(** [abc.ABCMeta]: an object can be created when no attribute resolves to an abstract method. *)
Definition instantiable (env : environment) (k : K) : Prop :=
  forall m f, resolve env k m = Some f -> f_kind f <> Abstract.

(** Calling a method of an object of class [k]: [NotImplementedError], [AttributeError] or a result. *)
Inductive outcome := NotImplementedErr | AttributeErr | Returns.
Fixpoint call (env : environment) (fuel : nat) (k : K) (f : option func) : option outcome :=
  match fuel with
  | O => None
  | S fuel =>
      match f with
      | None => Some AttributeErr
      | Some (Func owner _ NotImpl) => Some NotImplementedErr
      | Some (Func owner _ Abstract) => Some Returns (* the body of an abstract method is only a comment *)
      | Some (Func owner _ (Plain calls)) =>
          (fix go (calls : list selfcall) : option outcome :=
             match calls with
             | [] => Some Returns
             | CSelf m :: calls' =>
                 match call env fuel k (resolve env k m) with Some Returns => go calls' | o => o end
             | CSuper m :: calls' =>
                 match call env fuel k (resolve_super env k owner m) with Some Returns => go calls' | o => o end
             end) calls
      end
  end.
End Classes.

(** ** The hierarchy *)
Inductive cls :=
  | Manifold | RiemannianSubmanifold | RetrAsExpMixin
  | ComplexCircle | Euclidean_ | Euclidean | ComplexEuclidean | Symmetric | SkewSymmetric
  | FixedRankEmbedded | GrassmannBase_ | Grassmann | ComplexGrassmann
  | UnitaryBase_ | SpecialOrthogonalGroup | UnitaryGroup | PoincareBall | Oblique | Positive
  | PositiveDefiniteBase_ | SymmetricPositiveDefinite | HermitianPositiveDefinite | SpecialHermitianPositiveDefinite
  | Product | PSDFixedRank_ | PSDFixedRank | PSDFixedRankComplex | Elliptope
  | SphereBase_ | Sphere | SphereSubspace_ | SphereSubspaceIntersection | SphereSubspaceComplementIntersection
  | Stiefel.
Definition cls_eqb (a b : cls) : bool.
Proof.
  refine (match a, b with
  | Manifold, Manifold => true | RiemannianSubmanifold, RiemannianSubmanifold => true | RetrAsExpMixin, RetrAsExpMixin => true
  | ComplexCircle, ComplexCircle => true | Euclidean_, Euclidean_ => true | Euclidean, Euclidean => true
  | ComplexEuclidean, ComplexEuclidean => true | Symmetric, Symmetric => true | SkewSymmetric, SkewSymmetric => true
  | FixedRankEmbedded, FixedRankEmbedded => true | GrassmannBase_, GrassmannBase_ => true | Grassmann, Grassmann => true
  | ComplexGrassmann, ComplexGrassmann => true | UnitaryBase_, UnitaryBase_ => true
  | SpecialOrthogonalGroup, SpecialOrthogonalGroup => true | UnitaryGroup, UnitaryGroup => true
  | PoincareBall, PoincareBall => true | Oblique, Oblique => true | Positive, Positive => true
  | PositiveDefiniteBase_, PositiveDefiniteBase_ => true | SymmetricPositiveDefinite, SymmetricPositiveDefinite => true
  | HermitianPositiveDefinite, HermitianPositiveDefinite => true
  | SpecialHermitianPositiveDefinite, SpecialHermitianPositiveDefinite => true
  | Product, Product => true | PSDFixedRank_, PSDFixedRank_ => true | PSDFixedRank, PSDFixedRank => true
  | PSDFixedRankComplex, PSDFixedRankComplex => true | Elliptope, Elliptope => true
  | SphereBase_, SphereBase_ => true | Sphere, Sphere => true | SphereSubspace_, SphereSubspace_ => true
  | SphereSubspaceIntersection, SphereSubspaceIntersection => true
  | SphereSubspaceComplementIntersection, SphereSubspaceComplementIntersection => true
  | Stiefel, Stiefel => true | _, _ => false end).
Defined.

Local Notation d m calls := (Def m (Plain calls)).
Local Notation cdef := (@ClassDef cls).
Local Notation "'self' m" := (CSelf m) (at level 9, m at level 8).
Local Notation "'super' m" := (CSuper m) (at level 9, m at level 8).

(** The class statements, module by module; [__init__], properties other than [typical_dist] and private helpers are left
    out, and the calls to the methods of the factors of a product are not calls on the object itself. *)
(** manifold.py 20-387, 390-443, 446-458 *)
Definition manifold_py : list (@classdef cls) := [
  cdef Manifold [] [
    Def typical_dist NotImpl; Def inner_product Abstract; Def projection Abstract; Def norm Abstract;
    Def random_point Abstract; Def random_tangent_vector Abstract; Def zero_vector Abstract;
    Def dist NotImpl; Def euclidean_to_riemannian_gradient NotImpl; Def euclidean_to_riemannian_hessian NotImpl;
    Def retraction NotImpl; Def exp NotImpl; Def log NotImpl; Def transport NotImpl; Def pair_mean NotImpl;
    Def to_tangent_space NotImpl; d embedding []];
  cdef RiemannianSubmanifold [Manifold] [
    Def weingarten NotImpl; d euclidean_to_riemannian_gradient [self projection];
    d euclidean_to_riemannian_hessian [self projection; self projection; self weingarten]];
  cdef RetrAsExpMixin [] [d exp [self retraction]]].
(** complex_circle.py 6-103 *)
Definition complex_circle_py : list (@classdef cls) := [
  cdef ComplexCircle [RiemannianSubmanifold] [
    d inner_product []; d norm []; d dist []; d typical_dist []; d projection []; Alias to_tangent_space projection;
    d euclidean_to_riemannian_hessian [self projection]; d exp []; d retraction []; d log [self projection];
    d random_point []; d random_tangent_vector [self norm]; d transport [self projection]; d pair_mean []; d zero_vector []]].
(** euclidean.py 7-65, 68-96, 99-135, 138-177, 180-219 *)
Definition euclidean_py : list (@classdef cls) := [
  cdef Euclidean_ [RiemannianSubmanifold] [
    d typical_dist []; d inner_product []; d norm []; d dist []; d projection []; Alias to_tangent_space projection;
    d euclidean_to_riemannian_hessian []; d exp []; Alias retraction exp; d log []; d random_point [];
    d random_tangent_vector [self random_point; self norm]; d transport []; d pair_mean []; d zero_vector []];
  cdef Euclidean [Euclidean_] [];
  cdef ComplexEuclidean [Euclidean_] [d random_point []; d zero_vector []];
  cdef Symmetric [Euclidean_] [
    d projection []; d euclidean_to_riemannian_hessian []; d random_point [];
    d random_tangent_vector [self random_point; self norm]];
  cdef SkewSymmetric [Euclidean_] [
    d projection []; d euclidean_to_riemannian_hessian []; d random_point [];
    d random_tangent_vector [self random_point; self norm]]].
(** fixed_rank.py 10-203 *)
Definition fixed_rank_py : list (@classdef cls) := [
  cdef FixedRankEmbedded [RiemannianSubmanifold] [
    d typical_dist []; d inner_product []; d projection []; d euclidean_to_riemannian_gradient []; d retraction [];
    d norm [self inner_product]; d random_point []; d to_tangent_space [];
    d random_tangent_vector [self to_tangent_space; self norm]; d embedding [];
    d transport [self embedding; self projection]; d zero_vector []]].
(** grassmann.py 7-28, 31-133, 136-245 *)
Definition grassmann_py : list (@classdef cls) := [
  cdef GrassmannBase_ [Manifold] [
    d typical_dist []; d norm []; d transport [self projection]; d zero_vector [];
    d euclidean_to_riemannian_gradient [self projection]; d to_tangent_space [self projection]];
  cdef Grassmann [GrassmannBase_] [
    d dist []; d inner_product []; d projection []; d euclidean_to_riemannian_hessian [self projection];
    d retraction []; d random_point []; d random_tangent_vector [self projection]; d exp []; d log []];
  cdef ComplexGrassmann [GrassmannBase_] [
    d dist []; d inner_product []; d projection []; d euclidean_to_riemannian_hessian [self projection];
    d retraction []; d random_point []; d random_tangent_vector [self projection]; d exp []; d log []]].
(** group.py 18-94, 116-176, 180-243 *)
Definition group_py : list (@classdef cls) := [
  cdef UnitaryBase_ [RiemannianSubmanifold] [
    d inner_product []; d norm []; d typical_dist []; d dist [self log; self norm]; d projection [];
    d to_tangent_space []; d embedding []; d euclidean_to_riemannian_hessian []; d retraction []; d exp []; d log [];
    d zero_vector []; d transport []; d pair_mean [self log; self exp]];
  cdef SpecialOrthogonalGroup [UnitaryBase_] [d random_point []; d random_tangent_vector [self norm]];
  cdef UnitaryGroup [UnitaryBase_] [d random_point []; d random_tangent_vector [self norm]]].
(** hyperbolic.py 6-176 *)
Definition hyperbolic_py : list (@classdef cls) := [
  cdef PoincareBall [Manifold] [
    d typical_dist []; d inner_product []; d projection []; Alias to_tangent_space projection; d norm [self inner_product];
    d random_point []; d random_tangent_vector [self norm]; d zero_vector []; d dist [];
    d euclidean_to_riemannian_gradient []; d euclidean_to_riemannian_hessian []; d exp []; Alias retraction exp; d log [];
    d pair_mean [self log; self exp]]].
(** oblique.py 6-98 *)
Definition oblique_py : list (@classdef cls) := [
  cdef Oblique [RiemannianSubmanifold] [
    d typical_dist []; d inner_product []; d norm []; d dist []; d projection []; Alias to_tangent_space projection;
    d euclidean_to_riemannian_hessian [self projection]; d exp []; d retraction []; d log [self projection];
    d random_point []; d random_tangent_vector [self projection; self norm]; d transport [self projection];
    d pair_mean []; d zero_vector []]].
(** positive.py 6-126 *)
Definition positive_py : list (@classdef cls) := [
  cdef Positive [Manifold] [
    d typical_dist []; d inner_product []; d projection []; Alias to_tangent_space projection; d norm [self inner_product];
    d random_point []; d random_tangent_vector [self norm]; d zero_vector []; d dist [];
    d euclidean_to_riemannian_gradient []; d euclidean_to_riemannian_hessian []; d exp []; d log []; d retraction [];
    d transport []]].
(** positive_definite.py 17-122, 125-158, 161-185, 188-291 *)
Definition positive_definite_py : list (@classdef cls) := [
  cdef PositiveDefiniteBase_ [RiemannianSubmanifold] [
    d typical_dist []; d dist []; d inner_product []; d projection []; Alias to_tangent_space projection;
    d euclidean_to_riemannian_gradient [self projection]; d euclidean_to_riemannian_hessian []; d norm [self inner_product];
    d random_point []; d random_tangent_vector [self norm]; d transport []; d exp []; d retraction []; d log [];
    d zero_vector []];
  cdef SymmetricPositiveDefinite [PositiveDefiniteBase_] [d random_point [super random_point]];
  cdef HermitianPositiveDefinite [PositiveDefiniteBase_] [];
  cdef SpecialHermitianPositiveDefinite [PositiveDefiniteBase_] [
    d random_point [super random_point]; d random_tangent_vector [super random_tangent_vector; self projection; self norm];
    d projection [super projection];
    d euclidean_to_riemannian_gradient [super euclidean_to_riemannian_gradient; self projection];
    Def euclidean_to_riemannian_hessian NotImpl; d exp [super exp]; d retraction [super retraction];
    d transport [super projection; self projection]]].
(** product.py 10-131 *)
Definition product_py : list (@classdef cls) := [
  cdef Product [Manifold] [
    d typical_dist []; d norm [self inner_product]; d inner_product []; d dist []; d projection []; d to_tangent_space [];
    d euclidean_to_riemannian_gradient []; d euclidean_to_riemannian_hessian []; d exp []; d retraction []; d log [];
    d random_point []; d random_tangent_vector []; d transport []; d pair_mean []; d zero_vector []]].
(** psd.py 7-70, 73-114, 117-161, 164-276 *)
Definition psd_py : list (@classdef cls) := [
  cdef PSDFixedRank_ [Manifold] [
    d typical_dist []; d inner_product []; d dist [self log; self norm]; d norm []; d projection [];
    Alias to_tangent_space projection; d euclidean_to_riemannian_gradient [];
    d euclidean_to_riemannian_hessian [self projection]; d exp []; Alias retraction exp; d log []; d random_point [];
    d random_tangent_vector [self random_point; self projection; self norm]; d transport [self projection];
    d zero_vector []];
  cdef PSDFixedRank [PSDFixedRank_] [];
  cdef PSDFixedRankComplex [PSDFixedRank_] [d random_point []];
  cdef Elliptope [Manifold; RetrAsExpMixin] [
    d typical_dist []; d inner_product []; d norm [self inner_product]; d projection []; Alias to_tangent_space projection;
    d retraction []; d euclidean_to_riemannian_gradient []; d euclidean_to_riemannian_hessian [self projection];
    d random_point []; d random_tangent_vector [self random_point; self projection; self norm];
    d transport [self projection]; d zero_vector []]].
(** sphere.py 9-80, 84-112, 115-146, 150-173, 177-202 *)
Definition sphere_py : list (@classdef cls) := [
  cdef SphereBase_ [RiemannianSubmanifold] [
    d typical_dist []; d inner_product []; d norm []; d dist [self inner_product]; d projection [self inner_product];
    Alias to_tangent_space projection; d weingarten [self inner_product]; d exp [self norm]; d retraction [];
    d log [self projection; self dist; self norm]; d random_point []; d random_tangent_vector [self projection];
    d transport [self projection]; d pair_mean []; d zero_vector []];
  cdef Sphere [SphereBase_] [];
  cdef SphereSubspace_ [SphereBase_] [
    d projection [super projection]; d random_point [super random_point];
    d random_tangent_vector [super random_tangent_vector]];
  cdef SphereSubspaceIntersection [SphereSubspace_] [];
  cdef SphereSubspaceComplementIntersection [SphereSubspace_] []].
(** stiefel.py 13-147 *)
Definition stiefel_py : list (@classdef cls) := [
  cdef Stiefel [RiemannianSubmanifold] [
    d typical_dist []; d inner_product []; d projection []; Alias to_tangent_space projection; d weingarten [];
    d retraction []; d norm []; d random_point []; d random_tangent_vector [self projection]; d transport [self projection];
    d exp []; d zero_vector []]].
Definition hierarchy : list (@classdef cls) :=
  manifold_py ++ complex_circle_py ++ euclidean_py ++ fixed_rank_py ++ grassmann_py ++ group_py ++ hyperbolic_py ++
  oblique_py ++ positive_py ++ positive_definite_py ++ product_py ++ psd_py ++ sphere_py ++ stiefel_py.

(** ** What the optimizers ask of a manifold, for a problem given by a cost with Euclidean derivatives and without an
    initial point: problem.py 233, 256, 277 and the optimizers below.  [typical_dist] is not among them: the trust-regions
    optimizer catches the error (trust_regions.py 125-129). *)
Inductive optimizer := SteepestDescent | ConjugateGradient | TrustRegions | NelderMead | ParticleSwarm.
Definition uses (o : optimizer) : list name :=
  match o with
  (* steepest_descent.py 63, 97; line_search.py 36-62, 96-116 *)
  | SteepestDescent => [random_point; euclidean_to_riemannian_gradient; norm; retraction]
  (* conjugate_gradient.py 44, 67-68, 91-102, 123-124, 216-327 *)
  | ConjugateGradient => [random_point; euclidean_to_riemannian_gradient; norm; inner_product; retraction; transport]
  (* trust_regions.py 139-258, 397, 445-450, 613; 184-186 only with use_rand *)
  | TrustRegions => [random_point; euclidean_to_riemannian_gradient; embedding; euclidean_to_riemannian_hessian; norm;
                     zero_vector; inner_product; retraction; to_tangent_space; random_tangent_vector]
  (* nelder_mead.py 10-45, 100-224; the centroid is computed with steepest descent *)
  | NelderMead => [random_point; dist; log; zero_vector; norm; retraction; pair_mean]
  (* particle_swarm.py 74, 95, 167-187 *)
  | ParticleSwarm => [random_point; random_tangent_vector; transport; log; retraction]
  end.
