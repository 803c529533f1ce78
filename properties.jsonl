{"id": "C01", "title": "Backtracking line search never returns a worse point", "statement": "BackTrackingLineSearcher.search(...) returns either (0, x) with the point it was given, or a point whose cost is not greater than the cost it was given; it never moves to a point where the cost was observed to be higher.", "quantifier": "all manifolds, costs, directions, slopes, searcher parameters and remembered state, in any number system with an IEEE-like order", "why_tests_cant": "every cost function, manifold, direction and parameter setting; tests only run a few smooth costs", "anchors": ["src/pymanopt/optimizers/line_search.py: BackTrackingLineSearcher.search"]}
{"id": "C02", "title": "Backtracking line search computes exactly the first Armijo step, with a bounded number of evaluations", "statement": "The step tried j-th is the initial step times the contraction factor j times; the search stops at the first tried step that satisfies the Armijo decrease test or at step number max_iterations; it evaluates the cost exactly at the tried points, hence at most max(max_iterations,0)+1 times, and returns the retraction of that step (or no step).", "quantifier": "all manifolds, costs (including non-smooth, discontinuous and NaN-valued), directions, parameters", "why_tests_cant": "the bound must hold for costs that never satisfy the test; no finite sample of costs shows that", "anchors": ["src/pymanopt/optimizers/line_search.py: BackTrackingLineSearcher.search"]}
{"id": "C03", "title": "Adaptive line search: same guarantees, and the remembered step is the documented one", "statement": "AdaptiveLineSearcher.search satisfies the first-Armijo-step, evaluation-bound and no-worse-point guarantees, and the step remembered for the next call is the accepted step if exactly two evaluations were made and twice the accepted step otherwise.", "quantifier": "all manifolds, costs, directions, parameters and remembered steps", "why_tests_cant": "depends on the whole evaluation history of the call and of the previous call", "anchors": ["src/pymanopt/optimizers/line_search.py: AdaptiveLineSearcher.search"]}
{"id": "C04", "title": "A line search does not move to a point whose cost is NaN", "statement": "If the cost at the point finally tried is NaN, the searcher returns the original point. (Violated by the code: NaN compares false, so the step is accepted.)", "quantifier": "all costs, both searchers", "why_tests_cant": "needs a cost returning NaN in the right place; the claim is about all costs", "anchors": ["src/pymanopt/optimizers/line_search.py: BackTrackingLineSearcher.search, AdaptiveLineSearcher.search"]}
{"id": "C05", "title": "An adaptive line searcher that rejected a step can still make progress when it is used again", "statement": "After a call that rejected its step, later calls (same run, or later runs with reuse_line_searcher=True) still try a non-zero step. (Violated by the code: the remembered step is 0 and stays 0.)", "quantifier": "all histories of calls of one searcher object", "why_tests_cant": "it is about unbounded call histories", "anchors": ["src/pymanopt/optimizers/line_search.py: AdaptiveLineSearcher", "src/pymanopt/optimizers/steepest_descent.py: run", "src/pymanopt/optimizers/conjugate_gradient.py: run"]}
{"id": "C06", "title": "The stopping test of the optimizers is exact", "statement": "The shared stopping test reports a reason if and only if one of its criteria holds (elapsed time reached max_time, iteration count reached max_iterations, gradient norm below min_gradient_norm, step size below min_step_size, cost evaluations reached max_cost_evaluations), and reports the first one in that order.", "quantifier": "all criteria values, all clock readings, all iteration counts and norms, including infinities and NaN", "why_tests_cant": "the combinations of criteria and clock readings are unbounded", "anchors": ["src/pymanopt/optimizers/optimizer.py: Optimizer._check_stopping_criterion"]}
{"id": "C07", "title": "Steepest descent never increases the cost", "statement": "The cost of the iterate at the start of every iteration of SteepestDescent.run is not greater than at the previous one, and the cost of the returned point is not greater than the cost of the initial point, provided the cost never evaluates to NaN.", "quantifier": "all problems, initial points, both line searchers with any parameters, any clock behaviour, any number of iterations", "why_tests_cant": "must hold at every iteration of every run", "anchors": ["src/pymanopt/optimizers/steepest_descent.py: SteepestDescent.run"]}
{"id": "C08", "title": "Steepest descent reports a consistent result", "statement": "In the result of SteepestDescent.run, cost is the cost function at point, iterations is the number of iterations performed, and gradient_norm is the norm of the gradient at point. (The last part is violated by the code: the norm reported is the one at the previous iterate.)", "quantifier": "all problems, initial points, line searchers and clocks", "why_tests_cant": "must hold for whichever criterion ends the run", "anchors": ["src/pymanopt/optimizers/steepest_descent.py: SteepestDescent.run", "src/pymanopt/optimizers/optimizer.py: _return_result"]}
{"id": "C09", "title": "Steepest descent started at a critical point returns that point", "statement": "If the gradient at the initial point is zero, SteepestDescent.run returns the initial point and its cost. (Violated by the code: the step length is a division by a zero norm and the point becomes NaN.)", "quantifier": "all problems and critical points, binary64 arithmetic", "why_tests_cant": "floating-point corner case over all problems", "anchors": ["src/pymanopt/optimizers/steepest_descent.py: SteepestDescent.run", "src/pymanopt/optimizers/line_search.py"]}
{"id": "C10", "title": "Conjugate gradient never increases the cost", "statement": "The cost sequence of ConjugateGradient.run is non-increasing for every beta rule, preconditioner and restart threshold, provided the cost never evaluates to NaN.", "quantifier": "all problems, preconditioners, beta rules, restart thresholds, line searchers, clocks, runs", "why_tests_cant": "must hold at every iteration of every run", "anchors": ["src/pymanopt/optimizers/conjugate_gradient.py: ConjugateGradient.run"]}
{"id": "C11", "title": "Conjugate gradient reports a consistent result", "statement": "In the result of ConjugateGradient.run, cost and gradient_norm are the cost function and the norm of the gradient at the returned point and iterations is the number of iterations performed.", "quantifier": "all problems, preconditioners, beta rules, line searchers, clocks", "why_tests_cant": "must hold for whichever criterion ends the run", "anchors": ["src/pymanopt/optimizers/conjugate_gradient.py: ConjugateGradient.run"]}
{"id": "C12", "title": "Conjugate gradient always hands the line search a descent direction", "statement": "At every iteration of ConjugateGradient.run the direction passed to the line search and the slope passed with it satisfy: slope is the inner product of gradient and direction, and it is negative unless the preconditioned gradient has zero inner product with the gradient.", "quantifier": "all problems with a positive definite preconditioner, all beta rules including misbehaving ones, all iterations", "why_tests_cant": "must hold after any history of directions", "anchors": ["src/pymanopt/optimizers/conjugate_gradient.py: ConjugateGradient.run"]}
{"id": "C13", "title": "Beta rules are non-negative and agree where theory says they do", "statement": "The Polak-Ribiere, Hestenes-Stiefel and Liu-Storey rules never return a negative number, Hager-Zhang never returns less than its documented lower bound; and on orthogonal successive gradients with an exact line search all five rules return the Fletcher-Reeves value; directions built with the Hager-Zhang rule satisfy the sufficient descent condition with constant 7/8 whatever the line search did, for a linear symmetric positive semi-definite preconditioner that commutes with transport.", "quantifier": "all manifolds, points, gradients, directions in exact arithmetic", "why_tests_cant": "universally quantified algebraic identity/inequality", "anchors": ["src/pymanopt/optimizers/conjugate_gradient.py: _beta_fletcher_reeves, _beta_polak_ribiere, _beta_hestenes_stiefel, _beta_hager_zhang, _beta_liu_storey"]}
{"id": "C14", "title": "Conjugate gradient survives landing exactly on a critical point", "statement": "ConjugateGradient.run returns a result (no exception) when an iterate has an exactly zero gradient. (Violated by the code on Euclidean manifolds, whose inner product is a Python float: the restart test divides by zero.)", "quantifier": "all problems and iterates", "why_tests_cant": "requires reaching an exact zero, which randomised tests do not", "anchors": ["src/pymanopt/optimizers/conjugate_gradient.py: ConjugateGradient.run", "src/pymanopt/manifolds/euclidean.py: _Euclidean.inner_product"]}
{"id": "C15", "title": "Every optimizer run terminates within its iteration budget", "statement": "SteepestDescent, ConjugateGradient, TrustRegions, NelderMead and ParticleSwarm stop after at most max(1, max_iterations) iterations whatever the cost, gradient, clock and random draws do, and SteepestDescent/ConjugateGradient report that count. (Violated by the code in one corner: TrustRegions with use_rand accepts a negative Delta0 and then never leaves the loop that scales the random vector down; with positive radii it always does.)", "quantifier": "all problems, all clocks (including a stuck clock), all random streams, all parameters", "why_tests_cant": "termination for all inputs", "anchors": ["src/pymanopt/optimizers/steepest_descent.py", "src/pymanopt/optimizers/conjugate_gradient.py", "src/pymanopt/optimizers/trust_regions.py", "src/pymanopt/optimizers/nelder_mead.py", "src/pymanopt/optimizers/particle_swarm.py"]}
{"id": "C16", "title": "The optimisation log records every iteration", "statement": "With log_verbosity >= 1 the log of a run has exactly one entry per iteration, numbered 1,2,3,..., holding the iterate and its cost; with log_verbosity 0 there is none. (Holds for SteepestDescent and ConjugateGradient; violated by the code for TrustRegions, NelderMead and ParticleSwarm.)", "quantifier": "all runs of all optimizers", "why_tests_cant": "length of runs is unbounded", "anchors": ["src/pymanopt/optimizers/optimizer.py: _initialize_log, _add_log_entry", "src/pymanopt/optimizers/steepest_descent.py", "src/pymanopt/optimizers/conjugate_gradient.py", "src/pymanopt/optimizers/trust_regions.py", "src/pymanopt/optimizers/nelder_mead.py", "src/pymanopt/optimizers/particle_swarm.py"]}
{"id": "C17", "title": "An optimizer object can be reused: runs do not influence one another", "statement": "Without reuse_line_searcher, the result of run on an optimizer object does not depend on which runs the same object made before. (Holds for SteepestDescent, ConjugateGradient and TrustRegions; violated by the code for NelderMead and ParticleSwarm, whose defaulted budgets stick to the object.)", "quantifier": "all histories of earlier runs on other problems", "why_tests_cant": "about unbounded histories", "anchors": ["src/pymanopt/optimizers/steepest_descent.py", "src/pymanopt/optimizers/conjugate_gradient.py", "src/pymanopt/optimizers/nelder_mead.py: NelderMead.run", "src/pymanopt/optimizers/particle_swarm.py: ParticleSwarm.run"]}
{"id": "C18", "title": "Reported number of cost evaluations", "statement": "The cost_evaluations reported by an optimizer equals the number of times it called the cost function. (Holds for ParticleSwarm; violated by the code for NelderMead, which is off by one final call, and for SteepestDescent/ConjugateGradient, which report the iteration number.)", "quantifier": "all runs", "why_tests_cant": "must hold for all line-search behaviours and all branch histories", "anchors": ["src/pymanopt/optimizers/steepest_descent.py", "src/pymanopt/optimizers/conjugate_gradient.py", "src/pymanopt/optimizers/nelder_mead.py", "src/pymanopt/optimizers/particle_swarm.py"]}
{"id": "C19", "title": "Trust-region radius stays inside its bounds", "statement": "Throughout TrustRegions.run the radius stays positive and never exceeds Delta_bar when it starts within these bounds, and it changes in each iteration only by the factor 1/4, by min(2*Delta, Delta_bar) or not at all.", "quantifier": "all problems, all runs in exact arithmetic (and no-increase above Delta_bar in binary64)", "why_tests_cant": "invariant over unbounded runs", "anchors": ["src/pymanopt/optimizers/trust_regions.py: TrustRegions.run"]}
{"id": "C20", "title": "Trust-region step acceptance rule", "statement": "An iteration of TrustRegions.run moves to the proposed point exactly when the model decreased and the regularised ratio of actual to predicted decrease exceeds rho_prime, otherwise point, cost and gradient are unchanged; on rejection with rho_prime < 1/4 the radius is divided by 4.", "quantifier": "all problems, all iterations, all parameter values", "why_tests_cant": "must hold at every iteration of every run", "anchors": ["src/pymanopt/optimizers/trust_regions.py: TrustRegions.run"]}
{"id": "C21", "title": "Trust regions never increases the cost beyond its regularisation", "statement": "Each accepted step of TrustRegions.run increases the cost by less than the regularisation term max(1,|f|)*2^-52*rho_regularization, with rho_prime >= 0 in exact arithmetic. Plain monotonicity is violated by the code.", "quantifier": "all problems, all runs", "why_tests_cant": "must hold at every iteration of every run", "anchors": ["src/pymanopt/optimizers/trust_regions.py: TrustRegions.run"]}
{"id": "C22", "title": "Trust regions reports a consistent result", "statement": "In the result of TrustRegions.run, cost and gradient_norm are the cost and the gradient norm at the returned point.", "quantifier": "all problems, parameters, clocks", "why_tests_cant": "whichever branch was taken last", "anchors": ["src/pymanopt/optimizers/trust_regions.py: TrustRegions.run"]}
{"id": "C23", "title": "The truncated CG step stays inside the trust region", "statement": "The step returned by the inner solver of TrustRegions started from zero has (preconditioner-)norm at most Delta, for every symmetric Hessian (possibly indefinite) and symmetric positive definite preconditioner, in exact arithmetic.", "quantifier": "all tangent spaces of any dimension, all symmetric operators, gradients, radii, kappa, theta, mininner, maxinner", "why_tests_cant": "induction over inner iterations in an arbitrary inner-product space", "anchors": ["src/pymanopt/optimizers/trust_regions.py: TrustRegions._truncated_conjugate_gradient"]}
{"id": "C24", "title": "The truncated CG step decreases the quadratic model and comes with its true Hessian image", "statement": "The inner solver started from zero returns (eta, Heta) with Heta = H(eta), its residual recursion equals the true gradient of the model, and the model value at eta is at most that at zero, strictly smaller after at least one performed step with a non-zero gradient.", "quantifier": "all tangent spaces, symmetric operators, preconditioners, radii, in exact arithmetic", "why_tests_cant": "induction over inner iterations", "anchors": ["src/pymanopt/optimizers/trust_regions.py: TrustRegions._truncated_conjugate_gradient"]}
{"id": "C25", "title": "The inner solver performs at most maxinner iterations and reports why it stopped", "statement": "The inner solver performs at most maxinner iterations; the reported reason agrees with the state (negative curvature, boundary, linear/superlinear convergence, model increased, budget). With maxinner = 0 (e.g. a zero-dimensional manifold) it is violated by the code with an unbound variable.", "quantifier": "all operators, gradients, parameters", "why_tests_cant": "for all inputs", "anchors": ["src/pymanopt/optimizers/trust_regions.py: _truncated_conjugate_gradient, run"]}
{"id": "C26", "title": "The inner solver never returns a NaN step", "statement": "For finite inputs the inner solver returns a step without NaN. (Violated by the code: an exactly zero residual before mininner iterations leads to 0/0, e.g. for a cost with identity Hessian.)", "quantifier": "all finite inputs, binary64", "why_tests_cant": "needs an exact-zero residual", "anchors": ["src/pymanopt/optimizers/trust_regions.py: _truncated_conjugate_gradient"]}
{"id": "C27", "title": "With use_rand the step still stays in the trust region", "statement": "The inner solver started from a random non-zero vector inside the region returns a step inside the region. (Violated by the code: the norm recursion assumes a zero start.)", "quantifier": "all starts, operators, gradients in exact arithmetic", "why_tests_cant": "needs the right operator/start combination", "anchors": ["src/pymanopt/optimizers/trust_regions.py: _truncated_conjugate_gradient, run"]}
{"id": "C28", "title": "With use_rand the step is never worse than the Cauchy step", "statement": "With use_rand=True the step used by TrustRegions.run has model value not greater than that of the Cauchy step computed in the same iteration.", "quantifier": "all problems, iterations", "why_tests_cant": "every branch of every run", "anchors": ["src/pymanopt/optimizers/trust_regions.py: TrustRegions.run"]}
{"id": "C29", "title": "Nelder-Mead keeps a full simplex with matching costs", "statement": "At the start of every iteration of NelderMead.run there are exactly as many vertices as costs, every stored cost is the cost of its vertex, and the costs are sorted after the sort step.", "quantifier": "all problems, runs, parameters", "why_tests_cant": "invariant over unbounded runs with five branches", "anchors": ["src/pymanopt/optimizers/nelder_mead.py: NelderMead.run"]}
{"id": "C30", "title": "Nelder-Mead never loses its best vertex", "statement": "The best cost never increases over the iterations of NelderMead.run and the returned point has cost at most that of every initial vertex (no NaN).", "quantifier": "all problems, runs", "why_tests_cant": "every branch history", "anchors": ["src/pymanopt/optimizers/nelder_mead.py: NelderMead.run"]}
{"id": "C31", "title": "Nelder-Mead accepts initial simplices of the documented size", "statement": "A user-supplied initial simplex of dim+1 points is accepted and one of another size is rejected. (Violated by the code: the test is inverted.)", "quantifier": "all dimensions and simplices", "why_tests_cant": "all sizes", "anchors": ["src/pymanopt/optimizers/nelder_mead.py: NelderMead.run"]}
{"id": "C32", "title": "Particle swarm best-so-far bookkeeping", "statement": "In ParticleSwarm.run every personal best is the cost of the stored personal best point, the global best is the cost of the stored global best point and not greater than every evaluated cost, and never increases.", "quantifier": "all problems, populations, random draws, runs", "why_tests_cant": "invariant over all random draws", "anchors": ["src/pymanopt/optimizers/particle_swarm.py: ParticleSwarm.run"]}
{"id": "C33", "title": "Particle swarm returns the best of all visited positions", "statement": "The returned cost is not greater than the cost at any position a particle visited. (Violated by the code: costs are evaluated before the move, so final positions are never evaluated.)", "quantifier": "all random draws, problems", "why_tests_cant": "depends on draws", "anchors": ["src/pymanopt/optimizers/particle_swarm.py: ParticleSwarm.run"]}
{"id": "C34", "title": "Optimizers do not modify the caller's data", "statement": "run does not modify the initial_point sequence it is given. (Violated by the code for ParticleSwarm, which overwrites entries of the caller's list.)", "quantifier": "all runs and initial populations", "why_tests_cant": "aliasing over all runs", "anchors": ["src/pymanopt/optimizers/particle_swarm.py: ParticleSwarm.run", "src/pymanopt/optimizers/nelder_mead.py: NelderMead.run"]}
{"id": "C35", "title": "Derivative-free optimizers respect max_cost_evaluations", "statement": "NelderMead and ParticleSwarm overshoot max_cost_evaluations by at most the evaluations of one iteration, while SteepestDescent, ConjugateGradient and TrustRegions never consult it.", "quantifier": "all runs", "why_tests_cant": "all branch histories", "anchors": ["src/pymanopt/optimizers/optimizer.py", "src/pymanopt/optimizers/nelder_mead.py", "src/pymanopt/optimizers/particle_swarm.py"]}
{"id": "C36", "title": "Arguments of a point survive flattening and grouping", "statement": "For every manifold whose points consist of any nesting of one level of arrays, flattening a point into the argument list of the cost function and grouping gradient components back by the same layout is the identity, in both directions. Points that are nested although the layout is a plain 1, or whose number of groups or group sizes disagree with a nested layout, are rejected. (Violated by the code for layouts that are an integer above 1: the number of components is not checked.)", "quantifier": "all point layouts and numbers of components", "why_tests_cant": "all layouts", "anchors": ["src/pymanopt/core/problem.py: Problem._flatten_arguments, _group_return_values"]}
{"id": "C37", "title": "The gradient and Hessian operators hand the user functions the right arguments", "statement": "euclidean_gradient(point) calls the user function with exactly the components of the point in order and returns the components in the point's structure; euclidean_hessian(point, v) calls it with the components of the point followed by those of the embedded tangent vector; the Riemannian operators derived from them receive these values. (Violated on Product manifolds: the tangent vector is not embedded even if the component manifolds embed theirs.)", "quantifier": "all layouts, points, tangent vectors and user functions", "why_tests_cant": "all layouts", "anchors": ["src/pymanopt/core/problem.py: _wrap_function, _wrap_gradient_operator, _wrap_hessian_operator", "src/pymanopt/manifolds/product.py"]}
{"id": "C38", "title": "Problem validates its arguments", "statement": "Problem(...) succeeds if and only if the cost is a decorated function or None and at most one of euclidean/riemannian gradient and at most one of euclidean/riemannian Hessian is given, each decorated; every other combination raises. (That a missing cost, None, is accepted contradicts the documented type: it only fails when the cost is first used.)", "quantifier": "all combinations of constructor arguments", "why_tests_cant": "all combinations", "anchors": ["src/pymanopt/core/problem.py: Problem.__init__, _validate_function"]}
{"id": "C39", "title": "Manifold, cost and preconditioner of a problem are set once", "statement": "After construction, assigning manifold or preconditioner raises AttributeError and leaves the problem unchanged, the operator properties cannot be assigned at all, and any other attribute can. (Violated in one way: deleting the attribute first makes it assignable again.)", "quantifier": "all histories of attribute accesses", "why_tests_cant": "histories", "anchors": ["src/pymanopt/core/problem.py: Problem.__setattr__"]}
{"id": "C40", "title": "Derived operators are generated once and do not depend on the order of use", "statement": "Any sequence of uses of a problem's gradient and Hessian properties generates each derived operator at most once, and yields the same operators as any other sequence.", "quantifier": "all access histories", "why_tests_cant": "histories", "anchors": ["src/pymanopt/core/problem.py: properties euclidean_gradient, euclidean_hessian, riemannian_gradient, riemannian_hessian"]}
{"id": "C41", "title": "Riemannian gradients on product manifolds support vector arithmetic", "statement": "The value of problem.riemannian_gradient on a Product manifold supports negation, addition and scaling as the optimizers need. (Violated by the code when the Riemannian gradient is user-supplied: it is a plain list and negating it raises TypeError.)", "quantifier": "all problems on product manifolds", "why_tests_cant": "all ways to supply the gradient", "anchors": ["src/pymanopt/core/problem.py", "src/pymanopt/manifolds/product.py: _ProductTangentVector"]}
{"id": "C42", "title": "Splitting and unpacking helpers", "statement": "bisect_sequence splits the concatenation of two equally long sequences into these two; unpack_singleton returns the element of a one-element sequence and raises ValueError for any other length; is_sequence recognises exactly the sequence types other than str.", "quantifier": "all sequences", "why_tests_cant": "all lengths", "anchors": ["src/pymanopt/tools/__init__.py"]}
{"id": "C43", "title": "Function decorators accept exactly positional signatures and available backends", "statement": "Decorating a function for a backend raises exactly if the backend is unavailable, the manifold is not a Manifold, or the function has keyword-only or keyword arguments. (Its number of positional arguments is never compared with the point layout: a function with too few or too many parameters is accepted, against what a user may expect.)", "quantifier": "all signatures, layouts, backends", "why_tests_cant": "all signatures", "anchors": ["src/pymanopt/autodiff/__init__.py", "src/pymanopt/autodiff/backends/_backend.py"]}
{"id": "C44", "title": "Product manifolds act component by component", "statement": "projection, retraction, exp, log, transport, pair_mean, gradient and Hessian conversion, random points, zero vectors and to_tangent_space on a Product return the list of the component manifolds' results, provided each argument has one entry per component.", "quantifier": "all finite families of component manifolds, points and vectors", "why_tests_cant": "all families", "anchors": ["src/pymanopt/manifolds/product.py: Product"]}
{"id": "C45", "title": "Product metric", "statement": "On a Product, the inner product is the sum of the component inner products, the norm is the square root of the inner product, dist squared is the sum of component dists squared, and these are a symmetric positive definite form and a metric when the components' are.", "quantifier": "all families and points", "why_tests_cant": "needs the Minkowski inequality for any number of components", "anchors": ["src/pymanopt/manifolds/product.py: inner_product, norm, dist"]}
{"id": "C46", "title": "Product tangent vectors form a vector space", "statement": "Tangent vectors of a Product support +, -, unary -, and scaling with the vector space laws; combining vectors of different lengths is rejected.", "quantifier": "all lengths and entries", "why_tests_cant": "all lengths", "anchors": ["src/pymanopt/manifolds/product.py: _ProductTangentVector"]}
{"id": "C47", "title": "Product random tangent vectors have unit norm", "statement": "random_tangent_vector on a Product of manifolds whose random tangent vectors have unit norm has unit norm.", "quantifier": "all non-empty families and draws", "why_tests_cant": "all families", "anchors": ["src/pymanopt/manifolds/product.py: random_tangent_vector"]}
{"id": "C48", "title": "Product rejects ill-formed points and families", "statement": "Nested products and empty families are rejected, and product operations reject points with a wrong number of components. (The last part is violated: surplus entries are silently dropped, and missing ones shorten the result.)", "quantifier": "all families and points", "why_tests_cant": "all lengths", "anchors": ["src/pymanopt/manifolds/product.py: Product.__init__, _dispatch"]}
{"id": "C49", "title": "Manifold constructors validate and report dimension and layout", "statement": "Constructing a manifold raises for negative or fractional dimension and invalid layouts; num_values is the total number of arrays of a point; for every class the arguments accepted, the dimension and the layout are exactly the documented ones, and sizes for which there are no such matrices are rejected. (The last part is violated: Symmetric(-3), Euclidean(-2, -3), SymmetricPositiveDefinite(-2) or with k=0, UnitaryGroup(-2), Positive(-1, -1), Oblique(0, -2), PSDFixedRank(2, 4) and Elliptope(3, 4) are accepted.)", "quantifier": "all constructor arguments of all classes", "why_tests_cant": "all sizes", "anchors": ["src/pymanopt/manifolds/manifold.py: Manifold.__init__, num_values"]}
{"id": "C50", "title": "The reported dimension is the dimension of the tangent space", "statement": "For each manifold the dim property equals the dimension of the real vector space of tangent vectors. A Product reports the sum. (Violated by HermitianPositiveDefinite and SpecialHermitianPositiveDefinite, which report n(n+1) and n(n+1)-1 instead of n^2 and n^2-1 per matrix.)", "quantifier": "all sizes of all manifolds", "why_tests_cant": "all sizes", "anchors": ["src/pymanopt/manifolds/euclidean.py", "src/pymanopt/manifolds/sphere.py", "src/pymanopt/manifolds/stiefel.py", "src/pymanopt/manifolds/grassmann.py", "src/pymanopt/manifolds/group.py", "src/pymanopt/manifolds/positive_definite.py", "src/pymanopt/manifolds/psd.py", "src/pymanopt/manifolds/fixed_rank.py"]}
{"id": "C51", "title": "Methods resolve as documented in the class hierarchy", "statement": "For every manifold class, methods resolve along a linear order that keeps the order of bases and puts no class after one it inherits from; to_tangent_space is the projection of the class unless it is defined separately; manifolds declared to use the retraction as exponential map do so; objects of every public class can be created; and exactly the methods listed as missing raise NotImplementedError. (Violated by Symmetric, SkewSymmetric, SphereSubspaceIntersection, SphereSubspaceComplementIntersection, SpecialHermitianPositiveDefinite, whose to_tangent_space is the projection of a parent class, and Elliptope, whose exp raises NotImplementedError.)", "quantifier": "all class hierarchies for the order and for aliases; all manifold classes and methods for the rest", "why_tests_cant": "method resolution over the whole hierarchy", "anchors": ["src/pymanopt/manifolds/manifold.py: RetrAsExpMixin", "src/pymanopt/manifolds/psd.py: Elliptope", "src/pymanopt/manifolds/euclidean.py", "src/pymanopt/manifolds/sphere.py", "src/pymanopt/manifolds/positive_definite.py"]}
{"id": "C52", "title": "Stacked matrix helpers act on each matrix", "statement": "multitransp, multihconj, multisym, multiskew, multiherm, multiskewh act on each matrix of a stack; sym/herm and skew/skewh parts are idempotent, complementary and (skew-)symmetric.", "quantifier": "all stack sizes, matrix sizes and entries, real and complex", "why_tests_cant": "all sizes", "anchors": ["src/pymanopt/tools/multi.py"]}
{"id": "C53", "title": "multiqr returns a QR factorisation with non-negative real diagonal", "statement": "Whatever signs/phases the LAPACK QR chooses, multiqr returns Q, R with Q R = A, orthonormal Q, upper triangular R and real non-negative diagonal; for full column rank the result is unique.", "quantifier": "all matrices and all valid QR factorisations the library might return", "why_tests_cant": "the library's choice is arbitrary", "anchors": ["src/pymanopt/tools/multi.py: multiqr"]}
{"id": "C54", "title": "multilogm and multiexpm are mutually inverse on (Hermitian) positive definite / Hermitian matrices", "statement": "For symmetric/Hermitian input, multiexpm(symmetric=True) is positive definite and multilogm of it is the input; multilogm of a positive definite matrix is Hermitian and its exponential is the matrix.", "quantifier": "all matrices and all valid eigendecompositions", "why_tests_cant": "the library's eigenvectors are arbitrary", "anchors": ["src/pymanopt/tools/multi.py: multilogm, multiexpm"]}
{"id": "C55", "title": "Euclidean-type manifolds: flat geometry", "statement": "On Euclidean, ComplexEuclidean, Symmetric and SkewSymmetric: the inner product is real, symmetric and positive definite, norm is its square root, dist is a metric, exp and log are inverse, the pair mean is equidistant, and points stay symmetric/skew-symmetric.", "quantifier": "all shapes and entries", "why_tests_cant": "universal algebra", "anchors": ["src/pymanopt/manifolds/euclidean.py"]}
{"id": "C56", "title": "Symmetric and SkewSymmetric: projection is the orthogonal projection", "statement": "Symmetric/SkewSymmetric projection maps into the space, fixes it, and its residual is orthogonal to it; euclidean_to_riemannian_gradient/hessian and to_tangent_space return members of the space. to_tangent_space violates this: it returns its argument.", "quantifier": "all sizes and entries", "why_tests_cant": "universal algebra", "anchors": ["src/pymanopt/manifolds/euclidean.py: Symmetric, SkewSymmetric"]}
{"id": "C57", "title": "Sphere: projection is the orthogonal projection onto the tangent space", "statement": "On Sphere, projection(x, v) is tangent at x, is v if v is tangent, has residual orthogonal to all tangent vectors and is the nearest tangent vector; the gradient conversion is characterised by the differential.", "quantifier": "all unit vectors x and ambient v of any shape", "why_tests_cant": "universal", "anchors": ["src/pymanopt/manifolds/sphere.py: _SphereBase.projection"]}
{"id": "C58", "title": "Sphere: retraction and exponential stay on the sphere and agree to first order", "statement": "For tangent v, retraction(x, v) and exp(x, v) have unit norm, equal x for v = 0 and have derivative v at 0 along t*v; dist(x, exp(x, v)) = |v| for |v| <= pi.", "quantifier": "all x, tangent v", "why_tests_cant": "transcendental identities for all reals", "anchors": ["src/pymanopt/manifolds/sphere.py"]}
{"id": "C59", "title": "Sphere: dist is the geodesic metric", "statement": "On Sphere, dist is in [0, pi], symmetric, zero exactly for equal points, satisfies the triangle inequality, and pair_mean is a unit vector at equal distance from both non-antipodal points.", "quantifier": "all points", "why_tests_cant": "triangle inequality for all triples", "anchors": ["src/pymanopt/manifolds/sphere.py: dist, pair_mean"]}
{"id": "C60", "title": "Sphere: log inverts exp up to the documented epsilon", "statement": "log(x, y) is tangent and exp(x, log(x, y)) is within eps*(d - sin d)/(sin d + eps) of y. Exact inversion is violated by the code.", "quantifier": "all points", "why_tests_cant": "all reals", "anchors": ["src/pymanopt/manifolds/sphere.py: log"]}
{"id": "C61", "title": "Riemannian Hessians from Euclidean derivatives", "statement": "For the Euclidean family, Sphere and its subspace variants, Oblique, Stiefel, Grassmann, ComplexGrassmann, SpecialOrthogonalGroup, UnitaryGroup, ComplexCircle, Positive, PoincareBall, SPD, HPD, PSDFixedRank and Elliptope: the Hessian conversion returns a tangent vector (horizontal vector on quotients; violated by the code on Elliptope), is a symmetric bilinear form when the Euclidean Hessian is, and equals the (projected/covariant) derivative of the Riemannian gradient field along every curve.", "quantifier": "all points, tangent vectors, Euclidean gradients and Hessians", "why_tests_cant": "all smooth functions", "anchors": ["src/pymanopt/manifolds/manifold.py: RiemannianSubmanifold.euclidean_to_riemannian_hessian", "src/pymanopt/manifolds/stiefel.py: weingarten", "src/pymanopt/manifolds/sphere.py: weingarten"]}
{"id": "C62", "title": "Sphere subspace intersections stay in the subspace", "statement": "On SphereSubspaceIntersection and its complement variant, projection, retraction, exp, pair_mean and random points stay in the subspace and on the sphere; to_tangent_space should too (violated by the code) and dependent spanning columns should give the spanned subspace (violated by the code).", "quantifier": "all subspaces, points, vectors", "why_tests_cant": "all subspaces", "anchors": ["src/pymanopt/manifolds/sphere.py: _SphereSubspaceIntersectionManifold"]}
{"id": "C63", "title": "ComplexCircle: points keep modulus one", "statement": "On ComplexCircle, projection gives tangent vectors, retraction, random_point and pair_mean give unit-modulus entries, the gradient conversion is characterised by the differential; exp should give unit modulus (violated by the code: the imaginary part is discarded).", "quantifier": "all points, vectors, lengths", "why_tests_cant": "all entries", "anchors": ["src/pymanopt/manifolds/complex_circle.py"]}
{"id": "C64", "title": "Positive: affine-invariant geometry of positive matrices", "statement": "On Positive, the metric is positive definite, exp and retraction return positive entries for every tangent vector, exp and log are inverse, dist is a metric equal to the norm of log, parallel transport is an isometry and the gradient conversion is characterised by the differential.", "quantifier": "all positive points, tangent vectors, sizes", "why_tests_cant": "all reals", "anchors": ["src/pymanopt/manifolds/positive.py"]}
{"id": "C65", "title": "Oblique: columns behave as independent spheres", "statement": "On Oblique, projection, retraction, exp, log, random points and dist act column-wise as on the sphere: results have unit columns, projection is the orthogonal projection.", "quantifier": "all sizes, points, vectors", "why_tests_cant": "all sizes", "anchors": ["src/pymanopt/manifolds/oblique.py"]}
{"id": "C66", "title": "Stiefel: projection and gradient", "statement": "On Stiefel, projection is the orthogonal projection onto the tangent space, so the gradient conversion is the Riemannian gradient; transport gives tangent vectors.", "quantifier": "all n, p, k, points and vectors", "why_tests_cant": "all sizes", "anchors": ["src/pymanopt/manifolds/stiefel.py"]}
{"id": "C67", "title": "Stiefel: QR and polar retractions", "statement": "On Stiefel both retractions return orthonormal columns for every tangent vector, fix the point at zero, and differ from x+v by at most C|v|^2, whatever valid QR/SVD the library returns.", "quantifier": "all sizes, points, tangent vectors, factorisations", "why_tests_cant": "all factorisations", "anchors": ["src/pymanopt/manifolds/stiefel.py: _retraction_qr, _retraction_polar"]}
{"id": "C68", "title": "Grassmann and ComplexGrassmann: horizontal projection, retraction and exponential", "statement": "projection is the orthogonal projection onto horizontal vectors; retraction and exp return orthonormal representatives; exp(x,0)=x; exp(x, log(x,y)) spans the same subspace as y and log(x,y) is as long as dist(x,y), if no direction of one subspace is orthogonal to the other; dist does not depend on representatives, is symmetric, and zero exactly for equal subspaces; dist(x, exp(x,v)) is the length of v if its singular values are at most pi/2.", "quantifier": "all sizes, points, vectors, SVDs", "why_tests_cant": "all factorisations", "anchors": ["src/pymanopt/manifolds/grassmann.py"]}
{"id": "C69", "title": "Rotation and unitary groups: tangent vectors are Lie-algebra elements", "statement": "On SpecialOrthogonalGroup and UnitaryGroup, projection, to_tangent_space, gradient and Hessian conversion and random tangent vectors are skew-symmetric/skew-Hermitian. (UnitaryGroup.projection is violated by the code.)", "quantifier": "all sizes, points, vectors", "why_tests_cant": "all sizes", "anchors": ["src/pymanopt/manifolds/group.py: _UnitaryBase"]}
{"id": "C70", "title": "Rotation and unitary groups: retractions, exp and random points stay in the group", "statement": "Retractions return orthogonal matrices with determinant one (SpecialOrthogonalGroup) / unitary matrices (UnitaryGroup), fix the point at zero; random_point is in the group for every draw; log is the inverse of exp where the matrix logarithm is.", "quantifier": "all sizes, points, tangent vectors, factorisations and draws", "why_tests_cant": "determinant sign for all sizes", "anchors": ["src/pymanopt/manifolds/group.py"]}
{"id": "C71", "title": "PoincareBall: points stay inside the ball", "statement": "On PoincareBall, Mobius addition, exp and retraction and random points stay strictly inside the unit ball; metric is positive definite; gradient conversion is characterised by the differential.", "quantifier": "all points and vectors", "why_tests_cant": "all reals", "anchors": ["src/pymanopt/manifolds/hyperbolic.py"]}
{"id": "C72", "title": "PoincareBall: exp, log and dist fit together", "statement": "exp(x, log(x, y)) = y, dist(x, exp(x, v)) = |v|_x, dist is symmetric, non-negative and zero only for equal points, and log(x, x) = 0. (The last part is violated by the code: NaN.)", "quantifier": "all points and vectors of the ball", "why_tests_cant": "all reals", "anchors": ["src/pymanopt/manifolds/hyperbolic.py: exp, log, dist, pair_mean"]}
{"id": "C73", "title": "Positive definite matrices: metric, gradient and retraction", "statement": "On SymmetricPositiveDefinite/HermitianPositiveDefinite the inner product is the affine-invariant metric Re tr(x^-1 u x^-1 v), an inner product on Hermitian matrices, the projection is the orthogonal one, the gradient conversion is characterised by the differential, retraction and exp return positive definite matrices for every tangent vector, map 0 to the point and agree with straight lines to first order (the retraction also has zero covariant acceleration at 0).", "quantifier": "all sizes, points, vectors", "why_tests_cant": "all sizes", "anchors": ["src/pymanopt/manifolds/positive_definite.py"]}
{"id": "C74", "title": "Positive definite matrices: exp, log, dist fit together", "statement": "exp(x, log(x, y)) = y, log(x, exp(x, v)) = v, dist(x, y) = |log(x, y)|_x, dist(x, exp(x, v)) = |v|_x, and log and dist do not depend on which Cholesky factors and eigendecompositions the libraries return.", "quantifier": "all sizes, points, Cholesky factors and eigendecompositions", "why_tests_cant": "all sizes", "anchors": ["src/pymanopt/manifolds/positive_definite.py"]}
{"id": "C75", "title": "Special positive definite matrices keep determinant one", "statement": "On SpecialHermitianPositiveDefinite, retraction and exp return positive definite determinant one matrices, exp and log are inverse, dist is a metric, projection is the orthogonal projection onto the velocities of curves in the manifold, the gradient conversion is characterised by the differential; to_tangent_space should return tangent vectors too (violated by the code at every point).", "quantifier": "all sizes, points, vectors", "why_tests_cant": "all sizes", "anchors": ["src/pymanopt/manifolds/positive_definite.py: SpecialHermitianPositiveDefinite"]}
{"id": "C76", "title": "PSDFixedRank: quotient geometry and Procrustes distance", "statement": "On PSDFixedRank/PSDFixedRankComplex a point x stands for x x^H. projection is the orthogonal projection onto the horizontal vectors (orthogonal to the directions that leave x x^H unchanged); the Euclidean gradient of a function of x x^H is already horizontal; exp follows straight lines whose velocity stays horizontal; log is horizontal, exp(x, log(x,y)) represents the same matrix as y and log inverts exp near the point; dist is the minimum of |x - y q| over unitary q, is zero exactly for equal matrices, symmetric, satisfies the triangle inequality and does not depend on the representatives or on the SVD returned.", "quantifier": "all sizes, points, SVDs, Lyapunov solutions", "why_tests_cant": "all factorisations", "anchors": ["src/pymanopt/manifolds/psd.py: _PSDFixedRank"]}
{"id": "C77", "title": "Elliptope: unit rows, tangency and horizontality", "statement": "On Elliptope, retraction and random points have unit rows and retraction is first order; the gradient conversion has rows orthogonal to the point's rows, represents the differential and is horizontal for every function of x x^T. projection should be the orthogonal projection onto the horizontal vectors (violated by the code: the Lyapunov term has the wrong sign, so the vertical part is doubled instead of removed, and the map is not idempotent wherever it had something to remove).", "quantifier": "all sizes, points, vectors", "why_tests_cant": "all sizes", "anchors": ["src/pymanopt/manifolds/psd.py: Elliptope"]}
{"id": "C78", "title": "FixedRankEmbedded: tangent representation, metric and projection", "statement": "A tangent vector (Up, M, Vp) at (u, s, vt) with u^T Up = 0 and vt Vp = 0 stands for the matrix u M vt + Up vt + u Vp^T. These matrices are exactly the velocities of curves through u diag(s) vt in the matrices of rank at most k, each for one triple; inner_product and norm are those of the matrices. projection of an ambient matrix, or of a tuple (U, S, V) standing for U S V^T, is the orthogonal projection onto that space (violated by the code for tuples whose middle factor is not symmetric), to_tangent_space is the orthogonal projection of triples, euclidean embedding gives the matrix back and transport is the orthogonal projection at the new point.", "quantifier": "all sizes, points, ambient matrices", "why_tests_cant": "all sizes", "anchors": ["src/pymanopt/manifolds/fixed_rank.py"]}
{"id": "C79", "title": "FixedRankEmbedded: gradient conversion and retraction", "statement": "The gradient conversion from the derivatives of a cost with respect to (u, s, vt) gives the Riemannian gradient for distinct singular values (violated by the code for repeated ones: it divides by zero). retraction(x, v) is a point with orthonormal factors and decreasing positive singular values whenever x + v has rank at least k, which is so for all small v; its matrix is, up to machine epsilon times sqrt(k), a nearest matrix of rank at most k to x + v, and agrees with x + v to first order up to that amount; retraction(x, 0) = x is violated by the code by exactly that amount.", "quantifier": "all sizes, points, vectors, SVD/QR results", "why_tests_cant": "all sizes", "anchors": ["src/pymanopt/manifolds/fixed_rank.py"]}
{"id": "C80", "title": "Random points and tangent vectors are valid for every draw", "statement": "random_point is on the manifold and random_tangent_vector is tangent with unit norm for every non-degenerate draw of the generator (violated by the code on SpecialOrthogonalGroup(1), whose only tangent vector is zero).", "quantifier": "all draws, all manifolds", "why_tests_cant": "all draws", "anchors": ["src/pymanopt/manifolds/"]}
{"id": "C81", "title": "Steepest descent searches along the negative gradient", "statement": "SteepestDescent.run calls the line search exactly once per iteration, with the negative Riemannian gradient at the iterate as direction, the cost at the iterate, and minus the squared gradient norm as slope.", "quantifier": "all manifolds, problems, line searchers (also user-defined ones), clocks, budgets", "why_tests_cant": "a wrong direction is masked by the line search on most test problems", "anchors": ["src/pymanopt/optimizers/steepest_descent.py: SteepestDescent.run"]}
{"id": "C82", "title": "Trust regions never moves to a point whose cost is NaN", "statement": "If the cost at the initial point is not NaN then, whatever the Hessian, preconditioner and retraction return (NaN included), the cost at every iterate and at the point returned by TrustRegions.run is not NaN.", "quantifier": "all manifolds, problems, parameters, radii, clocks and draws, binary64 arithmetic", "why_tests_cant": "the inner solver does produce NaN steps at exact zeros (C26); that these are never accepted must hold for all runs", "anchors": ["src/pymanopt/optimizers/trust_regions.py: TrustRegions.run"]}
{"id": "C83", "title": "Products of a single array manifold work with automatic differentiation", "statement": "A Problem on Product([M]) with an automatic differentiation backend provides gradient and Hessian like a Problem on M does. (Violated: the gradient operator of a one-argument cost returns a bare array, which the product layout rejects with ValueError.)", "quantifier": "all component manifolds, costs and points", "why_tests_cant": "holds or fails for every point", "anchors": ["src/pymanopt/core/problem.py: _group_return_values", "src/pymanopt/autodiff/backends/_autograd.py", "src/pymanopt/manifolds/product.py"]}
{"id": "C84", "title": "Nelder-Mead changes the simplex only by the documented moves", "statement": "From one iteration of NelderMead.run to the next, the vertices change by exactly one of: reflection, expansion, outside or inside contraction of the worst vertex through the centroid of the others, chosen by the documented comparisons of costs, or shrinking all vertices half-way to the best one when the chosen move does not succeed.", "quantifier": "all manifolds, costs (also NaN), coefficients, initial simplices, sorting and centroid results", "why_tests_cant": "every iteration of every run; a wrong coefficient or comparison still makes progress on test problems", "anchors": ["src/pymanopt/optimizers/nelder_mead.py: NelderMead.run"]}
{"id": "C85", "title": "Particles move by the documented velocity rule", "statement": "In every iteration of ParticleSwarm.run, with random numbers u1, u2, each particle's velocity becomes w times its transported velocity plus u1*nostalgia*log(x, personal best) plus u2*social*log(x, global best), w falling linearly from 0.9 to 0.4 over the iteration budget; the particle moves to the retraction along it; and the personal best becomes the particle's position exactly when that has lower cost. Initial velocities are the random tangent vectors at the initial particles.", "quantifier": "all manifolds, costs, random draws, populations, parameters, iteration counts", "why_tests_cant": "every particle at every iteration; errors in a term are masked by randomness", "anchors": ["src/pymanopt/optimizers/particle_swarm.py: ParticleSwarm.run"]}
{"id": "C86", "title": "Conjugate gradient follows its recurrence", "statement": "ConjugateGradient.run calls the line search once per iteration but the last, first along the negative preconditioned gradient, then from the point the previous search returned, along minus the preconditioned gradient plus beta times the transported previous direction, without the second term if successive gradients are not nearly orthogonal, and restarting from the negative preconditioned gradient if the result is not a descent direction; beta is given by the selected rule's formula evaluated on the gradients, preconditioned gradients and directions of the two points.", "quantifier": "all manifolds, problems, preconditioners, line searchers, rules, orthogonality thresholds, number systems", "why_tests_cant": "the direction at step k depends on the whole history", "anchors": ["src/pymanopt/optimizers/conjugate_gradient.py: ConjugateGradient.run, BetaUpdate and the _beta_ functions"]}
{"id": "C87", "title": "The Stiefel exponential map follows geodesics", "statement": "For a point x and a tangent vector v of Stiefel(n, p, k=k), the curve t -> exp(x, t*v) starts at x with velocity v, stays on the manifold (exp(x, 0) = x), has constant speed, and its acceleration is orthogonal to every tangent vector at the point reached.", "quantifier": "all n >= p, k, points, tangent vectors and times", "why_tests_cant": "curves through all points; tests check the distance travelled at a few random points", "anchors": ["src/pymanopt/manifolds/stiefel.py: Stiefel.exp"]}
{"id": "C88", "title": "The Grassmann exponential map follows geodesics", "statement": "For a point x and a horizontal vector v of Grassmann(n, p, k=k) or ComplexGrassmann(n, p, k=k), the curve t -> exp(x, t*v) starts with velocity v, its velocity is horizontal and of constant length at all times, and its acceleration is orthogonal to every horizontal vector at the point reached.", "quantifier": "all n >= p, k, points, horizontal vectors, times and singular value decompositions", "why_tests_cant": "curves through all points; tests check a few random points", "anchors": ["src/pymanopt/manifolds/grassmann.py: exp"]}
{"id": "C89", "title": "The exponential map of the rotation and unitary groups follows geodesics", "statement": "For a point x and a tangent vector v of SpecialOrthogonalGroup(n, k=k) or UnitaryGroup(n, k=k), the curve c(t) = exp(x, t*v) starts at x, satisfies c(s + t) = exp(c(s), t*v), stays in the group, has velocity embedding(c(t), transport(x, c(t), v)) of constant length, and its acceleration is orthogonal to every tangent vector at the point reached.", "quantifier": "all sizes, points, tangent vectors and times", "why_tests_cant": "curves through all points; tests check a few random points", "anchors": ["src/pymanopt/manifolds/group.py: _UnitaryBase.exp, embedding, transport"]}
{"id": "C90", "title": "The Poincare exponential map follows geodesics", "statement": "For a point x and a vector v of PoincareBall(n, k=k), exp(x, .) and retraction(x, .) map 0 to x with the identity as derivative, and the curve t -> exp(x, t*v) has velocity v at 0, constant speed, and zero covariant acceleration with respect to the Levi-Civita connection of the metric.", "quantifier": "all sizes, points, vectors and times", "why_tests_cant": "curves through all points; tests check a few random points", "anchors": ["src/pymanopt/manifolds/hyperbolic.py: PoincareBall.exp, mobius_addition, conformal_factor, inner_product"]}
{"id": "C91", "title": "Positive definite matrices: geodesics and distance", "statement": "On SymmetricPositiveDefinite/HermitianPositiveDefinite, the curve t -> exp(x, t*v) has velocity v at 0, constant speed and zero covariant acceleration with respect to the Levi-Civita connection of the metric; dist is a metric (triangle inequality included), and dist(a x a^H, a y a^H) = dist(x^-1, y^-1) = dist(x, y) for every invertible a.", "quantifier": "all sizes, points, vectors, times, invertible matrices", "why_tests_cant": "the triangle inequality and geodesic equation concern all triples and times", "anchors": ["src/pymanopt/manifolds/positive_definite.py: exp, dist, inner_product"]}
{"id": "C92", "title": "Every optimizer finds the methods it calls on every manifold", "statement": "For each optimizer and each public manifold class, the methods the optimizer calls run without NotImplementedError. (Violated: conjugate gradient and particle swarm on PoincareBall, which has no transport; trust regions on FixedRankEmbedded and SpecialHermitianPositiveDefinite; particle swarm on Elliptope, FixedRankEmbedded and Stiefel; Nelder-Mead on the eleven classes without pair_mean. All other pairs are supported.)", "quantifier": "all pairs of optimizers and manifold classes", "why_tests_cant": "method resolution over the whole hierarchy, following calls between methods", "anchors": ["src/pymanopt/manifolds/manifold.py", "src/pymanopt/manifolds/hyperbolic.py: PoincareBall", "src/pymanopt/optimizers/conjugate_gradient.py", "src/pymanopt/optimizers/trust_regions.py", "src/pymanopt/optimizers/nelder_mead.py", "src/pymanopt/optimizers/particle_swarm.py"]}
{"id": "C93", "title": "Progress tables are aligned", "statement": "ColumnPrinter prints a header line and then one line per call of print_row; in every line cell number i starts at the same character position, the sum of the widths of the columns before it plus the separators, and each value is formatted by its column's format, as long as no formatted value is wider than its column. (A wider value shifts all later cells of that line. The tables of the optimizers, built for an iteration limit, stay aligned for every iteration number within the limit; that of the particle swarm for up to 10^16 evaluations.)", "quantifier": "all column lists, separators and values", "why_tests_cant": "widths depend on all values printed over a whole run", "anchors": ["src/pymanopt/tools/printer.py: ColumnPrinter, VoidPrinter", "src/pymanopt/optimizers/steepest_descent.py", "src/pymanopt/optimizers/particle_swarm.py"]}
{"id": "C94", "title": "identify_linear_piece finds the best linear piece", "statement": "identify_linear_piece(x, y, w) with 2 <= w < len(x) returns w + 1 consecutive indices and a line whose squared error on these points is not larger than that of any line on any w + 1 consecutive points; it is the first such window; if some window lies exactly on a line, so do the returned points on the returned line; if all points lie on one line, this line is returned. With at most w points it raises ValueError. (For w <= 1 it always raises ValueError.)", "quantifier": "all x without repeated values, all y, all window lengths", "why_tests_cant": "optimality over all windows and all lines", "anchors": ["src/pymanopt/tools/diagnostics.py: identify_linear_piece"]}
{"id": "C95", "title": "check_gradient and check_hessian tell right derivatives from wrong ones", "statement": "The errors reported by check_directional_derivative are the distances between the cost at the end of the step of length h in direction d and its first (second) order Taylor polynomial, for 51 step sizes from 1e-8 to 1. If inner(gradient, d) is the derivative of the cost along the step, the error is o(h), and at most M/2 h^2 at each reported step size if the derivative is M-Lipschitz; otherwise it is at least proportional to h for small h. With the right gradient, the quadratic model's error is o(h^2) for the right Hessian and at least proportional to h^2 otherwise. A report is always produced if the steps succeed. A direction without a point is refused with ValueError. The tangency figure is zero exactly for tangent gradients.", "quantifier": "all costs, gradients, Hessians, points, directions", "why_tests_cant": "limits h -> 0 and all costs", "anchors": ["src/pymanopt/tools/diagnostics.py: check_directional_derivative, check_gradient, check_hessian"]}
{"id": "C96", "title": "check_hessian and check_retraction report what they say", "statement": "The linearity and symmetry figures of check_hessian are zero for all draws exactly if the Hessian is linear and symmetric. check_retraction reports, for 251 step sizes from 1e-12 to 1, the distance between the exponential map and the retraction, and raises RuntimeError if the manifold lacks the exponential map, the retraction or the distance. (Violated: the distance is not tested, so that Stiefel, the one class without it, ends in NotImplementedError. A tangent vector passed without a point is silently replaced by a random one.)", "quantifier": "all manifolds, points, vectors, Hessians", "why_tests_cant": "figures for all draws; method availability for all classes", "anchors": ["src/pymanopt/tools/diagnostics.py: check_hessian, check_retraction"]}
{"id": "C97", "title": "Steepest descent finds small gradients within a known number of iterations", "statement": "In exact arithmetic, if the cost along every step against the gradient stays below a parabola of curvature L and the cost is bounded below, SteepestDescent with BackTrackingLineSearcher decreases the cost in every iteration by at least min(sufficient_decrease*min(contraction_factor*2*(1-sufficient_decrease)/L, 1/L)*e^2, initial_step_size*e/2), where e is min_gradient_norm, as long as the gradient norm is at least e; so with a larger iteration budget than (cost(x0) - bound)/that figure, a small enough min_step_size, enough contractions and time it stops because the gradient norm is below e. The only way not to return is the division by zero at a point where the gradient vanishes exactly.", "quantifier": "all manifolds, costs, starting points, line search parameters, stopping parameters", "why_tests_cant": "a rate over whole runs for all costs", "anchors": ["src/pymanopt/optimizers/steepest_descent.py: SteepestDescent.run", "src/pymanopt/optimizers/line_search.py: BackTrackingLineSearcher"]}
{"id": "C98", "title": "Trust regions find small gradients within a known number of iterations", "statement": "In exact arithmetic, without preconditioner and use_rand, if the curvature of the Hessian is at most LH, the cost after steps inside the region stays below a parabola of curvature LG and the cost is bounded below: every step decreases the quadratic model at least by half the gradient norm times min(radius, gradient norm/LH); while the gradient norm is at least e = min_gradient_norm the radius never falls below min(Delta0, 3e/(16(LG+LH))), every accepted step decreases the cost by at least a fixed amount, and the numbers of accepted and rejected iterations are bounded; so with a large enough iteration budget the run stops because the gradient norm is below e. With mininner = 0 and maxinner >= 1 the run is certain to return. (With mininner >= 1 the inner solver can divide zero by zero after it has hit the exact solution.)", "quantifier": "all manifolds, costs, starting points, radii, parameters", "why_tests_cant": "a rate over whole runs for all costs", "anchors": ["src/pymanopt/optimizers/trust_regions.py: TrustRegions.run, _truncated_conjugate_gradient"]}
{"id": "C99", "title": "The automatic differentiation backends deliver the true gradient and Hessian", "statement": "If the differentiation library keeps its documented promises, then for a cost of any number of real and complex arrays the gradient operator of the Autograd, Jax, PyTorch and TensorFlow backends returns the Euclidean gradient G (the derivative along every direction v is the sum of Re(conj(G)*v)), and the Hessian operator called with the point and a direction v returns the derivative of the gradient along v; one array is returned as such, several as a list. An odd number of arrays raises ValueError. (Violated by the PyTorch backend: for a linear cost, whose Hessian is zero, the Hessian operator raises RuntimeError; for a cost with an argument it does not use, AttributeError; a cost computed without its arguments has no gradient either.)", "quantifier": "all costs, numbers and sizes of arrays, points, directions", "why_tests_cant": "derivatives of all functions in all directions", "anchors": ["src/pymanopt/autodiff/backends/_autograd.py", "src/pymanopt/autodiff/backends/_jax.py", "src/pymanopt/autodiff/backends/_pytorch.py", "src/pymanopt/autodiff/backends/_tensorflow.py", "src/pymanopt/tools/__init__.py: bisect_sequence, unpack_singleton_sequence_return_value"]}
{"id": "C100", "title": "The dominant eigenvector example finds eigenvectors", "statement": "In exact arithmetic, for every symmetric matrix A whose Rayleigh quotients are at most a in size, and every unit vector x0: minimising -x^T A x on Sphere(n) with TrustRegions (without use_rand, radii and parameters in the usual ranges) and a large enough iteration budget (computed from a, min_gradient_norm = e and the parameters) returns a unit vector x with |A x - r x| < e/2, where r = x^T A x is at least the Rayleigh quotient of x0 and some eigenvalue of A lies within e/2 of r. SteepestDescent, with a large enough budget, stops because of the gradient norm, has visited such a vector y, and returns a vector with Rayleigh quotient at least that of y; if it fails, it divided by zero at an exact eigenvector.", "quantifier": "all dimensions, symmetric matrices, starting points, parameters, clocks", "why_tests_cant": "convergence of whole runs for all matrices and starting points", "anchors": ["examples/dominant_eigenvector.py: create_cost_and_derivates", "src/pymanopt/manifolds/sphere.py: Sphere", "src/pymanopt/optimizers/trust_regions.py: TrustRegions.run", "src/pymanopt/optimizers/steepest_descent.py: SteepestDescent.run"]}
{"id": "C101", "title": "random_point can return every point", "statement": "When the normal draws range over all real numbers and the uniform draws over [0, 1), random_point can return every point of Euclidean, ComplexEuclidean, Symmetric, SkewSymmetric, Sphere, the sphere intersections with subspaces, Oblique, ComplexCircle, Positive, PoincareBall, the positive semidefinite manifolds, Elliptope, Stiefel, Grassmann, SpecialOrthogonalGroup and UnitaryGroup(n) for n > 1, whatever valid QR factorisation the backend uses. (Violated by the code: on UnitaryGroup(1) random_point always returns (1+i)/sqrt(2); on FixedRankEmbedded it returns exactly the points with decreasing singular values below one; on HermitianPositiveDefinite exactly the stacks with eigenvalues in [1, 2) and common eigenvectors, so the components of a product commute; on SpecialHermitianPositiveDefinite exactly the stacks with determinant one, common eigenvectors and condition number below two; SymmetricPositiveDefinite points have their eigenvalues in [1, 2), so 3 I is never returned.)", "quantifier": "all sizes, points and draws", "why_tests_cant": "the set of reachable values over all draws", "anchors": ["src/pymanopt/manifolds/euclidean.py: random_point", "src/pymanopt/manifolds/sphere.py: random_point", "src/pymanopt/manifolds/stiefel.py: Stiefel.random_point", "src/pymanopt/manifolds/group.py: random_point", "src/pymanopt/manifolds/fixed_rank.py: FixedRankEmbedded.random_point", "src/pymanopt/manifolds/positive_definite.py: random_point", "src/pymanopt/manifolds/hyperbolic.py: PoincareBall.random_point"]}
{"id": "C102", "title": "The optimizers depend on a manifold only through its geometry", "statement": "If two manifold objects describe the same geometry with different representations of points and tangent vectors (inner product, norm, retraction, transport, projection, zero vector and vector arithmetic correspond, and for the derivative-free methods logarithm, distance and midpoints too), and two problems have corresponding costs, gradients, Hessians and preconditioners, then from corresponding starting points SteepestDescent, ConjugateGradient, TrustRegions, NelderMead and ParticleSwarm make the same run on both: the same iterations, costs, numbers, log and stopping reason, corresponding points, the same exceptions and the same calls of the cost function, in any number system, binary64 included. (Violated by the code: the LiuStorey rule of ConjugateGradient takes an inner product at the old point of a vector that has been transported to the new point, so its run depends on how tangent vectors are written: on the line with the cost x^2 from 2/3, two descriptions of the same metric give 1/6 and 1/24 after two iterations.)", "quantifier": "all pairs of manifolds, relations between points and vectors, problems, line searchers, parameters, clocks and starting points", "why_tests_cant": "quantifies over pairs of manifolds and whole runs", "anchors": ["src/pymanopt/optimizers/conjugate_gradient.py: _beta_liu_storey", "src/pymanopt/optimizers/conjugate_gradient.py: ConjugateGradient.run", "src/pymanopt/optimizers/steepest_descent.py: SteepestDescent.run", "src/pymanopt/optimizers/trust_regions.py: TrustRegions.run", "src/pymanopt/optimizers/nelder_mead.py: NelderMead.run", "src/pymanopt/optimizers/particle_swarm.py: ParticleSwarm.run", "src/pymanopt/optimizers/line_search.py"]}
{"id": "C103", "title": "On quotient manifolds runs do not depend on the representative", "statement": "On Grassmann, ComplexGrassmann, PSDFixedRank, PSDFixedRankComplex and Elliptope a point is represented by an array that may be multiplied on the right by a unitary matrix Q. If the cost function, its Euclidean gradient and its Euclidean Hessian belong to a function of the represented point, then starting SteepestDescent, ConjugateGradient (any beta rule, any line searcher) or TrustRegions at another representative x0 Q makes the same run: the same exception or the same costs, norms, step sizes, iterations and stopping reason, and every point multiplied by the same Q; on the Grassmann manifolds ParticleSwarm too. More generally, turning the problem by unitary matrices O on the left (for Grassmann and PSDFixedRank) turns the run. (At rank deficient arrays, where the Lyapunov equation has many solutions, the solver is assumed to commute with unitary changes of basis.)", "quantifier": "all sizes, unitary matrices, invariant problems, parameters, clocks and starting points", "why_tests_cant": "whole runs over all representatives of all points", "anchors": ["src/pymanopt/manifolds/grassmann.py", "src/pymanopt/manifolds/psd.py", "src/pymanopt/optimizers/steepest_descent.py: SteepestDescent.run", "src/pymanopt/optimizers/conjugate_gradient.py: ConjugateGradient.run", "src/pymanopt/optimizers/trust_regions.py: TrustRegions.run", "src/pymanopt/optimizers/particle_swarm.py: ParticleSwarm.run"]}
{"id": "C104", "title": "The optimizers commute with the isometries of the manifolds", "statement": "Moving the problem along an isometry moves the whole run: if the second problem is the first one composed with the inverse of the isometry (cost, and Euclidean derivatives transformed accordingly) and the second run starts at the moved point, the two runs raise the same exception or have the same costs, norms, step sizes, iterations and stopping reason, and all points of the second are the moved points of the first. This holds for SteepestDescent, ConjugateGradient (any beta rule, any line searcher) and TrustRegions on Euclidean and ComplexEuclidean (linear isometries and translations), Sphere (linear isometries), Positive (entrywise rescaling, with either transport), SymmetricPositiveDefinite and HermitianPositiveDefinite (congruences x -> S x S^H), Stiefel (orthogonal matrices on the left, with the polar retraction also on the right) and SpecialOrthogonalGroup (multiplication from the left, either retraction); for ParticleSwarm on all of these that have a logarithm; for NelderMead on Euclidean, Sphere and SpecialOrthogonalGroup.", "quantifier": "all sizes, isometries, problems, parameters, clocks and starting points", "why_tests_cant": "whole runs over all isometries and problems", "anchors": ["src/pymanopt/manifolds/euclidean.py", "src/pymanopt/manifolds/sphere.py", "src/pymanopt/manifolds/positive.py", "src/pymanopt/manifolds/positive_definite.py", "src/pymanopt/manifolds/stiefel.py", "src/pymanopt/manifolds/group.py", "src/pymanopt/optimizers/steepest_descent.py: SteepestDescent.run", "src/pymanopt/optimizers/conjugate_gradient.py: ConjugateGradient.run", "src/pymanopt/optimizers/trust_regions.py: TrustRegions.run", "src/pymanopt/optimizers/particle_swarm.py: ParticleSwarm.run", "src/pymanopt/optimizers/nelder_mead.py: NelderMead.run"]}
{"id": "C105", "title": "Which tangent vectors random_tangent_vector can return", "statement": "random_tangent_vector(point) excludes no direction: every tangent vector at the point of unit norm is returned for some outcome of the random draws. This holds for Euclidean, ComplexEuclidean, Symmetric, SkewSymmetric, Sphere and its subspace version, ComplexCircle, Oblique, Positive, PoincareBall, Stiefel, Grassmann, ComplexGrassmann, SpecialOrthogonalGroup, UnitaryGroup, SymmetricPositiveDefinite, HermitianPositiveDefinite, SpecialHermitianPositiveDefinite, FixedRankEmbedded, PSDFixedRank, PSDFixedRankComplex and Elliptope (whose draw is a point with unit rows). (Violated by the code on Product: the components of a returned vector all have squared norm one over the number of factors, so no unit vector with a vanishing component is ever returned.)", "quantifier": "all sizes, points, outcomes of the random draws and unit tangent vectors", "why_tests_cant": "the set of all possible outcomes is not observable from a number of draws", "anchors": ["src/pymanopt/manifolds/euclidean.py", "src/pymanopt/manifolds/sphere.py", "src/pymanopt/manifolds/oblique.py", "src/pymanopt/manifolds/complex_circle.py", "src/pymanopt/manifolds/positive.py", "src/pymanopt/manifolds/hyperbolic.py", "src/pymanopt/manifolds/stiefel.py", "src/pymanopt/manifolds/grassmann.py", "src/pymanopt/manifolds/group.py", "src/pymanopt/manifolds/positive_definite.py", "src/pymanopt/manifolds/psd.py", "src/pymanopt/manifolds/fixed_rank.py", "src/pymanopt/manifolds/product.py: Product.random_tangent_vector"]}
{"id": "C106", "title": "The derivatives supplied by the examples are the derivatives of their costs", "statement": "In the programs under examples/, the Euclidean gradient supplied to Problem is the gradient of the cost: along every differentiable curve, the rate of change of the cost is the inner product of the supplied gradient with the velocity. The supplied Euclidean Hessian is the derivative of the supplied gradient. The different formulas used for the same cost by the backends agree. This holds for dominant_eigenvector, dominant_invariant_subspace, dominant_invariant_complex_subspace, closest_unit_norm_column_approximation, multiple_linear_regression, low_rank_psd_matrix_approximation, low_rank_matrix_approximation and optimal_rotations. (Violated by the code in two examples. In rank_k_correlation_matrix_approximation the gradient is half the gradient of the cost, and the Hessian is the derivative of the true gradient, hence twice that of the supplied one. In pca the Hessian contains the samples where their derivative, zero, belongs: it is not linear in the direction and not the derivative of the gradient unless samples @ w = 0, and on the Stiefel manifold the Riemannian Hessian of the zero vector is four times the gradient.)", "quantifier": "all sizes, data, points and curves", "why_tests_cant": "the formulas must hold at every point in every direction; a numerical check looks at one direction with a tolerance", "anchors": ["examples/dominant_eigenvector.py: create_cost_and_derivates", "examples/dominant_invariant_subspace.py: create_cost_and_derivates", "examples/dominant_invariant_complex_subspace.py: create_cost_and_derivates", "examples/closest_unit_norm_column_approximation.py: create_cost_and_derivates", "examples/multiple_linear_regression.py: create_cost_and_derivates", "examples/low_rank_psd_matrix_approximation.py: create_cost_and_derivates", "examples/low_rank_matrix_approximation.py: create_cost_and_derivates", "examples/optimal_rotations.py: create_cost_and_derivates", "examples/rank_k_correlation_matrix_approximation.py: create_cost_and_derivates", "examples/pca.py: create_cost_and_derivates"]}
{"id": "C107", "title": "The reference solutions of the examples are optimal", "statement": "The examples compare their result with a closed-form solution. That solution is feasible and globally optimal for the example's cost: the eigenvectors of the largest eigenvalues minimise the cost of the dominant (complex) subspace examples and of pca among all orthonormal families; the normalised columns are the only nearest matrix with unit columns; pinv(samples) @ targets is a critical point of the regression, and every critical point is a minimum; the rotations computed from the singular value decomposition lie in SO(n) and are optimal there; the truncated singular value decomposition is at least as close to the matrix as every matrix of at most that rank.", "quantifier": "all sizes, data and competing points, and every valid singular value decomposition and eigenvalue decomposition with orthonormal eigenvectors", "why_tests_cant": "optimality compares with every point of the manifold", "anchors": ["examples/dominant_invariant_subspace.py: run", "examples/dominant_eigenvector.py: run", "examples/dominant_invariant_complex_subspace.py: run", "examples/pca.py: run", "examples/closest_unit_norm_column_approximation.py: run", "examples/multiple_linear_regression.py: run", "examples/optimal_rotations.py: compute_optimal_solution", "examples/low_rank_matrix_approximation.py: run"]}
{"id": "C108", "title": "The packing example minimises the largest inner product of two points", "statement": "The cost of examples/packing_on_the_sphere.py is epsilon times the logarithm of the sum of exp(<x_i, x_j> / epsilon) over the pairs of points, regardless of the shift by the maximum made in the code. It lies between the largest inner product M of two different points and M plus epsilon times the logarithm of the number of pairs. (Violated by the TensorFlow backend: its cost on the sphere is 1 + epsilon log((n + |x_1 + ... + x_n|^2) / 2), so it is minimal whenever the points sum to zero, for example when they coincide in pairs. And the figure printed as the maximum angle is the inner product, with negative values replaced by zero.)", "quantifier": "all numbers of points, dimensions, points and epsilon > 0", "why_tests_cant": "the bounds hold for every configuration; the tests only run the examples without looking at results", "anchors": ["examples/packing_on_the_sphere.py: create_cost", "examples/packing_on_the_sphere.py: run"]}
{"id": "C109", "title": "The converters of tools/testing.py agree with the manifolds", "statement": "With an orthogonal projection and a correct gradient, riemannian_gradient returns the Riemannian gradient: it is tangent and its inner product with every tangent vector is the derivative of the cost along every curve with that velocity. With a correct Jacobian of the projection, euclidean_to_riemannian_hessian returns, along every curve of the manifold, the projection of the derivative of the Riemannian gradient. On the sphere, the oblique, the Stiefel and the Grassmann manifold the two converters equal the manifold's own euclidean_to_riemannian_gradient and euclidean_to_riemannian_hessian at every point and every tangent vector.", "quantifier": "all inner product spaces, projections, costs, curves; all sizes, points, tangent vectors, Euclidean gradients and Hessians of the four manifolds", "why_tests_cant": "the test suite compares the two sides at one random point in one size", "anchors": ["src/pymanopt/tools/testing.py: riemannian_gradient", "src/pymanopt/tools/testing.py: euclidean_to_riemannian_gradient", "src/pymanopt/tools/testing.py: euclidean_to_riemannian_hessian", "src/pymanopt/manifolds/sphere.py: euclidean_to_riemannian_hessian", "src/pymanopt/manifolds/oblique.py: euclidean_to_riemannian_hessian", "src/pymanopt/manifolds/stiefel.py: euclidean_to_riemannian_hessian", "src/pymanopt/manifolds/grassmann.py: euclidean_to_riemannian_hessian"]}
{"id": "C110", "title": "The mixture of Gaussians notebook maximises the likelihood", "statement": "In examples/notebooks/mixture_of_gaussians.py, at a point whose matrices have a one in the last corner, the parameters the notebook reads (means, covariances, weights) are those of a mixture of Gaussians, every mixture arises so, and the cost is its negative log-likelihood plus a constant. The cost of any other point is larger than that of a point with such corners. Hence the points of the manifold minimising the cost, globally or locally, are exactly those with unit corners whose parameters maximise the likelihood, globally or locally. With two components or more the cost is unbounded below: a component collapses onto a sample. (Violated at other points: the matrix the notebook reads as a covariance need not be positive definite.)", "quantifier": "all numbers and dimensions of samples, numbers of components, samples, points of the product manifold", "why_tests_cant": "the notebook is run on one random data set and its result compared by eye", "anchors": ["examples/notebooks/mixture_of_gaussians.py: cost", "examples/notebooks/mixture_of_gaussians.py: mu1hat, Sigma1hat, pihat"]}
{"id": "C111", "title": "The line search of the mixture of Gaussians notebook", "statement": "The LineSearchMoG of examples/notebooks/mixture_of_gaussians.py equals BackTrackingLineSearcher (same step size, point and memory, the caller's point kept) when the objective never raises LinAlgError. In general it stops at the first contraction, of at most max_iterations, at which the objective raises or passes the Armijo test; when it raises, the point returned is the given one with the singular matrices replaced, and a second LinAlgError leaves the search. (Violated when it raises: the returned point can have a larger cost than the given one, the step size is not the length of the step, and the caller's point is overwritten.)", "quantifier": "all number systems (binary64 included), manifolds, partial objectives, replacements, searcher parameters and histories", "why_tests_cant": "the exception occurs only near singular covariances, which no test provokes", "anchors": ["examples/notebooks/mixture_of_gaussians.py: LineSearchMoG.search", "examples/notebooks/mixture_of_gaussians.py: LineSearchMoG._newxnewf", "src/pymanopt/optimizers/line_search.py: BackTrackingLineSearcher.search"]}
{"id": "C112", "title": "Vector transports", "statement": "transport(x, y, v) of a tangent vector at x is a tangent vector at y, is linear in v, and returns v when y is x. On the spheres, the complex circle, Oblique, Stiefel, Grassmann, the fixed-rank matrices and the fixed-rank positive semidefinite matrices no vector gets longer, and the inner product of transport(x, y, u) with v is the one of u with transport(y, x, v). On Euclidean spaces, the groups and Positive with use_parallel_transport all inner products are kept and transport(y, x, .) undoes transport(x, y, .). (Where the vector is returned as it is on positive definite matrices and on Positive, lengths after the transport have no bound; on Elliptope, the result need not be a tangent vector at y.)", "quantifier": "all sizes, fields, points, tangent vectors and scalars", "why_tests_cant": "conjugate gradients and particle swarm rely on it at every step and pair of points; the tests check a few random pairs at most", "anchors": ["src/pymanopt/manifolds/sphere.py: _SphereBase.transport", "src/pymanopt/manifolds/stiefel.py: Stiefel.transport", "src/pymanopt/manifolds/grassmann.py: _GrassmannBase.transport", "src/pymanopt/manifolds/fixed_rank.py: FixedRankEmbedded.transport", "src/pymanopt/manifolds/psd.py: transport", "src/pymanopt/manifolds/positive_definite.py: transport", "src/pymanopt/manifolds/positive.py: Positive._parallel_transport", "src/pymanopt/manifolds/oblique.py: Oblique.transport", "src/pymanopt/manifolds/complex_circle.py: ComplexCircle.transport", "src/pymanopt/manifolds/group.py: _UnitaryBase.transport", "src/pymanopt/manifolds/euclidean.py: _Euclidean.transport"]}
{"id": "C113", "title": "The centroid of Nelder-Mead", "statement": "compute_centroid(manifold, points) returns a point at which the sum of squared distances to the points is at most what it is at the random starting point. On Euclidean spaces and on Positive that sum exceeds its value at the arithmetic (geometric) mean by half the number of points times the squared distance from the mean, the norm of the gradient used is the number of points times that distance, so the only critical point is the mean, and the centroid returned is never farther from the mean than the start. (Violated in floating point: when a step ends exactly on the centroid, NaN is returned.)", "quantifier": "all number systems and manifolds for the first claim; all sizes, points, starting points, line search parameters and clocks for the others", "why_tests_cant": "the descent starts at a random point, so a test sees one run of 15 iterations", "anchors": ["src/pymanopt/optimizers/nelder_mead.py: compute_centroid", "src/pymanopt/optimizers/steepest_descent.py: SteepestDescent.run", "src/pymanopt/manifolds/euclidean.py: _Euclidean", "src/pymanopt/manifolds/positive.py: Positive"]}
{"id": "C114", "title": "Steepest descent with the adaptive line searcher finds small gradients within a known number of iterations", "statement": "In exact arithmetic, if the cost along every step against the gradient stays below a parabola of curvature L and exceeds the bound by D at the start, SteepestDescent with AdaptiveLineSearcher decreases the cost in every iteration by at least sufficient_decrease*min(contraction_factor*2*(1-sufficient_decrease)/L, initial_step_size/sqrt(2*L*D))*e^2, where e is min_gradient_norm, as long as the gradient norm is at least e and max_iterations of the line searcher allows contracting initial_step_size/e and 2*D/(sufficient_decrease*e^2) down to 2*(1-sufficient_decrease)/L; so with a larger iteration budget than D/that figure + 1, a small enough min_step_size and time it stops because the gradient norm is below e. The condition on the contractions is needed: with the default parameters, on the cost x^2 started at any x0 with 0 < |x0| < 2^-11, the run ends at x0 whatever the stopping parameters. The run raises (ZeroDivisionError) if and only if the gradient vanishes exactly at the start.", "quantifier": "all manifolds, costs, starting points, line search parameters, stopping parameters", "why_tests_cant": "a rate over whole runs for all costs; the remembered step factor depends on the whole history", "anchors": ["src/pymanopt/optimizers/steepest_descent.py: SteepestDescent.run", "src/pymanopt/optimizers/line_search.py: AdaptiveLineSearcher"]}
{"id": "C115", "title": "Steepest descent converges linearly on gradient-dominated costs", "statement": "In exact arithmetic, if in addition to the hypotheses of C97 (or C114) the squared gradient norm is everywhere at least 2*mu times the excess of the cost over its bound, the point SteepestDescent returns after k iterations exceeds the bound by at most e^2/(2*mu), where e is min_gradient_norm, or by at most (1 - share)^k times the excess at the start. The share is min(2*mu*sufficient_decrease*min(contraction_factor*2*(1-sufficient_decrease)/L, 1/L), mu*initial_step_size/sqrt(2*L*D)) with BackTrackingLineSearcher and 2*mu*sufficient_decrease*min(contraction_factor*2*(1-sufficient_decrease)/L, initial_step_size/sqrt(2*L*D)) with AdaptiveLineSearcher; both are strictly between 0 and 1. The number of iterations is at most 2 + ln(2*L*D/e^2)/share, where D is the excess at the start.", "quantifier": "all manifolds, costs, starting points, line search parameters, stopping parameters", "why_tests_cant": "a rate over whole runs for all costs", "anchors": ["src/pymanopt/optimizers/steepest_descent.py: SteepestDescent.run", "src/pymanopt/optimizers/line_search.py: BackTrackingLineSearcher, AdaptiveLineSearcher"]}
{"id": "C116", "title": "Steepest descent and trust regions solve quadratic problems on Euclidean spaces", "statement": "In exact arithmetic, for a cost <A x, x>/2 - <b, x> + c on Euclidean or ComplexEuclidean, with A linear, self-adjoint and its spectrum between mu > 0 and L, the point SteepestDescent returns after k iterations is at a distance d of the solution of A x = b with mu/2*d^2 <= max(e^2/(2*mu), (1 - share)^k*(cost(x0) - cost(solution))), where e is min_gradient_norm and share the positive number of C115, with either line searcher as long as its contractions suffice (a condition on e, L and the cost at the start). For the problem of examples/multiple_linear_regression.py the solution is that of the normal equations. TrustRegions without random starts, whenever the iteration budgets of C98 suffice, returns a point at a distance less than e/mu of the solution (in the regression example, of the solution of the normal equations).", "quantifier": "all shapes, real and complex, all such A and b, starting points, line search parameters, stopping parameters", "why_tests_cant": "a rate over whole runs for all problems", "anchors": ["src/pymanopt/optimizers/steepest_descent.py: SteepestDescent.run", "src/pymanopt/optimizers/line_search.py: BackTrackingLineSearcher, AdaptiveLineSearcher", "src/pymanopt/manifolds/euclidean.py: Euclidean, ComplexEuclidean", "examples/multiple_linear_regression.py: create_cost_and_derivates", "src/pymanopt/optimizers/trust_regions.py: TrustRegions.run"]}
