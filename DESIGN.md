# Formal model of pymanopt in Rocq: design

The subject is the pymanopt source tree (`src/pymanopt`).  Nothing of it is executed;
the model transcribes it by hand, function by function, each definition citing the
file and lines it models.  `properties.jsonl` lists the properties, `MANIFEST.json`
maps them to theorems.

## Layout

`rocq/theories/` contains four kinds of files.

* `*_Model.v`   definitions transcribed from the code.  No proofs.
* `*_Spec.v`    small independent vocabulary used in statements (orthogonality, tangency, "first index
                such that", metric, ...).  No reference to the model, except where a statement speaks of
                the model's own input and output records.
* `*_Proofs*.v` lemmas, and the mathematics the proofs need.
* `*_Props.v`   the property theorems, named `Cnn_...`, each followed by `Print Assumptions` or collected at the end,
                with concrete instances (`Example`, `Lemma ..._points`) showing that the hypotheses can be met.

The libraries of mathematics written for the proofs, none of which mentions pymanopt:

| file | contents |
|------|----------|
| `Rstruct` | the standard library's reals as a real closed field of mathcomp |
| `MCRing` | Coq's `ring`/`field` for mathcomp rings |
| `Mat_Base` | real and complex matrices at once (`starField`), adjoint, real inner product, norm, stacks |
| `Geometry_Spec` | inner product spaces, orthogonal projection, Riemannian gradient and Hessian, metric, retraction |
| `Calculus`, `Components` | derivatives of curves by epsilon and delta; products of copies of a space |
| `Connection` | covariant derivatives on open sets, what it means to be the Levi-Civita connection |
| `Linalg_Spec`, `Linalg_Exist` | what QR, eigh, SVD, Cholesky promise; proofs that such factorisations exist |
| `Expm`, `Logm`, `Spectral` | matrix exponential as a limit, logarithms of unitary and positive definite matrices, Klein's inequality |
| `Dimension`, `Dimension_Matrix` | dimension of real spaces of arrays |

## Two kinds of model

1. **Programs** (optimizers, line searches, problem, product, tools, decorators, constructors, classes).
   Executable Gallina.  Exceptions are values (`Raise e`), loops are fuelled with a proof that the fuel
   suffices, the clock, random generator, user cost/gradient/Hessian, preconditioner and manifold are
   arbitrary functions.  Numbers are an abstract record of operations (`NumOps`) with two instances:
   IEEE-754 binary64 (the standard library's axiom-free `SpecFloat`, used for all theorems about order,
   NaN and for executable counterexamples) and the real numbers with failing division by zero (used
   for the theorems that need exact arithmetic).
2. **Geometry** (the manifolds and `tools/multi.py`).  Exact arithmetic over an arbitrary real closed field, its
   complexification `R[i]`, or the standard library's reals where `cos`, `exp`, ... or derivatives are
   needed.  Arrays are matrices; a stack of k matrices is a function from the stack index.
   Rounding is not modelled here (properties hold of the exact formulas the code writes down).
   NumPy/SciPy factorizations (`svd`, `qr`, `eigh`, `cholesky`, `solve`, `expm`, `logm`, `solve_continuous_lyapunov`) are
   arbitrary results satisfying the documented specification, i.e. universally quantified, never axioms; that such
   functions exist is proved (`Linalg_Exist`, `Expm`, `Logm`, `Psd_Props.lyapunov_exists`), so no theorem is vacuous on
   their account.

Where a property the user relies on is false of the code, the model shows that: the theorem has the suffix `_refuted`
and exhibits the failing case, and beside it stands a theorem on what the code does for all inputs.  In the manifest such
a property has status "proved", and its statement in `properties.jsonl` carries a remark "(Violated ...)".

## Plan per property

| id | modelled | proof |
|----|----------|-------|
| C01-C05 | both `search` methods over `NumOps`, evaluations recorded | loop invariant; closed form "first index satisfying Armijo"; concrete binary64 runs for the refutations |
| C06 | `_check_stopping_criterion` with a clock stream | case analysis against a declarative list of criteria |
| C07-C09, C81 | `SteepestDescent.run` with arbitrary clock | invariant over the loop; binary64 witness for C09 |
| C10-C14, C86 | `ConjugateGradient.run` and the beta rules | invariant; exact arithmetic for C12, C13; binary64 witness for C14 |
| C15-C18 | all five `run` methods | fuel sufficiency, trace invariants, witnesses |
| C19-C28, C82 | `TrustRegions.run` and the truncated CG | invariant; CG conjugacy theory in an abstract inner-product space over the reals |
| C29-C35, C84, C85 | `NelderMead.run`, `ParticleSwarm.run` | invariants; witnesses |
| C36-C43, C83 | `Problem`, `tools`, decorators over a small universe of Python values | structural induction on layouts; histories as lists of accesses |
| C44-C48 | `Product` over lists of component manifolds | induction on lists; Minkowski |
| C49 | every constructor: arguments checked, name of the error, `dim`, `num_values`, `point_layout` reported | case analysis over integers |
| C50 | tangent spaces of the geometric models | explicit bases; rank of linear maps (`Dimension`) |
| C51, C92 | class statements, C3 linearisation, attribute lookup, `super()`, aliases made in class bodies, abstract methods; the table of all manifold classes and of the methods each optimizer calls | general theorems on the lookup, then evaluation on the (finite) table |
| C93 | `tools/printer.py` on strings; the columns of the optimizers' tables; Python's `format` for integers, scientific notation and strings | induction on columns; number of decimal digits |
| C94-C96 | `tools/diagnostics.py` in exact real arithmetic; `np.polyfit` as an argument with its documented promise (an instance is constructed) | least squares, first minimum, mean value theorem |
| C97 | the models of steepest descent and the line searcher in exact real arithmetic; smoothness of the cost along the gradient as the only analytic hypothesis | invariant of the loop: iterations times progress is at most the decrease so far |
| C52-C54 | `multi.py` | matrix algebra, arbitrary factorizations, the exponential as a limit |
| C55, C56 | `Euclidean`, `ComplexEuclidean`, `Symmetric`, `SkewSymmetric` | linear algebra |
| C57-C60, C62 | `Sphere` and the two subspace spheres | inner product space over the reals; trigonometric inequalities; span arguments for the projectors |
| C61 | `euclidean_to_riemannian_hessian` of every manifold with one | the covariant derivative of the gradient field along every curve, computed with `Calculus`/`Connection` |
| C63, C65 | `ComplexCircle`, `Oblique` | reduction to unit spheres |
| C64 | `Positive` | logarithmic coordinates |
| C66, C67, C87 | `Stiefel` with both retractions and `exp` | matrix algebra, uniqueness of QR, differential equations of `expm` |
| C68, C88 | both Grassmann classes: `exp`, `log`, `dist` | principal angles through the SVD |
| C69, C70, C89 | both groups | skew-Hermitian algebra, `expm`/`logm` of unitary matrices |
| C71, C72, C90 | `PoincareBall` | gyrovector identities in an inner product space; Levi-Civita connection of a conformal metric |
| C73, C74, C91 | both positive definite classes | congruence, `Spectral`, Klein's inequality for the triangle inequality |
| C75 | `SpecialHermitianPositiveDefinite` | determinants of exponentials |
| C76, C77 | `PSDFixedRank(Complex)`, `Elliptope` | Lyapunov equations, polar factor, Procrustes |
| C78, C79 | `FixedRankEmbedded` | tangent space decomposition, SVD derivative formulas, Eckart-Young |
| C80 | `random_point`, `random_tangent_vector` of every manifold for arbitrary draws | the facts above |
| C98 | the model of trust regions in exact real arithmetic; bounds on curvature and smoothness as the only analytic hypotheses | Cauchy decrease from C24, invariant of the radius, counting accepted and rejected iterations |
| C99 | `Backends_Model`: the four backends over libraries given as arguments; `Backends_Spec`: real derivatives of functions of several real and complex arrays (Coquelicot), the promises of the libraries, PyTorch and TensorFlow with the recorded graph (which tensors are connected to which arguments) | gradients are unique; the slope along a fixed direction has the second derivative as gradient by symmetry; conjugations cancel; partial gradients of unconnected arguments vanish; libraries that keep the promises are built by choice |
| C100 | `Eigenvector_Model`: the sphere and the cost of examples/dominant_eigenvector.py as manifold and problem of the optimizers (points are unit vectors) | the cost is smooth along the retraction (constant 6a), its curvature is at most 4a, so C97 and C98 apply; a small residual is close to an eigenvalue by the spectral theorem |
| C101 | the random_point models of all manifold files | explicit draws: a point is its own draw (QR with positive diagonal, normalisation and symmetrisation fix it); exact images (iff) where the code does not reach every point |
| C102 | the optimizer models, over an abstract manifold | a relational simulation (same_point, same_vector) carried through every line of every optimizer; a concrete two-step run for the refutation |
| C103 | the optimizer models on the models of grassmann.py and psd.py | every operation commutes with x -> O x Q (polar factors and singular value functions are unique), then the simulation of C102 |
| C104 | the optimizer models on the models of the manifolds | every operation commutes with the isometry (QR and polar factors and the logarithm are unique), then the simulation of C102 |
| C105 | the random_tangent_vector of each manifold as a function of its draws | the draw that gives the wanted vector is exhibited (the vector itself, or its coordinates); on Product the norms of the components are computed |
| C106 | `Examples_Model`: the costs and supplied derivatives of the programs in examples/, over any real closed field | the derivative along curves by the rules of `Calculus`, adjoint identities of the inner product; the two wrong Hessians and the wrong gradient by uniqueness of the derivative |
| C107 | the reference solutions, with eigh, svd and pinv specified by their defining equations | Ky Fan's inequality (weights between 0 and 1 with given sum), Eckart-Young through it, Kabsch: an orthogonal matrix of determinant -1 has trace at most n - 2 |
| C108 | `Packing_Model`: the costs of the four backends and the printed figure, over the reals | logarithm laws; counting of pairs; sums over pairs from the symmetric double sum; the doubled points and the opposite points as witnesses |
| C109 | `Testing_Model`: the three converters, with the automatic differentiation tool an argument | abstract projection algebra in an inner product space; the manifolds' Hessians are the projected derivative (C61), and derivatives are unique |
| C110 | `Mixture_Model`: the cost of the notebook (`logsumexp` with its shift, `solve`, `slogdet`) and the parameters it reads, over the reals | block matrices: congruence to the Schur complement; `ln s + 1/s >= 1`; continuity in finitely many parameters for the local statements; an explicit collapsing component |
| C111 | `MoGSearch_Model`: the search with a partial objective, returning the caller's point as well because it is overwritten in place | induction on the contractions left; comparison with the description of the back-tracking search (C02); a computed run in binary64 |
| C112 | the models of all `transport` methods | one lemma on orthogonal projections to subspaces (linear, contracting, self-adjoint) from the projection theorems of each manifold; direct computation for the others; a 2 x 2 counterexample for Elliptope |
| C113 | `compute_centroid` of `NelderMead_Model` on the manifolds of `Isometry_Model` | monotonicity of steepest descent (C07); the identity for sums of squares around a mean in an inner product space, in logarithmic coordinates for Positive; a computed run in binary64 |
| C114 | the models of steepest descent and of `AdaptiveLineSearcher` in exact real arithmetic; the same smoothness hypothesis as C97 | invariant of the loop: the remembered factor stays between two explicit bounds, and iterations times progress is at most the decrease so far; for the failure, the invariant that the remembered factor is absent or zero |
| C115 | the models of steepest descent and of both line searchers in exact real arithmetic; smoothness and gradient domination of the cost as the analytic hypotheses | invariant of the loop: the excess is at most the power of (1 - share); the first trial of the backtracking searcher is long enough because the previous iteration removed its share |
| C116 | the same models with `euclidean_mfd` of `Isometry_Model` and a quadratic problem over stacks of real or complex matrices | quadratic expansion gives smoothness, the Cauchy-Schwarz inequality gradient domination; then C115; for trust regions, C98 with both curvature constants L |

## What is not modelled

* floating-point rounding inside the manifold formulas and `tools/multi.py` (it is modelled in the optimizers: binary64);
* LAPACK, SciPy and the differentiation libraries beyond their documented results (for the four libraries these are the
  promises in `Backends_Spec`); the conversion between NumPy arrays and the libraries' tensors;
* the distribution of random draws (draws are arbitrary arguments), wall-clock speed;
* dtypes, memory layout, broadcasting beyond what the formulas use, in-place aliasing except where a property concerns it
  (C34, C17);
* the plots of `tools/diagnostics.py` (the numbers plotted and printed are modelled);
* of examples/: the data generation, printing and plots (costs, derivatives and reference solutions, and the cost and line search of the notebook, are modelled);
* Python features outside the constructs listed: metaclasses other than `ABCMeta`, descriptors other than properties.

Simplifications made in a definition are stated in the comment of that definition.

## Testing the theorems

`seeded/LOG.jsonl` records edits made to the model in a scratch copy the way a bug would change the program, with
the theorems that stopped to prove.  A theorem that survived an edit that makes its claim false was tightened.

## Trusted base

* The Coq 8.16.1 kernel (also `coqchk`), no plugin beyond those of the standard library and mathcomp.
* The transcription from Python to Gallina, by hand; the comments give the lines.
* The meaning given to NumPy operations by the model's helper definitions (`np_norm`, `np_div`, `np_sinc`, ...).
* Per theorem the axioms below, all of them axioms of Coq's standard library.  No axiom is added by this development.

The axioms `Print Assumptions` lists for each property theorem:

**No axioms** ("Closed under the global context"), 292 theorems:

`C51_resolution_order`, `C51_alias`, `C51_loads`, `C51_to_tangent_space`, `C51_to_tangent_space_refuted`, `C51_elliptope_refuted`, `C51_instantiable`, `C51_methods`, `C92_supported`, `C92_poincare_refuted`, `C49_base`, `C49_num_values`, `C49_flat`, `C49_matrices`, `C49_sizes_refuted`, `C50_euclidean`, `C50_symmetric`, `C50_stiefel`, `C50_grassmann`, `C50_groups`, `C50_spd`, `C50_hpd_refuted`, `C50_shpd_refuted`, `C50_psd`, `C50_fixed_rank`, `C50_product`, `C55_metric`, `C55_flat`, `C80_euclidean`, `C56_symmetric`, `C56_skew_symmetric`, `C56_closed`, `C80_symmetric`, `C56_to_tangent_space_exact`, `C56_to_tangent_space_refuted`, `C78_tangent_space`, `C78_metric`, `C78_projection`, `C78_projection_tuple`, `C78_to_tangent_space`, `C78_embedding`, `C79_gradient`, `C79_gradient_refuted`, `C79_retraction`, `C79_first_order`, `C79_zero_refuted`, `C80_fixed_rank`, `C68_projection`, `C68_gradient`, `C68_retraction`, `C61_grassmann`, `C80_grassmann`, `C69_metric`, `C69_to_tangent_space`, `C70_retraction_qr`, `C70_retraction_polar`, `C69_so_gradient`, `C70_so_retractions`, `C69_unitary_projection`, `C69_unitary_gradient_refuted`, `C69_unitary_tangent_refuted`, `C61_group`, `C80_so`, `C80_so1_refuted`, `C80_unitary`, `C61_euclidean`, `C61_symmetric`, `C61_skew_symmetric`, `C01_backtracking_never_worse`, `C01_adaptive_never_worse`, `C02_backtracking_first_armijo_step`, `C02_backtracking_evaluations`, `C03_adaptive_first_armijo_step`, `C03_adaptive_evaluations`, `C04_nan_point_is_accepted`, `C04_refuted`, `C05_refuted`, `C52_transposes`, `C52_symmetric_and_skew`, `C52_hermitian_and_skew`, `C53_multiqr`, `C53_unique`, `C29_nelder_mead_simplex`, `C29_sorting_exists`, `C30_best_never_increases`, `C30_best_of_all_evaluated`, `C31_documented_size_refused`, `C31_other_sizes_accepted`, `C31_refuted`, `C31_empty_list`, `C06_nelder_mead_reason`, `C15_nelder_mead_terminates`, `C16_nelder_mead_log_is_empty`, `C17_nelder_mead_budgets_stick`, `C17_nelder_mead_explicit_budgets`, `C17_nelder_mead_refuted`, `C18_nelder_mead_count`, `C18_nelder_mead_off_by_one`, `C35_nelder_mead_budget`, `C84_nelder_mead_moves`, `C06_stopping_test_exact`, `C06_steepest_descent_reason`, `C06_conjugate_gradient_reason`, `C07_steepest_descent_monotone`, `C07_binary64`, `C08_steepest_descent_result`, `C08_refuted`, `C09_infinite_first_step`, `C09_refuted`, `C09_refuted_later`, `C10_conjugate_gradient_monotone`, `C10_binary64`, `C11_conjugate_gradient_result`, `C13_nonnegative`, `C13_hager_zhang_lower_bound`, `C14_refuted`, `C14_only_nonzero_gradients`, `C15_steepest_descent_terminates`, `C15_conjugate_gradient_terminates`, `C16_steepest_descent_log`, `C16_conjugate_gradient_log`, `C17_runs_independent`, `C18_steepest_descent_count_always_wrong`, `C18_conjugate_gradient_count_wrong`, `C81_steepest_descent_directions`, `C86_conjugate_gradient_recurrence`, `C32_bookkeeping`, `C32_never_increases`, `C32_best_of_all_evaluated`, `C32_nan_is_sticky`, `C33_final_positions_not_evaluated`, `C33_refuted`, `C34_list_is_overwritten`, `C34_refuted`, `C34_tuples_fail`, `C06_particle_swarm_reason`, `C15_particle_swarm_terminates`, `C16_particle_swarm_log_is_empty`, `C17_particle_swarm_parameters_stick`, `C17_particle_swarm_refuted`, `C18_particle_swarm_count`, `C35_particle_swarm_budget`, `C85_particle_motion`, `C73_metric`, `C73_retraction`, `C91_connection`, `C61_positive_definite`, `C80_pd_tangent`, `C80_hpd_point`, `C80_spd_point`, `C36_cost_receives_components`, `C36_ill_formed_points_rejected`, `C36_grouping_inverts_flattening`, `C36_flattening_inverts_grouping`, `C37_supplied_euclidean_gradient`, `C37_generated_euclidean_gradient`, `C37_supplied_euclidean_hessian`, `C37_generated_euclidean_hessian`, `C37_supplied_riemannian_hessian`, `C37_derived_riemannian_operators`, `C37_product_embedding_is_identity`, `C38_constructor_exact`, `C39_set_once`, `C39_properties_read_only`, `C39_other_attributes`, `C39_delete_then_assign_refuted`, `C40_history_independent`, `C40_operators_read_early`, `C40_generated_at_most_once`, `C41_derived_gradient`, `C41_supplied_gradient_refuted`, `C42_bisect`, `C42_bisect_exact`, `C37_autograd_operators`, `C42_unpack_singleton`, `C42_is_sequence`, `C43_decorator_exact`, `C43_parameter_count_unchecked_refuted`, `C83_single_component_product_refuted`, `C44_entrywise`, `C44_random_tangent_vector`, `C46_lengths_rejected`, `C48_nested_rejected`, `C48_empty_rejected`, `C48_wrong_number_of_components_refuted`, `C76_projection`, `C61_psd`, `C80_psd`, `C76_metric`, `C76_exp`, `C76_log`, `C76_dist_minimal`, `C76_dist`, `C76_library_independent`, `C66_projection`, `C66_gradient`, `C67_retraction_qr`, `C67_retraction_polar`, `C80_stiefel`, `C61_stiefel`, `C06_trust_regions_reason`, `C15_trust_regions_terminates`, `C16_trust_regions_log_is_empty`, `C16_trust_regions_refuted`, `C18_trust_regions_count_missing`, `C19_radius_changes`, `C20_acceptance`, `C20_binary64`, `C21_plain_monotonicity_refuted`, `C22_result`, `C25_iterations`, `C25_zero_dimension_fails`, `C26_refuted`, `C26_cause`, `C82_no_nan_cost`, `C35_trust_regions_ignores_budget`, `C35_steepest_descent_ignores_budget`, `C35_conjugate_gradient_ignores_budget`, `C93_header`, `C93_row`, `C93_no_columns`, `C93_long_values_refuted`, `C93_descent_table`, `C93_swarm_table`, `C95_arguments`, `C96_vector_ignored_refuted`, `C96_no_distance`, `C101_flat`, `C101_psd`, `C101_stiefel`, `C101_grassmann`, `C101_so`, `C101_unitary`, `C101_unitary_refuted`, `C101_fixed_rank`, `C101_fixed_rank_refuted`, `C101_hpd`, `C101_hpd_refuted`, `C101_spd`, `C101_spd_refuted`, `C102_line_searchers`, `C102_steepest_descent`, `C102_conjugate_gradient`, `C102_liu_storey`, `C102_trust_regions`, `C102_nelder_mead`, `C102_particle_swarm`, `C105_flat`, `C105_symmetric`, `C105_stiefel`, `C105_grassmann`, `C105_so`, `C105_unitary`, `C105_fixed_rank`, `C93_iteration_numbers`, `C93_no_iterations_refuted`, `C106_subspace`, `C106_complex_subspace`, `C106_backends`, `C106_closest`, `C106_regression`, `C106_psdapprox`, `C106_correlation_refuted`, `C106_pca`, `C106_pca_hessian_refuted`, `C106_pca_riemannian_refuted`, `C106_lowrank`, `C106_rotations`, `C107_subspace`, `C107_complex_subspace`, `C107_pca`, `C107_regression`, `C107_closest`, `C107_rotations`, `C107_lowrank`, `C109_gradient`, `C109_hessian`, `C109_stiefel`, `C109_grassmann`, `C111_first_step`, `C111_backtracking`, `C111_refuted`, `C112_stiefel`, `C112_grassmann`, `C112_psd`, `C112_euclidean`, `C112_groups`, `C112_posdef_unchanged`, `C112_posdef_refuted`, `C112_fixed_rank`, `C113_descends`, `C113_refuted`

**R+E**: those of R and `ClassicalEpsilon.constructive_indefinite_description`, 186 theorems:

`C63_projection`, `C63_retraction`, `C63_exp_refuted`, `C63_exp_of_zero_refuted`, `C63_metric`, `C63_pair_mean`, `C63_log`, `C61_complex_circle`, `C80_complex_circle`, `C50_sphere`, `C50_sphere_subspace`, `C50_oblique`, `C50_complex_circle`, `C50_positive_poincare`, `C50_elliptope`, `C78_projection_refuted`, `C68_exp`, `C68_log`, `C68_dist`, `C88_geodesic`, `C70_exp`, `C70_log`, `C70_dist`, `C70_pair_mean`, `C89_geodesic`, `C70_so_exp`, `C80_sphere_subspace`, `C54_log_of_exp`, `C54_exp_of_log`, `C54_is_matrix_exponential`, `C65_columns`, `C65_projection`, `C65_retraction`, `C65_exp`, `C65_geodesic`, `C65_metric`, `C65_pair_mean`, `C65_log`, `C61_oblique`, `C80_oblique`, `C71_inside`, `C71_mobius`, `C71_metric`, `C72_dist_is_metric`, `C72_dist_exp`, `C72_exp_log`, `C72_log_exp`, `C72_log_domain`, `C72_log_self_refuted`, `C90_connection`, `C90_geodesic`, `C61_poincare`, `C80_poincare`, `C73_exp`, `C91_geodesic`, `C74_exp_log`, `C91_dist_is_metric`, `C91_isometries`, `C74_library_independent`, `C75_tangent`, `C75_velocities`, `C75_retraction`, `C75_exp_log`, `C75_dist_is_metric`, `C75_to_tangent_space_refuted`, `C80_shpd`, `C64_metric`, `C64_positive`, `C64_exp_log`, `C64_dist_is_metric`, `C64_connection`, `C64_geodesic`, `C64_retraction`, `C64_transport`, `C61_positive`, `C80_positive`, `C76_gradient`, `C77_gradient`, `C77_invariant_gradient`, `C77_retraction`, `C77_projection_exact`, `C77_projection_refuted`, `C61_elliptope`, `C80_elliptope`, `C57_projection`, `C57_gradient`, `C58_retraction`, `C58_exp`, `C58_geodesic`, `C59_metric`, `C59_pair_mean`, `C60_log_almost_inverts_exp`, `C60_exact_inversion_refuted`, `C61_sphere`, `C80_sphere`, `C62_projection`, `C62_closed`, `C62_random`, `C61_sphere_subspace`, `C62_to_tangent_space_refuted`, `C62_projectors`, `C62_span`, `C62_complement`, `C62_dependent_columns_refuted`, `C87_geodesic`, `C99_promises`, `C99_pytorch_refuted`, `C100_trust_regions`, `C100_steepest_descent`, `C100_steepest_descent_failure`, `C100_bound`, `C101_sphere`, `C101_sphere_subspace`, `C101_oblique`, `C101_complex_circle`, `C101_positive`, `C101_poincare`, `C101_elliptope`, `C101_shpd`, `C103_grassmann`, `C103_grassmann_problem`, `C103_psd`, `C103_psd_problem`, `C103_gradient`, `C103_elliptope`, `C103_elliptope_problem`, `C104_euclidean`, `C104_euclidean_problem`, `C104_sphere`, `C104_sphere_problem`, `C104_positive`, `C104_positive_distance`, `C104_positive_problem`, `C104_posdef`, `C104_posdef_problem`, `C104_stiefel`, `C104_stiefel_problem`, `C104_group`, `C104_group_problem`, `C104_rayleigh`, `C104_posdef_instance`, `C104_stiefel_instance`, `C104_group_instance`, `C105_sphere`, `C105_sphere_subspace`, `C105_oblique`, `C105_complex_circle`, `C105_positive`, `C105_poincare`, `C105_psd`, `C105_elliptope`, `C105_posdef`, `C105_shpd`, `C108_cost`, `C108_bounds`, `C108_printed`, `C108_tensorflow`, `C108_tensorflow_refuted`, `C108_printed_refuted`, `C109_sphere`, `C109_oblique`, `C110_likelihood`, `C110_every_mixture`, `C110_corners`, `C110_minimizers`, `C110_local_minimizers`, `C110_unbounded`, `C110_read_refuted`, `C110_instance`, `C112_sphere`, `C112_sphere_subspace`, `C112_complex_circle`, `C112_oblique`, `C112_positive`, `C112_positive_unchanged`, `C112_special`, `C112_elliptope`, `C112_elliptope_refuted`, `C113_euclidean`, `C113_positive`, `C116_derivative`, `C116_backtracking`, `C116_adaptive`, `C116_regression`, `C116_trust_regions`, `C116_regression_trust_regions`

**R**: `ClassicalDedekindReals.sig_forall_dec`, `ClassicalDedekindReals.sig_not_dec`, `Classical_Prop.classic`, `FunctionalExtensionality.functional_extensionality_dep`, 56 theorems:

`C05_zero_step_is_permanent`, `C12_descent_directions`, `C13_rules_agree`, `C13_hager_zhang_sufficient_descent`, `C86_beta_rules`, `C36_tuple_points_unchecked_refuted`, `C37_product_refuted`, `C38_missing_cost_refuted`, `C45_inner_product`, `C45_norm`, `C45_distance`, `C45_typical_distance`, `C46_vector_space`, `C47_unit_norm`, `C48_refuted`, `C15_trust_regions_random_terminates`, `C15_trust_regions_refuted`, `C15_trust_regions_shrinking_ends`, `C15_trust_regions_negative_radius_hangs`, `C19_radius_bounds`, `C19_radius_bounds_default`, `C21_bounded_increase`, `C21_monotone_without_regularisation`, `C21_total_increase`, `C23_step_in_region`, `C23_no_preconditioner`, `C24_model_decrease`, `C25_iterations_and_reason`, `C24_in_runs`, `C27_refuted`, `C28_not_worse_than_cauchy`, `C95_reported`, `C95_succeeds`, `C95_second_order`, `C95_error_bounds`, `C96_retraction_missing`, `C96_distance_missing_refuted`, `C96_retraction_reported`, `C97_rate`, `C97_success`, `C97_no_other_failure`, `C98_cauchy_decrease`, `C98_rate`, `C98_success`, `C102_liu_storey_refuted`, `C105_product_refuted`, `C95_errors`, `C114_rate`, `C114_success`, `C114_necessary`, `C115_backtracking`, `C115_adaptive`, `C115_shares`, `C114_returns`, `C115_backtracking_iterations`, `C115_adaptive_iterations`

`ClassicalDedekindReals.sig_forall_dec`, `ClassicalDedekindReals.sig_not_dec`, `FunctionalExtensionality.functional_extensionality_dep`, 8 theorems:

`C94_best_window`, `C94_exact_piece`, `C94_line_recovered`, `C94_too_few`, `C94_short_window_refuted`, `C99_autograd`, `C99_pytorch`, `C99_tensorflow`

`ClassicalDedekindReals.sig_forall_dec`, `FunctionalExtensionality.functional_extensionality_dep`, 4 theorems:

`C95_first_order`, `C96_hessian_figures`, `C99_jax`, `C99_pytorch_failures`

`ClassicalDedekindReals.sig_forall_dec`, 2 theorems:

`C95_tangency`, `C99_odd`
