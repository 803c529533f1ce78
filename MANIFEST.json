{
 "claims": [
  {
   "property": "C01",
   "status": "proved",
   "theorems": [
    "C01_backtracking_never_worse",
    "C01_adaptive_never_worse"
   ],
   "note": ""
  },
  {
   "property": "C02",
   "status": "proved",
   "theorems": [
    "C02_backtracking_first_armijo_step",
    "C02_backtracking_evaluations"
   ],
   "note": ""
  },
  {
   "property": "C03",
   "status": "proved",
   "theorems": [
    "C03_adaptive_first_armijo_step",
    "C03_adaptive_evaluations"
   ],
   "note": ""
  },
  {
   "property": "C04",
   "status": "proved",
   "theorems": [
    "C04_nan_point_is_accepted",
    "C04_refuted"
   ],
   "note": "violated: C04_refuted is a binary64 counterexample, C04_nan_point_is_accepted describes every such call"
  },
  {
   "property": "C05",
   "status": "proved",
   "theorems": [
    "C05_zero_step_is_permanent",
    "C05_refuted"
   ],
   "note": "violated: C05_refuted is a binary64 counterexample, C05_zero_step_is_permanent the general behaviour"
  },
  {
   "property": "C06",
   "status": "proved",
   "theorems": [
    "C06_nelder_mead_reason",
    "C06_stopping_test_exact",
    "C06_steepest_descent_reason",
    "C06_conjugate_gradient_reason",
    "C06_particle_swarm_reason",
    "C06_trust_regions_reason"
   ],
   "note": ""
  },
  {
   "property": "C07",
   "status": "proved",
   "theorems": [
    "C07_steepest_descent_monotone",
    "C07_binary64"
   ],
   "note": ""
  },
  {
   "property": "C08",
   "status": "proved",
   "theorems": [
    "C08_steepest_descent_result",
    "C08_refuted"
   ],
   "note": "cost, point and iteration count proved; the gradient_norm part is false of the code (C08_refuted), and C08_steepest_descent_result says which iterate it belongs to"
  },
  {
   "property": "C09",
   "status": "proved",
   "theorems": [
    "C09_infinite_first_step",
    "C09_refuted",
    "C09_refuted_later"
   ],
   "note": "violated: binary64 counterexamples, with the general cause"
  },
  {
   "property": "C10",
   "status": "proved",
   "theorems": [
    "C10_conjugate_gradient_monotone",
    "C10_binary64"
   ],
   "note": ""
  },
  {
   "property": "C11",
   "status": "proved",
   "theorems": [
    "C11_conjugate_gradient_result"
   ],
   "note": ""
  },
  {
   "property": "C12",
   "status": "proved",
   "theorems": [
    "C12_descent_directions"
   ],
   "note": ""
  },
  {
   "property": "C13",
   "status": "proved",
   "theorems": [
    "C13_nonnegative",
    "C13_hager_zhang_lower_bound",
    "C13_rules_agree",
    "C13_hager_zhang_sufficient_descent"
   ],
   "note": ""
  },
  {
   "property": "C14",
   "status": "proved",
   "theorems": [
    "C14_refuted",
    "C14_only_nonzero_gradients"
   ],
   "note": "violated: binary64 counterexample, with the general cause"
  },
  {
   "property": "C15",
   "status": "proved",
   "theorems": [
    "C15_nelder_mead_terminates",
    "C15_steepest_descent_terminates",
    "C15_conjugate_gradient_terminates",
    "C15_particle_swarm_terminates",
    "C15_trust_regions_terminates",
    "C15_trust_regions_random_terminates",
    "C15_trust_regions_refuted",
    "C15_trust_regions_shrinking_ends",
    "C15_trust_regions_negative_radius_hangs"
   ],
   "note": "proved for every optimizer; trust regions with use_rand and a negative Delta0 run for ever (C15_trust_regions_refuted); its termination with use_rand is proved for positive radii in exact arithmetic with a homogeneous norm"
  },
  {
   "property": "C16",
   "status": "proved",
   "theorems": [
    "C16_nelder_mead_log_is_empty",
    "C16_steepest_descent_log",
    "C16_conjugate_gradient_log",
    "C16_particle_swarm_log_is_empty",
    "C16_trust_regions_log_is_empty",
    "C16_trust_regions_refuted"
   ],
   "note": "holds for steepest descent and conjugate gradient; violated by trust regions, Nelder-Mead and particle swarm, whose logs are always empty (theorems for each)"
  },
  {
   "property": "C17",
   "status": "proved",
   "theorems": [
    "C17_nelder_mead_budgets_stick",
    "C17_nelder_mead_explicit_budgets",
    "C17_nelder_mead_refuted",
    "C17_runs_independent",
    "C17_particle_swarm_parameters_stick",
    "C17_particle_swarm_refuted"
   ],
   "note": "holds for steepest descent and conjugate gradient (trust regions keeps nothing between runs); violated by Nelder-Mead and particle swarm, whose defaults stick to the object"
  },
  {
   "property": "C18",
   "status": "proved",
   "theorems": [
    "C18_nelder_mead_count",
    "C18_nelder_mead_off_by_one",
    "C18_steepest_descent_count_always_wrong",
    "C18_conjugate_gradient_count_wrong",
    "C18_particle_swarm_count",
    "C18_trust_regions_count_missing"
   ],
   "note": "holds for particle swarm; violated by the others (theorems give the exact discrepancy)"
  },
  {
   "property": "C19",
   "status": "proved",
   "theorems": [
    "C19_radius_bounds",
    "C19_radius_bounds_default",
    "C19_radius_changes"
   ],
   "note": ""
  },
  {
   "property": "C20",
   "status": "proved",
   "theorems": [
    "C20_acceptance",
    "C20_binary64"
   ],
   "note": ""
  },
  {
   "property": "C21",
   "status": "proved",
   "theorems": [
    "C21_bounded_increase",
    "C21_monotone_without_regularisation",
    "C21_total_increase",
    "C21_plain_monotonicity_refuted"
   ],
   "note": "bound proved in exact arithmetic; plain monotonicity is refuted by a binary64 run"
  },
  {
   "property": "C22",
   "status": "proved",
   "theorems": [
    "C22_result"
   ],
   "note": ""
  },
  {
   "property": "C23",
   "status": "proved",
   "theorems": [
    "C23_step_in_region",
    "C23_no_preconditioner"
   ],
   "note": ""
  },
  {
   "property": "C24",
   "status": "proved",
   "theorems": [
    "C24_model_decrease",
    "C24_in_runs"
   ],
   "note": ""
  },
  {
   "property": "C25",
   "status": "proved",
   "theorems": [
    "C25_iterations_and_reason",
    "C25_iterations",
    "C25_zero_dimension_fails"
   ],
   "note": "proved; a run on a manifold of dimension 0 raises UnboundLocalError (C25_zero_dimension_fails)"
  },
  {
   "property": "C26",
   "status": "proved",
   "theorems": [
    "C26_refuted",
    "C26_cause"
   ],
   "note": "violated: binary64 counterexample and the general cause; C82 shows such steps are never accepted"
  },
  {
   "property": "C27",
   "status": "proved",
   "theorems": [
    "C27_refuted"
   ],
   "note": "violated: counterexample in exact arithmetic"
  },
  {
   "property": "C28",
   "status": "proved",
   "theorems": [
    "C28_not_worse_than_cauchy"
   ],
   "note": ""
  },
  {
   "property": "C29",
   "status": "proved",
   "theorems": [
    "C29_nelder_mead_simplex",
    "C29_sorting_exists"
   ],
   "note": ""
  },
  {
   "property": "C30",
   "status": "proved",
   "theorems": [
    "C30_best_never_increases",
    "C30_best_of_all_evaluated"
   ],
   "note": ""
  },
  {
   "property": "C31",
   "status": "proved",
   "theorems": [
    "C31_documented_size_refused",
    "C31_other_sizes_accepted",
    "C31_refuted",
    "C31_empty_list"
   ],
   "note": "violated: the size test is inverted; universal theorems describe the behaviour"
  },
  {
   "property": "C32",
   "status": "proved",
   "theorems": [
    "C32_bookkeeping",
    "C32_never_increases",
    "C32_best_of_all_evaluated",
    "C32_nan_is_sticky"
   ],
   "note": ""
  },
  {
   "property": "C33",
   "status": "proved",
   "theorems": [
    "C33_final_positions_not_evaluated",
    "C33_refuted"
   ],
   "note": "violated: counterexample, and a universal theorem saying which positions are evaluated"
  },
  {
   "property": "C34",
   "status": "proved",
   "theorems": [
    "C34_list_is_overwritten",
    "C34_refuted",
    "C34_tuples_fail"
   ],
   "note": "violated by particle swarm: counterexample and universal theorems"
  },
  {
   "property": "C35",
   "status": "proved",
   "theorems": [
    "C35_nelder_mead_budget",
    "C35_particle_swarm_budget",
    "C35_trust_regions_ignores_budget",
    "C35_steepest_descent_ignores_budget",
    "C35_conjugate_gradient_ignores_budget"
   ],
   "note": ""
  },
  {
   "property": "C36",
   "status": "proved",
   "theorems": [
    "C36_cost_receives_components",
    "C36_ill_formed_points_rejected",
    "C36_grouping_inverts_flattening",
    "C36_flattening_inverts_grouping",
    "C36_tuple_points_unchecked_refuted"
   ],
   "note": "proved; refuted for integer layouts above 1 (component count unchecked)"
  },
  {
   "property": "C37",
   "status": "proved",
   "theorems": [
    "C37_supplied_euclidean_gradient",
    "C37_generated_euclidean_gradient",
    "C37_supplied_euclidean_hessian",
    "C37_generated_euclidean_hessian",
    "C37_supplied_riemannian_hessian",
    "C37_derived_riemannian_operators",
    "C37_product_embedding_is_identity",
    "C37_product_refuted",
    "C37_autograd_operators"
   ],
   "note": "proved; violated on Product manifolds with components that embed their vectors (C37_product_refuted)"
  },
  {
   "property": "C38",
   "status": "proved",
   "theorems": [
    "C38_constructor_exact",
    "C38_missing_cost_refuted"
   ],
   "note": "exact characterisation; that cost=None is accepted is C38_missing_cost_refuted"
  },
  {
   "property": "C39",
   "status": "proved",
   "theorems": [
    "C39_set_once",
    "C39_properties_read_only",
    "C39_other_attributes",
    "C39_delete_then_assign_refuted"
   ],
   "note": "proved; deletion bypasses the protection (C39_delete_then_assign_refuted)"
  },
  {
   "property": "C40",
   "status": "proved",
   "theorems": [
    "C40_history_independent",
    "C40_operators_read_early",
    "C40_generated_at_most_once"
   ],
   "note": ""
  },
  {
   "property": "C41",
   "status": "proved",
   "theorems": [
    "C41_derived_gradient",
    "C41_supplied_gradient_refuted"
   ],
   "note": "holds for derived gradients, violated for supplied ones"
  },
  {
   "property": "C42",
   "status": "proved",
   "theorems": [
    "C42_bisect",
    "C42_bisect_exact",
    "C42_unpack_singleton",
    "C42_is_sequence"
   ],
   "note": ""
  },
  {
   "property": "C43",
   "status": "proved",
   "theorems": [
    "C43_decorator_exact",
    "C43_parameter_count_unchecked_refuted"
   ],
   "note": "exact characterisation; parameter counts are never compared with the layout"
  },
  {
   "property": "C44",
   "status": "proved",
   "theorems": [
    "C44_entrywise",
    "C44_random_tangent_vector"
   ],
   "note": ""
  },
  {
   "property": "C45",
   "status": "proved",
   "theorems": [
    "C45_inner_product",
    "C45_norm",
    "C45_distance",
    "C45_typical_distance"
   ],
   "note": ""
  },
  {
   "property": "C46",
   "status": "proved",
   "theorems": [
    "C46_vector_space",
    "C46_lengths_rejected"
   ],
   "note": ""
  },
  {
   "property": "C47",
   "status": "proved",
   "theorems": [
    "C47_unit_norm"
   ],
   "note": ""
  },
  {
   "property": "C48",
   "status": "proved",
   "theorems": [
    "C48_nested_rejected",
    "C48_empty_rejected",
    "C48_wrong_number_of_components_refuted",
    "C48_refuted"
   ],
   "note": "nested and empty products rejected; wrong component counts are not (general theorem and instance)"
  },
  {
   "property": "C49",
   "status": "proved",
   "theorems": [
    "C49_base",
    "C49_num_values",
    "C49_flat",
    "C49_matrices",
    "C49_sizes_refuted"
   ],
   "note": "exact acceptance conditions and dimensions for every class; sizes without any such matrix are accepted (C49_sizes_refuted)"
  },
  {
   "property": "C50",
   "status": "proved",
   "theorems": [
    "C50_euclidean",
    "C50_symmetric",
    "C50_sphere",
    "C50_sphere_subspace",
    "C50_oblique",
    "C50_complex_circle",
    "C50_positive_poincare",
    "C50_stiefel",
    "C50_grassmann",
    "C50_groups",
    "C50_spd",
    "C50_hpd_refuted",
    "C50_shpd_refuted",
    "C50_psd",
    "C50_fixed_rank",
    "C50_elliptope",
    "C50_product"
   ],
   "note": "proved for every class; violated by the two Hermitian positive definite ones, with the exact excess"
  },
  {
   "property": "C51",
   "status": "proved",
   "theorems": [
    "C51_resolution_order",
    "C51_alias",
    "C51_loads",
    "C51_to_tangent_space",
    "C51_to_tangent_space_refuted",
    "C51_elliptope_refuted",
    "C51_instantiable",
    "C51_methods"
   ],
   "note": "general theorems on C3 orders and aliases; exact tables for the manifold classes; violated by six classes (two refutations)"
  },
  {
   "property": "C52",
   "status": "proved",
   "theorems": [
    "C52_transposes",
    "C52_symmetric_and_skew",
    "C52_hermitian_and_skew"
   ],
   "note": ""
  },
  {
   "property": "C53",
   "status": "proved",
   "theorems": [
    "C53_multiqr",
    "C53_unique"
   ],
   "note": ""
  },
  {
   "property": "C54",
   "status": "proved",
   "theorems": [
    "C54_log_of_exp",
    "C54_exp_of_log",
    "C54_is_matrix_exponential"
   ],
   "note": ""
  },
  {
   "property": "C55",
   "status": "proved",
   "theorems": [
    "C55_metric",
    "C55_flat"
   ],
   "note": ""
  },
  {
   "property": "C56",
   "status": "proved",
   "theorems": [
    "C56_symmetric",
    "C56_skew_symmetric",
    "C56_closed",
    "C56_to_tangent_space_exact",
    "C56_to_tangent_space_refuted"
   ],
   "note": "proved; to_tangent_space is violated: it returns its argument (exact theorem and refutation)"
  },
  {
   "property": "C57",
   "status": "proved",
   "theorems": [
    "C57_projection",
    "C57_gradient"
   ],
   "note": ""
  },
  {
   "property": "C58",
   "status": "proved",
   "theorems": [
    "C58_retraction",
    "C58_exp",
    "C58_geodesic"
   ],
   "note": ""
  },
  {
   "property": "C59",
   "status": "proved",
   "theorems": [
    "C59_metric",
    "C59_pair_mean"
   ],
   "note": ""
  },
  {
   "property": "C60",
   "status": "proved",
   "theorems": [
    "C60_log_almost_inverts_exp",
    "C60_exact_inversion_refuted"
   ],
   "note": "error bound proved; exact inversion fails at every pair of distinct points"
  },
  {
   "property": "C61",
   "status": "proved",
   "theorems": [
    "C61_complex_circle",
    "C61_grassmann",
    "C61_group",
    "C61_euclidean",
    "C61_symmetric",
    "C61_skew_symmetric",
    "C61_oblique",
    "C61_poincare",
    "C61_positive_definite",
    "C61_positive",
    "C61_psd",
    "C61_elliptope",
    "C61_sphere",
    "C61_sphere_subspace",
    "C61_stiefel"
   ],
   "note": "proved manifold by manifold; horizontality on Elliptope is violated (exact condition in C61_elliptope). The Hessian conversions of SpecialHermitianPositiveDefinite and FixedRankEmbedded do not exist: they raise NotImplementedError"
  },
  {
   "property": "C62",
   "status": "proved",
   "theorems": [
    "C62_projection",
    "C62_closed",
    "C62_random",
    "C62_to_tangent_space_refuted",
    "C62_projectors",
    "C62_span",
    "C62_complement",
    "C62_dependent_columns_refuted"
   ],
   "note": "proved; to_tangent_space and dependent columns violate it (exact characterisations)"
  },
  {
   "property": "C63",
   "status": "proved",
   "theorems": [
    "C63_projection",
    "C63_retraction",
    "C63_exp_refuted",
    "C63_exp_of_zero_refuted",
    "C63_metric",
    "C63_pair_mean",
    "C63_log"
   ],
   "note": "proved; exp violates it: it returns the real parts of the right values (universal theorem and instance)"
  },
  {
   "property": "C64",
   "status": "proved",
   "theorems": [
    "C64_metric",
    "C64_positive",
    "C64_exp_log",
    "C64_dist_is_metric",
    "C64_connection",
    "C64_geodesic",
    "C64_retraction",
    "C64_transport"
   ],
   "note": ""
  },
  {
   "property": "C65",
   "status": "proved",
   "theorems": [
    "C65_columns",
    "C65_projection",
    "C65_retraction",
    "C65_exp",
    "C65_geodesic",
    "C65_metric",
    "C65_pair_mean",
    "C65_log"
   ],
   "note": ""
  },
  {
   "property": "C66",
   "status": "proved",
   "theorems": [
    "C66_projection",
    "C66_gradient"
   ],
   "note": ""
  },
  {
   "property": "C67",
   "status": "proved",
   "theorems": [
    "C67_retraction_qr",
    "C67_retraction_polar"
   ],
   "note": ""
  },
  {
   "property": "C68",
   "status": "proved",
   "theorems": [
    "C68_projection",
    "C68_gradient",
    "C68_retraction",
    "C68_exp",
    "C68_log",
    "C68_dist"
   ],
   "note": ""
  },
  {
   "property": "C69",
   "status": "proved",
   "theorems": [
    "C69_metric",
    "C69_to_tangent_space",
    "C69_so_gradient",
    "C69_unitary_projection",
    "C69_unitary_gradient_refuted",
    "C69_unitary_tangent_refuted"
   ],
   "note": "the code violates the property; the refutation is a theorem"
  },
  {
   "property": "C70",
   "status": "proved",
   "theorems": [
    "C70_retraction_qr",
    "C70_retraction_polar",
    "C70_so_retractions",
    "C70_exp",
    "C70_log",
    "C70_dist",
    "C70_pair_mean",
    "C70_so_exp"
   ],
   "note": ""
  },
  {
   "property": "C71",
   "status": "proved",
   "theorems": [
    "C71_inside",
    "C71_mobius",
    "C71_metric"
   ],
   "note": ""
  },
  {
   "property": "C72",
   "status": "proved",
   "theorems": [
    "C72_dist_is_metric",
    "C72_dist_exp",
    "C72_exp_log",
    "C72_log_exp",
    "C72_log_domain",
    "C72_log_self_refuted"
   ],
   "note": "proved; log(x, x) and the mean of equal points are NaN in that ball (C72_log_self_refuted, exact domain C72_log_domain)"
  },
  {
   "property": "C73",
   "status": "proved",
   "theorems": [
    "C73_metric",
    "C73_retraction",
    "C73_exp"
   ],
   "note": ""
  },
  {
   "property": "C74",
   "status": "proved",
   "theorems": [
    "C74_exp_log",
    "C74_library_independent"
   ],
   "note": ""
  },
  {
   "property": "C75",
   "status": "proved",
   "theorems": [
    "C75_tangent",
    "C75_velocities",
    "C75_retraction",
    "C75_exp_log",
    "C75_dist_is_metric",
    "C75_to_tangent_space_refuted"
   ],
   "note": "proved; to_tangent_space violates it at every point (C75_to_tangent_space_refuted)"
  },
  {
   "property": "C76",
   "status": "proved",
   "theorems": [
    "C76_projection",
    "C76_metric",
    "C76_exp",
    "C76_log",
    "C76_dist_minimal",
    "C76_dist",
    "C76_library_independent",
    "C76_gradient"
   ],
   "note": ""
  },
  {
   "property": "C77",
   "status": "proved",
   "theorems": [
    "C77_gradient",
    "C77_invariant_gradient",
    "C77_retraction",
    "C77_projection_exact",
    "C77_projection_refuted"
   ],
   "note": "proved; the projection part is refuted by C77_projection_refuted, with C77_projection_exact saying what is computed instead"
  },
  {
   "property": "C78",
   "status": "proved",
   "theorems": [
    "C78_tangent_space",
    "C78_metric",
    "C78_projection",
    "C78_projection_tuple",
    "C78_to_tangent_space",
    "C78_embedding",
    "C78_projection_refuted"
   ],
   "note": "proved; tuples with a middle factor that is not symmetric are refuted by C78_projection_refuted, with C78_projection_tuple saying what is computed for every tuple"
  },
  {
   "property": "C79",
   "status": "proved",
   "theorems": [
    "C79_gradient",
    "C79_gradient_refuted",
    "C79_retraction",
    "C79_first_order",
    "C79_zero_refuted"
   ],
   "note": "proved; the equal singular value case and retraction at zero are refuted by C79_gradient_refuted and C79_zero_refuted, with the exact size of the deviation"
  },
  {
   "property": "C80",
   "status": "proved",
   "theorems": [
    "C80_complex_circle",
    "C80_euclidean",
    "C80_symmetric",
    "C80_fixed_rank",
    "C80_grassmann",
    "C80_so",
    "C80_so1_refuted",
    "C80_unitary",
    "C80_sphere_subspace",
    "C80_oblique",
    "C80_poincare",
    "C80_pd_tangent",
    "C80_hpd_point",
    "C80_spd_point",
    "C80_shpd",
    "C80_positive",
    "C80_psd",
    "C80_elliptope",
    "C80_sphere",
    "C80_stiefel"
   ],
   "note": "proved manifold by manifold; violated on the rotation group of size 1 (C80_so1_refuted). Products: C44_random_tangent_vector and C47_unit_norm"
  },
  {
   "property": "C81",
   "status": "proved",
   "theorems": [
    "C81_steepest_descent_directions"
   ],
   "note": ""
  },
  {
   "property": "C82",
   "status": "proved",
   "theorems": [
    "C82_no_nan_cost"
   ],
   "note": ""
  },
  {
   "property": "C83",
   "status": "proved",
   "theorems": [
    "C83_single_component_product_refuted"
   ],
   "note": "violated: every such call raises ValueError"
  },
  {
   "property": "C84",
   "status": "proved",
   "theorems": [
    "C84_nelder_mead_moves"
   ],
   "note": ""
  },
  {
   "property": "C85",
   "status": "proved",
   "theorems": [
    "C85_particle_motion"
   ],
   "note": ""
  },
  {
   "property": "C86",
   "status": "proved",
   "theorems": [
    "C86_conjugate_gradient_recurrence",
    "C86_beta_rules"
   ],
   "note": ""
  },
  {
   "property": "C87",
   "status": "proved",
   "theorems": [
    "C87_geodesic"
   ],
   "note": ""
  },
  {
   "property": "C88",
   "status": "proved",
   "theorems": [
    "C88_geodesic"
   ],
   "note": ""
  },
  {
   "property": "C89",
   "status": "proved",
   "theorems": [
    "C89_geodesic"
   ],
   "note": ""
  },
  {
   "property": "C90",
   "status": "proved",
   "theorems": [
    "C90_connection",
    "C90_geodesic"
   ],
   "note": ""
  },
  {
   "property": "C91",
   "status": "proved",
   "theorems": [
    "C91_connection",
    "C91_geodesic",
    "C91_dist_is_metric",
    "C91_isometries"
   ],
   "note": ""
  },
  {
   "property": "C92",
   "status": "proved",
   "theorems": [
    "C92_supported",
    "C92_poincare_refuted"
   ],
   "note": "exact list of supported pairs; violated for the others"
  },
  {
   "property": "C93",
   "status": "proved",
   "theorems": [
    "C93_header",
    "C93_row",
    "C93_no_columns",
    "C93_long_values_refuted",
    "C93_iteration_numbers",
    "C93_descent_table",
    "C93_swarm_table",
    "C93_no_iterations_refuted"
   ],
   "note": "the code violates the property; the refutation is a theorem"
  },
  {
   "property": "C94",
   "status": "proved",
   "theorems": [
    "C94_best_window",
    "C94_exact_piece",
    "C94_line_recovered",
    "C94_too_few",
    "C94_short_window_refuted"
   ],
   "note": "the code violates the property; the refutation is a theorem"
  },
  {
   "property": "C95",
   "status": "proved",
   "theorems": [
    "C95_reported",
    "C95_succeeds",
    "C95_errors",
    "C95_first_order",
    "C95_second_order",
    "C95_error_bounds",
    "C95_arguments",
    "C95_tangency"
   ],
   "note": ""
  },
  {
   "property": "C96",
   "status": "proved",
   "theorems": [
    "C96_no_distance",
    "C96_hessian_figures",
    "C96_retraction_missing",
    "C96_distance_missing_refuted",
    "C96_retraction_reported",
    "C96_vector_ignored_refuted"
   ],
   "note": "the code violates the property; the refutation is a theorem"
  },
  {
   "property": "C97",
   "status": "proved",
   "theorems": [
    "C97_rate",
    "C97_success",
    "C97_no_other_failure"
   ],
   "note": ""
  },
  {
   "property": "C98",
   "status": "proved",
   "theorems": [
    "C98_cauchy_decrease",
    "C98_rate",
    "C98_success"
   ],
   "note": ""
  },
  {
   "property": "C99",
   "status": "proved",
   "theorems": [
    "C99_autograd",
    "C99_jax",
    "C99_pytorch",
    "C99_pytorch_failures",
    "C99_tensorflow",
    "C99_promises",
    "C99_pytorch_refuted",
    "C99_odd"
   ],
   "note": "the code violates the property; the refutation is a theorem"
  },
  {
   "property": "C100",
   "status": "proved",
   "theorems": [
    "C100_trust_regions",
    "C100_steepest_descent",
    "C100_steepest_descent_failure",
    "C100_bound"
   ],
   "note": ""
  },
  {
   "property": "C101",
   "status": "proved",
   "theorems": [
    "C101_flat",
    "C101_sphere",
    "C101_sphere_subspace",
    "C101_oblique",
    "C101_complex_circle",
    "C101_positive",
    "C101_poincare",
    "C101_psd",
    "C101_elliptope",
    "C101_stiefel",
    "C101_grassmann",
    "C101_so",
    "C101_unitary",
    "C101_unitary_refuted",
    "C101_fixed_rank",
    "C101_fixed_rank_refuted",
    "C101_hpd",
    "C101_hpd_refuted",
    "C101_spd",
    "C101_shpd",
    "C101_spd_refuted"
   ],
   "note": "the code violates the property; the refutation is a theorem"
  },
  {
   "property": "C102",
   "status": "proved",
   "theorems": [
    "C102_line_searchers",
    "C102_steepest_descent",
    "C102_conjugate_gradient",
    "C102_liu_storey",
    "C102_trust_regions",
    "C102_nelder_mead",
    "C102_particle_swarm",
    "C102_liu_storey_refuted"
   ],
   "note": "the code violates the property; the refutation is a theorem"
  },
  {
   "property": "C103",
   "status": "proved",
   "theorems": [
    "C103_grassmann",
    "C103_grassmann_problem",
    "C103_psd",
    "C103_psd_problem",
    "C103_gradient",
    "C103_elliptope",
    "C103_elliptope_problem"
   ],
   "note": ""
  },
  {
   "property": "C104",
   "status": "proved",
   "theorems": [
    "C104_euclidean",
    "C104_euclidean_problem",
    "C104_sphere",
    "C104_sphere_problem",
    "C104_positive",
    "C104_positive_distance",
    "C104_positive_problem",
    "C104_posdef",
    "C104_posdef_problem",
    "C104_stiefel",
    "C104_stiefel_problem",
    "C104_group",
    "C104_group_problem",
    "C104_rayleigh",
    "C104_posdef_instance",
    "C104_stiefel_instance",
    "C104_group_instance"
   ],
   "note": ""
  },
  {
   "property": "C105",
   "status": "proved",
   "theorems": [
    "C105_product_refuted",
    "C105_flat",
    "C105_symmetric",
    "C105_sphere",
    "C105_sphere_subspace",
    "C105_oblique",
    "C105_complex_circle",
    "C105_positive",
    "C105_poincare",
    "C105_stiefel",
    "C105_grassmann",
    "C105_psd",
    "C105_elliptope",
    "C105_so",
    "C105_unitary",
    "C105_posdef",
    "C105_shpd",
    "C105_fixed_rank"
   ],
   "note": "the code violates the property; the refutation is a theorem"
  },
  {
   "property": "C106",
   "status": "proved",
   "theorems": [
    "C106_subspace",
    "C106_complex_subspace",
    "C106_backends",
    "C106_closest",
    "C106_regression",
    "C106_psdapprox",
    "C106_correlation_refuted",
    "C106_pca",
    "C106_pca_hessian_refuted",
    "C106_pca_riemannian_refuted",
    "C106_lowrank",
    "C106_rotations"
   ],
   "note": "the code violates the property; the refutation is a theorem"
  },
  {
   "property": "C107",
   "status": "proved",
   "theorems": [
    "C107_subspace",
    "C107_complex_subspace",
    "C107_pca",
    "C107_regression",
    "C107_closest",
    "C107_rotations",
    "C107_lowrank"
   ],
   "note": ""
  },
  {
   "property": "C108",
   "status": "proved",
   "theorems": [
    "C108_cost",
    "C108_bounds",
    "C108_printed",
    "C108_tensorflow",
    "C108_tensorflow_refuted",
    "C108_printed_refuted"
   ],
   "note": "the code violates the property; the refutation is a theorem"
  },
  {
   "property": "C109",
   "status": "proved",
   "theorems": [
    "C109_gradient",
    "C109_hessian",
    "C109_sphere",
    "C109_oblique",
    "C109_stiefel",
    "C109_grassmann"
   ],
   "note": ""
  },
  {
   "property": "C110",
   "status": "proved",
   "theorems": [
    "C110_likelihood",
    "C110_every_mixture",
    "C110_corners",
    "C110_minimizers",
    "C110_local_minimizers",
    "C110_unbounded",
    "C110_read_refuted",
    "C110_instance"
   ],
   "note": "the code violates the property; the refutation is a theorem"
  },
  {
   "property": "C111",
   "status": "proved",
   "theorems": [
    "C111_first_step",
    "C111_backtracking",
    "C111_refuted"
   ],
   "note": "the code violates the property; the refutation is a theorem"
  },
  {
   "property": "C112",
   "status": "proved",
   "theorems": [
    "C112_sphere",
    "C112_sphere_subspace",
    "C112_complex_circle",
    "C112_oblique",
    "C112_stiefel",
    "C112_grassmann",
    "C112_psd",
    "C112_euclidean",
    "C112_groups",
    "C112_positive",
    "C112_positive_unchanged",
    "C112_posdef_unchanged",
    "C112_posdef_refuted",
    "C112_special",
    "C112_fixed_rank",
    "C112_elliptope",
    "C112_elliptope_refuted"
   ],
   "note": "the code violates the property; the refutation is a theorem"
  },
  {
   "property": "C113",
   "status": "proved",
   "theorems": [
    "C113_descends",
    "C113_euclidean",
    "C113_positive",
    "C113_refuted"
   ],
   "note": "the code violates the property; the refutation is a theorem"
  },
  {
   "property": "C114",
   "status": "proved",
   "theorems": [
    "C114_rate",
    "C114_success",
    "C114_necessary",
    "C114_returns"
   ],
   "note": ""
  },
  {
   "property": "C115",
   "status": "proved",
   "theorems": [
    "C115_backtracking",
    "C115_adaptive",
    "C115_shares",
    "C115_backtracking_iterations",
    "C115_adaptive_iterations"
   ],
   "note": ""
  },
  {
   "property": "C116",
   "status": "proved",
   "theorems": [
    "C116_trust_regions",
    "C116_regression_trust_regions",
    "C116_derivative",
    "C116_backtracking",
    "C116_adaptive",
    "C116_regression"
   ],
   "note": ""
  }
 ]
}