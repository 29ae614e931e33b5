{
 "claims": [
  {
   "property": "C01",
   "status": "proved",
   "theorems": [
    "C01_broadcast_shapes_correct",
    "C01_broadcast_shapes_raises",
    "C01_broadcast_unique",
    "C01_broadcast_order_irrelevant",
    "C01_broadcast_empty_axis_refuted",
    "C01_broadcast_empty_axis_order_refuted"
   ],
   "note": "The result shape is proved to be the broadcast of its arguments; the two refuted theorems show the zero-length-axis case."
  },
  {
   "property": "C02",
   "status": "proved",
   "theorems": [
    "C02_negative_alias",
    "C02_nonnegative_alias",
    "C02_round_trip",
    "C02_canonical_dims"
   ],
   "note": ""
  },
  {
   "property": "C03",
   "status": "proved",
   "theorems": [
    "C03_drop_dims_ascending",
    "C03_drop_dims_unsorted_refuted"
   ],
   "note": "Proved for ascending dims; refuted theorem gives the unsorted case."
  },
  {
   "property": "C04",
   "status": "proved",
   "theorems": [
    "C04_size2shape_variadic",
    "C04_size2shape_forms_agree",
    "C04_strip_make_tuple"
   ],
   "note": ""
  },
  {
   "property": "C05",
   "status": "proved",
   "theorems": [
    "C05_canonical_strips_all",
    "C05_canonical_never_scaled",
    "C05_ismanifold_sees_innermost"
   ],
   "note": ""
  },
  {
   "property": "C06",
   "status": "proved",
   "theorems": [
    "C06_sign",
    "C06_sabs",
    "C06_clamp_abs",
    "C06_clamp_abs_nonzero"
   ],
   "note": ""
  },
  {
   "property": "C07",
   "status": "proved",
   "theorems": [
    "C07_roundtrip"
   ],
   "note": ""
  },
  {
   "property": "C08",
   "status": "proved",
   "theorems": [
    "C08_faithful",
    "C08_storage_sharing_refuted"
   ],
   "note": ""
  },
  {
   "property": "C09",
   "status": "proved",
   "theorems": [
    "C09_geodesic",
    "C09_default",
    "C09_p_refuted"
   ],
   "note": ""
  },
  {
   "property": "C10",
   "status": "proved",
   "theorems": [
    "C10_from_plain",
    "C10_from_manifold_tensor",
    "C10_mismatch_raises",
    "C10_shape_enforced"
   ],
   "note": ""
  },
  {
   "property": "C11",
   "status": "proved",
   "theorems": [
    "C11_point",
    "C11_vector",
    "C11_point_on_manifold",
    "C11_vector_on_tangent",
    "C11_vector_on_tangent_means",
    "C11_reasons",
    "C11_default_shape"
   ],
   "note": ""
  },
  {
   "property": "C12",
   "status": "proved",
   "theorems": [
    "C12_cpu_stream_restored",
    "C12_deterministic",
    "C12_cuda_stream_refuted"
   ],
   "note": ""
  },
  {
   "property": "C13",
   "status": "proved",
   "theorems": [
    "C13_library_registry",
    "C13_dist",
    "C13_dist2",
    "C13_logmap",
    "C13_direction",
    "C13_direction_transport",
    "C13_unchanged",
    "C13_incompatible",
    "C13_dist0",
    "C13_logmap0",
    "C13_expmap0",
    "C13_dist2plane",
    "C13_geodesic_unit",
    "C13_learnable_scale"
   ],
   "note": ""
  },
  {
   "property": "C14",
   "status": "proved",
   "theorems": [
    "C14_exp_log",
    "C14_log_exp",
    "C14_norm_log",
    "C14_unit_speed",
    "C14_nesting",
    "C14_nesting_unchanged"
   ],
   "note": ""
  },
  {
   "property": "C15",
   "status": "proved",
   "theorems": [
    "C15_forwarding",
    "C15_refuted",
    "C15_component_inner_differs"
   ],
   "note": ""
  },
  {
   "property": "C16",
   "status": "proved",
   "theorems": [
    "C16_constructible_iff",
    "C16_constructible",
    "C16_refuted"
   ],
   "note": ""
  },
  {
   "property": "C17",
   "status": "proved",
   "theorems": [
    "C17_slices_partition",
    "C17_slice_width",
    "C17_unpack_shapes",
    "C17_unpack_pack",
    "C17_pack_unpack",
    "C17_unpack_injective",
    "C17_pack_raises",
    "C17_empty_batch_refuted",
    "C17_from_point",
    "C17_from_point_raises"
   ],
   "note": ""
  },
  {
   "property": "C18",
   "status": "proved",
   "theorems": [
    "C18_operation",
    "C18_projx",
    "C18_pair_operation",
    "C18_sums",
    "C18_check_point",
    "C18_check_vector",
    "C18_check_reason",
    "C18_from_components"
   ],
   "note": ""
  },
  {
   "property": "C19",
   "status": "proved",
   "theorems": [
    "C19_value",
    "C19_symmetric",
    "C19_triangle",
    "C19_self_refuted"
   ],
   "note": ""
  },
  {
   "property": "C20",
   "status": "proved",
   "theorems": [
    "C20_wrapped_normal_refuted",
    "C20_signed_refuted"
   ],
   "note": ""
  },
  {
   "property": "C21",
   "status": "proved",
   "theorems": [
    "C21_projx",
    "C21_projx_fixes_points",
    "C21_random",
    "C21_retr",
    "C21_retr_formula",
    "C21_expmap"
   ],
   "note": ""
  },
  {
   "property": "C22",
   "status": "proved",
   "theorems": [
    "C22_linear",
    "C22_tangent",
    "C22_fixes_tangent",
    "C22_self_adjoint",
    "C22_gradient",
    "C22_transport_tangent"
   ],
   "note": ""
  },
  {
   "property": "C23",
   "status": "proved",
   "theorems": [
    "C23_log_tangent",
    "C23_log_norm",
    "C23_exp_log",
    "C23_log_exp",
    "C23_dist_exp",
    "C23_dist_is_angle",
    "C23_dist_symmetric",
    "C23_dist_bounds",
    "C23_dist_triangle",
    "C23_dist_orthogonal_invariant",
    "C23_dist_self_refuted"
   ],
   "note": ""
  },
  {
   "property": "C24",
   "status": "proved",
   "theorems": [
    "C24_no_subspace",
    "C24_too_few_dims_refuted",
    "C24_stale_reason_refuted"
   ],
   "note": ""
  },
  {
   "property": "C25",
   "status": "proved",
   "theorems": [
    "C25_solvable",
    "C25_on_manifold",
    "C25_retr_transp",
    "C25_zero"
   ],
   "note": ""
  },
  {
   "property": "C26",
   "status": "proved",
   "theorems": [
    "C26_tangent",
    "C26_isometry",
    "C26_linear",
    "C26_reversible_point",
    "C26_reversible_vector"
   ],
   "note": ""
  },
  {
   "property": "C27",
   "status": "proved",
   "theorems": [
    "C27_tangent",
    "C27_gradient",
    "C27_inner_is_canonical",
    "C27_projection_refuted",
    "C27_fixed_vectors"
   ],
   "note": ""
  },
  {
   "property": "C28",
   "status": "proved",
   "theorems": [
    "C28_proju_tangent",
    "C28_proju_fixes",
    "C28_proju_orthogonal",
    "C28_transport",
    "C28_gradient",
    "C28_retr_on_manifold",
    "C28_retr_well_defined",
    "C28_retr_zero",
    "C28_projx_on_manifold",
    "C28_projx_fixes",
    "C28_projx_nearest",
    "C28_expmap_on_manifold"
   ],
   "note": ""
  },
  {
   "property": "C29",
   "status": "proved",
   "theorems": [
    "C29_retr_spd",
    "C29_retr_second_order",
    "C29_proju_symmetric",
    "C29_projx_semidefinite",
    "C29_projx_spd",
    "C29_projx_fixes",
    "C29_projx_refuted",
    "C29_random_origin"
   ],
   "note": ""
  },
  {
   "property": "C30",
   "status": "proved",
   "theorems": [
    "C30_symmetric",
    "C30_linear",
    "C30_positive",
    "C30_congruence",
    "C30_gradient",
    "C30_gradient_tangent"
   ],
   "note": ""
  },
  {
   "property": "C31",
   "status": "proved",
   "theorems": [
    "C31_expmap_spd",
    "C31_logmap_tangent",
    "C31_log_exp",
    "C31_exp_log",
    "C31_transp_tangent",
    "C31_transp_isometry",
    "C31_transp_velocity",
    "C31_well_defined"
   ],
   "note": ""
  },
  {
   "property": "C32",
   "status": "proved",
   "theorems": [
    "C32_birkhoff_point",
    "C32_birkhoff_negative_refuted",
    "C32_birkhoff_vector",
    "C32_lorentz_check",
    "C32_lorentz_upper_sheet",
    "C32_lorentz_refuted",
    "C32_lorentz_vector",
    "C32_spd_zero_tolerance",
    "C32_spd_accepts",
    "C32_spd_tolerance",
    "C32_spd_singular_refuted",
    "C32_spd_negative_refuted",
    "C32_spd_vector",
    "C32_sphere_point",
    "C32_stiefel_point",
    "C32_stiefel_point_tolerance",
    "C32_stiefel_vector",
    "C32_stiefel_origin"
   ],
   "note": ""
  },
  {
   "property": "C33",
   "status": "proved",
   "theorems": [
    "C33_shape_and_sign",
    "C33_rows",
    "C33_stopped",
    "C33_stopped_accepted",
    "C33_tiny_refuted"
   ],
   "note": ""
  },
  {
   "property": "C34",
   "status": "proved",
   "theorems": [
    "C34_tangent",
    "C34_any_solution",
    "C34_gradient",
    "C34_gradient_unique",
    "C34_form",
    "C34_transport",
    "C34_metric"
   ],
   "note": ""
  },
  {
   "property": "C35",
   "status": "proved",
   "theorems": [
    "C35_identity",
    "C35_left_inverse",
    "C35_left_cancellation",
    "C35_left_cancellation_ball",
    "C35_gyration_isometry",
    "C35_gyroassociative",
    "C35_gyroassociative_ball",
    "C35_gyrocommutative",
    "C35_left_loop",
    "C35_gyration_inverse"
   ],
   "note": "All laws proved for every dimension, curvature and point whose Moebius denominator is not clamped; ball versions discharge that hypothesis for k<0."
  },
  {
   "property": "C36",
   "status": "proved",
   "theorems": [
    "C36_add_in_ball",
    "C36_denominator_positive",
    "C36_expmap_in_ball",
    "C36_expmap0_in_ball",
    "C36_geodesic_in_ball",
    "C36_geodesic_unit_in_ball",
    "C36_scalar_mul_in_ball",
    "C36_small_curvature_refuted",
    "C36_project_norm",
    "C36_project_safe",
    "C36_project_fixes_inside",
    "C36_project_idempotent",
    "C36_project_to_boundary"
   ],
   "note": "Closure proved for every operation for k outside (-1e-8,0); the small-curvature case is refuted (expmap0 leaves the ball), which is the code behaviour."
  },
  {
   "property": "C37",
   "status": "proved",
   "theorems": [
    "C37_triangle_library",
    "C37_triangle_ball",
    "C37_nonneg",
    "C37_symmetric",
    "C37_self",
    "C37_separates",
    "C37_dist0",
    "C37_flat",
    "C37_left_invariant",
    "C37_triangle_exact",
    "C37_triangle_refuted",
    "C37_negative_distance_refuted",
    "C37_antipodal_refuted"
   ],
   "note": "Metric laws for closed-form curvatures (k = 0 or |k| > 1e-8) and unclamped Moebius denominators. Triangle inequality: exact for the formula without the sabs eps, up to the factor 1 + 3e6 e/|k| with it (C37_triangle_library, clamps included); exactness with e = 1e-15 is refuted. Negative distance for 0<k<=1e-8 and antipodal distance 0 are refuted."
  },
  {
   "property": "C38",
   "status": "proved",
   "theorems": [
    "C38_exp_log",
    "C38_log_exp",
    "C38_exp_log_ball",
    "C38_log_exp_ball",
    "C38_expmap0",
    "C38_logmap0",
    "C38_norm_log_is_dist"
   ],
   "note": "Inverse laws proved for all dimensions and closed-form curvatures on the region where no clamp is active."
  },
  {
   "property": "C39",
   "status": "proved",
   "theorems": [
    "C39_start",
    "C39_end",
    "C39_proportional",
    "C39_proportional_ball",
    "C39_unit_start",
    "C39_unit_speed"
   ],
   "note": ""
  },
  {
   "property": "C40",
   "status": "proved",
   "theorems": [
    "C40_linear",
    "C40_isometry",
    "C40_inverse",
    "C40_transp0",
    "C40_transp0_inverse"
   ],
   "note": ""
  },
  {
   "property": "C41",
   "status": "proved",
   "theorems": [
    "C41_inner_symmetric",
    "C41_inner_linear",
    "C41_inner_positive",
    "C41_gradient",
    "C41_norm"
   ],
   "note": ""
  },
  {
   "property": "C42",
   "status": "proved",
   "theorems": [
    "C42_rank_refuted",
    "C42_square_refuted",
    "C42_keepdim_shape",
    "C42_norm_shape",
    "C42_cross_terms_refuted"
   ],
   "note": "False of the code: shape/batch defects exhibited by the refuted theorems; keepdim and norm shapes proved."
  },
  {
   "property": "C43",
   "status": "proved",
   "theorems": [
    "C43_distributive_ball",
    "C43_distributive_sphere",
    "C43_distributive_refuted",
    "C43_one",
    "C43_associative",
    "C43_distance_scales",
    "C43_distributive_exact"
   ],
   "note": "Distributivity: exact for the formula without the sabs eps, up to a factor within e/|k| (times cosh(M)^2 or 1/(1-tan(M)^2)) of 1 with it; exactness with e = 1e-15 is refuted."
  },
  {
   "property": "C44",
   "status": "proved",
   "theorems": [
    "C44_into_surface",
    "C44_left_inverse",
    "C44_right_inverse"
   ],
   "note": ""
  },
  {
   "property": "C45",
   "status": "proved",
   "theorems": [
    "C45_tan_k",
    "C45_artan_k",
    "C45_sin_k",
    "C45_arsin_k",
    "C45_sin_k_refuted",
    "C45_arsin_k_refuted"
   ],
   "note": "tan_k/artan_k proved batch independent; sin_k/arsin_k proved on the region where it holds and refuted outside."
  },
  {
   "property": "C46",
   "status": "proved",
   "theorems": [
    "C46_projx",
    "C46_projx_fixes_points",
    "C46_proju_tangent",
    "C46_proju_fixes_tangent",
    "C46_proju_orthogonal",
    "C46_expmap",
    "C46_expmap_formula",
    "C46_expmap0",
    "C46_geodesic_unit",
    "C46_origin",
    "C46_expmap_zero",
    "C46_expmap_zero_refuted"
   ],
   "note": ""
  },
  {
   "property": "C47",
   "status": "proved",
   "theorems": [
    "C47_dist_is_hyperbolic",
    "C47_logmap_tangent",
    "C47_logmap_norm",
    "C47_expmap_logmap",
    "C47_logmap_expmap",
    "C47_expmap_distance",
    "C47_transport_tangent",
    "C47_transport_isometry",
    "C47_transport_velocity",
    "C47_transport_self",
    "C47_follow_expmap",
    "C47_origin_versions",
    "C47_geodesic_unit_speed",
    "C47_geodesic_unit_is_expmap"
   ],
   "note": ""
  },
  {
   "property": "C48",
   "status": "proved",
   "theorems": [
    "C48_is_gradient",
    "C48_argument_changed_refuted",
    "C48_second_call",
    "C48_second_call_refuted"
   ],
   "note": ""
  },
  {
   "property": "C49",
   "status": "proved",
   "theorems": [
    "C49_polar",
    "C49_to_ball",
    "C49_to_hyperboloid",
    "C49_ball_round_trip",
    "C49_hyperboloid_round_trip",
    "C49_isometry",
    "C49_axes",
    "C49_vector_refuted"
   ],
   "note": ""
  },
  {
   "property": "C50",
   "status": "proved",
   "theorems": [
    "C50_inverse_left",
    "C50_inverse_right",
    "C50_raises",
    "C50_symmetry",
    "C50_models"
   ],
   "note": ""
  },
  {
   "property": "C51",
   "status": "proved",
   "theorems": [
    "C51_upper_half_gradient",
    "C51_upper_half_inner",
    "C51_bounded_domain_symmetric",
    "C51_bounded_domain_where_real",
    "C51_bounded_domain_refuted"
   ],
   "note": "Upper half space proved; bounded domain refuted (C51_bounded_domain_refuted) and proved where conj(z) z is real."
  },
  {
   "property": "C52",
   "status": "proved",
   "theorems": [
    "C52_takagi",
    "C52_eigvals",
    "C52_compound_pairs",
    "C52_unitary_refuted"
   ],
   "note": "Proved for every ascending eigendecomposition; unitarity only for positive Takagi values, refuted for singular matrices."
  },
  {
   "property": "C53",
   "status": "proved",
   "theorems": [
    "C53_riemannian",
    "C53_finsler_one",
    "C53_finsler_infinity",
    "C53_weighted_sum",
    "C53_minimum_entropy",
    "C53_minimum_entropy_refuted",
    "C53_rank",
    "C53_rank_mismatch"
   ],
   "note": "All metrics proved; the documented minimum entropy weights are refuted."
  },
  {
   "property": "C54",
   "status": "proved",
   "theorems": [
    "C54_no_momentum",
    "C54_momentum",
    "C54_absorbing",
    "C54_no_gradient",
    "C54_sparse_gradient_raises"
   ],
   "note": ""
  },
  {
   "property": "C55",
   "status": "proved",
   "theorems": [
    "C55_no_momentum",
    "C55_momentum_gap",
    "C55_momentum_refuted"
   ],
   "note": ""
  },
  {
   "property": "C56",
   "status": "proved",
   "theorems": [
    "C56_direction",
    "C56_from_second_step",
    "C56_first_step_refuted",
    "C56_critical_point_moves_refuted",
    "C56_stale_buffer_refuted"
   ],
   "note": ""
  },
  {
   "property": "C57",
   "status": "proved",
   "theorems": [
    "C57_invariant",
    "C57_step_defined",
    "C57_counts_gradients",
    "C57_amsgrad_running_maximum",
    "C57_amsgrad_late_refuted"
   ],
   "note": ""
  },
  {
   "property": "C58",
   "status": "proved",
   "theorems": [
    "C58_sgd_only_named_rows",
    "C58_adam_only_named_rows",
    "C58_sgd_as_dense",
    "C58_adam_as_dense",
    "C58_duplicates_add",
    "C58_rows_independent",
    "C58_late_rows_refuted",
    "C58_sgd_dense_refused",
    "C58_adam_dense_refused",
    "C58_sgd_dense_error",
    "C58_adam_dense_error"
   ],
   "note": ""
  },
  {
   "property": "C59",
   "status": "proved",
   "theorems": [
    "C59_stored_value",
    "C59_running_maximum_refuted"
   ],
   "note": ""
  },
  {
   "property": "C60",
   "status": "proved",
   "theorems": [
    "C60_period",
    "C60_never",
    "C60_projected",
    "C60_plain_untouched",
    "C60_zero_raises_refuted",
    "C60_adam"
   ],
   "note": ""
  },
  {
   "property": "C61",
   "status": "proved",
   "theorems": [
    "C61_unchanged",
    "C61_values",
    "C61_start"
   ],
   "note": ""
  },
  {
   "property": "C62",
   "status": "proved",
   "theorems": [
    "C62_exact",
    "C62_new_step",
    "C62_refuted"
   ],
   "note": ""
  },
  {
   "property": "C63",
   "status": "proved",
   "theorems": [
    "C63_last",
    "C63_point",
    "C63_tried",
    "C63_untried",
    "C63_untried_refuted"
   ],
   "note": ""
  },
  {
   "property": "C64",
   "status": "proved",
   "theorems": [
    "C64_descent"
   ],
   "note": ""
  },
  {
   "property": "C65",
   "status": "proved",
   "theorems": [
    "C65_decision",
    "C65_rejected_momentum",
    "C65_late_gradient_refuted",
    "C65_remembered",
    "C65_counters",
    "C65_evaluations",
    "C65_overflow_refuted"
   ],
   "note": ""
  },
  {
   "property": "C66",
   "status": "proved",
   "theorems": [
    "C66_there_and_back",
    "C66_returns_iff",
    "C66_refuted"
   ],
   "note": ""
  },
  {
   "property": "C67",
   "status": "proved",
   "theorems": [
    "C67_tree",
    "C67_count",
    "C67_whole",
    "C67_chain_refuted",
    "C67_unusable",
    "C67_directions",
    "C67_directions_root",
    "C67_directions_two"
   ],
   "note": ""
  },
  {
   "property": "C68",
   "status": "proved",
   "theorems": [
    "C68_forward",
    "C68_rejects"
   ],
   "note": ""
  },
  {
   "property": "C69",
   "status": "proved",
   "theorems": [
    "C69_intersection",
    "C69_complement",
    "C69_rank_deficient_refuted"
   ],
   "note": ""
  },
  {
   "property": "C70",
   "status": "proved",
   "theorems": [
    "C70_tangent_check",
    "C70_subspace_unchecked_refuted"
   ],
   "note": ""
  },
  {
   "property": "C71",
   "status": "proved",
   "theorems": [
    "C71_gradient_factor",
    "C71_refuted"
   ],
   "note": ""
  },
  {
   "property": "C72",
   "status": "proved",
   "theorems": [
    "C72_refuted",
    "C72_load_fails",
    "C72_stub_load_fails"
   ],
   "note": ""
  },
  {
   "property": "C73",
   "status": "proved",
   "theorems": [
    "C73_binding",
    "C73_delegating_calls",
    "C73_registered_arguments",
    "C73_missing_argument_raises",
    "C73_refuted"
   ],
   "note": ""
  },
  {
   "property": "C74",
   "status": "proved",
   "theorems": [
    "C74_speed_refuted",
    "C74_unit_vector_refuted"
   ],
   "note": ""
  },
  {
   "property": "C75",
   "status": "proved",
   "theorems": [
    "C75_vector_components",
    "C75_matrix_components_refuted"
   ],
   "note": ""
  },
  {
   "property": "C76",
   "status": "proved",
   "theorems": [
    "C76_expansion",
    "C76_first_order_refuted"
   ],
   "note": ""
  },
  {
   "property": "C77",
   "status": "proved",
   "theorems": [
    "C77_symmetric",
    "C77_linear",
    "C77_bound",
    "C77_definite"
   ],
   "note": ""
  },
  {
   "property": "C78",
   "status": "proved",
   "theorems": [
    "C78_aim_length",
    "C78_aim_expmap",
    "C78_aim_symmetric",
    "C78_aim_zero",
    "C78_aim_congruence",
    "C78_lem_metric",
    "C78_stein_divergence",
    "C78_stein_triangle_refuted"
   ],
   "note": ""
  },
  {
   "property": "C79",
   "status": "proved",
   "theorems": [
    "C79_retr_entries",
    "C79_retr_rows",
    "C79_retr_stopped",
    "C79_random",
    "C79_batch_refuted"
   ],
   "note": ""
  },
  {
   "property": "C80",
   "status": "proved",
   "theorems": [
    "C80_not_idempotent_refuted",
    "C80_transp_refuted",
    "C80_origin_refuted"
   ],
   "note": ""
  },
  {
   "property": "C81",
   "status": "proved",
   "theorems": [
    "C81_on_hyperboloid",
    "C81_std_ignored",
    "C81_bounded"
   ],
   "note": ""
  },
  {
   "property": "C82",
   "status": "proved",
   "theorems": [
    "C82_symmetric",
    "C82_triangle",
    "C82_minimum",
    "C82_self_refuted"
   ],
   "note": ""
  },
  {
   "property": "C83",
   "status": "proved",
   "theorems": [
    "C83_sgd_grad_contents",
    "C83_kept_without_decay",
    "C83_weight_decay_refuted",
    "C83_decay_accumulates"
   ],
   "note": ""
  },
  {
   "property": "C84",
   "status": "proved",
   "theorems": [
    "C84_adam"
   ],
   "note": ""
  },
  {
   "property": "C85",
   "status": "proved",
   "theorems": [
    "C85_dist0",
    "C85_dist0_components",
    "C85_dist2plane_components"
   ],
   "note": ""
  },
  {
   "property": "C86",
   "status": "proved",
   "theorems": [
    "C86_true_gradients",
    "C86_no_step_refuted",
    "C86_custom_refuted",
    "C86_unevaluated_refuted"
   ],
   "note": ""
  },
  {
   "property": "C87",
   "status": "proved",
   "theorems": [
    "C87_monotone",
    "C87_armijo",
    "C87_first_trial"
   ],
   "note": ""
  },
  {
   "property": "C88",
   "status": "proved",
   "theorems": [
    "C88_refuted",
    "C88_count"
   ],
   "note": ""
  },
  {
   "property": "C89",
   "status": "proved",
   "theorems": [
    "C89_transported",
    "C89_constant_refuted",
    "C89_fletcher_reeves_refuted"
   ],
   "note": ""
  },
  {
   "property": "C90",
   "status": "proved",
   "theorems": [
    "C90_rhmc",
    "C90_rsgld",
    "C90_sgrhmc",
    "C90_stabilize",
    "C90_stabilize_states",
    "C90_stabilize_projects",
    "C90_constructor"
   ],
   "note": ""
  },
  {
   "property": "C91",
   "status": "proved",
   "theorems": [
    "C91_rhmc",
    "C91_rsgld",
    "C91_rsgld_refuted",
    "C91_sgrhmc_refuted"
   ],
   "note": ""
  },
  {
   "property": "C92",
   "status": "proved",
   "theorems": [
    "C92_sgld",
    "C92_sghmc"
   ],
   "note": ""
  },
  {
   "property": "C93",
   "status": "proved",
   "theorems": [
    "C93_lower_bound",
    "C93_attained",
    "C93_signed",
    "C93_on_plane",
    "C93_scaled",
    "C93_short_normal_refuted"
   ],
   "note": ""
  },
  {
   "property": "C94",
   "status": "proved",
   "theorems": [
    "C94_mobius_add",
    "C94_dist2plane"
   ],
   "note": ""
  },
  {
   "property": "C95",
   "status": "proved",
   "theorems": [
    "C95_sgd_no_momentum",
    "C95_sgd_momentum",
    "C95_sgd_absorbing",
    "C95_adam_absorbing",
    "C95_adam"
   ],
   "note": ""
  },
  {
   "property": "C96",
   "status": "proved",
   "theorems": [
    "C96_sgd_period",
    "C96_sgd_rows",
    "C96_sgd_plain_untouched",
    "C96_adam_rows",
    "C96_adam_when"
   ],
   "note": ""
  },
  {
   "property": "C97",
   "status": "proved",
   "theorems": [
    "C97_value",
    "C97_commutative",
    "C97_sub_undoes_coadd",
    "C97_cosub_undoes_add",
    "C97_ball",
    "C97_associativity_refuted",
    "C97_documented_formula_refuted"
   ],
   "note": ""
  },
  {
   "property": "C98",
   "status": "proved",
   "theorems": [
    "C98_close",
    "C98_nonpositive",
    "C98_origin",
    "C98_distance_refuted",
    "C98_small_curvature_refuted",
    "C98_documented_formula_refuted"
   ],
   "note": ""
  },
  {
   "property": "C99",
   "status": "proved",
   "theorems": [
    "C99_artan",
    "C99_tan",
    "C99_sin",
    "C99_arsin",
    "C99_zero",
    "C99_negative_wrong_side",
    "C99_negative_refuted"
   ],
   "note": ""
  },
  {
   "property": "C100",
   "status": "proved",
   "theorems": [
    "C100_cross_ratio",
    "C100_symmetric",
    "C100_definite",
    "C100_translation",
    "C100_congruence",
    "C100_inversion"
   ],
   "note": ""
  },
  {
   "property": "C101",
   "status": "proved",
   "theorems": [
    "C101_isometry",
    "C101_isometry_inverse",
    "C101_cross_ratio",
    "C101_symmetric",
    "C101_definite",
    "C101_unitary",
    "C101_origin"
   ],
   "note": ""
  },
  {
   "property": "C102",
   "status": "proved",
   "theorems": [
    "C102_finsler_infinity_bounded",
    "C102_riemannian_bounded",
    "C102_exact_refuted"
   ],
   "note": "The bound is proved; exactness is refuted beyond t = 2/eps - 1."
  },
  {
   "property": "C103",
   "status": "proved",
   "theorems": [
    "C103_lands",
    "C103_fixed_points",
    "C103_fixes_refuted"
   ],
   "note": "Landing, idempotence and the exact fixed points proved; that manifold points are fixed is refuted."
  },
  {
   "property": "C104",
   "status": "proved",
   "theorems": [
    "C104_lands",
    "C104_fixed_points",
    "C104_fixes_refuted",
    "C104_retr"
   ],
   "note": "Landing, idempotence and the exact fixed points proved; that manifold points are fixed is refuted."
  },
  {
   "property": "C105",
   "status": "proved",
   "theorems": [
    "C105_check_upper_half",
    "C105_check_bounded_domain",
    "C105_check_vector",
    "C105_random",
    "C105_origin"
   ],
   "note": ""
  },
  {
   "property": "C106",
   "status": "proved",
   "theorems": [
    "C106_positive",
    "C106_pullback",
    "C106_differential",
    "C106_metric_refuted"
   ],
   "note": "Positivity proved; equality with the pull-back metric refuted."
  },
  {
   "property": "C107",
   "status": "proved",
   "theorems": [
    "C107_origin_shape",
    "C107_origin_shape_refuted",
    "C107_dist_shape_refuted"
   ],
   "note": "Refuted except for a single matrix and the Riemannian metric."
  },
  {
   "property": "C108",
   "status": "proved",
   "theorems": [
    "C108_upper_half_refuted",
    "C108_bounded_domain_refuted"
   ],
   "note": "Refuted by example for both manifolds."
  },
  {
   "property": "C109",
   "status": "proved",
   "theorems": [
    "C109_exp_log",
    "C109_distance",
    "C109_isometric",
    "C109_compose",
    "C109_scalar",
    "C109_zero",
    "C109_in_ball",
    "C109_rows",
    "C109_dim_raises_refuted",
    "C109_dim_value_refuted"
   ],
   "note": "Laws proved where no clamp is active; dim other than -1 refuted."
  },
  {
   "property": "C110",
   "status": "proved",
   "theorems": [
    "C110_identity",
    "C110_matrix",
    "C110_chain",
    "C110_short_chains",
    "C110_in_ball"
   ],
   "note": ""
  },
  {
   "property": "C111",
   "status": "proved",
   "theorems": [
    "C111_diagonal",
    "C111_in_ball",
    "C111_tiny_is_zero",
    "C111_small_refuted"
   ],
   "note": "Proved above the 1e-8 threshold, refuted below."
  },
  {
   "property": "C112",
   "status": "proved",
   "theorems": [
    "C112_order",
    "C112_in_ball",
    "C112_rotation",
    "C112_weight_scale",
    "C112_euclidean",
    "C112_posweight",
    "C112_posweight_positive",
    "C112_library_constants",
    "C112_minimises",
    "C112_translation",
    "C112_copies",
    "C112_equidistant",
    "C112_single_refuted",
    "C112_posweight_sphere_refuted"
   ],
   "note": "Order, rotation, scale, ball, Euclidean and posweight laws proved for the library constants; minimiser, translation, copies and equidistance proved for the constants set to 0, and C112_library_constants bounds the factor between the two. Single point and posweight on the sphere refuted."
  },
  {
   "property": "C113",
   "status": "proved",
   "theorems": [
    "C113_sign",
    "C113_roundtrip",
    "C113_close",
    "C113_large_refuted"
   ],
   "note": "Exact up to 20, gap bounded beyond, equality refuted from 21."
  },
  {
   "property": "C114",
   "status": "proved",
   "theorems": [
    "C114_results_accepted",
    "C114_methods_agree",
    "C114_matvec_accepted",
    "C114_check_exact",
    "C114_check_bound",
    "C114_outside_refuted",
    "C114_geodesic_refuted",
    "C114_retr",
    "C114_exact_retr",
    "C114_expmap_transp",
    "C114_retr_transp",
    "C114_fused",
    "C114_radius_ball",
    "C114_radius_sphere",
    "C114_maxnorm_radius",
    "C114_random_normal",
    "C114_wrapped_normal"
   ],
   "note": "Closure and check proved for all arguments; geodesic and default tolerances refuted."
  },
  {
   "property": "C115",
   "status": "proved",
   "theorems": [
    "C115_first",
    "C115_constant",
    "C115_fletcher_reeves",
    "C115_polak_ribiere",
    "C115_documented",
    "C115_documented_refuted"
   ],
   "note": "Proved for the denominator the code uses and, for point-independent metrics, for the documented one; in general the documented one is refuted on 1x1 SPD matrices."
  },
  {
   "property": "C116",
   "status": "proved",
   "theorems": [
    "C116_inner",
    "C116_inner_default",
    "C116_component_inner",
    "C116_norm",
    "C116_norm_value",
    "C116_norm_shape_refuted",
    "C116_dist",
    "C116_dist2",
    "C116_dist2_value",
    "C116_symmetric",
    "C116_triangle",
    "C116_zero",
    "C116_broadcast_triangle_refuted",
    "C116_broadcast_inner_refuted",
    "C116_exp_log",
    "C116_log_exp",
    "C116_exp_dist",
    "C116_retr",
    "C116_proju",
    "C116_transp",
    "C116_empty_batch_refuted"
   ],
   "note": "Proved for equal manifold axes without empty axes; broadcasting manifold axes, empty batches and the shape of norm are refuted."
  },
  {
   "property": "C117",
   "status": "proved",
   "theorems": [
    "C117_random",
    "C117_origin",
    "C117_too_few_axes",
    "C117_shape_refuted"
   ],
   "note": "Proved for numbers; the shape is refuted for tensor parameters."
  },
  {
   "property": "C118",
   "status": "proved",
   "theorems": [
    "C118_mobius_add",
    "C118_mobius_sub",
    "C118_mobius_coadd",
    "C118_mobius_cosub",
    "C118_gyration",
    "C118_scalar_mul",
    "C118_pointwise_mul",
    "C118_geodesic",
    "C118_geodesic_unit",
    "C118_expmap",
    "C118_expmap0",
    "C118_logmap",
    "C118_logmap0",
    "C118_parallel_transport",
    "C118_parallel_transport0",
    "C118_parallel_transport0back",
    "C118_egrad2rgrad",
    "C118_project",
    "C118_antipode",
    "C118_lambda_x",
    "C118_norm",
    "C118_dist",
    "C118_dist0",
    "C118_inner_keepdim",
    "C118_inner_refuted",
    "C118_sproj",
    "C118_inv_sproj"
   ],
   "note": "inner with keepdim=False is refuted; the rest is proved for a 0-dimensional curvature."
  },
  {
   "property": "C119",
   "status": "proved",
   "theorems": [
    "C119_keepdim",
    "C119_drop",
    "C119_all",
    "C119_all_keepdim",
    "C119_method_keepdim",
    "C119_method",
    "C119_method_plain",
    "C119_one_point_refuted",
    "C119_negative_refuted",
    "C119_weightings_refuted",
    "C119_method_dim_refuted"
   ],
   "note": "Four documented uses are refuted; the rest is proved for a 0-dimensional curvature."
  },
  {
   "property": "C120",
   "status": "proved",
   "theorems": [
    "C120_inner",
    "C120_inner0",
    "C120_dist",
    "C120_dist0",
    "C120_project",
    "C120_project_polar",
    "C120_project_u",
    "C120_geodesic_unit",
    "C120_method_inner",
    "C120_method_inner_self",
    "C120_poincare_to_lorentz",
    "C120_lorentz_to_poincare",
    "C120_lorentz_to_poincare_vector_refuted",
    "C120_lorentz_to_poincare_batch_refuted",
    "C120_check_point",
    "C120_check_vector",
    "C120_norm",
    "C120_expmap",
    "C120_expmap0",
    "C120_logmap",
    "C120_logmap0",
    "C120_logmap0back",
    "C120_transport",
    "C120_transport0",
    "C120_transport0back",
    "C120_egrad2rgrad",
    "C120_method_expmap",
    "C120_method_expmap0",
    "C120_method_transp_follow",
    "C120_norm_dim_refuted",
    "C120_expmap_dim_refuted",
    "C120_logmap_dim_refuted",
    "C120_expmap0_shape_refuted",
    "C120_logmap0_shape_refuted",
    "C120_expmap0_dim_refuted",
    "C120_logmap0_dim_refuted",
    "C120_egrad2rgrad_dim_refuted"
   ],
   "note": "Functions that do not pass dim on are proved for the last axis and refuted for another; the curvature is a 0-dimensional tensor."
  },
  {
   "property": "C121",
   "status": "proved",
   "theorems": [
    "C121_subspace",
    "C121_projx",
    "C121_proju",
    "C121_retr",
    "C121_expmap",
    "C121_logmap",
    "C121_transp",
    "C121_inner",
    "C121_inner_self",
    "C121_dist",
    "C121_check_point",
    "C121_check_vector",
    "C121_batch_product",
    "C121_batch_projx_refuted"
   ],
   "note": "One projector for each point of a batch is refuted: the product pairs every projector with every point."
  },
  {
   "property": "C122",
   "status": "proved",
   "theorems": [
    "C122_sym",
    "C122_trace",
    "C122_extract_diag",
    "C122_block_matrix",
    "C122_check_point",
    "C122_check_vector",
    "C122_projx",
    "C122_random",
    "C122_origin",
    "C122_wrong_shape",
    "C122_canonical_proju",
    "C122_canonical_retr",
    "C122_transp_follow",
    "C122_canonical_inner",
    "C122_canonical_inner_self",
    "C122_retr_transp",
    "C122_retr_transp_vector_batch_refuted",
    "C122_retr_transp_broadcast_refuted",
    "C122_euclidean_proju",
    "C122_euclidean_transp",
    "C122_euclidean_inner",
    "C122_euclidean_inner_self",
    "C122_euclidean_retr",
    "C122_euclidean_expmap",
    "C122_expmap_broadcast_refuted",
    "C122_raises",
    "C122_retr_on_manifold"
   ],
   "note": "retr_transp and expmap with arguments of different batches are refuted; svd, qr, solve and matrix_exp are oracles that act on each matrix."
  },
  {
   "property": "C123",
   "status": "proved",
   "theorems": [
    "C123_sym_funcm",
    "C123_sym_expm",
    "C123_sym_logm",
    "C123_sym_sqrtm",
    "C123_sym_inv_sqrtm1",
    "C123_sym_inv_sqrtm2",
    "C123_sym_invm",
    "C123_singular",
    "C123_dist",
    "C123_check_point",
    "C123_check_point_empty_refuted",
    "C123_check_vector",
    "C123_projx",
    "C123_proju",
    "C123_egrad2rgrad",
    "C123_inner",
    "C123_inner_self",
    "C123_retr",
    "C123_expmap",
    "C123_logmap",
    "C123_transp",
    "C123_random",
    "C123_origin",
    "C123_origin_size_refuted",
    "C123_origin_tuple_refuted",
    "C123_raises"
   ],
   "note": "check_point on an empty batch and origin with a tuple or a size that is not square are refuted; eigh and matrix_exp are oracles that act on each matrix."
  },
  {
   "property": "C124",
   "status": "proved",
   "theorems": [
    "C124_check_point",
    "C124_check_vector",
    "C124_projx",
    "C124_projx_sequence",
    "C124_empty_refuted",
    "C124_retr",
    "C124_random",
    "C124_proju",
    "C124_proju_raises",
    "C124_tangent",
    "C124_retr_transp",
    "C124_inner",
    "C124_inner_self",
    "C124_origin",
    "C124_wrong_shape",
    "C124_raises",
    "C124_sizes"
   ],
   "note": "projx on an empty batch is refuted (torch.max of no entries raises); entries 0 of x in retr and inner follow the field convention, not inf or nan."
  },
  {
   "property": "C125",
   "status": "proved",
   "theorems": [
    "C125_takagi_eig",
    "C125_takagi_eigvals",
    "C125_cayley",
    "C125_positive_conjugate_projection",
    "C125_upper_half_projx",
    "C125_bounded_projx",
    "C125_upper_half_egrad2rgrad",
    "C125_bounded_egrad2rgrad",
    "C125_upper_half_retr",
    "C125_bounded_retr",
    "C125_inner",
    "C125_upper_half_dist",
    "C125_bounded_dist",
    "C125_dist_shape",
    "C125_upper_half_check",
    "C125_bounded_check",
    "C125_check_vector",
    "C125_random",
    "C125_origin",
    "C125_bd_zeros",
    "C125_raises"
   ],
   "note": "inner and dist are stated for batches with at least one position; the shapes of dist that keepdim does not control are the finding of C107."
  },
  {
   "property": "C126",
   "status": "proved",
   "theorems": [
    "C126_artanh",
    "C126_artanh_odd",
    "C126_tan_k",
    "C126_dist",
    "C126_guarded_div",
    "C126_sphere_dist",
    "C126_artanh_accuracy",
    "C126_tan_k_accuracy",
    "C126_dist_accuracy",
    "C126_guarded_div_exact",
    "C126_sphere_dist_accuracy",
    "C126_nan"
   ],
   "note": "Elementary functions are oracles with ten correct bits (NaN to NaN where stated); the norm or inner product is an argument."
  },
  {
   "property": "C127",
   "status": "proved",
   "theorems": [
    "C127_project",
    "C127_inside",
    "C127_outside"
   ],
   "note": "The computed norm is an argument with the accuracy of a pairwise sum; the three regimes are proved for every rounding."
  },
  {
   "property": "C128",
   "status": "proved",
   "theorems": [
    "C128_positive",
    "C128_negative",
    "C128_arsin_k",
    "C128_odd_refuted",
    "C128_overflow"
   ],
   "note": "Oddness is refuted."
  },
  {
   "property": "C129",
   "status": "proved",
   "theorems": [
    "C129_nonneg",
    "C129_accuracy",
    "C129_overflow",
    "C129_self_dist",
    "C129_dist_nonneg_refuted"
   ],
   "note": "Nonnegativity of the distance is refuted; points have two coordinates and k = 1 there."
  },
  {
   "property": "C130",
   "status": "proved",
   "theorems": [
    "C130_sphere",
    "C130_sphere_step",
    "C130_sphere_exists",
    "C130_sphere_clamped",
    "C130_lorentz",
    "C130_lorentz_step",
    "C130_lorentz_near",
    "C130_lorentz_target",
    "C130_stereo",
    "C130_stereo_step",
    "C130_stereo_ball",
    "C130_stereo_sphere",
    "C130_stereo_exists",
    "C130_stereo_saturated"
   ],
   "note": "Automatic differentiation is not modelled: the gradient is any vector whose pairing with every direction is the derivative of the loss along it."
  },
  {
   "property": "C131",
   "status": "proved",
   "theorems": [
    "C131_sphere_retr",
    "C131_sphere_expmap",
    "C131_stereo_retr",
    "C131_stereo_expmap",
    "C131_lorentz_refuted"
   ],
   "note": "Lorentz is refuted; the loss is any function with a Frechet derivative at the point."
  },
  {
   "property": "C132",
   "status": "proved",
   "theorems": [
    "C132_canonical_stiefel",
    "C132_euclidean_stiefel",
    "C132_spd_retr",
    "C132_spd_expmap",
    "C132_exact_stiefel"
   ],
   "note": "EuclideanStiefelExact over the reals with matrix_exp the sum of its power series; the others over any ordered field."
  },
  {
   "property": "C133",
   "status": "proved",
   "theorems": [
    "C133_upper_half",
    "C133_bounded_domain",
    "C133_bounded_domain_refuted"
   ],
   "note": "BoundedDomain with gradients that are not symmetric is refuted by a 2 x 2 witness that works in both dtypes."
  },
  {
   "property": "C134",
   "status": "proved",
   "theorems": [
    "C134_canonical_stiefel",
    "C134_euclidean_stiefel",
    "C134_spd",
    "C134_sgd_training",
    "C134_adam_training",
    "C134_momentum_training",
    "C134_sphere",
    "C134_euclidean_not_blind",
    "C134_ball",
    "C134_lorentz"
   ],
   "note": "Training theorems are over flat vectors; for the Stiefel manifolds the invariance of the Riemannian gradient is proved on matrices and not lifted to the optimizer loop."
  },
  {
   "property": "C135",
   "status": "proved",
   "theorems": [
    "C135_canonical_stiefel",
    "C135_euclidean_stiefel",
    "C135_exact_stiefel",
    "C135_spd",
    "C135_sgd",
    "C135_adam_first_step",
    "C135_euclidean",
    "C135_sphere",
    "C135_ball"
   ],
   "note": "One parameter group with one learning rate, without stabilisation; Lorentz is excluded since it fails there (C131). The matrix manifolds are covered for one parameter; the exact Stiefel case uses the power series of matrix_exp, the Euclidean one any QR factorisation."
  },
  {
   "property": "C136",
   "status": "proved",
   "theorems": [
    "C136_sgd",
    "C136_adam",
    "C136_components",
    "C136_nested"
   ],
   "note": "Parameters are rows without batch axes, every component has a gradient; Adam with constant amsgrad and stabilize other than 0."
  },
  {
   "property": "C137",
   "status": "proved",
   "theorems": [
    "C137_sgd",
    "C137_adam",
    "C137_adam_euclidean_refuted"
   ],
   "note": "Adam for bases with the generic component_inner; for Euclidean the claim is refuted with a witness, as the statement says."
  },
  {
   "property": "C138",
   "status": "proved",
   "theorems": [
    "C138_stereographic",
    "C138_sphere",
    "C138_lorentz",
    "C138_manifolds",
    "C138_sgd",
    "C138_adam",
    "C138_adam_euclidean_refuted"
   ],
   "note": "Adam for manifolds whose component_inner is one number; for Euclidean the claim is refuted with a witness, as the statement says."
  },
  {
   "property": "C139",
   "status": "proved",
   "theorems": [
    "C139_isometries",
    "C139_functions",
    "C139_gradient",
    "C139_training",
    "C139_short_step_refuted"
   ],
   "note": "Training: one parameter, SGD without momentum (the momentum buffer starts as the Euclidean gradient, which is not carried as a vector)."
  },
  {
   "property": "C140",
   "status": "proved",
   "theorems": [
    "C140_sgd",
    "C140_adam",
    "C140_adam_missing_gradient_refuted"
   ],
   "note": "Adam with a constant amsgrad setting, starting without state."
  },
  {
   "property": "C141",
   "status": "proved",
   "theorems": [
    "C141_flat",
    "C141_sgd_loop",
    "C141_adam_loop",
    "C141_turned_gradient",
    "C141_congr_gradient",
    "C141_canonical_operations",
    "C141_canonical_sgd",
    "C141_canonical_adam",
    "C141_exact_sgd",
    "C141_exact_adam",
    "C141_euclidean_sgd",
    "C141_euclidean_adam",
    "C141_qr_exists",
    "C141_columns_refuted",
    "C141_spd_operations",
    "C141_spd_sgd",
    "C141_spd_adam",
    "C141_spd_momentum_refuted",
    "C141_spd_decay_refuted"
   ],
   "note": "One parameter, stabilize=None. The failing cases (columns with the QR retraction, momentum and weight decay on SPD) are refuted with witnesses, as the statement says."
  },
  {
   "property": "C142",
   "status": "proved",
   "theorems": [
    "C142_exponential",
    "C142_exponential_ode",
    "C142_stiefel_geodesic",
    "C142_spd_geodesic",
    "C142_spd_retr"
   ],
   "note": "Over the reals, with matrix_exp the sum of its power series (also shown to meet the contracts under which matrix_exp appears in C28, C31, C78 and C141)."
  },
  {
   "property": "C143",
   "status": "proved",
   "theorems": [
    "C143_adam_canonical",
    "C143_adam_euclidean",
    "C143_adam_exact",
    "C143_adam_spd",
    "C143_spd_isometry",
    "C143_sgd_canonical",
    "C143_sgd_euclidean",
    "C143_sgd_exact",
    "C143_sgd_spd",
    "C143_exact_momentum_refuted",
    "C143_spd_momentum_refuted"
   ],
   "note": "One parameter, stabilize=None, exact arithmetic. The failing cases are refuted with witnesses, as the statement says."
  },
  {
   "property": "C144",
   "status": "proved",
   "theorems": [
    "C144_line_search_refuted",
    "C144_sgd",
    "C144_adam",
    "C144_sparse_sgd",
    "C144_sparse_adam",
    "C144_other_sizes",
    "C144_other_sizes_sparse",
    "C144_sgd_runs",
    "C144_adam_runs"
   ],
   "note": "state_dict and load_state_dict are those of torch.optim.Optimizer and are modelled by their contract (groups by position, states by number); no casts of dtype or device. The line search part is refuted with a witness, as the statement says."
  },
  {
   "property": "C145",
   "status": "proved",
   "theorems": [
    "C145_canonical_stiefel",
    "C145_euclidean_stiefel",
    "C145_exact_stiefel",
    "C145_spd",
    "C145_sgd",
    "C145_adam",
    "C145_sphere",
    "C145_euclidean",
    "C145_ball",
    "C145_momentum_refuted",
    "C145_lorentz_refuted"
   ],
   "note": "Matrix manifolds: one parameter without stabilisation (MatSymModel.v); EuclideanStiefelExact with the real matrix exponential. Exact real arithmetic. The momentum and Lorentz parts are refuted with witnesses, as the statement says."
  },
  {
   "property": "C146",
   "status": "proved",
   "theorems": [
    "C146_rate",
    "C146_limit",
    "C146_contraction",
    "C146_minimiser",
    "C146_large_rate_refuted"
   ],
   "note": "Exact real arithmetic, one parameter; the gradient of the loss (the vector a) is what autograd delivers. The part on large learning rates is a counterexample, as the statement says."
  },
  {
   "property": "C147",
   "status": "proved",
   "theorems": [
    "C147_rate",
    "C147_limit",
    "C147_shrink",
    "C147_minimiser",
    "C147_orthogonal"
   ],
   "note": "Exact real arithmetic, one parameter; the gradient 2 m x is what autograd delivers for the loss. The matrix comes with an orthonormal basis of eigenvectors (the spectral theorem is not proved here)."
  },
  {
   "property": "C148",
   "status": "proved",
   "theorems": [
    "C148_descent",
    "C148_stationary",
    "C148_convex_rate",
    "C148_nearer_to_minimisers",
    "C148_strongly_convex_rate",
    "C148_stationary_up_to_two",
    "C148_large_step_refuted",
    "C148_square_loss"
   ],
   "note": "Exact real arithmetic, one parameter; the gradient is what autograd delivers for the loss (is_gradient: the derivative along every line). C148_large_step_refuted shows that a bound on the learning rate is needed; the rates for convex losses are stated for lr L <= 1, descent and vanishing gradients for lr L < 2."
  }
 ]
}