{
 "claims": [
  {
   "property": "C01",
   "status": "proved",
   "theorems": [
    "C01_bdf_coefficients_exact",
    "C01_step_sizes_chain"
   ],
   "note": ""
  },
  {
   "property": "C02",
   "status": "proved",
   "theorems": [
    "C02_step_count_termination"
   ],
   "note": ""
  },
  {
   "property": "C03",
   "status": "partial",
   "theorems": [
    "C03_time_termination_fixed_step",
    "C03_time_termination_adaptive",
    "C03_time_termination_binary64_refuted"
   ],
   "note": "Proved over exact reals (fixed and adaptive); in binary64 the clock can stagnate and the loop never end: C03_time_termination_binary64_refuted."
  },
  {
   "property": "C04",
   "status": "proved",
   "theorems": [
    "C04_lockstep_phases"
   ],
   "note": ""
  },
  {
   "property": "C05",
   "status": "proved",
   "theorems": [
    "C05_proposal_bounded",
    "C05_proposal_hits_target",
    "C05_negotiated_is_minimum"
   ],
   "note": ""
  },
  {
   "property": "C06",
   "status": "partial",
   "theorems": [
    "C06_restart_continues_history",
    "C06_restart_record_is_logged_clock",
    "C06_multi_realm_restart_refuted"
   ],
   "note": "Single restart record: proved for any stop point under a field-restoration simulation relation. Several realms with records of different age: refuted (time is the max, count is the last realm's)."
  },
  {
   "property": "C07",
   "status": "proved",
   "theorems": [
    "C07_output_schedule"
   ],
   "note": ""
  },
  {
   "property": "C08",
   "status": "proved",
   "theorems": [
    "C08_nonlinear_iteration_control",
    "C08_inactive_step_does_nothing",
    "C08_solve_frequency"
   ],
   "note": ""
  },
  {
   "property": "C09",
   "status": "proved",
   "theorems": [
    "C09_current_coordinates_are_the_rotation",
    "C09_isometry",
    "C09_orientation",
    "C09_axis_is_fixed",
    "C09_identity_at_time_zero",
    "C09_motions_compose",
    "C09_planar_rotation",
    "C09_initial_displacement",
    "C09_other_nodes_untouched",
    "C09_non_unit_axis_is_not_rigid_refuted",
    "C09_computed_centroid"
   ],
   "note": "The statement (unit axis) is proved for every node set, axis and time. The _refuted theorem records what happens outside it: a non-unit axis is not normalised and the motion is then not rigid."
  },
  {
   "property": "C10",
   "status": "proved",
   "theorems": [
    "C10_mesh_velocity_is_derivative",
    "C10_mesh_velocity_is_derivative_2d",
    "C10_relative_velocity",
    "C10_ramped_omega_velocity_refuted"
   ],
   "note": "The statement (constant omega) is proved. The _refuted theorem is outside it: with a time-varying omega the assigned velocity is not the derivative of the displacement."
  },
  {
   "property": "C11",
   "status": "proved",
   "theorems": [
    "C11_quaternion_has_unit_norm",
    "C11_matrix_is_the_euler_rotation",
    "C11_matrix_orthogonal",
    "C11_matrix_determinant_one",
    "C11_frame_round_trip",
    "C11_euler_angles_recovered",
    "C11_gimbal_lock_loses_attitude_refuted",
    "C11_six_dof_points_move_rigidly"
   ],
   "note": "The statement (away from gimbal lock) is proved. The _refuted theorem shows the excluded case really fails."
  },
  {
   "property": "C12",
   "status": "partial",
   "theorems": [
    "C12_quaternion_rate_is_tangent",
    "C12_attitude_rate_matches_mesh_velocity",
    "C12_attitude_step_closed_form_partial",
    "C12_rk4_closed_form",
    "C12_attitude_step_is_not_rk4_refuted",
    "C12_no_spin_no_rotation",
    "C12_euler_equations",
    "C12_spherical_body_exact_partial",
    "C12_body_at_rest_starts_to_spin_refuted",
    "C12_omega_step_is_not_rk4_refuted",
    "C12_spin_of_spherical_body_partial",
    "C12_moment_in_wrong_frame_refuted",
    "C12_one_block_one_update",
    "C12_advanced_once_per_block",
    "C12_two_blocks_double_the_motion_refuted",
    "C12_translation_update",
    "C12_acceleration_lag"
   ],
   "note": "The property as a user would expect it is refuted: the attitude and spin updates are not the classical RK4 steps (closed forms proved, exact for spherical bodies), the moment is used in the wrong frame and a body in two mesh blocks is advanced twice."
  },
  {
   "property": "C13",
   "status": "proved",
   "theorems": [
    "C13_decode_encode",
    "C13_encode_injective",
    "C13_range",
    "C13_ids_must_be_positive",
    "C13_row_list",
    "C13_row_list_nodup",
    "C13_local_numbering"
   ],
   "note": ""
  },
  {
   "property": "C14",
   "status": "partial",
   "theorems": [
    "C14_assembly_adds_exactly",
    "C14_assembly_order_independent",
    "C14_vec3_shared_block_refuted",
    "C14_missing_column_drops_following_refuted"
   ],
   "note": "Proved for the general path and for the three-dof path with pairwise distinct nodes and all columns present. Refuted: the three-dof path when two nodes of the element share a row (periodic, one element thick), and columns missing from the row."
  },
  {
   "property": "C15",
   "status": "partial",
   "theorems": [
    "C15_dirichlet_rows_exact",
    "C15_exact_solve_imposes_value",
    "C15_missing_diagonal_zero_row_refuted",
    "C15_guard_off_by_one_refuted",
    "C15_unknown_node_is_row_zero_refuted",
    "C15_reset_rows_zero"
   ],
   "note": "Proved for rows whose graph contains the diagonal and nodes that have a row. Refuted outside: missing diagonal gives a zero row, the range check is off by one, an unknown node is treated as row 0."
  },
  {
   "property": "C16",
   "status": "proved",
   "theorems": [
    "C16_graph_rows_are_adjacency",
    "C16_graph_symmetric",
    "C16_graph_diagonal",
    "C16_row_capacity_suffices",
    "C16_insert_reads_out_of_bounds_refuted",
    "C16_insert_reads_in_bounds_scalar",
    "C16_isolated_row_is_empty"
   ],
   "note": "All clauses of the statement proved for every connectivity and number of dofs per node. The _refuted theorem concerns an out-of-bounds read (not write) while shifting, which does not change the resulting graph."
  },
  {
   "property": "C17",
   "status": "proved",
   "theorems": [
    "C17_scaled_by_first_of_step",
    "C17_first_report_is_one",
    "C17_tiny_first_report_below_one",
    "C17_scale_invariant",
    "C17_unsolved_not_converged"
   ],
   "note": ""
  },
  {
   "property": "C18",
   "status": "proved",
   "theorems": [
    "C18_each_subject_node_once",
    "C18_searched_against_all_directions",
    "C18_more_than_three_pairs_refuted",
    "C18_seven_disjoint_pairs_lose_nodes_refuted"
   ],
   "note": "The statement (one to three pairs) is proved. The _refuted theorems show that four or more pairs are not handled."
  },
  {
   "property": "C19",
   "status": "proved",
   "theorems": [
    "C19_translation_is_the_shift",
    "C19_search_finds_exactly_the_images"
   ],
   "note": ""
  },
  {
   "property": "C20",
   "status": "proved",
   "theorems": [
    "C20_constraints_give_class_sum",
    "C20_subject_equals_monarch",
    "C20_other_nodes_unchanged",
    "C20_ghosts_agree",
    "C20_set_only_copies_monarch"
   ],
   "note": ""
  },
  {
   "property": "C21",
   "status": "partial",
   "theorems": [
    "C21_classic_averages_are_window_means",
    "C21_averages_in_sample_range",
    "C21_window_length_bounded",
    "C21_exponential_averages",
    "C21_exponential_forced_reset_refuted",
    "C21_exponential_long_step_refuted"
   ],
   "note": "Classic (window) averaging: fully proved. Exponential averaging: closed form proved; a forced reset keeps the old filter length and a step longer than the window gives negative weights (refuted)."
  },
  {
   "property": "C22",
   "status": "proved",
   "theorems": [
    "C22_stresses_are_window_covariances",
    "C22_stresses_are_exponential_covariances",
    "C22_stress_realizable",
    "C22_steady_flow_has_no_stress",
    "C22_tke_nonneg",
    "C22_resolved_stress_refuted",
    "C22_temperature_variance_refuted"
   ],
   "note": "The Reynolds/Favre stress statement is proved. The _refuted theorems concern two other quantities (resolved stress of the first window, temperature variance) which omit the first sample."
  },
  {
   "property": "C23",
   "status": "proved",
   "theorems": [
    "C23_moving_average_in_range",
    "C23_first_sample_exact",
    "C23_contracts_to_constant_signal",
    "C23_constant_signal_is_kept"
   ],
   "note": ""
  },
  {
   "property": "C24",
   "status": "proved",
   "theorems": [
    "C24_interpolates_inside",
    "C24_exact_at_knots",
    "C24_between_neighbours",
    "C24_affine_exact",
    "C24_out_of_bounds_actions",
    "C24_memory_safe",
    "C24_find_index_doc_refuted"
   ],
   "note": "The statement is proved. The _refuted theorem is about the documentation of the helper find_index, which at an interior knot returns the interval on the left; the interpolated value is unaffected."
  },
  {
   "property": "C25",
   "status": "proved",
   "theorems": [
    "C25_group_length",
    "C25_each_element_exactly_once",
    "C25_interleave_roundtrip"
   ],
   "note": ""
  },
  {
   "property": "C26",
   "status": "proved",
   "theorems": [
    "C26_scalar_edge_conservative"
   ],
   "note": ""
  },
  {
   "property": "C27",
   "status": "proved",
   "theorems": [
    "C27_matrix_is_exact_linearisation",
    "C27_exact_solve_zeroes_residual",
    "C27_constant_field",
    "C27_linear_field_exact",
    "C27_upwind_matrix_signs"
   ],
   "note": ""
  },
  {
   "property": "C28",
   "status": "proved",
   "theorems": [
    "C28_limiter_range_and_extrema",
    "C28_limiter_near_one_for_equal_slopes",
    "C28_limited_face_value_bounded"
   ],
   "note": ""
  },
  {
   "property": "C29",
   "status": "proved",
   "theorems": [
    "C29_classic_peclet_weight",
    "C29_tanh_peclet_weight",
    "C29_edge_blending_weight_in_range"
   ],
   "note": ""
  },
  {
   "property": "C30",
   "status": "partial",
   "theorems": [
    "C30_tri3_basis",
    "C30_quad4_basis",
    "C30_quad4_general_basis",
    "C30_tet4_basis",
    "C30_hex8_basis",
    "C30_hex8_general_basis",
    "C30_wed6_basis",
    "C30_edge2_basis",
    "C30_tri6_basis",
    "C30_tet10_basis",
    "C30_quad9_basis",
    "C30_hex27_basis",
    "C30_tri3_derivatives",
    "C30_quad4_derivatives",
    "C30_tet4_derivatives",
    "C30_hex8_derivatives",
    "C30_hex8_fem_derivatives",
    "C30_wed6_derivatives",
    "C30_pyr5_shifted_derivatives",
    "C30_tri6_derivatives",
    "C30_tet10_derivatives",
    "C30_quad9_derivatives",
    "C30_hex27_derivatives",
    "C30_tri6_quadratic",
    "C30_tet10_quadratic",
    "C30_quad9_quadratic",
    "C30_hex27_quadratic",
    "C30_affine_fields_exact",
    "C30_derivatives_sum_to_zero",
    "C30_no_overshoot",
    "C30_linear_elements_nonnegative",
    "C30_half_range_is_scaled_full_range",
    "C30_pyr5_unity",
    "C30_pyr5_basis",
    "C30_pyr5_derivatives",
    "C30_pyr5_apex_refuted",
    "C30_pyr5_apex_within_epsilon",
    "C30_pyr5_nonnegative",
    "C30_pyr5_shifted_partial",
    "C30_pyr5_shifted_not_linear_refuted",
    "C30_interpolate_point",
    "C30_node_maps",
    "C30_quadratic_side_nodes"
   ],
   "note": "Proved for all elements except the pyramid apex (off by one machine epsilon: refuted, bound proved) and the shifted pyramid (sum to one and Kronecker proved; linear reproduction refuted)."
  },
  {
   "property": "C31",
   "status": "proved",
   "theorems": [
    "C31_tet4_closes",
    "C31_hex8_closes",
    "C31_wed6_closes",
    "C31_pyr5_closes",
    "C31_hex8_volumes_fill",
    "C31_tet4_volumes_fill",
    "C31_wed6_volumes_fill",
    "C31_pyr5_volumes_fill",
    "C31_hex8_volume_integral",
    "C31_tri3_2d_closes",
    "C31_quad4_2d_closes",
    "C31_tri3_2d_areas_fill",
    "C31_tri3_2d_equal_thirds",
    "C31_quad4_2d_areas_fill",
    "C31_shared_quad_cancels",
    "C31_shared_quad_rotation",
    "C31_shared_tri_cancels",
    "C31_shared_tri_rotation",
    "C31_exposed_tri_area",
    "C31_exposed_quad_area",
    "C31_tet4_surface_orientation",
    "C31_tri3_2d_surface_orientation"
   ],
   "note": ""
  },
  {
   "property": "C32",
   "status": "partial",
   "theorems": [
    "C32_solve22_correct",
    "C32_solve33_correct",
    "C32_products",
    "C32_determinant_multiplicative",
    "C32_cross_product",
    "C32_ddot_is_sum",
    "C32_invert_matrix33_array_partial",
    "C32_invert_matrix33_array_refuted",
    "C32_invert_matrix33_pointer_refuted",
    "C32_invert_overloads_agree_except_one"
   ],
   "note": "solve22/solve33, determinants, cross products proved. invert_matrix33 refuted: the array overload returns the inverse of the transpose (proved exactly), the pointer overload has a wrong factor."
  },
  {
   "property": "C33",
   "status": "partial",
   "theorems": [
    "C33_distance_is_membership",
    "C33_tet_search",
    "C33_tri2d_search",
    "C33_tri2d_clockwise_refuted",
    "C33_tri3d_search",
    "C33_edge2d_search",
    "C33_failure_is_outside",
    "C33_quad_residual",
    "C33_quad_parallelogram",
    "C33_hex_residual",
    "C33_hex_parallelepiped",
    "C33_wedge_residual",
    "C33_wedge_affine",
    "C33_hex27_affine",
    "C33_pyr5_affine",
    "C33_tet10_affine",
    "C33_tet10_residual",
    "C33_quad9_affine",
    "C33_face_normal",
    "C33_quad43d_parallelogram",
    "C33_quad93d_parallelogram",
    "C33_quad43d_residual"
   ],
   "note": "Affine elements exact; bilinear/trilinear elements: residual statement for converged Newton, multilinear quad/hex; quadratic elements and non-affine pyramids lack a residual bound. Clockwise 2-D triangles refuted."
  },
  {
   "property": "C34",
   "status": "proved",
   "theorems": [
    "C34_equation_sweep",
    "C34_mean_system_norm",
    "C34_mean_norm_over_multiphysics_realms"
   ],
   "note": ""
  },
  {
   "property": "C35",
   "status": "partial",
   "theorems": [
    "C35_steady_no_time_term",
    "C35_steady_no_time_term_element",
    "C35_nodal_jacobian_exact",
    "C35_momentum_jacobian_exact",
    "C35_element_jacobian_exact",
    "C35_element_gcl_jacobian_exact",
    "C35_heat_bdf2_jacobian_refuted",
    "C35_heat_bdf2_iteration_contracts",
    "C35_bdf2_exact_for_quadratics",
    "C35_backward_euler_conserves",
    "C35_bdf2_conserves_constant_step",
    "C35_constant_step_coefficients",
    "C35_bdf2_variable_step_not_conservative",
    "C35_nodal_uniform_scalar_consistent"
   ],
   "note": "Nodal and element time terms: exact Jacobians, telescoping (BE any steps, BDF2 constant step), exactness for quadratics. Refuted: HeatCondMassBDF2 matrix lacks gamma1 (the iteration still contracts); BDF2 with variable step does not telescope."
  },
  {
   "property": "C36",
   "status": "partial",
   "theorems": [
    "C36_query_returns_entry_or_default",
    "C36_no_options_defaults",
    "C36_other_entries_irrelevant",
    "C36_laminar_prandtl_flag",
    "C36_source_terms_accumulate",
    "C36_turbulence_constants",
    "C36_turbulence_model",
    "C36_unknown_model_rejected",
    "C36_unknown_option_rejected",
    "C36_shifted_pressure_implies_reduced",
    "C36_scalar_commands",
    "C36_example",
    "C36_two_keywords_in_one_entry_refuted",
    "C36_scalar_defaults_lost_refuted",
    "C36_user_constants",
    "C36_non_conformal_options",
    "C36_dynamic_needs_one_equation_model",
    "C36_blocks_example"
   ],
   "note": "Refuted: two keywords in one options entry (only the first is read) and scalar keywords without default lose the constructor value. The per-field query statement itself is proved for every list of single-keyword entries."
  },
  {
   "property": "C37",
   "status": "partial",
   "theorems": [
    "C37_q_criterion_is_second_invariant",
    "C37_lambda_ci_2d_is_swirl",
    "C37_sfs_stress_gradient_index_refuted",
    "C37_vorticity_is_twice_rotation_rate"
   ],
   "note": "Vorticity, Q-criterion and lambda_ci proved frame independent; the sub-filter stress reads the velocity gradient with a wrong index (refuted)."
  },
  {
   "property": "C38",
   "status": "proved",
   "theorems": [
    "C38_constant_field_has_zero_gradient",
    "C38_discrete_gauss"
   ],
   "note": ""
  },
  {
   "property": "C39",
   "status": "proved",
   "theorems": [
    "C39_mass_balance_after_pressure_solve",
    "C39_pressure_matrix_spsd",
    "C39_no_stabilisation_for_linear_pressure",
    "C39_projection_preserves_mass_flow"
   ],
   "note": ""
  },
  {
   "property": "C40",
   "status": "proved",
   "theorems": [
    "C40_momentum_edge_conservative",
    "C40_no_viscous_flux_in_rigid_motion",
    "C40_newtonian_stress_in_linear_flow",
    "C40_no_viscous_flux_in_uniform_dilatation",
    "C40_momentum_matrix_is_exact_linearisation"
   ],
   "note": ""
  },
  {
   "property": "C41",
   "status": "proved",
   "theorems": [
    "C41_gradient_exact_for_linear_fields",
    "C41_gradient_of_constant_is_zero",
    "C41_determinants_agree",
    "C41_jacobian_transforms",
    "C41_metric_inverse",
    "C41_metric_positive_definite"
   ],
   "note": ""
  },
  {
   "property": "C42",
   "status": "partial",
   "theorems": [
    "C42_overall_convergence_is_all",
    "C42_stops_at_first_convergence",
    "C42_final_flag",
    "C42_final_tolerance_skipped_refuted",
    "C42_system_norm_is_maximum"
   ],
   "note": "Everything except the last clause proved; the last solve uses the final tolerance only if the iteration limit is reached (refuted otherwise)."
  },
  {
   "property": "C43",
   "status": "proved",
   "theorems": [
    "C43_iteration_statistics"
   ],
   "note": ""
  },
  {
   "property": "C44",
   "status": "partial",
   "theorems": [
    "C44_accepted_search_has_matching_count",
    "C44_bounded_number_of_attempts",
    "C44_adaptive_tolerance_converges",
    "C44_matching_mesh_accepted_at_once",
    "C44_count_check_is_not_enough_refuted"
   ],
   "note": "All but the last clause proved; that an accepted search pairs every subject is refuted (two pairs for one subject compensate a missing one)."
  },
  {
   "property": "C45",
   "status": "partial",
   "theorems": [
    "C45_monarch_gets_class_maximum",
    "C45_max_reaches_all_subjects_refuted",
    "C45_single_subject_both_get_maximum",
    "C45_subject_ids_are_the_monarchs"
   ],
   "note": "Identifier update proved; one pass of the max update does not reach all subjects of a class with several subjects (refuted); classes with a single subject are proved."
  },
  {
   "property": "C46",
   "status": "partial",
   "theorems": [
    "C46_hex_side_maps",
    "C46_tet_side_maps",
    "C46_wedge_side_maps",
    "C46_tri2d_side_maps",
    "C46_quad2d_side_maps",
    "C46_pyramid_side_maps",
    "C46_trace_interpolates",
    "C46_shared_side_continuous",
    "C46_hex_exposed_points",
    "C46_tet_exposed_points_partial",
    "C46_tet_side3_refuted",
    "C46_wedge_exposed_points",
    "C46_pyramid_exposed_points",
    "C46_tri2d_exposed_points",
    "C46_quad2d_exposed_points",
    "C46_exposed_points_near_their_node"
   ],
   "note": "Proved for all elements and sides except side 3 of the tetrahedron, where two exposed points are swapped (refuted)."
  },
  {
   "property": "C47",
   "status": "partial",
   "theorems": [
    "C47_hex_opposing",
    "C47_tet_opposing",
    "C47_wedge_opposing",
    "C47_tri2d_opposing",
    "C47_quad2d_opposing",
    "C47_pyramid_opposing_nodes",
    "C47_pyramid_opposing_face_refuted"
   ],
   "note": "Proved for all elements except the pyramid, whose opposingFace returns a node table (refuted)."
  },
  {
   "property": "C48",
   "status": "partial",
   "theorems": [
    "C48_hex_scs_points",
    "C48_hex_scv_points",
    "C48_wedge_side_scs_points",
    "C48_tri2d_scs_points",
    "C48_quad2d_scs_points",
    "C48_shifted_points",
    "C48_pyramid_shifted_slant_refuted",
    "C48_tet_scs_points",
    "C48_tet_scv_points",
    "C48_tet_scv_centroid_refuted",
    "C48_tet_scv_linear_exact",
    "C48_wedge_scs_points",
    "C48_pyramid_scs_points",
    "C48_wedge_scv_points",
    "C48_pyramid_scv_points",
    "C48_face_points"
   ],
   "note": "Proved for all sub-control surfaces and the volumes of hex/quad/tri/wedge; refuted for tetrahedron volumes and shifted slant points of the pyramid."
  },
  {
   "property": "C49",
   "status": "proved",
   "theorems": [
    "C49_scalar_diff_conservative",
    "C49_scalar_advdiff_conservative",
    "C49_scalar_upwind_conservative",
    "C49_continuity_conservative",
    "C49_momentum_conservative",
    "C49_momentum_upwind_conservative",
    "C49_kernels_additive"
   ],
   "note": ""
  },
  {
   "property": "C50",
   "status": "proved",
   "theorems": [
    "C50_scalar_diff_newton",
    "C50_scalar_advdiff_newton",
    "C50_scalar_upwind_newton",
    "C50_continuity_newton",
    "C50_momentum_newton",
    "C50_momentum_upwind_newton"
   ],
   "note": "Proved with limiter off, includeDivU=0 and reduced sensitivities off (the code drops those derivatives deliberately)."
  },
  {
   "property": "C51",
   "status": "proved",
   "theorems": [
    "C51_uniform_scalar",
    "C51_uniform_scalar_upwind",
    "C51_linear_field_diffusion_exact",
    "C51_rigid_motion_no_viscous_force",
    "C51_pressure_level_irrelevant",
    "C51_linear_pressure_no_stabilisation",
    "C51_elements_meet_hypotheses",
    "C51_unit_tet_example"
   ],
   "note": ""
  },
  {
   "property": "C52",
   "status": "proved",
   "theorems": [
    "C52_continuity_residual_is_mass_imbalance",
    "C52_uniform_scalar_consistent_with_continuity",
    "C52_uniform_scalar_consistent_upwind"
   ],
   "note": ""
  },
  {
   "property": "C53",
   "status": "proved",
   "theorems": [
    "C53_ideal_gas_law",
    "C53_mixture_weight",
    "C53_specific_heat_is_enthalpy_derivative",
    "C53_constant_cp_derivative",
    "C53_water_enthalpy",
    "C53_water_positive",
    "C53_mixture_is_mass_weighted_sum",
    "C53_mole_fractions",
    "C53_sutherland",
    "C53_sutherland_pure",
    "C53_blended_properties",
    "C53_prandtl_conductivity",
    "C53_example"
   ],
   "note": ""
  },
  {
   "property": "C54",
   "status": "proved",
   "theorems": [
    "C54_temperature_within_limits",
    "C54_node_left_consistent",
    "C54_consistent_state_unchanged",
    "C54_accepted_temperature_accurate",
    "C54_converges_for_moderate_variation",
    "C54_constant_cp_exact",
    "C54_water_example"
   ],
   "note": ""
  },
  {
   "property": "C55",
   "status": "partial",
   "theorems": [
    "C55_splits_partition",
    "C55_splits_continuous",
    "C55_edge_exchange_conservative",
    "C55_step_conserves_totals",
    "C55_orientation_independent",
    "C55_flux_consistent",
    "C55_free_stream_preserved",
    "C55_donor_cell",
    "C55_supersonic_takes_upstream",
    "C55_viscous_flux_dissipates",
    "C55_supersonic_takes_upstream_refuted"
   ],
   "note": "Refuted: supersonic flow takes the upstream flux only when both speeds of sound agree. All other clauses proved."
  },
  {
   "property": "C56",
   "status": "proved",
   "theorems": [
    "C56_primitive_round_trip",
    "C56_conserved_round_trip",
    "C56_aux_update_thermodynamically_consistent",
    "C56_steady_when_rhs_zero"
   ],
   "note": ""
  },
  {
   "property": "C57",
   "status": "partial",
   "theorems": [
    "C57_symmetry_only_pressure",
    "C57_rest_state_preserved",
    "C57_outflow",
    "C57_inflow_partial",
    "C57_inflow_static_below_total_refuted",
    "C57_open_outflow_consistent_refuted"
   ],
   "note": "Refuted: the total-pressure inflow adds the third component instead of its square; subsonic open outflow applies half the split flux. Other clauses proved."
  },
  {
   "property": "C58",
   "status": "proved",
   "theorems": [
    "C58_dual_volumes_fill_the_mesh",
    "C58_jacobian_check",
    "C58_dual_mesh_closed",
    "C58_edge_orientation",
    "C58_control_volumes_closed",
    "C58_constant_has_zero_gradient_on_any_mesh",
    "C58_rest_state_on_any_mesh",
    "C58_free_stream_on_any_mesh"
   ],
   "note": ""
  },
  {
   "property": "C59",
   "status": "proved",
   "theorems": [
    "C59_factors_reproduce_matrix",
    "C59_solution_solves_system",
    "C59_solution_unique",
    "C59_works_iff_leading_blocks_regular",
    "C59_works_for_dominant_matrices",
    "C59_no_pivoting_refuted"
   ],
   "note": "The statement (no pivot vanishes / leading blocks regular) is proved. The _refuted theorem shows the hypothesis is needed: a regular matrix with a zero pivot fails."
  },
  {
   "property": "C60",
   "status": "partial",
   "theorems": [
    "C60_lookup_2d_independent_of_history",
    "C60_table_2d_interpolates_data",
    "C60_bilinear_table_interpolates_data",
    "C60_wrong_size_2d_refused",
    "C60_knot_search",
    "C60_basis_independent_of_history",
    "C60_basis_partition_of_unity",
    "C60_basis_nonnegative",
    "C60_basis_linear_precision",
    "C60_inputs_accepted",
    "C60_decreasing_table_same_spline",
    "C60_table_interpolates_data",
    "C60_linear_data_reproduced",
    "C60_value_within_control_points",
    "C60_clipping_keeps_end_values",
    "C60_linear_table_always_solvable",
    "C60_linear_table_is_piecewise_linear",
    "C60_too_few_points_refuted"
   ],
   "note": "Interpolation for order >= 2 assumes the collocation matrix can be factorised without pivoting (Schoenberg-Whitney is not proved); order 1 is unconditional. Too few points for the order is not detected (refuted). Orders of ten and more overrun fixed work arrays in the code and are outside the model; 3-5 dimensional tables are not modelled."
  },
  {
   "property": "C61",
   "status": "partial",
   "theorems": [
    "C61_variables_accepted_iff_same",
    "C61_lookup_uses_value_of_that_name",
    "C61_lookup_independent_of_history",
    "C61_clipping_counted",
    "C61_lookup_with_converter_in_table_order",
    "C61_order_with_converter_refuted",
    "C61_two_converters_refuted",
    "C61_converter_without_new_input_refuted",
    "C61_table_inside_converter_refuted",
    "C61_log_keeps_most_severe",
    "C61_log_size_lowered_refuted",
    "C61_equally_severe_event_refuted",
    "C61_mixture_fractions_sum_to_one",
    "C61_enthalpy_conversion_inverts_mixture"
   ],
   "note": "Proved without converters and for one converter with the variables in the table's order. Refuted: other orders with a converter, two converters, a converter without new inputs, tables nested in converters, lowering the log size, events of equal severity."
  },
  {
   "property": "C62",
   "status": "proved",
   "theorems": [
    "C62_number_of_ordinates",
    "C62_directions_unit",
    "C62_weights_positive",
    "C62_reflections",
    "C62_weights_total",
    "C62_first_moment_zero",
    "C62_second_moment",
    "C62_half_range_flux_refuted"
   ],
   "note": "All clauses proved for every order. The _refuted theorem records a moment the statement does not claim: the half-range flux is not pi (2 pi/sqrt 3 for order 1)."
  },
  {
   "property": "C63",
   "status": "proved",
   "theorems": [
    "C63_energy_balance",
    "C63_newton_exact",
    "C63_solve_gives_zero_residual",
    "C63_equilibrium_is_exact",
    "C63_upwind_intensity_bounds",
    "C63_upwind_update_bounds",
    "C63_upwind_unique",
    "C63_element_transport_conserves",
    "C63_element_newton_exact",
    "C63_element_equilibrium"
   ],
   "note": ""
  },
  {
   "property": "C64",
   "status": "partial",
   "theorems": [
    "C64_moments",
    "C64_ordinate_sees_partial_scalar_flux",
    "C64_scattering_equilibrium_refuted",
    "C64_wall_intensity",
    "C64_radiative_energy_balance",
    "C64_source_linearisation",
    "C64_isothermal_enclosure_is_fixed_point",
    "C64_grey_wall_equilibrium_refuted",
    "C64_convergence_norm",
    "C64_norm_independent_of_ranks_refuted"
   ],
   "note": "Refuted: isotropic scattering uses the scalar flux of the ordinates already swept only, so scattering equilibrium is not a fixed point; partly reflecting walls lose equilibrium through the half-range flux; the norm is a sum of per-process roots. Proved: moments, energy balance, black/transparent-wall equilibrium for every order, linearisation, norm zero iff converged."
  },
  {
   "property": "C65",
   "status": "proved",
   "theorems": [
    "C65_eddy_viscosity_axes_independent",
    "C65_rigid_rotation_invisible",
    "C65_rigid_rotation_value",
    "C65_blending_functions_in_unit_interval",
    "C65_sst_viscosity_bounds",
    "C65_sst_viscosity_is_the_minimum",
    "C65_blended_between",
    "C65_effective_viscosity_at_least_molecular",
    "C65_other_viscosities_nonnegative",
    "C65_wale_vanishes_in_pure_shear",
    "C65_ksgs_damping",
    "C65_smagorinsky_linear_in_strain"
   ],
   "note": ""
  },
  {
   "property": "C66",
   "status": "partial",
   "theorems": [
    "C66_production_is_strain",
    "C66_production_limited",
    "C66_keps_production",
    "C66_sst_k_stays_nonnegative",
    "C66_des_k_stays_nonnegative",
    "C66_ksgs_k_stays_nonnegative",
    "C66_low_re_ksgs_stays_nonnegative_refuted",
    "C66_keps_k_and_epsilon_stay_nonnegative",
    "C66_omega_stays_nonnegative",
    "C66_des_omega_stays_nonnegative",
    "C66_omega_stays_nonnegative_any_cross_diffusion_refuted",
    "C66_dissipation_linearised",
    "C66_des_dissipation_at_least_rans",
    "C66_element_source_integrates",
    "C66_element_k_dissipation_implicit",
    "C66_element_keps_dissipation_implicit",
    "C66_element_omega_source",
    "C66_ksgs_element_share_of_nodal",
    "C66_sst_clip",
    "C66_sst_clip_omega_positive",
    "C66_sst_clip_keeps_omega_positive_refuted",
    "C66_initial_clip",
    "C66_tke_clip"
   ],
   "note": "Positivity proved for SST/DES k, high-Reynolds Ksgs k, k-epsilon (k >= tiny) and omega with non-negative cross-diffusion. Refuted: low-Reynolds Ksgs sink, omega with negative cross-diffusion, and omega > 0 after the clip (exactly two corner cases leave omega = 0)."
  },
  {
   "property": "C67",
   "status": "partial",
   "theorems": [
    "C67_friction_velocity_well_defined",
    "C67_newton_contracts",
    "C67_friction_velocity_accurate",
    "C67_friction_velocity_converges",
    "C67_wall_stress_is_rho_utau_squared",
    "C67_friction_velocity_zero_at_rest_refuted",
    "C67_traction_coefficient_positive",
    "C67_tangential_slip_speed",
    "C67_wall_distance_axis_aligned",
    "C67_wall_distance_bounds",
    "C67_wall_distance_is_normal_distance_refuted",
    "C67_traction_jacobian_exact",
    "C67_wall_force",
    "C67_no_slip_no_force",
    "C67_edge_is_concentrated_element",
    "C67_traction_dissipates",
    "C67_wall_value_between",
    "C67_wall_value_order_free",
    "C67_wall_k_and_omega_positive",
    "C67_min_distance_clip"
   ],
   "note": "Refuted: the wall distance used is not the normal distance except for axis-aligned walls (45 degrees: too small by 1/sqrt 2); the friction velocity is not zero at zero slip. Dissipation of the element form is proved for concentrated (shifted) shape functions."
  },
  {
   "property": "C68",
   "status": "proved",
   "theorems": [
    "C68_variable_density_continuity",
    "C68_variable_density_mixture_fraction",
    "C68_variable_density_momentum",
    "C68_nonisothermal_continuity",
    "C68_nonisothermal_enthalpy",
    "C68_nonisothermal_momentum",
    "C68_element_sources_equal_nodal",
    "C68_shipped_variable_density",
    "C68_shipped_nonisothermal",
    "C68_mixture_fraction_realizable_everywhere_refuted",
    "C68_boussinesq",
    "C68_steady_taylor_vortex",
    "C68_shipped_steady_taylor_vortex",
    "C68_convecting_taylor_vortex",
    "C68_shipped_convecting_taylor_vortex",
    "C68_kovasznay",
    "C68_shipped_kovasznay",
    "C68_taylor_green",
    "C68_shipped_taylor_green",
    "C68_heat_conduction",
    "C68_shipped_heat_conduction",
    "C68_wind_energy_vortex",
    "C68_shipped_wind_energy_vortex",
    "C68_inviscid_vortex_undefined_refuted",
    "C68_vortex_parameter_lists"
   ],
   "note": "All analytic fields transcribed by tools/mms.py are covered. The _refuted theorems are findings outside the statement: the shipped mixture fraction leaves [0,1] away from the origin, and the wind-energy vortex with viscosity below 1e-30 is 0/0."
  },
  {
   "property": "C69",
   "status": "partial",
   "theorems": [
    "C69_table_accepted",
    "C69_table_order_irrelevant",
    "C69_table_through_points",
    "C69_table_piecewise_linear",
    "C69_table_clamped",
    "C69_table_bounded",
    "C69_table_lipschitz",
    "C69_table_with_step_refuted",
    "C69_table_evaluate",
    "C69_linear_profile",
    "C69_powerlaw_profile",
    "C69_powerlaw_pipe_profile",
    "C69_grid_loaded",
    "C69_final_newline_refuted",
    "C69_grid_bilinear",
    "C69_grid_nodes",
    "C69_grid_bounded",
    "C69_grid_ramp",
    "C69_grid_evaluate"
   ],
   "note": "Refuted: a grid file that ends in a newline is read with its last row twice and writes outside the array (Table2dAuxFunction.C 106-145). Finding outside the statement: a table with an abscissa listed twice can be 0/0 exactly there."
  },
  {
   "property": "C70",
   "status": "proved",
   "theorems": [
    "C70_rotating_wall_moves_with_the_mesh",
    "C70_rotating_wall_moves_with_the_mesh_2d",
    "C70_no_relative_velocity_at_the_wall",
    "C70_six_dof_wall",
    "C70_wall_velocity_is_rigid",
    "C70_two_dimensional_wall_refuted"
   ],
   "note": "The _refuted theorem is outside the statement: 2-D with an axis out of the z direction and a centroid off the plane."
  },
  {
   "property": "C71",
   "status": "proved",
   "theorems": [
    "C71_edge_scalar_open",
    "C71_edge_scalar_matrix",
    "C71_elem_scalar_open",
    "C71_elem_scalar_bounded",
    "C71_elem_scalar_matrix",
    "C71_edge_uniform_scalar",
    "C71_elem_uniform_scalar",
    "C71_edge_momentum_entrained",
    "C71_edge_free_stream",
    "C71_elem_momentum_entrained"
   ],
   "note": "Edge and element schemes. Theorems about entrainment need positive density and non-zero face area."
  },
  {
   "property": "C72",
   "status": "partial",
   "theorems": [
    "C72_elem_open_traction",
    "C72_elem_symmetry_traction",
    "C72_edge_open_traction",
    "C72_edge_symmetry_traction",
    "C72_parts",
    "C72_rigid_motion_no_traction",
    "C72_elem_symmetry_matrix",
    "C72_elem_open_matrix",
    "C72_edge_open_matrix_2d",
    "C72_edge_open_matrix_3d_axis",
    "C72_edge_symmetry_matrix_axis",
    "C72_refuted_edge_symmetry_matrix_oblique",
    "C72_refuted_elem_open_divU",
    "C72_refuted_elem_symmetry_divU",
    "C72_refuted_edge_open_matrix_3d"
   ],
   "note": "Tractions proved for both schemes (edge scheme with, element scheme without the dilatational stress). Matrices exact: element scheme; edge open in 2-D and on 3-D faces parallel to an axis; edge symmetry on axis-normal faces. Refuted: edge symmetry matrix on oblique faces (two terms lack 1/(A.dx), AssembleMomentumEdgeSymmetrySolverAlgorithm.C 304, 308); edge open matrix on fully oblique 3-D faces; element kernels with includeDivU = 1 (dilatational stress uses sum_j du_j/dx_j A_j in every component)."
  },
  {
   "property": "C73",
   "status": "partial",
   "theorems": [
    "C73_edge_same_mass_flow",
    "C73_elem_same_mass_flow",
    "C73_inflow_same_mass_flow",
    "C73_edge_open_matrix",
    "C73_elem_open_matrix",
    "C73_edge_linear_pressure",
    "C73_elem_linear_pressure",
    "C73_dynamic_pressure",
    "C73_mass_balance_with_open_faces",
    "C73_global_mass_closure",
    "C73_accumulation_is_continuity_source",
    "C73_report_without_copies",
    "C73_refuted_report_with_copies"
   ],
   "note": "Refuted part: the reported accumulation counts ghosted copies of elements (ComputeMdotAlgorithmDriver.C 199-200, no locally_owned_part). Global balance proved for the edge scheme; element scheme per face."
  },
  {
   "property": "C74",
   "status": "partial",
   "theorems": [
    "C74_pressure_force",
    "C74_viscous_force",
    "C74_moment",
    "C74_planar_moment",
    "C74_moment_transport",
    "C74_uniform_pressure_closed_surface",
    "C74_rigid_motion_no_viscous_force",
    "C74_report_decomposition_free",
    "C74_nodal_forces_add_up",
    "C74_nodal_fields",
    "C74_nodal_values_between",
    "C74_untouched_node",
    "C74_nodal_decomposition_free",
    "C74_yplus_extremes",
    "C74_nodal_yplus_within_report",
    "C74_resolved_wall_shear",
    "C74_wall_shear_bounded",
    "C74_wall_function_shear",
    "C74_wall_function_force_balances_momentum",
    "C74_two_requests_double_nodal_force_refuted",
    "C74_mixed_node_between_refuted",
    "C74_frequency"
   ],
   "note": "Refuted parts: naming a surface in two requests doubles the nodal pressure_force; a node shared by resolved and wall-function faces gets the sum of two area-weighted means. The distance used in y+ is that of C67 (not rotation invariant)."
  },
  {
   "property": "C75",
   "status": "proved",
   "theorems": [
    "C75_transport_matrix_is_monotone",
    "C75_maximum_principle",
    "C75_nonnegative_with_sources",
    "C75_bounds_for_all_times",
    "C75_constant_preserved",
    "C75_result_independent_of_iterate",
    "C75_clip_range",
    "C75_clip_counts",
    "C75_mixture_fraction_not_clipped",
    "C75_sst_k_nonnegative_edge_scheme",
    "C75_bdf2_bounded_refuted",
    "C75_central_differencing_bounded_refuted"
   ],
   "note": "Exact linear solve, single global system. Meshes must be orthogonal if the non-orthogonal correction is switched on. The two _refuted theorems delimit the statement (BDF2, central differencing)."
  },
  {
   "property": "C76",
   "status": "proved",
   "theorems": [
    "C76_nearest_node",
    "C76_choice_decomposition_free",
    "C76_dist2_meaning",
    "C76_only_that_row_changes",
    "C76_unique_pressure",
    "C76_reference_value",
    "C76_replaced_row_holds",
    "C76_reference_does_not_affect_flow"
   ],
   "note": ""
  },
  {
   "property": "C77",
   "status": "partial",
   "theorems": [
    "C77_other_rows_unchanged",
    "C77_fringe_value_is_interpolated",
    "C77_scaling_positive",
    "C77_field_update",
    "C77_field_update_order",
    "C77_field_update_idempotent",
    "C77_field_update_bounded",
    "C77_uniform_field",
    "C77_linear_field",
    "C77_solved_fringe_bounded",
    "C77_update_order_refuted",
    "C77_rectangular_field_refuted",
    "C77_tall_field_overruns_refuted"
   ],
   "note": "Refuted parts: the explicit field update depends on the processing order when a donor node is itself a fringe node, and its gather buffer is indexed wrongly for fields with sizeRow different from sizeCol and sizeRow > 1 (overlapping or out of bounds)."
  },
  {
   "property": "C78",
   "status": "partial",
   "theorems": [
    "C78_reduced_box",
    "C78_overset_box_contains",
    "C78_overset_box_tight",
    "C78_aabb_cuts_everything_inside",
    "C78_cut_nodes_stay_inside",
    "C78_moved_box_contains",
    "C78_oriented_box_cut",
    "C78_oriented_box_centre_refuted",
    "C78_cylinder_cut",
    "C78_cylinder_centre_refuted",
    "C78_search_results_sorted",
    "C78_donor_is_the_best_candidate",
    "C78_donor_independent_of_rank_and_order",
    "C78_containing_element_is_a_candidate",
    "C78_donor_at_least_as_good",
    "C78_clipped_coordinates",
    "C78_clipping_needs_detailed_output_refuted"
   ],
   "note": "Refuted parts: the oriented box is displaced when the rotation centre is not the origin; the oriented cylinder ignores its own centre; clipping needs detailed output. Coarse search at its specification (C33 covers the parametric distance)."
  },
  {
   "property": "C79",
   "status": "partial",
   "theorems": [
    "C79_linear_field_exact_flux",
    "C79_uniform_field",
    "C79_upwind_carries_upstream_value",
    "C79_scalar_matrix_exact",
    "C79_diffusion_is_transport_without_flow",
    "C79_scalar_flux_antisymmetric",
    "C79_scalar_conservative",
    "C79_continuity_residual_is_stored_mass_flow",
    "C79_pressure_matrix_exact",
    "C79_smooth_mass_flow",
    "C79_mass_flow_antisymmetric",
    "C79_mass_conserved",
    "C79_sliding_mesh_conserves_mass_refuted",
    "C79_nonmatching_points_conserve_refuted",
    "C79_vof_upwind",
    "C79_vof_matrix_exact_when_upwinded",
    "C79_vof_matrix_exact_refuted",
    "C79_nodal_gradient_linear",
    "C79_nodal_gradient_conservative",
    "C79_png_linear",
    "C79_png_matrix_exact",
    "C79_png_penalty_stabilises_refuted",
    "C79_momentum_matrix_exact",
    "C79_linear_velocity_exact_flux",
    "C79_divergence_stress_refuted",
    "C79_momentum_flux_antisymmetric",
    "C79_momentum_conserved"
   ],
   "note": "Refuted parts: conservation on non-matching Gauss points and, on a moving interface with a density jump, of mass (the mesh velocity flux uses the current side's density only); the div(u) stress; the volume-of-fluid matrix without upwinding; the sign of the projected-gradient jump penalty. The VOF variants of the mass flow and continuity algorithms are not modelled."
  },
  {
   "property": "C80",
   "status": "partial",
   "theorems": [
    "C80_unmatched_points_kept",
    "C80_repeated_search_succeeds_iff",
    "C80_repeated_search_complete",
    "C80_best_opposing_face",
    "C80_result_independent_of_order",
    "C80_unmatched_point_stops_serial_run",
    "C80_unmatched_point_reported_refuted",
    "C80_dynamic_search_matches_every_point",
    "C80_search_distance_follows",
    "C80_search_distance_covers_face_refuted",
    "C80_ghost_lists_exact",
    "C80_ghosts_are_exactly_those_needed"
   ],
   "note": "Refuted parts: in parallel, without the dynamic tolerance, an unmatched point goes unreported when another rank's point has the same local number and hit a local face (it keeps a stale face); with several candidates the stored distance can end below that of the chosen face. stk's coarse search and change_ghosting enter at their specification; non-shared downward entities are not tracked."
  },
  {
   "property": "C81",
   "status": "partial",
   "theorems": [
    "C81_nearest_candidate_kept",
    "C81_containing_element_chosen",
    "C81_diagnostics_bound",
    "C81_transfer",
    "C81_order_irrelevant",
    "C81_clip",
    "C81_no_overshoot",
    "C81_linear_fields",
    "C81_box_contains_element",
    "C81_covered_point_tet",
    "C81_deck_exclusive",
    "C81_deck_contents",
    "C81_deck_clips",
    "C81_objectives",
    "C81_component_mismatch_refuted",
    "C81_example",
    "C81_reported_distance_refuted"
   ],
   "note": "Refuted parts: the maximum normalised distance reported after a transfer is taken over intermediate best candidates, so it can exceed one although every point lies in its element; a source field with fewer components than the target reads outside its storage. Donor elements are TET4/HEX8; stk's coarse search is any candidate map; the search is done once (not repeated for moving meshes)."
  },
  {
   "property": "C82",
   "status": "partial",
   "theorems": [
    "C82_norms",
    "C82_frequency",
    "C82_decomposition",
    "C82_ordering",
    "C82_exact",
    "C82_pointwise",
    "C82_scaling",
    "C82_no_nodes",
    "C82_exact_field",
    "C82_dof_listed_twice_refuted",
    "C82_load",
    "C82_missing_target",
    "C82_setup"
   ],
   "note": "Refuted part: a dof listed twice with two functions shares one exact field, so both rows are relative to the last function. A dof stored with fewer components on some part than elsewhere is outside the hypothesis (setup uses the maximum). With no active node the file shows -1e16 and 0/0."
  },
  {
   "property": "C83",
   "status": "partial",
   "theorems": [
    "C83_line",
    "C83_plane",
    "C83_plane_numbering",
    "C83_plane_two_rows_refuted",
    "C83_ring",
    "C83_ring_circle",
    "C83_ring_distinct",
    "C83_one_rank",
    "C83_no_probes",
    "C83_file",
    "C83_other_ranks",
    "C83_restart_appends",
    "C83_columns",
    "C83_restart_same",
    "C83_restart_redistributed_refuted",
    "C83_restart_count_changed_refuted",
    "C83_linear_profile"
   ],
   "note": "Refuted parts: a plane with two points in its second direction gets half the spacing (max(2, n-1)); after a restart, when the points of a probe are spread over several ranks each rank numbers its own from zero, and when the number of points in the input was changed, the old points are spaced by the new spacing. Moving meshes: probes stay where they are."
  },
  {
   "property": "C84",
   "status": "partial",
   "theorems": [
    "C84_elastic_force",
    "C84_elastic_conservative",
    "C84_elastic_newton",
    "C84_elastic_rigid_motion_no_force",
    "C84_elastic_patch",
    "C84_neo_force_partial",
    "C84_neo_conservative",
    "C84_neo_translation_no_force_3d",
    "C84_neo_law_objective",
    "C84_neo_rotation_force",
    "C84_neo_rigid_motion_refuted",
    "C84_neo_translation_force_2d",
    "C84_neo_rest_2d_refuted",
    "C84_inertia_force",
    "C84_inertia_newton",
    "C84_uniform_motion_no_inertia",
    "C84_acceleration_value",
    "C84_acceleration_refuted",
    "C84_two_state_inertia_refuted",
    "C84_pressure_load_total",
    "C84_uniform_pressure_load",
    "C84_lame_constants_swapped_refuted",
    "C84_shear_modulus_lost_refuted",
    "C84_mesh_velocity_linear",
    "C84_mesh_velocity_quadratic",
    "C84_div_mesh_velocity"
   ],
   "note": "Refuted parts: the neo-Hookean kernel counts the transposed gradient twice, so rotations are not force free, and in 2-D the body at rest is stressed (3/4 instead of 2/3); the inertia weights use dt/2 + dt_old instead of the mean of the two steps (2/3 of the acceleration with equal steps), and with two stored states they are not a second derivative; LAME_MU_ID is registered with the lambda field and vice versa. The neo-Hookean matrix is the lagged one, no Newton claim is made for it."
  },
  {
   "property": "C85",
   "status": "partial",
   "theorems": [
    "C85_diffusion_weak_form",
    "C85_diffusion_newton",
    "C85_diffusion_conservative",
    "C85_diffusion_symmetric",
    "C85_diffusion_energy",
    "C85_diffusion_positive",
    "C85_constant_no_diffusion",
    "C85_linear_gradient",
    "C85_advection_weak_form",
    "C85_advection_newton",
    "C85_advection_conservative",
    "C85_mass_weak_form",
    "C85_mass_newton",
    "C85_mass_symmetric",
    "C85_mass_energy",
    "C85_mass_positive",
    "C85_mass_total",
    "C85_heat_mass_weak_form",
    "C85_heat_mass_newton",
    "C85_steady_no_storage",
    "C85_continuity_weak_form",
    "C85_continuity_newton",
    "C85_continuity_conservative",
    "C85_pressure_matrix_symmetric_positive",
    "C85_no_stabilisation_on_consistent_gradient",
    "C85_png_weak_form",
    "C85_png_newton",
    "C85_png_total",
    "C85_momentum_inertia_weak_form",
    "C85_momentum_inertia_newton",
    "C85_body_force_total",
    "C85_momentum_advection_weak_form",
    "C85_momentum_advection_newton",
    "C85_momentum_advection_conservative",
    "C85_advection_consistent_with_continuity",
    "C85_viscous_weak_form_partial",
    "C85_divergence_stress_multiplied",
    "C85_viscous_conservative",
    "C85_viscous_newton_partial",
    "C85_viscous_symmetric",
    "C85_viscous_dissipation",
    "C85_viscous_positive",
    "C85_rigid_motion_no_viscous_force",
    "C85_elements_meet_hypotheses",
    "C85_open_continuity_weak_form",
    "C85_open_continuity_total",
    "C85_open_continuity_newton",
    "C85_open_penalty_vanishes",
    "C85_open_scalar_upwind",
    "C85_open_scalar_newton",
    "C85_open_scalar_consistent_with_continuity",
    "C85_flux_penalty_weak_form",
    "C85_flux_penalty_newton",
    "C85_flux_penalty_consistent",
    "C85_flux_penalty_uniform",
    "C85_inflow_weak_form",
    "C85_inflow_total",
    "C85_png_boundary_weak_form",
    "C85_png_boundary_total",
    "C85_png_integration_by_parts",
    "C85_open_momentum_flux",
    "C85_tangential_traction_has_no_normal_part",
    "C85_open_momentum_newton_partial",
    "C85_open_momentum_uniform",
    "C85_open_divergence_stress",
    "C85_open_divergence_stress_refuted",
    "C85_divergence_stress_refuted",
    "C85_tri6_normal",
    "C85_tri6_weights"
   ],
   "note": "Refuted parts: MomentumDiffFemKernel adds the -2/3 mu div(u) stress inside the column loop, once per element node, so with includeDivU it is multiplied by the number of nodes (every element with two or more nodes); MomentumOpenAdvDiffFemKernel adds sum_j d_j u_j n_j as a spurious tangential force. Newton exactness of the viscous and open kernels is proved without the divergence stress, which has no matrix entry. Green identity of the element quadrature is a hypothesis of the integration-by-parts theorem, verified for the line element."
  },
  {
   "property": "C86",
   "status": "partial",
   "theorems": [
    "C86_time_term",
    "C86_time_term_newton",
    "C86_time_term_steady",
    "C86_advection_residual",
    "C86_advection_conservative",
    "C86_advection_newton",
    "C86_flow_rate_without_stabilisation",
    "C86_uniform_advection",
    "C86_upwind_residual",
    "C86_upwind_conservative",
    "C86_limited_value_between_nodes",
    "C86_first_order_upstream_value",
    "C86_linear_field_extrapolated_exactly",
    "C86_upwind_uniform",
    "C86_upwind_newton_forward_partial",
    "C86_upwind_newton_refuted",
    "C86_advective_form",
    "C86_advective_form_newton",
    "C86_advective_form_uniform",
    "C86_advective_form_linear",
    "C86_divergence_correction",
    "C86_divergence_correction_newton",
    "C86_uniform_field_kept",
    "C86_uniform_shift_invariant",
    "C86_moving_mesh_term",
    "C86_moving_mesh_newton",
    "C86_moving_mesh_uniform",
    "C86_sharpening_is_divergence",
    "C86_sharpening_none_in_pure_phases",
    "C86_sharpening_none_at_rest",
    "C86_sharpening_phase_symmetric",
    "C86_sharpening_matrix_lagged_partial",
    "C86_evaporation_never_condenses",
    "C86_evaporation_none_in_pure_phase",
    "C86_evaporation_same_mass_rate",
    "C86_evaporation_linear_in_c_refuted",
    "C86_evaporation_without_interface_refuted",
    "C86_stabilisation_conservative",
    "C86_stabilisation_vanishes_with_residual",
    "C86_stabilisation_uniform",
    "C86_stabilisation_viscosity_bounded",
    "C86_stabilisation_flux",
    "C86_continuity_residual",
    "C86_continuity_conservative",
    "C86_continuity_newton",
    "C86_balanced_forces_no_flow",
    "C86_laplace_pressure_at_rest",
    "C86_pressure_level_irrelevant",
    "C86_evaporation_pushes_fluid_out_refuted",
    "C86_stabilisation_time",
    "C86_inflow_residual",
    "C86_inflow_uniform_velocity",
    "C86_open_residual",
    "C86_open_newton",
    "C86_open_balanced_no_flow",
    "C86_open_advection",
    "C86_open_advection_newton",
    "C86_open_advection_total",
    "C86_capillary_residual",
    "C86_capillary_conservative",
    "C86_capillary_newton",
    "C86_capillary_uniform_velocity",
    "C86_capillary_away_from_interface",
    "C86_capillary_tangential",
    "C86_capillary_viscosity",
    "C86_capillary_dissipates",
    "C86_momentum_sharpen_residual",
    "C86_momentum_sharpen_conservative",
    "C86_momentum_sharpen_newton",
    "C86_momentum_sharpen_pure_phase",
    "C86_clip",
    "C86_clip_counts",
    "C86_interface_normal_average",
    "C86_curvature_average",
    "C86_interface_normal_bounded",
    "C86_interface_normal_uniform",
    "C86_interface_normal_linear",
    "C86_phase_swap_normal",
    "C86_phase_swap_curvature",
    "C86_curvature_linear",
    "C86_planar_interface_no_curvature",
    "C86_smoothing_rhs",
    "C86_smoothing_conserves",
    "C86_smoothing_flux",
    "C86_smoothing_uniform",
    "C86_smoothing_linear",
    "C86_smallest_length",
    "C86_wetted_wall"
   ],
   "note": "Refuted parts: the upwind kernels place the right-hand node sensitivity in the left column (matrix exact only for flow from left to right); the evaporation gradient accumulates a partially interpolated value, so a uniform volume fraction evaporates, the evaporation constant enters squared, and in the continuity equation it has the wrong sign and no projected time scale. The sharpening matrix is lagged. The mass-flow-rate algorithm of this scheme, the pressure-area-weighted gradient and non-conformal interfaces are not modelled here."
  },
  {
   "property": "C87",
   "status": "partial",
   "theorems": [
    "C87_scalar_residual",
    "C87_scalar_ke_residual",
    "C87_scalar_conservative",
    "C87_scalar_ke_conservative",
    "C87_scalar_newton_coefficient_held",
    "C87_scalar_ke_newton",
    "C87_coefficient_bounds",
    "C87_no_residual_no_stabilisation",
    "C87_still_fluid_no_stabilisation",
    "C87_uniform_field",
    "C87_fourth_order_keeps_linear_fields",
    "C87_second_order_flux_of_linear_field",
    "C87_linearised_residual_level",
    "C87_independent_of_level",
    "C87_linearised_residual_uniform_flow",
    "C87_equation_residual_uniform",
    "C87_momentum_residual",
    "C87_momentum_ke_residual",
    "C87_momentum_grad_residual",
    "C87_momentum_conservative",
    "C87_momentum_newton_coefficient_held",
    "C87_momentum_uniform",
    "C87_momentum_fourth_order_linear",
    "C87_ke_coefficient_bounds",
    "C87_fine_scale_pressure",
    "C87_linear_pressure_no_stabilisation",
    "C87_sij_residual",
    "C87_sij_conservative",
    "C87_sij_rotation_free",
    "C87_sij_divergence_excess",
    "C87_sij_divergence_counted_per_node_refuted",
    "C87_residual_is_transport_equation",
    "C87_momentum_residual_viscous",
    "C87_fem_residual_level",
    "C87_fem_residual_uniform"
   ],
   "note": "MomentumNSOSijElemKernel adds the -2/3 div(u) stress inside the loop over the element's nodes, so with includeDivU it is counted nodesPerElement times (C87_sij_divergence_excess gives the excess for every element, the _refuted theorem a triangle where it is nonzero). Matrices are exact with the coefficient held."
  },
  {
   "property": "C88",
   "status": "partial",
   "theorems": [
    "C88_buoyancy_force",
    "C88_buoyancy_total_weight",
    "C88_buoyancy_reference_state",
    "C88_buoyancy_node",
    "C88_buoyancy_lumped_is_nodal",
    "C88_boussinesq_is_linearised_buoyancy",
    "C88_boussinesq_node",
    "C88_warm_fluid_rises",
    "C88_body_force_total",
    "C88_body_force_node",
    "C88_volumetric_source_total",
    "C88_rodi_element_share_of_nodal",
    "C88_rodi_sign",
    "C88_cross_dot",
    "C88_ksgs_buoyancy_source",
    "C88_ksgs_buoyancy_unstable_feeds",
    "C88_ksgs_buoyancy_stable_drains",
    "C88_ksgs_buoyancy_uniform_density",
    "C88_actuator_force",
    "C88_viscous_work_is_stress_power",
    "C88_viscous_work_heats",
    "C88_rigid_motion_makes_no_heat",
    "C88_uniform_expansion_makes_no_heat",
    "C88_work_terms_explicit",
    "C88_pressure_rate_exact_for_linear_history",
    "C88_pressure_rate_second_order_refuted",
    "C88_compressible_matrix_backward_euler",
    "C88_compressible_matrix_bdf2",
    "C88_compressible_matrix_bdf2_exact_refuted",
    "C88_radiation_source_temperature",
    "C88_radiation_source_enthalpy",
    "C88_radiation_equilibrium",
    "C88_radiation_matrix_stabilises",
    "C88_actuator_node",
    "C88_actuator_node_own_coefficient_refuted",
    "C88_case_buoyancy",
    "C88_case_shear_heats"
   ],
   "note": "Refuted: the low-speed compressibility matrix lacks a factor gamma1 under BDF2 (C88_compressible_matrix_bdf2 gives the exact relation); the pressure rate of the enthalpy equation is always a backward-Euler difference; the nodal actuator algorithm uses the first component of actuator_source_lhs for every row."
  },
  {
   "property": "C89",
   "status": "partial",
   "theorems": [
    "C89_robin_wall_flux",
    "C89_robin_wall_newton",
    "C89_robin_equilibrium",
    "C89_robin_uniform_total",
    "C89_irradiation_flux",
    "C89_irradiation_matrix_is_derivative",
    "C89_radiative_equilibrium",
    "C89_irradiation_monotone",
    "C89_flux_bc",
    "C89_flux_bc_total",
    "C89_normal_gradient_bc",
    "C89_specified_fluxes_leave_matrix",
    "C89_penalty_flux",
    "C89_penalty_newton",
    "C89_penalty_consistent",
    "C89_points_split_their_flux",
    "C89_edge_points_split_their_flux",
    "C89_newtons_law",
    "C89_flux_times_area",
    "C89_zero_temperature_refuted",
    "C89_elem_point_flux",
    "C89_elem_total_heat",
    "C89_elem_linear_temperature",
    "C89_elem_coefficient",
    "C89_edge_coefficient_and_reference",
    "C89_edge_linear_flux",
    "C89_edge_orthogonal_exact",
    "C89_edge_correction_exact_refuted",
    "C89_coupling_closed_form",
    "C89_coupling_nonneg_and_monotone",
    "C89_coupling_bounds",
    "C89_wall_example"
   ],
   "note": "Refuted: the edge form subtracts its non-orthogonal correction where it should be added, so the correction doubles the error of a linear temperature on a skewed edge (C89_edge_linear_flux gives the value for every edge); a wall node at temperature zero divides by zero."
  },
  {
   "property": "C90",
   "status": "partial",
   "theorems": [
    "C90_machine_on_existing_rank",
    "C90_points_divide_line",
    "C90_single_point_at_tail",
    "C90_rotation_is_rigid",
    "C90_rotation_starts_and_returns",
    "C90_points_stay_centred",
    "C90_planar_line_keeps_length_refuted",
    "C90_velocity_tangent_with_right_speed",
    "C90_velocity_is_minus_motion",
    "C90_velocity_is_motion_refuted",
    "C90_drag_factor_bounds",
    "C90_drag_factor_limits",
    "C90_drag_factor_low",
    "C90_drag_opposes_slip",
    "C90_no_slip_no_force",
    "C90_fast_flow_drag",
    "C90_weight_value",
    "C90_weight_decays",
    "C90_decay_radius_sets_width_refuted",
    "C90_last_point_wins",
    "C90_unreached_node",
    "C90_source_of_separate_points",
    "C90_overlapping_points_add_refuted",
    "C90_independent_of_ranks_refuted",
    "C90_matrix_total",
    "C90_matrix_nonneg",
    "C90_best_element_nearest",
    "C90_reached_nodes",
    "C90_example"
   ],
   "note": "Refuted: the velocity given to the drag law is minus the velocity of the point's motion (C90_velocity_is_minus_motion); in two dimensions the y-z rotation shrinks the line; the Gaussian's exponent is -r*r/eps*eps = -r^2 so the decay radius does not set its width; a node's source is assigned, not added, so of several points of one rank reaching a node only the last counts and the result depends on the distribution over ranks. Not modelled: density is missing from the fields communicated to ghosted elements."
  },
  {
   "property": "C91",
   "status": "partial",
   "theorems": [
    "C91_green_gauss",
    "C91_rank_independent",
    "C91_order_independent",
    "C91_constant",
    "C91_linear_exact",
    "C91_superposition",
    "C91_total_is_boundary_integral",
    "C91_open_dynamic_pressure",
    "C91_open_far_nodes",
    "C91_planar_gauss",
    "C91_planar_closed",
    "C91_linear_exact_on_planar_meshes",
    "C91_constant_on_planar_meshes",
    "C91_vector_gradient",
    "C91_vector_gradient_edges",
    "C91_vector_gradient_edges_scalar",
    "C91_trace_is_net_outflow",
    "C91_linear_velocity_on_planar_meshes",
    "C91_png_residual",
    "C91_png_matrix",
    "C91_png_newton",
    "C91_png_converges",
    "C91_png_unique",
    "C91_png_lumped",
    "C91_png_linear_weak",
    "C91_png_linear_exact_on_planar_meshes",
    "C91_area_weighted_code",
    "C91_area_weighted_partial",
    "C91_boundary_localisation_refuted",
    "C91_area_weighted_between",
    "C91_balanced_force",
    "C91_linear_pressure",
    "C91_override"
   ],
   "note": "Refuted for the balanced-force boundary gradient: AssembleNodalGradPAWBoundaryAlgorithm.C:261 reads the volume fraction of the element's node number ic instead of face node ic, so a localised surface tension uses wrong nodes; C91_area_weighted_partial gives the cases where the intended value results and C91_area_weighted_code what is computed in general. The planar exactness theorems are for conforming meshes of Tri3/Quad4 (3-D elements: the general theorem with Gauss's identity as hypothesis)."
  },
  {
   "property": "C92",
   "status": "partial",
   "theorems": [
    "C92_stencil",
    "C92_distribution_independent",
    "C92_own_elements",
    "C92_larger_filter",
    "C92_reach",
    "C92_filtered_value",
    "C92_filter_bounded",
    "C92_constants_kept",
    "C92_filter_linear",
    "C92_linear_field",
    "C92_residual_value",
    "C92_residual_linear_elements",
    "C92_residual_volume_refuted",
    "C92_uniform_stream",
    "C92_buoyancy"
   ],
   "note": "Refuted for elements with several volume points per node: the residual uses p_scvol[nn] (volume number of the node) instead of p_scvol[ip] (C92_residual_volume_refuted; equal for all linear elements, C92_residual_linear_elements). Not modelled: reading the block (load), state handling of fields; stencils are found once at initialisation and not redone on a moving mesh."
  },
  {
   "property": "C93",
   "status": "partial",
   "theorems": [
    "C93_velocity_change_indicator",
    "C93_no_exception",
    "C93_linear_velocity_indicator",
    "C93_uniform_velocity_zero",
    "C93_vorticity_indicator",
    "C93_irrotational_zero",
    "C93_planar_vorticity_refuted",
    "C93_edge_length_refuted",
    "C93_scalar_indicator",
    "C93_scalar_linear",
    "C93_scalar_vorticity_zero",
    "C93_pstab_elem_value",
    "C93_pstab_elem_zero_iff",
    "C93_pstab_elem_linear",
    "C93_simple_gradient_elem",
    "C93_pstab_edge_linear",
    "C93_no_correction_refuted",
    "C93_limiter_bounds",
    "C93_limiter_linear_refuted",
    "C93_element_courant",
    "C93_element_reynolds",
    "C93_global_courant",
    "C93_courant_partition",
    "C93_courant_scales",
    "C93_controller_hits_target",
    "C93_edge_courant",
    "C93_gas_courant",
    "C93_translation_invariant",
    "C93_edge_example",
    "C93_fem_courant_box",
    "C93_fem_reynolds_cube",
    "C93_no_elements_refuted"
   ],
   "note": "Refuted: in two dimensions the vorticity option drops the only component a plane flow has and reads the next node's gradient (C93_planar_vorticity_refuted); the edge length of vorticity_dx takes a root per component (C93_edge_length_refuted); without non-orthogonal correction the edge stabilisation indicator drops the whole nodal gradient (C93_no_correction_refuted); the limiter indicator uses four times instead of twice the projected difference, so a linear field gets 1/4 (C93_limiter_linear_refuted); a realm without active elements has Courant number -1 and the controller answers with a negative step (C93_no_elements_refuted). The scalar indicator is always zero for vorticity options; the velocity indicator uses the sum, not the mean, of the two gradients and two roots. Not modelled: registration of the algorithms, adaptivity itself."
  },
  {
   "property": "C94",
   "status": "partial",
   "theorems": [
    "C94_plane_decomposition",
    "C94_space_decomposition",
    "C94_loop_left_only_diagonal",
    "C94_diagonal_kept",
    "C94_reconstruct_decomposition",
    "C94_eigenvalues_sorted",
    "C94_perturbed_eigenvalues",
    "C94_realizable",
    "C94_no_perturbation",
    "C94_unperturbed_edge_stress",
    "C94_rotation_removes_entry_refuted",
    "C94_pack_decomposition",
    "C94_pack_lane_is_scalar",
    "C94_pack_diagonal_refuted",
    "C94_eigen_edge_conservative",
    "C94_eigen_matrix_is_exact",
    "C94_flux_of_linear_scalar",
    "C94_stress_diffuses",
    "C94_plane_stress_determined_refuted"
   ],
   "note": "Refuted: the quaternion product is formed in place, so a rotation does not remove the entry it is meant for (C94_rotation_removes_entry_refuted; the iteration then needs more passes and its convergence in space is not proved, only that it stops early with a diagonal D and that A = Q D Q^T holds after any number of passes); the pack version treats equal largest entries as an already diagonal matrix (C94_pack_diagonal_refuted); in two dimensions the third row of the stress is never set, so the result depends on the edge visited before (C94_plane_stress_determined_refuted). Zero strain divides by zero; the laminar non-orthogonal correction ignores its option. Not modelled: floating-point exits."
  },
  {
   "property": "C95",
   "status": "proved",
   "theorems": [
    "C95_scalar_agrees",
    "C95_scalar_diff_agrees",
    "C95_continuity_agrees",
    "C95_momentum_agrees",
    "C95_scalar_open_agrees",
    "C95_continuity_open_agrees",
    "C95_momentum_open_agrees",
    "C95_symmetry_agrees",
    "C95_conservative",
    "C95_exact_linearisation",
    "C95_boundary_linearisation",
    "C95_gradient_choice",
    "C95_uniform_scalar",
    "C95_pressure_level_irrelevant",
    "C95_example"
   ],
   "note": "The open-boundary scalar agreement needs consistent node maps of the face (face_ok: the point's nearest element node is the nearest face node), because the legacy code extrapolates from the element's nearest node and the kernel from the face's. The defects recorded for the kernels (C72: dilatation stress and cross-term sign at open and symmetry faces) are therefore shared by the legacy algorithms."
  },
  {
   "property": "C96",
   "status": "partial",
   "theorems": [
    "C96_body_load",
    "C96_load_decomposition_free",
    "C96_tether_moves_with_body",
    "C96_tether_is_a_spring",
    "C96_slack_tether",
    "C96_tether_defined",
    "C96_tether_load_acts_at_anchor",
    "C96_tether_conservative",
    "C96_tethers_translation_free",
    "C96_archimedes",
    "C96_constant_load_acceleration",
    "C96_balanced_body_keeps_velocity",
    "C96_first_step_newton_refuted",
    "C96_nodal_force_partial",
    "C96_nodal_force_of_present_flow_refuted",
    "C96_nodal_force_complete_refuted",
    "C96_tethers_read",
    "C96_tethers_wrong_count",
    "C96_hypotheses_met"
   ],
   "note": "Defects (refuted theorems): the driver zeroes only the nodal area, so without the surface post-processing the nodal pressure_force, tau_wall and yplus grow with every step; they are not summed over ranks, so nodes on a rank border show only part; the first step of a body from rest accelerates with half the force (the acceleration is under-relaxed). A tether of zero length divides by zero. The body's angular update is C12."
  },
  {
   "property": "C97",
   "status": "partial",
   "theorems": [
    "C97_exchange_point_at_distance",
    "C97_points_fill_the_layer",
    "C97_tridiagonal_solver_solves",
    "C97_viscosity_rises_from_wall",
    "C97_profile_carries_one_stress",
    "C97_profile_monotone",
    "C97_wall_stress_bounds",
    "C97_wall_stress_is_layer_stress_refuted",
    "C97_friction_velocity_of_layer",
    "C97_wall_stress_exists",
    "C97_no_slip_no_stress",
    "C97_small_guess_kept_refuted",
    "C97_projected_wall_force",
    "C97_layer_traction",
    "C97_log_law_traction",
    "C97_rest_divides_by_zero_refuted",
    "C97_reported_force_is_reaction",
    "C97_layer_points_rise",
    "C97_projected_friction_velocity"
   ],
   "note": "Refuted parts: the stress handed on is muWall times the first velocity difference, strictly below the stress the profile carries whenever the first segment is turbulent (C97_wall_stress_is_layer_stress_refuted); the convergence test is absolute so a guess below 1e-6 is returned as it stands, even with no slip (C97_small_guess_kept_refuted); with the one-dimensional model an exchange point at rest relative to the wall makes the momentum rows 0/0 (C97_rest_divides_by_zero_refuted). Not proved: that the fixed-point iteration converges within 1000 passes (only that a solution exists and that a reported convergence is genuine). The search for the element containing the exchange point is that of C81 and is not repeated."
  },
  {
   "property": "C98",
   "status": "partial",
   "theorems": [
    "C98_transfer_input_checked",
    "C98_every_transfer_attached_once",
    "C98_unknown_names_refused",
    "C98_run_schedule",
    "C98_realm_pair_is_two_names",
    "C98_part_pair_is_two_names",
    "C98_variable_pairs_as_written",
    "C98_coupling_physics_variables",
    "C98_execution_counts",
    "C98_carries_the_solution_just_computed",
    "C98_output_written_with_fresh_data",
    "C98_declared_transfers_run_refuted",
    "C98_output_written_with_fresh_data_refuted",
    "C98_restart_kept_without_initialization",
    "C98_restart_kept_refuted"
   ],
   "note": "Refuted parts: a transfer whose executing realm is not named in the integrator's realms list is accepted and never run (C98_declared_transfers_run_refuted); the input/output test is count % output_frequency and ignores output_start, so when the start is not a multiple of the frequency results are written with fields transferred in an earlier step (C98_output_written_with_fresh_data_refuted; proved fresh when it is a multiple); initialization transfers run after the restart is read, again on every restart, and replace restored fields (C98_restart_kept_refuted; proved kept where no transfer writes). Output forced by a wall-clock limit is left out; frequency 0 is a division by zero in process_io_transfer."
  },
  {
   "property": "C99",
   "status": "proved",
   "theorems": [
    "C99_every_element_assembled_once",
    "C99_assembly_independent_of_traversal",
    "C99_face_runs_partition",
    "C99_every_face_assembled_once",
    "C99_one_algorithm_per_key",
    "C99_entity_selected_once",
    "C99_registration_order_irrelevant",
    "C99_prescribed_rows",
    "C99_constrained_rows",
    "C99_free_rows",
    "C99_algorithm_order_irrelevant",
    "C99_boundary_value_reached",
    "C99_reference_pressure_prevails",
    "C99_last_condition_wins",
    "C99_untouched_boundary_data",
    "C99_populate_idempotent",
    "C99_input_order_irrelevant_when_disjoint",
    "C99_corner_value_independent_of_order_refuted",
    "C99_greatest_kind_prevails",
    "C99_prescribed_value",
    "C99_last_of_input_prevails_refuted"
   ],
   "note": "Refuted parts: a corner shared by two conditions on one field takes the value of the one listed last (C99_corner_value_independent_of_order_refuted); where kinds write different fields (volume of fluid, turbulent dissipation) it is not the last of the input but the greatest kind that prevails (C99_last_of_input_prevails_refuted). Kernels are any lanewise additive functions; Kokkos loops sequential; the row search of sumInto and the export to owners are C14-C16. Not in the model: the face algorithm does not exclude inactive parts while the element algorithm does, and the kernels of a named algorithm are those requested when its first part is registered."
  },
  {
   "property": "C100",
   "status": "partial",
   "theorems": [
    "C100_mass_fractions_sum_to_one",
    "C100_solved_species_within_bounds",
    "C100_species_order_irrelevant",
    "C100_converged_fields_kept",
    "C100_last_species_nonnegative_refuted",
    "C100_absent_species_stays_absent_refuted",
    "C100_aura_copies_sum_to_one_refuted",
    "C100_single_species_residual_undefined",
    "C100_residual_is_mean",
    "C100_keps_increment_accepted",
    "C100_keps_update_positive",
    "C100_keps_reset_consistent",
    "C100_keps_good_value_kept",
    "C100_keps_initial_nonnegative",
    "C100_keps_initial_positive_refuted",
    "C100_wall_dissipation_is_area_mean",
    "C100_wall_dissipation_between",
    "C100_wall_dissipation_order_irrelevant",
    "C100_max_length_is_longest_edge",
    "C100_max_length_nonnegative",
    "C100_max_length_same_edges",
    "C100_enthalpy_coefficient"
   ],
   "note": "Refuted: the last species can become negative (the others are clipped one by one), an absent species becomes 1e-16, aura copies are neither clipped nor completed, and an initial k = epsilon = 0 keeps epsilon 0. With one species the averaged residual divides by zero. The linear solve is an arbitrary function; parallel and periodic sums are C14 and C20."
  },
  {
   "property": "C101",
   "status": "partial",
   "theorems": [
    "C101_stored_flow_is_assembled",
    "C101_mass_flow_is_density_times_volume_flow",
    "C101_balanced_flow_is_velocity",
    "C101_time_scale_irrelevant_when_balanced",
    "C101_open_stored_flow_is_assembled",
    "C101_open_mass_flow",
    "C101_open_flow_is_assembled_refuted",
    "C101_uniform_fraction_stays",
    "C101_pressure_solved_keeps_uniform_fraction",
    "C101_inflow_total",
    "C101_inflow_matches_pressure_equation",
    "C101_interface_residual_is_stored_flow",
    "C101_interface_matrix_exact",
    "C101_interface_flow_antisymmetric",
    "C101_interface_conserves_volume",
    "C101_interface_smooth_flow",
    "C101_interface_balanced_no_flow_refuted",
    "C101_interface_balanced_with_opposite_sign"
   ],
   "note": "Refuted: (1) ComputeMdotVofElemOpenAlgorithm.C:306 reads the volume fraction gathered over the element with the face-node counter, so with localised surface tension the stored open flow is not the assembled one (proved equal for default exponents, uniform fraction, or faces whose nodes come first); (2) across a non-conformal interface surface tension enters with the wrong sign, so a balanced fluid at rest is set in motion there (balance proved for the opposite sign)."
  },
  {
   "property": "C102",
   "status": "partial",
   "theorems": [
    "C102_wall_values",
    "C102_wall_flags",
    "C102_wall_emissivity_flag_refuted",
    "C102_wall_quantities",
    "C102_inflow_values",
    "C102_inflow_flags",
    "C102_open_values_partial",
    "C102_open_dissipation_refuted",
    "C102_open_dissipation_never_read",
    "C102_overset_values",
    "C102_overset_missing_rejected",
    "C102_nonconformal_values",
    "C102_wall_accepted",
    "C102_keyword_order_irrelevant",
    "C102_unknown_keyword_reported_refuted",
    "C102_kind_of_condition",
    "C102_one_kind",
    "C102_no_kind_rejected",
    "C102_conditions_in_order",
    "C102_misplaced_function_rejected",
    "C102_wall_before_inflow",
    "C102_thermal_wall_decision",
    "C102_thermal_wall_function",
    "C102_irradiation_needs_emissivity_refuted",
    "C102_every_thermal_datum_used_refuted",
    "C102_coefficient_of_one_kind",
    "C102_coefficient_of_each_wall_refuted",
    "C102_last_initial_condition_wins",
    "C102_untargeted_nodes_keep_their_value",
    "C102_solver_of_equation",
    "C102_property_of_name",
    "C102_value_meaning",
    "C102_one_name",
    "C102_targets",
    "C102_pair_roles",
    "C102_initial_values",
    "C102_comma_targets_rejected"
   ],
   "note": "Refuted: an open boundary's turbulent_dissipation is never read (NaluParsing.C:1085 tests for \"turbulent_dissipation_\"); the check \"irradiation without emissivity\" reads emissSpec_, which no constructor initialises; a heat flux next to a temperature is silently dropped; a convective and a Robin wall in one solid share one WALL_CHT algorithm that uses the first one's coefficient field (HeatCondEquationSystem.C 944-960); misspelled keywords are silently ignored."
  },
  {
   "property": "C103",
   "status": "partial",
   "theorems": [
    "C103_inviscid_flux_is_the_interior_flux",
    "C103_inviscid_donor",
    "C103_uniform_stream_flux",
    "C103_uniform_stream_undisturbed",
    "C103_mass_flux_antisymmetric",
    "C103_momentum_flux_antisymmetric",
    "C103_energy_flux_antisymmetric",
    "C103_mass_conserved",
    "C103_momentum_conserved_partial",
    "C103_energy_conserved_partial",
    "C103_linear_temperature_conducted_exactly",
    "C103_linear_velocity_exact_stress_refuted",
    "C103_momentum_conserved_refuted",
    "C103_energy_conserved_refuted",
    "C103_uniform_velocity_no_viscous_force_refuted",
    "C103_gas_at_rest_on_moving_mesh_refuted",
    "C103_uniform_stream_any_faces_refuted"
   ],
   "note": "Mass conservation, the inviscid flux, uniform streams and conduction proved. Refuted: the velocity gradient is accumulated with the derivative direction of the component (457-492), so shear carries no traction; the isotropic stress of the opposing side is taken with the current normal, so momentum is conserved only with equal dilatation stresses; off-diagonal entries of the two stress arrays are never set back, so energy is conserved only if they are clean and unused; the momentum penalty acts on momentum, not velocity; the opposing Mach number does not subtract the mesh velocity; opposing vectors are gathered with the node count of the current face, so faces with different node counts read wrong components."
  },
  {
   "property": "C104",
   "status": "partial",
   "theorems": [
    "C104_hybrid_momentum_conserved",
    "C104_hybrid_kernel_additive",
    "C104_hybrid_matrix_exact",
    "C104_hybrid_force_partial",
    "C104_isotropic_hybrid_is_eddy_viscosity",
    "C104_uniform_velocity_no_hybrid_stress",
    "C104_rigid_rotation_no_hybrid_stress",
    "C104_linear_velocity_hybrid_stress",
    "C104_tke_pressure_once_refuted",
    "C104_rotation_any_tensor_refuted",
    "C104_tke_source_total",
    "C104_des_element_agrees_with_nodal",
    "C104_des_production_limited",
    "C104_ksgs_production_limited",
    "C104_ksgs_matrix_is_derivative",
    "C104_edge_diffusion_is_transport_without_flow",
    "C104_edge_diffusion_conserves",
    "C104_edge_diffusion_matrix_exact",
    "C104_edge_diffusion_linear_exact",
    "C104_edge_diffusion_signs",
    "C104_case"
   ],
   "note": "Conservation, exact matrices, linear fields, limits, agreement with the nodal sources and edge diffusion proved. Refuted: the pressure of the unresolved motion is added once per node of the element instead of once; an anisotropic tensor resists rigid rotation. The DES kernel's matrix is 2/3 of the nodal source's; the low-Reynolds part of the design-order Ksgs kernel has no matrix counterpart; the hybrid kernel is included but never registered, so no input selects it."
  },
  {
   "property": "C105",
   "status": "partial",
   "theorems": [
    "C105_destination_is_least_loaded",
    "C105_round_keeps_owners_valid",
    "C105_private_nodes_stay",
    "C105_minimum_never_drops",
    "C105_single_giver_never_worse",
    "C105_balance_keeps_owners_valid",
    "C105_two_processes_improve",
    "C105_fixed_point",
    "C105_exchange_matches",
    "C105_destinations_known",
    "C105_target",
    "C105_target_meaning",
    "C105_balancing_settles_refuted",
    "C105_round_never_worse_refuted",
    "C105_option",
    "C105_case"
   ],
   "note": "Valid ownership, conservation, monotone minimum, fixed points, matching exchange, target and the one-giver/two-process bound on the maximum proved. Refuted: balancing need not settle (two full and two empty processes that hold all nodes swap them for ever) and a round can make the load factor worse (three processes give to the same fourth). The quotients of counts are compared exactly; STK's change_entity_owner is assumed to do what it documents."
  },
  {
   "property": "C106",
   "status": "partial",
   "theorems": [
    "C106_budget_covers_views",
    "C106_scratch_fits",
    "C106_bytes_suffice",
    "C106_bytes_suffice_face",
    "C106_views_disjoint",
    "C106_requested_views_exist",
    "C106_accepted",
    "C106_results_uncontested",
    "C106_rivals_refused_refuted",
    "C106_gij_of_both_refuted",
    "C106_field_view_matches",
    "C106_second_size_one_refuted",
    "C106_field_registered",
    "C106_conflicting_size_refused",
    "C106_same_shape_refuted",
    "C106_case"
   ],
   "note": "Budget, disjointness, existence and extents of views, acceptance, registration and uncontested results proved. Refuted: requests that share an array (shifted and plain FEM gradient, SCS and FEM metric tensor) are meant to be refused but the check asks only numFemIp > 0, which always holds, so one kernel reads the other's data; add_*_field with one size does not compare the second, so a kernel can be handed a view of the wrong rank; a tensor request with second size 1 makes a view of another rank than the gather asks for. Space added by the allocator for alignment is not modelled."
  },
  {
   "property": "C107",
   "status": "partial",
   "theorems": [
    "C107_every_point",
    "C107_two_dimensional_storage_refuted",
    "C107_constant",
    "C107_constant_enough_values",
    "C107_plug_no_slip",
    "C107_plug_bounds",
    "C107_plug_periodic",
    "C107_pulse",
    "C107_fraction_ranges",
    "C107_block",
    "C107_wave",
    "C107_flat_interface",
    "C107_wavy_interface_height_refuted",
    "C107_rayleigh_taylor_range",
    "C107_rayleigh_taylor_monotone",
    "C107_rayleigh_taylor_no_jump",
    "C107_rayleigh_taylor_height_refuted",
    "C107_ramp",
    "C107_ramp_too_few_refuted",
    "C107_cylinder_angle",
    "C107_table_inside",
    "C107_table_outside",
    "C107_table_range",
    "C107_cylinder_temperature",
    "C107_cylinder_measured",
    "C107_cylinder_closes",
    "C107_vortex",
    "C107_vortex_height",
    "C107_boundary_layer_wall",
    "C107_boundary_layer_bounds",
    "C107_sine_pipe",
    "C107_sine_channel",
    "C107_boundary_layer_divergence_free",
    "C107_vortex_divergence_free",
    "C107_puff_advected",
    "C107_puff_equation",
    "C107_puff_range",
    "C107_gaussian",
    "C107_spheres_boundary",
    "C107_spheres_conduction",
    "C107_duct_momentum",
    "C107_duct_no_slip",
    "C107_duct_symmetric",
    "C107_duct_side_walls_partial"
   ],
   "note": "Refuted: a three-component profile laid over a two-component velocity writes beyond the field's storage; FixedHeight forgets the given height as soon as a wave amplitude is given; the Rayleigh-Taylor layer is monotone and without jumps only when its middle stands at an odd multiple of its thickness (as by default) - around height 0 it is upside down; a displacement ramp with fewer parameters than components reads beyond its list. Partial: on the side walls of the 1:2 duct the remaining velocity is shown to be the tail of the parabola's Fourier series, its size is not bounded. The plug's direction parameters (a permutation) are fixed to their defaults; std::erf is any monotone odd function into [-1,1]; cylinder axis itself (0/0) is excluded; boundary-layer and vortex loops advance the coordinates by the field size, equal to the dimension for the velocities they are used for."
  },
  {
   "property": "C108",
   "status": "partial",
   "theorems": [
    "C108_every_property_supplied",
    "C108_nothing_else",
    "C108_enthalpy_consistent",
    "C108_missing_specification_rejected",
    "C108_gamma_gives_both_heats",
    "C108_one_block_is_alike",
    "C108_full_blocks_are_alike",
    "C108_constants_leak_refuted",
    "C108_second_table_refuted",
    "C108_species_constants_zero_refuted",
    "C108_isothermal_ignores_pressure_refuted",
    "C108_mixture_pressure_refused",
    "C108_nonvacuous"
   ],
   "note": "Proved when each reference constant is given by all blocks or by none (one block always qualifies) and at nodes where the divisions make sense. Refuted: otherwise a block without its own reference constant silently takes that of the block before it; the table file of a second block is never opened; constants given per species for anything but the specific heat of a run with enthalpy become zero; a uniform isothermal gas asked to be acoustically compressible ignores the pressure. When two specifications fill the same field on the same part (heat ratio and specific heat), both are registered and the theorem says each is asked for, not which comes last. Part lookup, the table's auxiliary variable and the evaluation of a table are not modelled."
  },
  {
   "property": "C109",
   "status": "partial",
   "theorems": [
    "C109_in_step",
    "C109_step_adds_the_increments",
    "C109_history_in_step",
    "C109_fresh_run",
    "C109_restart_needs_only_the_unknown",
    "C109_nothing_else_written",
    "C109_boundary_data_lost_refuted",
    "C109_restart_initial_velocity_refuted",
    "C109_nonvacuous"
   ],
   "note": "Refuted: what boundary conditions or transfers write into velocity and pressure during a step never reaches the coupled unknown and is overwritten (noted by the authors as a FIXME); at a restart the start-up work uses the velocity in memory instead of the saved one. The kernel that would assemble the coupled system throws \"not implemented\", so increments are arbitrary. One bucket of nodes; buckets do not interact."
  },
  {
   "property": "C110",
   "status": "proved",
   "theorems": [
    "C110_advecting_flux_is_balanced",
    "C110_uniform_flow_feels_no_source",
    "C110_changed_time_scale",
    "C110_projection",
    "C110_lagged_velocity",
    "C110_total_correction",
    "C110_first_call",
    "C110_nonvacuous"
   ],
   "note": "Density and geometry are those of one solve_and_update; the gradient projection is any function of the pressure; open-boundary rows are not covered, boundaries with a given flux enter as a right-hand side. When the projection time scale changes between solve and use, the balance is broken by an exact amount, proved (C110_changed_time_scale)."
  },
  {
   "property": "C111",
   "status": "partial",
   "theorems": [
    "C111_volume_exact",
    "C111_total_area",
    "C111_face_above",
    "C111_face_right",
    "C111_faces_join_neighbours",
    "C111_centre_closed",
    "C111_face_gradients",
    "C111_volume_gradients_partial",
    "C111_volume_gradients_refuted",
    "C111_nonvacuous",
    "C111_points_inside",
    "C111_side_points",
    "C111_opposing",
    "C111_sides_nonvacuous",
    "C111_green_gauss",
    "C111_green_gauss_nonvacuous",
    "C111_side_element",
    "C111_green_gauss_every_node",
    "C111_every_node_closed",
    "C111_several_sides_refuted",
    "C111_every_node_nonvacuous",
    "C111_green_gauss_any_field"
   ],
   "note": "Refuted in part: the sub-volume grad_op writes only the first 24 (the number of face points) of the 36 points, so gradients at the points of the three top nodes are whatever the buffer held, in every element (C111_volume_gradients_refuted); proved for the 24 written (C111_volume_gradients_partial). Real arithmetic, degenerate points excluded from the gradient statement by the code's own threshold. Edge32DSCS::determinant given several sides overwrites one side's area vectors with the next's (C111_several_sides_refuted; callers pass one). The points on the sides and the faces opposite to them (set_boundary_info) are covered in QuadP2_Props2. Shifted points and the 3-D counterpart are not."
  }
 ]
}