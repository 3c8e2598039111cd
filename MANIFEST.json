{
 "claims": [
  {
   "property": "C01",
   "status": "proved",
   "theorems": [
    "kernel_df_ddf_are_derivatives"
   ],
   "note": "All five kernels, exact reals; autodiff kernels via dual numbers."
  },
  {
   "property": "C02",
   "status": "proved",
   "theorems": [
    "kernel_vanishes_beyond_radius",
    "kernel_is_normalised_weight",
    "interpolating_kernel_positive_inside",
    "interpolating_kernel_bounded_refuted"
   ],
   "note": "Normalisation proved for cubic, smooth, approximate; the interpolating kernel has a pole by design (refuted boundedness)."
  },
  {
   "property": "C03",
   "status": "proved",
   "theorems": [
    "kernel_joins_zero_smoothly",
    "approximate_kernel_smooth_at_radius_refuted"
   ],
   "note": "Proved for cubic, interpolating, smooth; the approximate kernel has a kink for all parameters (refuted, documented by the code)."
  },
  {
   "property": "C04",
   "status": "proved",
   "theorems": [
    "contact_penalty_is_barrier"
   ],
   "note": ""
  },
  {
   "property": "C05",
   "status": "proved",
   "theorems": [
    "contact_multipliers_never_pull"
   ],
   "note": ""
  },
  {
   "property": "C06",
   "status": "partial",
   "theorems": [
    "friction_potential_gradient_partial",
    "friction_potential_gradient_refuted"
   ],
   "note": "Potential and force agree only up to the friction coefficient, which the potential omits (finding); proved with the factor restored."
  },
  {
   "property": "C07",
   "status": "partial",
   "theorems": [
    "friction_opposes_sliding",
    "friction_is_coulomb_when_sliding",
    "friction_coulomb_bound_with_viscosity_refuted"
   ],
   "note": "Everything proved; the Coulomb bound needs zero viscosity because the viscous term is not scaled by the normal force (finding)."
  },
  {
   "property": "C08",
   "status": "partial",
   "theorems": [
    "friction_jacobian_is_derivative_partial",
    "friction_jacobian_at_rest_partial",
    "friction_jacobian_below_stribeck_refuted",
    "friction_jacobian_at_rest_refuted"
   ],
   "note": "Complete case split: exactly when the Jacobian is the derivative and when it is not (falloff slope scaled wrongly; wrong value at rest with default parameters)."
  },
  {
   "property": "C09",
   "status": "proved",
   "theorems": [
    "max_step_violation_means_some_point_too_fast",
    "recomputed_max_step_not_violated"
   ],
   "note": ""
  },
  {
   "property": "C10",
   "status": "proved",
   "theorems": [
    "contact_assist_is_safe",
    "contact_assist_over_all_constraints_is_safe"
   ],
   "note": ""
  },
  {
   "property": "C11",
   "status": "partial",
   "theorems": [
    "friction_assist_partial",
    "friction_assist_scale_independent_refuted"
   ],
   "note": "Scale independence refuted for incoming scales different from one (finding)."
  },
  {
   "property": "C12",
   "status": "proved",
   "theorems": [
    "contact_jacobian_transpose_is_adjoint",
    "contact_jacobian_shared_vertex_refuted"
   ],
   "note": "Proved under the disjointness in the property; shown to fail for shared vertices."
  },
  {
   "property": "C13",
   "status": "proved",
   "theorems": [
    "contact_coordinates_round_trip"
   ],
   "note": ""
  },
  {
   "property": "C14",
   "status": "proved",
   "theorems": [
    "contact_frame_from_normal"
   ],
   "note": ""
  },
  {
   "property": "C15",
   "status": "partial",
   "theorems": [
    "contact_basis_matrices_partial",
    "tangent_basis_sprs_refuted"
   ],
   "note": "Sparse tangent basis refuted (finding); normal basis and dense blocks proved."
  },
  {
   "property": "C16",
   "status": "proved",
   "theorems": [
    "remap_keeps_surviving_values"
   ],
   "note": ""
  },
  {
   "property": "C17",
   "status": "proved",
   "theorems": [
    "mask_filter_keeps_unmasked",
    "mask_distribute_inverts_filter",
    "mask_filter_inverts_distribute"
   ],
   "note": ""
  },
  {
   "property": "C18",
   "status": "proved",
   "theorems": [
    "assembled_pattern_is_exact",
    "assembled_entry_is_sum_of_triplets",
    "assembled_transpose_swaps"
   ],
   "note": ""
  },
  {
   "property": "C19",
   "status": "proved",
   "theorems": [
    "mcp_residual_zero_iff_complementary"
   ],
   "note": ""
  },
  {
   "property": "C20",
   "status": "partial",
   "theorems": [
    "mcp_jacobian_agree_inactive_partial",
    "mcp_jacobian_active_row_is_identity",
    "mcp_jacobian_agree_refuted"
   ],
   "note": "Agreement proved on inactive rows, refuted on active bounds (finding)."
  },
  {
   "property": "C21",
   "status": "proved",
   "theorems": [
    "newton_success_is_converged",
    "newton_success_small_forces"
   ],
   "note": ""
  },
  {
   "property": "C22",
   "status": "proved",
   "theorems": [
    "newton_iteration_budget",
    "newton_terminates"
   ],
   "note": ""
  },
  {
   "property": "C23",
   "status": "partial",
   "theorems": [
    "newton_sufficient_decrease_partial",
    "newton_merit_never_increases_partial",
    "newton_inexact_decrease",
    "newton_sufficient_decrease_refuted"
   ],
   "note": "Proved unless the direction was reversed; refuted after a reversal (finding)."
  },
  {
   "property": "C24",
   "status": "partial",
   "theorems": [
    "newton_epsilon_restored_partial",
    "newton_epsilon_restored_refuted"
   ],
   "note": "Proved on success and without adaptivity; refuted for other exits (finding)."
  },
  {
   "property": "C25",
   "status": "proved",
   "theorems": [
    "newton_tolerance_restored",
    "newton_forcing_term_range"
   ],
   "note": ""
  },
  {
   "property": "C26",
   "status": "proved",
   "theorems": [
    "initial_guess_is_scaled"
   ],
   "note": ""
  },
  {
   "property": "C27",
   "status": "proved",
   "theorems": [
    "preconditioner_entries_positive_finite",
    "preconditioner_normalises_diagonal",
    "diagonal_scaling_round_trip",
    "jacobian_scaling_matches_vector_scaling"
   ],
   "note": ""
  },
  {
   "property": "C28",
   "status": "proved",
   "theorems": [
    "step_bounded_solves"
   ],
   "note": ""
  },
  {
   "property": "C29",
   "status": "partial",
   "theorems": [
    "step_keeps_time_step_partial",
    "step_keeps_time_step_refuted"
   ],
   "note": "Proved for successful steps and single-stage schemes; refuted when the first of two stages fails (finding)."
  },
  {
   "property": "C30",
   "status": "partial",
   "theorems": [
    "step_commits_resolved_partial",
    "step_commits_max_step_refuted"
   ],
   "note": "Contact violations are resolved or reported; a violated maximum step is committed silently (finding)."
  },
  {
   "property": "C31",
   "status": "proved",
   "theorems": [
    "conjugate_residual_correct"
   ],
   "note": ""
  },
  {
   "property": "C32",
   "status": "partial",
   "theorems": [
    "bicgstab_success_partial",
    "bicgstab_success_refuted"
   ],
   "note": "Holds without a restart of the first kind and for the corrected restart; refuted for the code (finding)."
  },
  {
   "property": "C33",
   "status": "proved",
   "theorems": [
    "integrators_exact_on_quadratics",
    "trajectories_exist",
    "stage_solution_unique"
   ],
   "note": ""
  },
  {
   "property": "C34",
   "status": "proved",
   "theorems": [
    "force_scale_matches_position_update",
    "history_weights_sum_to_one",
    "residual_jacobian_scaling"
   ],
   "note": ""
  },
  {
   "property": "C35",
   "status": "proved",
   "theorems": [
    "advance_shifts_history",
    "advance_updates_vertices"
   ],
   "note": ""
  },
  {
   "property": "C36",
   "status": "partial",
   "theorems": [
    "fixed_vertices_follow_partial",
    "fixed_vertices_stale_velocity_refuted"
   ],
   "note": "Proved when a position is supplied; refuted for arrays shorter than the mesh (finding)."
  },
  {
   "property": "C37",
   "status": "proved",
   "theorems": [
    "internal_order_sorts",
    "positions_in_user_order",
    "positions_at_user_index",
    "state_indices_invert_order",
    "supplied_source_index_loses_vertex_refuted"
   ],
   "note": "For meshes without a source index attribute; an unchecked attribute supplied by the user can lose vertices (finding)."
  },
  {
   "property": "C38",
   "status": "proved",
   "theorems": [
    "lumped_masses_add_up"
   ],
   "note": ""
  },
  {
   "property": "C39",
   "status": "proved",
   "theorems": [
    "inertia_gradient_is_derivative",
    "inertia_hessian_is_derivative",
    "inertia_diagonals_agree"
   ],
   "note": ""
  },
  {
   "property": "C40",
   "status": "proved",
   "theorems": [
    "gravity_gradient_is_derivative",
    "rigid_gravity_is_derivative"
   ],
   "note": ""
  },
  {
   "property": "C41",
   "status": "proved",
   "theorems": [
    "nh_gradient_is_derivative",
    "nh_inverted_infinite"
   ],
   "note": ""
  },
  {
   "property": "C42",
   "status": "proved",
   "theorems": [
    "nh_hessian_is_derivative"
   ],
   "note": ""
  },
  {
   "property": "C43",
   "status": "proved",
   "theorems": [
    "snh_gradient_is_derivative"
   ],
   "note": ""
  },
  {
   "property": "C44",
   "status": "proved",
   "theorems": [
    "snh_hessian_is_derivative"
   ],
   "note": ""
  },
  {
   "property": "C45",
   "status": "proved",
   "theorems": [
    "mesh_momentum",
    "damping_torque_refuted"
   ],
   "note": "Elastic forces of both models on every mesh; finding: the damping forces, which also sum to zero, do exert a net torque."
  },
  {
   "property": "C46",
   "status": "proved",
   "theorems": [
    "energy_rigid_invariant",
    "rest_shape_force_free"
   ],
   "note": ""
  },
  {
   "property": "C47",
   "status": "partial",
   "theorems": [
    "bulk_shear_consistent",
    "young_poisson_consistent_iff",
    "young_poisson_refuted"
   ],
   "note": "Bulk and shear moduli are converted correctly; Young's modulus and Poisson's ratio only when the ratio is zero."
  },
  {
   "property": "C48",
   "status": "proved",
   "theorems": [
    "nh_linearises_to_hooke",
    "snh_linearises_to_hooke"
   ],
   "note": "For the stable model when the re-parametrised lambda is not zero."
  },
  {
   "property": "C49",
   "status": "proved",
   "theorems": [
    "volume_gradient_is_derivative",
    "pressure_force_adds_gradient",
    "volume_hessian_is_derivative"
   ],
   "note": ""
  },
  {
   "property": "C50",
   "status": "partial",
   "theorems": [
    "penalty_rest_volume_is_volume",
    "volume_constraint_is_excess_volume",
    "constraint_rest_volume_refuted"
   ],
   "note": "Holds for the penalty used by the solver; false for the unused VolumeConstraint, which indexes positions wrongly."
  },
  {
   "property": "C51",
   "status": "proved",
   "theorems": [
    "projected_angle_equivalent",
    "tracked_angle_continuous",
    "tracked_angle_follows"
   ],
   "note": ""
  },
  {
   "property": "C52",
   "status": "proved",
   "theorems": [
    "hessian_pattern",
    "hessian_pairs_once",
    "hessian_entries_listed_once"
   ],
   "note": ""
  },
  {
   "property": "C53",
   "status": "proved",
   "theorems": [
    "approx_power_of_two64_correct",
    "approx_power_of_two32_correct"
   ],
   "note": "Subnormal numbers become zero and NaNs become infinities."
  },
  {
   "property": "C54",
   "status": "partial",
   "theorems": [
    "laplacian_row_sum",
    "laplacian_row_sums_to_one_iff",
    "laplacian_row_sum_refuted",
    "laplacian_weight_one_refuted"
   ],
   "note": "False as stated: merging doubles the entries of shared edges; the exact sum is proved, and rows sum to one exactly where no edge is shared."
  },
  {
   "property": "C55",
   "status": "proved",
   "theorems": [
    "mode_most_frequent"
   ],
   "note": ""
  },
  {
   "property": "C56",
   "status": "partial",
   "theorems": [
    "reset_caches_neighbors",
    "caches_cover_moves",
    "caches_go_stale_refuted"
   ],
   "note": "Caches computed by reset are exact and cover moves up to the maximal step; nothing invalidates them afterwards, so the second half is false. The search tree is assumed to answer exactly when built from the current samples."
  },
  {
   "property": "C57",
   "status": "proved",
   "theorems": [
    "converged_iff_enabled_criterion",
    "converged_never_when_disabled"
   ],
   "note": ""
  },
  {
   "property": "C58",
   "status": "partial",
   "theorems": [
    "inertia_diagonal_panics_refuted",
    "inertia_diagonal_skips_fixed_partial"
   ],
   "note": "False as stated: the guard compares a vertex index with a coordinate count and the shell has none; holds when no vertex index lies in the window between the two counts."
  },
  {
   "property": "C59",
   "status": "partial",
   "theorems": [
    "newton_line_search_no_panic_partial",
    "newton_line_search_panics_refuted"
   ],
   "note": "Exact threshold proved; refuted for the default factor without a writable ./out (finding)."
  },
  {
   "property": "C60",
   "status": "proved",
   "theorems": [
    "pair_adds_up",
    "absent_energy_contributes_nothing",
    "nested_energies_add_up",
    "pair_needs_room"
   ],
   "note": ""
  },
  {
   "property": "C61",
   "status": "proved",
   "theorems": [
    "conjugate_residual_ignores_stale_workspace",
    "bicgstab_ignores_stale_workspace"
   ],
   "note": ""
  },
  {
   "property": "C62",
   "status": "proved",
   "theorems": [
    "friction_power_nonpositive",
    "friction_power_shared_vertex_refuted"
   ],
   "note": "Same disjointness as C12; fails for shared vertices."
  },
  {
   "property": "C63",
   "status": "partial",
   "theorems": [
    "radial_gradient_is_derivative",
    "radial_gradient_is_derivative_at_sample",
    "radial_hessian_is_derivative",
    "radial_hessian_at_sample_refuted"
   ],
   "note": "Gradient everywhere, Hessian away from the sample; Hessian at the sample is refuted (finding)."
  },
  {
   "property": "C64",
   "status": "proved",
   "theorems": [
    "contact_force_is_energy_gradient"
   ],
   "note": ""
  },
  {
   "property": "C65",
   "status": "partial",
   "theorems": [
    "mcp_active_tests_exact_unscaled",
    "mcp_active_tests_scaled_refuted"
   ],
   "note": "Exact for unscaled residuals; refuted for the scaled residual the Newton loop passes (finding)."
  },
  {
   "property": "C66",
   "status": "partial",
   "theorems": [
    "bicgstab_two_iterations_refuted"
   ],
   "note": "Refuted (finding): rho starts at one."
  },
  {
   "property": "C67",
   "status": "partial",
   "theorems": [
    "conjugate_residual_exact_start",
    "bicgstab_exact_start_refuted"
   ],
   "note": "Holds for conjugate residuals; refuted for BiCGSTAB (finding)."
  },
  {
   "property": "C68",
   "status": "partial",
   "theorems": [
    "newton_reported_step_taken_partial",
    "newton_reported_step_taken_refuted"
   ],
   "note": "Proved for accepted steps; off by the backtracking factor after a failed search (finding)."
  },
  {
   "property": "C69",
   "status": "proved",
   "theorems": [
    "adaptive_epsilon_start",
    "adaptive_epsilon_schedule"
   ],
   "note": ""
  },
  {
   "property": "C70",
   "status": "partial",
   "theorems": [
    "newton_success_without_progress_refuted",
    "newton_success_small_forces"
   ],
   "note": "Refuted with the step-size criterion (finding); without it Success is decided by forces or accelerations."
  },
  {
   "property": "C71",
   "status": "proved",
   "theorems": [
    "step_stiffness_safe",
    "step_solves_start_from_committed"
   ],
   "note": ""
  },
  {
   "property": "C72",
   "status": "partial",
   "theorems": [
    "step_error_commits_nothing_partial",
    "step_error_commits_nothing_refuted"
   ],
   "note": "Proved for single-stage schemes; refuted for two-stage ones (finding)."
  },
  {
   "property": "C73",
   "status": "proved",
   "theorems": [
    "objective_derivative_is_residual"
   ],
   "note": "One degree of freedom; frictionless potential."
  },
  {
   "property": "C74",
   "status": "proved",
   "theorems": [
    "integrators_stable_on_oscillators",
    "trapezoidal_rule_conserves_energy",
    "bdf2_stable_on_oscillators"
   ],
   "note": "Scalar oscillator (one mode)."
  },
  {
   "property": "C75",
   "status": "partial",
   "theorems": [
    "first_step_exact_partial",
    "first_step_trapezoidal_refuted",
    "first_step_bdf2_refuted"
   ],
   "note": "Holds for SDIRK2; refuted for TR, TR-BDF2's first stage and BDF2 (finding)."
  },
  {
   "property": "C76",
   "status": "proved",
   "theorems": [
    "vertex_types_by_precedence"
   ],
   "note": ""
  },
  {
   "property": "C77",
   "status": "proved",
   "theorems": [
    "degrees_of_freedom_are_leading"
   ],
   "note": ""
  },
  {
   "property": "C78",
   "status": "proved",
   "theorems": [
    "inverse_masses",
    "lumped_stiffness_is_maximum"
   ],
   "note": ""
  },
  {
   "property": "C79",
   "status": "proved",
   "theorems": [
    "nh_energy_sign"
   ],
   "note": ""
  },
  {
   "property": "C80",
   "status": "proved",
   "theorems": [
    "mesh_gradient_is_derivative"
   ],
   "note": ""
  },
  {
   "property": "C81",
   "status": "proved",
   "theorems": [
    "mesh_hessian_is_derivative",
    "mesh_diagonal_matches"
   ],
   "note": "Without eigenvalue projection of the element matrices."
  },
  {
   "property": "C82",
   "status": "partial",
   "theorems": [
    "damping_dissipates_partial",
    "damping_injects_energy_refuted"
   ],
   "note": "Holds when the previous shape is the rest shape; false on compressed Neo-Hookean elements, whose stiffness is indefinite."
  },
  {
   "property": "C83",
   "status": "partial",
   "theorems": [
    "solid_inertia_product_is_hessian",
    "shell_inertia_product_refuted"
   ],
   "note": "Holds for solids; false for shells, which assign instead of adding."
  },
  {
   "property": "C84",
   "status": "proved",
   "theorems": [
    "rigid_gradient_is_derivative",
    "rigid_hessian_is_derivative",
    "rigid_gravity_is_derivative",
    "rigid_gradient_needs_symmetry_refuted"
   ],
   "note": ""
  },
  {
   "property": "C85",
   "status": "proved",
   "theorems": [
    "approximate_hessian_drops_rank_one"
   ],
   "note": ""
  },
  {
   "property": "C86",
   "status": "proved",
   "theorems": [
    "pressure_forces_balance",
    "open_surface_force_refuted"
   ],
   "note": ""
  },
  {
   "property": "C87",
   "status": "proved",
   "theorems": [
    "penalty_minimal_at_target"
   ],
   "note": ""
  },
  {
   "property": "C88",
   "status": "proved",
   "theorems": [
    "edge_angle_is_angle_between_normals",
    "angle_gradient_is_derivative",
    "tracked_angle_gradient_is_derivative",
    "angle_gradient_balanced"
   ],
   "note": ""
  },
  {
   "property": "C89",
   "status": "proved",
   "theorems": [
    "angle_hessian_is_derivative"
   ],
   "note": ""
  },
  {
   "property": "C90",
   "status": "partial",
   "theorems": [
    "reference_angle_is_rest_angle",
    "reference_angle_of_unoriented_faces_refuted"
   ],
   "note": "Holds for consistently oriented faces; false for faces that traverse the edge in the same order, where a flat sheet gets a half turn."
  },
  {
   "property": "C91",
   "status": "proved",
   "theorems": [
    "kernel_units_consistent"
   ],
   "note": ""
  },
  {
   "property": "C92",
   "status": "proved",
   "theorems": [
    "tri_gradient_is_derivative"
   ],
   "note": ""
  },
  {
   "property": "C93",
   "status": "proved",
   "theorems": [
    "tri_hessian_is_derivative"
   ],
   "note": ""
  },
  {
   "property": "C94",
   "status": "proved",
   "theorems": [
    "tri_energy_sign",
    "tri_rest_force_free"
   ],
   "note": ""
  },
  {
   "property": "C95",
   "status": "partial",
   "theorems": [
    "collapsed_triangle_gradient_refuted"
   ],
   "note": "False: every triangle collapsed to a line has infinite energy and a gradient of zero."
  },
  {
   "property": "C96",
   "status": "proved",
   "theorems": [
    "bending_gradient_is_derivative",
    "bending_energy_sign"
   ],
   "note": ""
  },
  {
   "property": "C97",
   "status": "proved",
   "theorems": [
    "shell_gradient_is_derivative"
   ],
   "note": ""
  },
  {
   "property": "C98",
   "status": "proved",
   "theorems": [
    "shell_hessian_is_derivative"
   ],
   "note": ""
  },
  {
   "property": "C99",
   "status": "proved",
   "theorems": [
    "shell_hessian_pattern",
    "shell_hessian_scale"
   ],
   "note": ""
  },
  {
   "property": "C100",
   "status": "proved",
   "theorems": [
    "shell_diagonal_matches"
   ],
   "note": ""
  },
  {
   "property": "C101",
   "status": "proved",
   "theorems": [
    "shell_conserves_momentum"
   ],
   "note": ""
  },
  {
   "property": "C102",
   "status": "partial",
   "theorems": [
    "shell_damping_dissipates",
    "shell_damping_torque_refuted"
   ],
   "note": "Dissipation is proved; false for rigid motions: damping resists a rigid rotation with a torque."
  },
  {
   "property": "C103",
   "status": "proved",
   "theorems": [
    "shell_energy_rigid_invariant"
   ],
   "note": ""
  },
  {
   "property": "C104",
   "status": "proved",
   "theorems": [
    "update_angles_keeps_state"
   ],
   "note": ""
  },
  {
   "property": "C105",
   "status": "proved",
   "theorems": [
    "newton_reference_merit_is_current"
   ],
   "note": ""
  },
  {
   "property": "C106",
   "status": "proved",
   "theorems": [
    "step_outcome_follows_solves"
   ],
   "note": ""
  },
  {
   "property": "C107",
   "status": "partial",
   "theorems": [
    "interior_edges_exact",
    "nonmanifold_edges_captured_refuted",
    "repeated_corner_pairs_refuted"
   ],
   "note": "Proved for triangles with three different corners; edges with three or more faces carry no bending although the documentation says they do, and a triangle with a repeated vertex is paired with itself."
  },
  {
   "property": "C108",
   "status": "proved",
   "theorems": [
    "dihedral_elements_aligned",
    "bending_stiffness_of_cells"
   ],
   "note": ""
  },
  {
   "property": "C109",
   "status": "proved",
   "theorems": [
    "bending_weight_heights"
   ],
   "note": ""
  },
  {
   "property": "C110",
   "status": "partial",
   "theorems": [
    "triangle_elements_exact",
    "triangle_elements_failures",
    "rigid_triangles_supported_refuted",
    "degenerate_cells_reported_refuted"
   ],
   "note": "Proved except that triangles of rigid materials are selected and then rejected, and that errors report positions in the list of selected triangles, not cells."
  },
  {
   "property": "C111",
   "status": "proved",
   "theorems": [
    "built_shell_smooth",
    "built_shell_at_rest"
   ],
   "note": ""
  },
  {
   "property": "C112",
   "status": "partial",
   "theorems": [
    "tet_elements_exact",
    "tet_elements_failures",
    "inverted_cells_reported_refuted"
   ],
   "note": "Proved except that errors report positions among the elements of the model, not cells."
  },
  {
   "property": "C113",
   "status": "partial",
   "theorems": [
    "built_solid_at_rest",
    "built_solid_hooke",
    "stable_attributes_hooke_refuted"
   ],
   "note": "Proved without Lame attributes; attributes are not converted for the stable model, so cells with attributes do not obey Hooke's law with the parameters given. The energy of the stable model at rest is not zero (a constant), only its forces are."
  },
  {
   "property": "C114",
   "status": "partial",
   "theorems": [
    "tet_mass_attribute_total",
    "tet_mass_fourth_corner_refuted",
    "tet_forces_fourth_corner_refuted"
   ],
   "note": "Total mass proved; the fourth corner receives neither mass nor force."
  },
  {
   "property": "C115",
   "status": "partial",
   "theorems": [
    "material_ids_normalised",
    "unsigned_material_ids_refuted"
   ],
   "note": "Proved for signed and 64 bit types; with unsigned 8 and 32 bit ids no problem can be built."
  },
  {
   "property": "C116",
   "status": "partial",
   "theorems": [
    "fixed_flags_normalised",
    "wide_fixed_flags_refuted"
   ],
   "note": "Proved for flags that fit in 8 bits; others become zero, so the vertex is free."
  },
  {
   "property": "C117",
   "status": "proved",
   "theorems": [
    "mesh_sizes_exact"
   ],
   "note": ""
  },
  {
   "property": "C118",
   "status": "proved",
   "theorems": [
    "force_scales_extreme",
    "residual_tolerance_tightens"
   ],
   "note": "Elastic and bending scales are the constant one in the code (stubs), and are modelled as such."
  },
  {
   "property": "C119",
   "status": "partial",
   "theorems": [
    "free_vertices_have_mass",
    "shell_tetrahedra_have_mass_refuted"
   ],
   "note": "Proved unless a tetrahedron has the material of a shell; then its vertices are free and massless."
  },
  {
   "property": "C120",
   "status": "partial",
   "theorems": [
    "contacts_as_asked",
    "dynamic_contacts_recorded",
    "static_contacts_recorded_refuted"
   ],
   "note": "Proved for dynamic simulations and for building; in static simulations contacts with friction are dropped."
  },
  {
   "property": "C121",
   "status": "partial",
   "theorems": [
    "build_problem_total",
    "no_materials_panic_refuted",
    "source_indices_panic_refuted",
    "unsigned_object_ids_panic_refuted"
   ],
   "note": "Proved for well posed inputs; no materials, large source indices and unsigned object ids lead to panics."
  },
  {
   "property": "C122",
   "status": "proved",
   "theorems": [
    "sorted_mesh_is_given",
    "built_problem_at_rest",
    "reference_attributes_agree"
   ],
   "note": "Stable solids must have a non-zero converted first Lame parameter."
  },
  {
   "property": "C123",
   "status": "proved",
   "theorems": [
    "potential_weighted_average",
    "potential_of_planes",
    "potential_outside"
   ],
   "note": ""
  },
  {
   "property": "C124",
   "status": "partial",
   "theorems": [
    "query_jacobian_is_derivative",
    "closest_hint_unused",
    "weighted_input_jacobian_refuted",
    "weighted_interpolating_jacobian_refuted",
    "empty_neighbourhood_jacobian_refuted"
   ],
   "note": "Proved for unweighted backgrounds and for weighted ones that are zero or a distance with cubic, smooth and approximate kernels; false for weighted input backgrounds, weighted interpolating kernels and the full Jacobian of empty neighbourhoods."
  },
  {
   "property": "C125",
   "status": "partial",
   "theorems": [
    "sample_jacobian_is_derivative"
   ],
   "note": "Proved under the same conditions as C124 (the failing cases are those of C124); normals fixed."
  },
  {
   "property": "C126",
   "status": "partial",
   "theorems": [
    "potential_rigid_invariant",
    "potential_reversed",
    "reverse_sign_refuted"
   ],
   "note": "Reversal proved for samples without values; values are not negated by the code, so otherwise the sign does not change."
  },
  {
   "property": "C127",
   "status": "partial",
   "theorems": [
    "change_flag_reports",
    "change_flag_collision_refuted"
   ],
   "note": "Proved for a hash without collisions; every bounded hash has collisions that hide a change."
  },
  {
   "property": "C128",
   "status": "partial",
   "theorems": [
    "cached_potential_is_complete",
    "potential_out_of_range_refuted",
    "ties_depend_on_order_refuted"
   ],
   "note": "Proved where some sample is in range, with a unique nearest sample if the background is a weighted distance; false elsewhere."
  },
  {
   "property": "C129",
   "status": "partial",
   "theorems": [
    "reset_indices_valid",
    "jacobian_indices_exact",
    "neighborhood_vertices_exact_partial",
    "neighborhood_vertices_refuted"
   ],
   "note": "Index lists proved; the reported vertices are exact for face samples only."
  },
  {
   "property": "C130",
   "status": "partial",
   "theorems": [
    "chunks_visit_rows",
    "chunks_without_points_refuted",
    "split_range_partitions"
   ],
   "note": "Proved for at least one query point; without query points the chunk size is zero, which panics."
  },
  {
   "property": "C131",
   "status": "proved",
   "theorems": [
    "projection_lands",
    "projection_keeps",
    "projection_path",
    "projection_gradient",
    "projection_panics"
   ],
   "note": "The potential of each point is that of its cached neighbourhood, as in the code. Exact reals."
  },
  {
   "property": "C132",
   "status": "proved",
   "theorems": [
    "projection_exact_on_planes"
   ],
   "note": "Background weight off; exact reals."
  },
  {
   "property": "C133",
   "status": "partial",
   "theorems": [
    "projection_reports_success_refuted",
    "projection_keeps_input_refuted",
    "projection_of_far_points_refuted"
   ],
   "note": "Refuted: failure is reported if the last allowed iteration succeeds; with an input background points are moved although on the right side; far points are judged by the value zero in the buffer."
  },
  {
   "property": "C134",
   "status": "partial",
   "theorems": [
    "surface_update_exact",
    "update_without_rebuilding_refuted",
    "radius_update_exact",
    "step_update_exact",
    "global_updates_ignored",
    "global_query_exact",
    "neighborhood_vertices_of_samples"
   ],
   "note": "Proved, except that a tree that is not rebuilt prunes by the boxes of the old positions and misses samples in range."
  },
  {
   "property": "C135",
   "status": "partial",
   "theorems": [
    "surface_jacobian_of_queries",
    "surface_jacobian_is_derivative",
    "surface_jacobian_matches_indices",
    "update_puts_in_place",
    "point_cloud_jacobian_refuted"
   ],
   "note": "Proved for triangle meshes in exact reals; refuted for point clouds, whose vertex samples have no lists of triangles: the Jacobian panics and an update erases the normals."
  },
  {
   "property": "C136",
   "status": "proved",
   "theorems": [
    "trimesh_surface_exact",
    "trimesh_outcome",
    "pointcloud_surface_exact",
    "dual_topology_exact"
   ],
   "note": "Exact reals; meshes are positions, triangles and attributes with one entry per element."
  },
  {
   "property": "C137",
   "status": "proved",
   "theorems": [
    "base_radius_smallest",
    "surface_within_reach"
   ],
   "note": "Exact reals."
  },
  {
   "property": "C138",
   "status": "partial",
   "theorems": [
    "empty_surface_builds_refuted",
    "zero_radius_builds_refuted",
    "faceless_mesh_panics_refuted",
    "documented_offsets_refuted",
    "face_velocities_lost_refuted",
    "isolated_vertices_refuted"
   ],
   "note": "Refuted: empty and zero radius surfaces are built, a mesh without triangles panics, the attribute read is named offset, face velocities are lost by the first update, isolated vertices get zero normals."
  },
  {
   "property": "C139",
   "status": "partial",
   "theorems": [
    "rodrigues_is_least_turn",
    "rodrigues_of_any_gradient",
    "rodrigues_rotation_refuted"
   ],
   "note": "Proved for unit vectors that are not opposite; false for gradients of another length, which the code passes, and for opposite vectors. Exact reals."
  },
  {
   "property": "C140",
   "status": "partial",
   "theorems": [
    "contact_matrices_average",
    "contact_map_bounded",
    "contact_map_normals",
    "contact_map_flat",
    "contact_map_refuted"
   ],
   "note": "Weights proved always, the rest for unit gradients or flat patches; over curved samples the gradient is no unit vector, normals are not carried to it and translations are shortened."
  },
  {
   "property": "C141",
   "status": "partial",
   "theorems": [
    "contact_matrices_block_matrix",
    "contact_matrices_written",
    "contact_products_written",
    "contact_product_rows_refuted",
    "contact_product_zero_refuted"
   ],
   "note": "Matrices and indices proved; products are written one after the other, which shifts the rows after a point that sees nothing, and contain the gradient of the background even for zero multipliers."
  },
  {
   "property": "C142",
   "status": "partial",
   "theorems": [
    "vector_field_scaled",
    "vector_field_flat",
    "vector_field_pointwise",
    "vector_field_refuted"
   ],
   "note": "The vector is that of the contact Jacobian times the mean agreement of the normals; exact over flat patches without weighted background, false otherwise."
  },
  {
   "property": "C143",
   "status": "proved",
   "theorems": [
    "selection_rows",
    "selection_loses_nothing",
    "full_selection_rows"
   ],
   "note": "Query points and samples as in C141; the selection indexes the query points."
  },
  {
   "property": "C144",
   "status": "partial",
   "theorems": [
    "assembled_matrix",
    "refreshed_matrix",
    "stale_refresh_refuted"
   ],
   "note": "Proved for blocks at the same places; with blocks at other places the refresh neither fails nor follows them. The compression of tensr is an oracle."
  },
  {
   "property": "C145",
   "status": "proved",
   "theorems": [
    "contact_jacobian_built",
    "contact_jacobian_refreshed",
    "contact_gradient_refreshed"
   ],
   "note": "For states with the same neighbourhoods; the solver rebuilds when they change."
  },
  {
   "property": "C146",
   "status": "proved",
   "theorems": [
    "full_jacobian_is_relative_velocity",
    "contact_gradient_adjoint",
    "distance_gradient_is_force",
    "distance_gradient_refreshed"
   ],
   "note": "Blocks of the distance Jacobian are arbitrary here; they are those of C126 to C136."
  },
  {
   "property": "C147",
   "status": "partial",
   "theorems": [
    "normal_derivative",
    "basis_product_derivative",
    "basis_jump_refuted"
   ],
   "note": "Proved wherever one component of the gradient dominates; refuted at ties, where the tangent jumps."
  },
  {
   "property": "C148",
   "status": "proved",
   "theorems": [
    "basis_blocks_derivative",
    "basis_gradient_adjoint"
   ],
   "note": "The blocks of second derivatives are arguments. Gradients at the contacts are not zero and have a dominant component."
  },
  {
   "property": "C149",
   "status": "proved",
   "theorems": [
    "query_hessian_is_derivative"
   ],
   "note": "A weighted background needs a local kernel other than the interpolating one and, if it is an input, the value zero."
  },
  {
   "property": "C150",
   "status": "partial",
   "theorems": [
    "query_hessian_blocks_exact",
    "query_hessian_entries_exact",
    "query_hessian_scaled_exact",
    "query_hessian_multipliers_refuted"
   ],
   "note": "Proved with one multiplier per query point that has neighbours; refuted for one per query point, as documented."
  },
  {
   "property": "C151",
   "status": "partial",
   "theorems": [
    "sample_query_hessian_is_derivative",
    "sample_query_hessian_exact",
    "weighted_distance_mixed_hessian_refuted"
   ],
   "note": "Proved for backgrounds that do not contribute to the gradient; refuted for a weighted distance background. Vertex samples are not supported by the code."
  },
  {
   "property": "C152",
   "status": "proved",
   "theorems": [
    "surface_hessian_is_second_derivative",
    "surface_hessian_of_queries"
   ],
   "note": "One multiplier per query point that has neighbours; see C154."
  },
  {
   "property": "C153",
   "status": "proved",
   "theorems": [
    "surface_hessian_layout",
    "surface_hessian_of_vertices_unsupported"
   ],
   "note": ""
  },
  {
   "property": "C154",
   "status": "partial",
   "theorems": [
    "surface_hessian_multipliers_refuted"
   ],
   "note": "Refuted: the multipliers are zipped with the query points that have neighbours. C152 is the positive statement."
  },
  {
   "property": "C155",
   "status": "proved",
   "theorems": [
    "contact_force_is_derivative"
   ],
   "note": ""
  },
  {
   "property": "C156",
   "status": "proved",
   "theorems": [
    "contact_hessian_is_second_derivative"
   ],
   "note": "Surface and collider share no vertex; see C158."
  },
  {
   "property": "C157",
   "status": "proved",
   "theorems": [
    "contact_hessian_layout"
   ],
   "note": ""
  },
  {
   "property": "C158",
   "status": "partial",
   "theorems": [
    "shared_vertex_hessian_refuted"
   ],
   "note": "Refuted: a block between the two sides of one shared vertex is written once instead of with its transpose. C156 is the positive statement."
  },
  {
   "property": "C159",
   "status": "proved",
   "theorems": [
    "residual_is_objective_gradient"
   ],
   "note": ""
  },
  {
   "property": "C160",
   "status": "proved",
   "theorems": [
    "jacobian_is_objective_hessian"
   ],
   "note": "Volumes with the approximate Hessian and contacts that share vertices are excluded; see C158."
  },
  {
   "property": "C161",
   "status": "proved",
   "theorems": [
    "jacobian_layout"
   ],
   "note": ""
  },
  {
   "property": "C162",
   "status": "proved",
   "theorems": [
    "jacobian_diagonal_matches",
    "jacobi_preconditioner_scales"
   ],
   "note": ""
  },
  {
   "property": "C163",
   "status": "proved",
   "theorems": [
    "rotation_product_derivative",
    "normal_kernel_derivative"
   ],
   "note": ""
  },
  {
   "property": "C164",
   "status": "partial",
   "theorems": [
    "contact_product_derivative",
    "weighted_contact_product_refuted"
   ],
   "note": "Proved without weighted background; refuted with a weighted distance background."
  },
  {
   "property": "C165",
   "status": "proved",
   "theorems": [
    "contact_transposed_derivative"
   ],
   "note": ""
  },
  {
   "property": "C166",
   "status": "proved",
   "theorems": [
    "contact_derivatives_layout"
   ],
   "note": ""
  },
  {
   "property": "C167",
   "status": "partial",
   "theorems": [
    "friction_jacobian_is_derivative",
    "viscous_friction_jacobian_refuted"
   ],
   "note": "Proved without viscosity and with all vertices free; refuted with viscosity."
  },
  {
   "property": "C168",
   "status": "proved",
   "theorems": [
    "lagged_friction_jacobian_is_derivative"
   ],
   "note": ""
  },
  {
   "property": "C169",
   "status": "partial",
   "theorems": [
    "incomplete_friction_jacobian_is_derivative",
    "viscous_friction_jacobian_refuted"
   ],
   "note": "Proved without viscosity; refuted with viscosity."
  },
  {
   "property": "C170",
   "status": "partial",
   "theorems": [
    "lagged_friction_potential_gradient_partial",
    "lagged_friction_potential_gradient_refuted"
   ],
   "note": "Holds for the potential times the coefficient of friction, with equal static and dynamic coefficients and no viscosity; refuted for the potential of the code, which leaves the coefficient out."
  },
  {
   "property": "C171",
   "status": "proved",
   "theorems": [
    "friction_force_dissipates"
   ],
   "note": ""
  },
  {
   "property": "C172",
   "status": "proved",
   "theorems": [
    "lagged_friction_jacobian_is_symmetric"
   ],
   "note": ""
  },
  {
   "property": "C173",
   "status": "proved",
   "theorems": [
    "friction_jacobian_layout"
   ],
   "note": ""
  },
  {
   "property": "C174",
   "status": "partial",
   "theorems": [
    "friction_derivative_places_partial",
    "friction_derivative_places_refuted"
   ],
   "note": "Proved when all vertices may move; refuted with fixed vertices."
  },
  {
   "property": "C175",
   "status": "proved",
   "theorems": [
    "static_residual_is_energy_gradient"
   ],
   "note": ""
  },
  {
   "property": "C176",
   "status": "proved",
   "theorems": [
    "friction_residual_splits"
   ],
   "note": ""
  },
  {
   "property": "C177",
   "status": "proved",
   "theorems": [
    "friction_problem_layout"
   ],
   "note": ""
  },
  {
   "property": "C178",
   "status": "proved",
   "theorems": [
    "friction_matrix_is_derivative"
   ],
   "note": "Contacts with the incomplete Jacobian, viscosity (C167 refutes it) or fixed vertices (C174 refutes it) are left out."
  },
  {
   "property": "C179",
   "status": "proved",
   "theorems": [
    "jacobian_is_residual_derivative"
   ],
   "note": ""
  },
  {
   "property": "C180",
   "status": "proved",
   "theorems": [
    "keyframe_round_trip"
   ],
   "note": ""
  },
  {
   "property": "C181",
   "status": "proved",
   "theorems": [
    "add_keyframe_updates"
   ],
   "note": "the contract of binary_search_by_key is assumed"
  },
  {
   "property": "C182",
   "status": "proved",
   "theorems": [
    "keyframes_in_any_order",
    "frame_zero_replaces",
    "keyframes_accepted"
   ],
   "note": "the contract of binary_search_by_key is assumed"
  },
  {
   "property": "C183",
   "status": "proved",
   "theorems": [
    "keyframes_are_played_back"
   ],
   "note": ""
  },
  {
   "property": "C184",
   "status": "partial",
   "theorems": [
    "dense_keyframes_are_late",
    "early_keyframes_refuted"
   ],
   "note": "refuted: the loop looks for the next keyframe only after a step and takes at most one per step"
  },
  {
   "property": "C185",
   "status": "partial",
   "theorems": [
    "sfrb_round_trip",
    "sfrb_panics",
    "sfrb_reports_errors_refuted"
   ],
   "note": "refuted for files that end with the configuration: bytes[0] is indexed without a check"
  },
  {
   "property": "C186",
   "status": "proved",
   "theorems": [
    "added_contacts"
   ],
   "note": ""
  },
  {
   "property": "C187",
   "status": "proved",
   "theorems": [
    "approximate_diagonal_matches",
    "preconditioner_choice"
   ],
   "note": ""
  },
  {
   "property": "C188",
   "status": "partial",
   "theorems": [
    "approximate_diagonal_misses_volumes_refuted"
   ],
   "note": "refuted: volume constraints are not among the terms"
  },
  {
   "property": "C189",
   "status": "proved",
   "theorems": [
    "approximate_diagonal_with_friction"
   ],
   "note": ""
  },
  {
   "property": "C190",
   "status": "partial",
   "theorems": [
    "approximate_diagonal_friction_scale_refuted"
   ],
   "note": "refuted: the factor enters twice; the positive part is C189"
  },
  {
   "property": "C191",
   "status": "proved",
   "theorems": [
    "whole_jacobian_is_derivative"
   ],
   "note": ""
  },
  {
   "property": "C192",
   "status": "proved",
   "theorems": [
    "products_are_jacobian_products"
   ],
   "note": ""
  },
  {
   "property": "C193",
   "status": "proved",
   "theorems": [
    "iterative_slope_is_derivative"
   ],
   "note": ""
  },
  {
   "property": "C194",
   "status": "partial",
   "theorems": [
    "direct_slope_is_derivative",
    "direct_slope_refuted"
   ],
   "note": "Proved without a preconditioner; refuted with one: the product is rescaled twice, and with the default settings exact Newton steps can be rejected."
  },
  {
   "property": "C195",
   "status": "proved",
   "theorems": [
    "short_newton_steps_accepted"
   ],
   "note": ""
  },
  {
   "property": "C196",
   "status": "partial",
   "theorems": [
    "assistance_reads",
    "assistance_reads_contact",
    "assistance_reads_state",
    "assistance_reads_state_refuted"
   ],
   "note": "Contents of the buffers proved for all histories; equal to the velocities of the state if fixed vertices stand still, refuted if one has a prescribed velocity."
  }
 ]
}