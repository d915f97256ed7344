{
 "claims": [
  {
   "property": "C01",
   "status": "proved",
   "theorems": [
    "C01_static_mesh_never_changes"
   ],
   "note": "All configurations, all call sequences."
  },
  {
   "property": "C02",
   "status": "proved",
   "theorems": [
    "C02_static_is_moving_at_end",
    "C02_boundary_static_is_not_moving_refuted"
   ],
   "note": "Positive part for thin meshes; the boundary-source initialiser with non-zero shock speed violates it (witness in the _refuted theorem)."
  },
  {
   "property": "C03",
   "status": "proved",
   "theorems": [
    "C03_square_mesh_size",
    "C03_square_mesh_bad_size_fails",
    "C03_two_cells_assertion",
    "C03_source_wrong_size_is_silent_refuted"
   ],
   "note": "Size claim, failure claim for all other N, and the silent wrong size of the infinite-domain square source (witness N=6)."
  },
  {
   "property": "C04",
   "status": "proved",
   "theorems": [
    "C04_square_mesh_never_tangles"
   ],
   "note": ""
  },
  {
   "property": "C05",
   "status": "proved",
   "theorems": [
    "C05_interface_is_pinned",
    "C05_mesh_is_symmetric"
   ],
   "note": ""
  },
  {
   "property": "C06",
   "status": "proved",
   "theorems": [
    "C06_outer_edges",
    "C06_no_particle_leaves"
   ],
   "note": ""
  },
  {
   "property": "C07",
   "status": "proved",
   "theorems": [
    "C07_square_velocity",
    "C07_shell_velocity",
    "C07_plane_velocity",
    "C07_boundary_velocity"
   ],
   "note": ""
  },
  {
   "property": "C08",
   "status": "proved",
   "theorems": [
    "C08_gaussian_reports_velocity_but_rests",
    "C08_square_source_reports_velocity_but_rests",
    "C08_unhandled_source_mesh_is_a_point"
   ],
   "note": "The theorems state the defect: a reported velocity without motion, and the all-zero mesh of sources without an initialiser branch."
  },
  {
   "property": "C09",
   "status": "proved",
   "theorems": [
    "C09_plane_mesh_collapses_at_zero"
   ],
   "note": "The theorem states the defect (zero-width cells at t=0)."
  },
  {
   "property": "C10",
   "status": "proved",
   "theorems": [
    "C10_shell_mesh"
   ],
   "note": ""
  },
  {
   "property": "C11",
   "status": "proved",
   "theorems": [
    "C11_boundary_mesh",
    "C11_boundary_mesh_final_halves_uniform",
    "C11_boundary_mesh_odd_fails"
   ],
   "note": ""
  },
  {
   "property": "C12",
   "status": "proved",
   "theorems": [
    "C12_accelerating_mesh"
   ],
   "note": ""
  },
  {
   "property": "C13",
   "status": "proved",
   "theorems": [
    "C13_square_history_free",
    "C13_shell_history_free",
    "C13_plane_history_free",
    "C13_boundary_history_free",
    "C13_finite_domain_source_history_free_refuted"
   ],
   "note": "History freedom for four movers; witness of history dependence for the finite-domain source mover."
  },
  {
   "property": "C14",
   "status": "proved",
   "theorems": [
    "C14_frozen_after_reaching_the_domain_edge",
    "C14_jump_at_tfinal",
    "C14_stopping_place_history_free_refuted"
   ],
   "note": "Freeze, jump at tfinal and history dependence of the stopping place."
  },
  {
   "property": "C15",
   "status": "proved",
   "theorems": [
    "C15_sqrt_mesh"
   ],
   "note": ""
  },
  {
   "property": "C16",
   "status": "proved",
   "theorems": [
    "C16_flux_is_upwind",
    "C16_downwind_data_ignored",
    "C16_face_value_exists_and_is_unique"
   ],
   "note": "Needs at least two cells and increasing edges."
  },
  {
   "property": "C17",
   "status": "proved",
   "theorems": [
    "C17_flux_single_valued",
    "C17_flux_telescopes"
   ],
   "note": ""
  },
  {
   "property": "C18",
   "status": "proved",
   "theorems": [
    "C18_edge_factors_are_basis_values",
    "C18_slab_basis_code",
    "C18_sphere_basis_code",
    "C18_slab_basis_orthonormal"
   ],
   "note": ""
  },
  {
   "property": "C19",
   "status": "proved",
   "theorems": [
    "C19_slab_stiffness_exact"
   ],
   "note": ""
  },
  {
   "property": "C20",
   "status": "proved",
   "theorems": [
    "C20_slab_motion_exact"
   ],
   "note": ""
  },
  {
   "property": "C21",
   "status": "proved",
   "theorems": [
    "C21_sphere_motion_table_exact",
    "C21_outside_table",
    "C21_matrix_exists_iff",
    "C21_literals"
   ],
   "note": "All 121 tabulated entries; orders above 10 have no entry and the matrix construction fails. The 13 decimal literals of the file are modelled by the fractions they round (C21_literals: relative error below 2^-52)."
  },
  {
   "property": "C22",
   "status": "proved",
   "theorems": [
    "C22_sphere_mass_rate_exact",
    "C22_outside_table",
    "C22_mass_rate_consistent_with_motion"
   ],
   "note": "All 121 tabulated entries, and the identity linking the mass-rate table to the motion table (moving-domain product rule)."
  },
  {
   "property": "C23",
   "status": "proved",
   "theorems": [
    "C23_uniform_field_preserved"
   ],
   "note": ""
  },
  {
   "property": "C24",
   "status": "proved",
   "theorems": [
    "C24_slab_cell_balance",
    "C24_slab_total_balance"
   ],
   "note": "Stated for the slab update function (explicit total cross-section 1, as in the code); the dispatcher that decides whether it is reached is C26."
  },
  {
   "property": "C25",
   "status": "proved",
   "theorems": [
    "C25_sphere_cell_balance",
    "C25_update_defined_iff"
   ],
   "note": "Hypotheses: the coefficient tables (not in the repository) hold the integrals they are named after, numpy inverts the mass matrix, the coefficients move as the right-hand side says. C25_example exhibits such a configuration."
  },
  {
   "property": "C26",
   "status": "proved",
   "theorems": [
    "C26_slab_rhs_is_identity",
    "C26_slab_solution_is_exponential"
   ],
   "note": "The theorem states the defect: identity derivative, exponential solution; or the direction check fails."
  },
  {
   "property": "C27",
   "status": "proved",
   "theorems": [
    "C27_sigma_t_is_ignored",
    "C27_loss_is_minus_state"
   ],
   "note": "The theorem states the defect."
  },
  {
   "property": "C28",
   "status": "proved",
   "theorems": [
    "C28_midpoint_weights_conserve",
    "C28_only_midpoint_weights_conserve",
    "C28_widths",
    "C28_gauss_weights_refuted"
   ],
   "note": "Characterisation: the weights conserve iff proportional to the midpoint widths; Gauss weights refuted by a three-point witness."
  },
  {
   "property": "C29",
   "status": "proved",
   "theorems": [
    "C29_isotropic_field",
    "C29_exact_only_for_equal_cells",
    "C29_gauss_directions_refuted"
   ],
   "note": "Exact value, exactness criterion per direction and for the whole set; Gauss directions refuted."
  },
  {
   "property": "C30",
   "status": "proved",
   "theorems": [
    "C30_interior_exact_for_quadratics",
    "C30_ends_exact_for_linear",
    "C30_cubic_error",
    "C30_angular_deriv_exact_iff",
    "C30_angular_deriv_equal_spacing_half",
    "C30_angular_deriv_linear_refuted"
   ],
   "note": "finite_diff_uneven_2 positive; angular_deriv characterised (exact for linear data iff gap ratio sqrt 2) and refuted."
  },
  {
   "property": "C31",
   "status": "proved",
   "theorems": [
    "C31_chebyshev_table",
    "C31_chebyshev_table_polynomial",
    "C31_high_orders_rejected"
   ],
   "note": "Orders 0..12 as tabulated, all higher ones rejected."
  },
  {
   "property": "C32",
   "status": "proved",
   "theorems": [
    "C32_table_is_the_reference_derivative",
    "C32_physical_derivative_has_another_factor",
    "C32_zero_above_eleven",
    "C32_is_the_physical_derivative_refuted"
   ],
   "note": "Reference derivative for orders up to 11; the physical derivative has a further factor 2/(b-a) (refuted witness), orders above 11 give 0."
  },
  {
   "property": "C33",
   "status": "proved",
   "theorems": [
    "C33_chebyshev_rule_exact",
    "C33_sharp",
    "C33_discrete_orthogonality",
    "C33_nodes_and_weights"
   ],
   "note": "All numbers of points; exact below degree 2n and not at 2n."
  },
  {
   "property": "C34",
   "status": "proved",
   "theorems": [
    "C34_sphere_projection_left_inverse",
    "C34_solver_rule",
    "C34_fails_above_order_12",
    "C34_linear"
   ],
   "note": "Any rule with more than M Chebyshev points, in particular the solver's 6M+1; fails above order 12."
  },
  {
   "property": "C35",
   "status": "proved",
   "theorems": [
    "C35_slab_projection_left_inverse"
   ],
   "note": "Hypothesis on numpy's leggauss: exact up to degree 2M."
  },
  {
   "property": "C36",
   "status": "proved",
   "theorems": [
    "C36_slab_nodes",
    "C36_sphere_nodes"
   ],
   "note": "Slab: contract on leggauss (n increasing nodes strictly inside (-1,1)); sphere: no hypothesis."
  },
  {
   "property": "C37",
   "status": "proved",
   "theorems": [
    "C37_order_recovered",
    "C37_symmetric"
   ],
   "note": ""
  },
  {
   "property": "C38",
   "status": "proved",
   "theorems": [
    "C38_bisection_brackets",
    "C38_root_nearby",
    "C38_terminates",
    "C38_equal_signs_rejected",
    "C38_narrow_bracket_unbound"
   ],
   "note": "Also termination and, for continuous functions, a true root within the tolerance."
  },
  {
   "property": "C39",
   "status": "proved",
   "theorems": [
    "C39_s2_closed_form_exact",
    "C39_s2_closed_form_over_counts",
    "C39_s2_exact_everywhere_refuted"
   ],
   "note": "Exact region, exact size of the over-count elsewhere, and a witness."
  },
  {
   "property": "C40",
   "status": "proved",
   "theorems": [
    "C40_square_source_exact",
    "C40_square_source_before_start",
    "C40_integrand_is_direction_average"
   ],
   "note": "Contract on the exponential integral: derivative e^y/y on negative reals (expi_contract_holds exhibits one)."
  },
  {
   "property": "C41",
   "status": "proved",
   "theorems": [
    "C41_plane_pulse",
    "C41_square_pulse",
    "C41_square_source",
    "C41_s2_square_source"
   ],
   "note": "Also the exact square source for more than two directions."
  },
  {
   "property": "C42",
   "status": "proved",
   "theorems": [
    "C42_starts_from_pulse",
    "C42_decays",
    "C42_square_pulse_accuracy"
   ],
   "note": "Also exact up to the guard 1e-12 for all t>0."
  },
  {
   "property": "C43",
   "status": "proved",
   "theorems": [
    "C43_pulses_quadratic",
    "C43_others_linear",
    "C43_source_powers",
    "C43_plane_moving_linear",
    "C43_direct_sources_linear",
    "C43_shell_source_quadratic",
    "C43_doubling_refuted"
   ],
   "note": "Powers of the strength in flux and source for every source kind; doubling refuted by a witness."
  },
  {
   "property": "C44",
   "status": "proved",
   "theorems": [
    "C44_square_source_support",
    "C44_gaussian_source_support"
   ],
   "note": ""
  },
  {
   "property": "C45",
   "status": "proved",
   "theorems": [
    "C45_zero_initial_coefficients",
    "C45_build_succeeds"
   ],
   "note": "Success of the build proved as well (sphere: order at most 12)."
  },
  {
   "property": "C46",
   "status": "proved",
   "theorems": [
    "C46_square_isotropic_and_normalised",
    "C46_plane_isotropic_and_normalised"
   ],
   "note": ""
  },
  {
   "property": "C47",
   "status": "proved",
   "theorems": [
    "C47_absorption_accumulates",
    "C47_repeated_evaluation",
    "C47_constant_opacity_recomputed",
    "C47_evaluation_is_a_function_of_the_state_refuted"
   ],
   "note": "The theorems state the defect (sum of all contributions) and a witness; constant opacity positive."
  },
  {
   "property": "C48",
   "status": "proved",
   "theorems": [
    "C48_refreshed_iff_the_cell_moved",
    "C48_static_mesh_keeps_first_moments",
    "C48_first_call_succeeds",
    "C48_moments_follow_a_moving_opacity_refuted"
   ],
   "note": "Moments change exactly when an edge of the cell changes; witness of a stale moment."
  },
  {
   "property": "C49",
   "status": "proved",
   "theorems": [
    "C49_isotropic_state_reproduced",
    "C49_scattering_conserves",
    "C49_linear",
    "C49_weights_are_normalised",
    "C49_list_of_weights"
   ],
   "note": ""
  },
  {
   "property": "C50",
   "status": "proved",
   "theorems": [
    "C50_emission_is_the_energy",
    "C50_temperature",
    "C50_other_closures"
   ],
   "note": "Both signs of the energy; also what the other closures do."
  },
  {
   "property": "C51",
   "status": "proved",
   "theorems": [
    "C51_output_succeeds",
    "C51_zero_outside",
    "C51_cell_polynomial_inside",
    "C51_exactly_one_cell",
    "C51_sphere_high_order_fails"
   ],
   "note": "Sphere: order at most 12, higher orders fail."
  },
  {
   "property": "C52",
   "status": "proved",
   "theorems": [
    "C52_weighted_sum",
    "C52_linear",
    "C52_uncollided_added_iff_flag"
   ],
   "note": ""
  },
  {
   "property": "C53",
   "status": "proved",
   "theorems": [
    "C53_project_then_evaluate",
    "C53_square_pulse_reported_exactly"
   ],
   "note": "Contract on the slab rule: exact to degree 2M with nodes inside the cell; also the square pulse of the code, at every point right of the first edge."
  },
  {
   "property": "C54",
   "status": "proved",
   "theorems": [
    "C54_exit_distribution",
    "C54_uncollided_part_uses_output_points",
    "C54_shape_check_fails_iff",
    "C54_exit_flux_is_the_flux_at_the_edges_refuted"
   ],
   "note": "Both readings of the array addition (with and without shape check); witness of a wrong exit flux."
  },
  {
   "property": "C55",
   "status": "proved",
   "theorems": [
    "C55_energy_never_reported"
   ],
   "note": "The theorem states the defect; thermal_couple may be any python value."
  },
  {
   "property": "C56",
   "status": "proved",
   "theorems": [
    "C56_save_then_load",
    "C56_exact_iff_single",
    "C56_exact_round_trip_refuted",
    "C56_folder_names"
   ],
   "note": "Contract on str of a number: no '/' and no '_' in it (tame; ex_tame exhibits one). Single precision is Flocq's rounding with unbounded exponent, so overflow is not modelled. Exactness refuted by a witness."
  },
  {
   "property": "C57",
   "status": "proved",
   "theorems": [
    "C57_other_keys_untouched",
    "C57_last_save_wins",
    "C57_saves_succeed"
   ],
   "note": "Contract tame as for C56."
  },
  {
   "property": "C58",
   "status": "proved",
   "theorems": [
    "C58_angular_flux_is_shared",
    "C58_own_angular_flux_refuted"
   ],
   "note": "Contract tame as for C56; the defect also as a witness."
  },
  {
   "property": "C59",
   "status": "proved",
   "theorems": [
    "C59_key_forgets",
    "C59_loader_ignores_the_order",
    "C59_runs_are_told_apart_refuted"
   ],
   "note": "The theorems state the defect, with a witness built from the shipped configuration."
  },
  {
   "property": "C60",
   "status": "proved",
   "theorems": [
    "C60_key_determines_parameters",
    "C60_key_injective",
    "C60_folders_keep_problems_apart"
   ],
   "note": "Contract tame as for C56; equality of parameters follows for an injective str."
  },
  {
   "property": "C61",
   "status": "proved",
   "theorems": [
    "C61_one_hot",
    "C61_wrong_names"
   ],
   "note": "All one-hot vectors and the vectors of the boundary, dipole and self-similar sources."
  },
  {
   "property": "C62",
   "status": "proved",
   "theorems": [
    "C62_at_most_one_option",
    "C62_loaded_is_exclusive"
   ],
   "note": ""
  },
  {
   "property": "C63",
   "status": "proved",
   "theorems": [
    "C63_mismatch_rejected",
    "C63_levels_in_range"
   ],
   "note": "Also what happens for other values of the study kind."
  },
  {
   "property": "C64",
   "status": "proved",
   "theorems": [
    "C64_only_square_pulse_loads",
    "C64_why_the_others_fail"
   ],
   "note": "By evaluation of the loader on the shipped files, transcribed mechanically by tools/yaml2coq.py."
  },
  {
   "property": "C65",
   "status": "proved",
   "theorems": [
    "C65_finest_run_and_mean_time",
    "C65_no_repetition",
    "C65_run_ends"
   ],
   "note": "The solver is any function of call number, configuration and arguments; the claim holds for every such function."
  },
  {
   "property": "C66",
   "status": "proved",
   "theorems": [
    "C66_run_object",
    "C66_all_variants"
   ],
   "note": ""
  },
  {
   "property": "C67",
   "status": "proved",
   "theorems": [
    "C67_checks_pass",
    "C67_outgoing_direction_mirrored",
    "C67_asymmetric_rejected"
   ],
   "note": "All numbers of directions; asymmetric sets are rejected."
  },
  {
   "property": "C68",
   "status": "proved",
   "theorems": [
    "C68_left_inflow_gate",
    "C68_right_inflow_gate",
    "C68_vacuum_otherwise",
    "C68_closed_gate_lets_nothing_in",
    "C68_single_cell_right_gate_refuted"
   ],
   "note": "Single-cell meshes gate the right end by the left switch (witness)."
  },
  {
   "property": "C69",
   "status": "proved",
   "theorems": [
    "C69_counter_cycles",
    "C69_report",
    "C69_average_is_off"
   ],
   "note": ""
  },
  {
   "property": "C70",
   "status": "proved",
   "theorems": [
    "C70_slab_update_is_the_weak_form"
   ],
   "note": "Speaks of the function assembling the update; see C26 for the dispatcher."
  },
  {
   "property": "C71",
   "status": "proved",
   "theorems": [
    "C71_thermal_coupling_conserves_energy"
   ],
   "note": ""
  },
  {
   "property": "C72",
   "status": "proved",
   "theorems": [
    "C72_flux_has_no_memory",
    "C72_mirror_state_only_at_centre"
   ],
   "note": ""
  },
  {
   "property": "C73",
   "status": "proved",
   "theorems": [
    "C73_sphere_update_is_the_weak_form"
   ],
   "note": "Hypotheses as for C25."
  },
  {
   "property": "C74",
   "status": "proved",
   "theorems": [
    "C74_table_format_suffices",
    "C74_stiffness_first_row_vanishes"
   ],
   "note": ""
  },
  {
   "property": "C75",
   "status": "proved",
   "theorems": [
    "C75_legendre_derivative",
    "C75_legendre_second_derivative"
   ],
   "note": ""
  },
  {
   "property": "C76",
   "status": "proved",
   "theorems": [
    "C76_newton_result",
    "C76_root_is_a_fixed_point",
    "C76_newtons2_single_step",
    "C76_newtons2_converges_refuted"
   ],
   "note": "newtons2 refuted as an iteration by a witness."
  },
  {
   "property": "C77",
   "status": "proved",
   "theorems": [
    "C77_lobatto_exact",
    "C77_ends_are_nodes",
    "C77_small_rules_have_zero_weight",
    "C77_two_point_rule_refuted"
   ],
   "note": "Exactness under the stated condition on the root finder; end-point, n<=2 claims unconditional."
  },
  {
   "property": "C78",
   "status": "proved",
   "theorems": [
    "C78_manufactured_source_is_residual",
    "C78_manufactured_initial_value",
    "C78_manufactured_source_support"
   ],
   "note": ""
  },
  {
   "property": "C79",
   "status": "proved",
   "theorems": [
    "C79_s2_gaussian_closed_form",
    "C79_branches_agree"
   ],
   "note": "Contract on erf: value 0 at 0 and derivative 2/sqrt(pi) exp(-y^2) (erf_contract_holds exhibits one)."
  },
  {
   "property": "C80",
   "status": "proved",
   "theorems": [
    "C80_gaussian_pulse_exact",
    "C80_gaussian_pulse_start_refuted",
    "C80_gaussian_source_rate"
   ],
   "note": "Exact for t>0; start value refuted."
  },
  {
   "property": "C81",
   "status": "proved",
   "theorems": [
    "C81_shell_critical_cosine",
    "C81_shell_flux_exact"
   ],
   "note": ""
  },
  {
   "property": "C82",
   "status": "proved",
   "theorems": [
    "C82_shell_normalised",
    "C82_point_pulse_total",
    "C82_other_spherical_sources_fail",
    "C82_point_pulse_normalised_refuted"
   ],
   "note": "Point pulse: total proved and normalisation refuted by a witness."
  },
  {
   "property": "C83",
   "status": "proved",
   "theorems": [
    "C83_static_plane_width",
    "C83_static_plane_total",
    "C83_two_cells_lose_half",
    "C83_total_kept_refuted",
    "C83_dipole_halves"
   ],
   "note": "Two-cell loss is a witness in the _refuted theorem. The dipole subtracts arrays of truth values, which numpy alone refuses; the model takes them as the numbers 0 and 1, as compiled code is assumed to do."
  },
  {
   "property": "C84",
   "status": "proved",
   "theorems": [
    "C84_plane_integrated_vs_projection",
    "C84_plane_integrated_exact_refuted"
   ],
   "note": "Exact relation and witness of the deficit."
  },
  {
   "property": "C85",
   "status": "proved",
   "theorems": [
    "C85_triple_products",
    "C85_symmetric",
    "C85_opacity_order_bound",
    "C85_higher_opacity_order_refuted"
   ],
   "note": "Contract on the rule: exact to degree 4M+1 (leggauss with 2M+1 points); order 2M+2 refuted."
  },
  {
   "property": "C86",
   "status": "proved",
   "theorems": [
    "C86_scattering_is_the_projection",
    "C86_absorption_is_the_projection",
    "C86_collision_balance"
   ],
   "note": "Contract on the rule: exact to degree 2M + opacity order."
  },
  {
   "property": "C87",
   "status": "proved",
   "theorems": [
    "C87_unit_moments",
    "C87_general_formula_reduces_to_constant",
    "C87_both_branches_agree"
   ],
   "note": ""
  },
  {
   "property": "C88",
   "status": "proved",
   "theorems": [
    "C88_emission_vector",
    "C88_uncoupled_zero"
   ],
   "note": ""
  },
  {
   "property": "C89",
   "status": "proved",
   "theorems": [
    "C89_opacity_positive",
    "C89_no_option_fails",
    "C89_shock_profile"
   ],
   "note": ""
  },
  {
   "property": "C90",
   "status": "proved",
   "theorems": [
    "C90_series_with_default_points_fails",
    "C90_empty_series_fails",
    "C90_series_rows"
   ],
   "note": "The failing branches are stated as theorems."
  },
  {
   "property": "C91",
   "status": "proved",
   "theorems": [
    "C91_reported_particle_number"
   ],
   "note": ""
  },
  {
   "property": "C92",
   "status": "proved",
   "theorems": [
    "C92_loaded_configuration",
    "C92_numbers_come_from_their_entries",
    "C92_speeds",
    "C92_width"
   ],
   "note": ""
  },
  {
   "property": "C93",
   "status": "proved",
   "theorems": [
    "C93_boundary_source_always_raises",
    "C93_square_source"
   ],
   "note": ""
  },
  {
   "property": "C94",
   "status": "proved",
   "theorems": [
    "C94_saved_level_can_be_loaded",
    "C94_order_study_keeps_the_last_level",
    "C94_key_width"
   ],
   "note": "Contract tame; the solver is any function with well-shaped results (one flux value per point)."
  },
  {
   "property": "C95",
   "status": "proved",
   "theorems": [
    "C95_time_series_saves"
   ],
   "note": "As C94."
  },
  {
   "property": "C96",
   "status": "proved",
   "theorems": [
    "C96_fronts_read_are_never_written",
    "C96_front_round_trip",
    "C96_third_kind_is_misfiled_refuted"
   ],
   "note": "Contract tame as for C56; the misfiled kind is a witness."
  },
  {
   "property": "C97",
   "status": "proved",
   "theorems": [
    "C97_no_front_asked",
    "C97_fronts_need",
    "C97_default_front"
   ],
   "note": "Contract tame for the default front."
  },
  {
   "property": "C98",
   "status": "proved",
   "theorems": [
    "C98_width_of_a_level",
    "C98_time_steps",
    "C98_no_times",
    "C98_benchmark_sources",
    "C98_benchmark_vectors"
   ],
   "note": ""
  },
  {
   "property": "C99",
   "status": "proved",
   "theorems": [
    "C99_solution"
   ],
   "note": "Exact arithmetic."
  },
  {
   "property": "C100",
   "status": "proved",
   "theorems": [
    "C100_succeeds_exactly",
    "C100_otherwise_zero_division"
   ],
   "note": "The pivot search divides by the scale of one row; it still finds a nonzero pivot whenever there is one."
  },
  {
   "property": "C101",
   "status": "proved",
   "theorems": [
    "C101_increasing_knots",
    "C101_repeated_knot"
   ],
   "note": "Equal numbers of knots and data; nothing is claimed for other lengths."
  },
  {
   "property": "C102",
   "status": "proved",
   "theorems": [
    "C102_natural_spline",
    "C102_unique",
    "C102_lines"
   ],
   "note": "The spec natural_spline quantifies over functions on the whole line with linear continuation; hat_natural exhibits one."
  },
  {
   "property": "C103",
   "status": "proved",
   "theorems": [
    "C103_energy_balance",
    "C103_energy_decays"
   ],
   "note": "Semi-discrete (exact time integration), constant opacity one, no uncollided treatment, slab update of rhs_class.py 244."
  },
  {
   "property": "C104",
   "status": "proved",
   "theorems": [
    "C104_distance_decays",
    "C104_unique"
   ],
   "note": "As C103; the boundary data may be on."
  },
  {
   "property": "C105",
   "status": "proved",
   "theorems": [
    "C105_front_mesh",
    "C105_velocity",
    "C105_histories"
   ],
   "note": "Thin initialisation, at least 12 cells, a multiple of four; 0 < pad < leader pad. Exact arithmetic."
  },
  {
   "property": "C106",
   "status": "proved",
   "theorems": [
    "C106_jump"
   ],
   "note": "As C105."
  },
  {
   "property": "C107",
   "status": "proved",
   "theorems": [
    "C107_thick_collapses",
    "C107_all_zero",
    "C107_never_increasing",
    "C107_initial_middle"
   ],
   "note": "At least 16 cells, a multiple of four; the stop test must not fire on the initial mesh."
  },
  {
   "property": "C108",
   "status": "proved",
   "theorems": [
    "C108_interpolation",
    "C108_covered",
    "C108_past_the_end",
    "C108_run_past_the_end"
   ],
   "note": "IndexError stands for reading the element after the last one; compiled code does not check this and then continues with the last segment."
  },
  {
   "property": "C109",
   "status": "proved",
   "theorems": [
    "C109_first_one",
    "C109_plane_by_default",
    "C109_data_set",
    "C109_scaled_time_refuted"
   ],
   "note": "The scaled time at 31.6228 is a witness."
  },
  {
   "property": "C110",
   "status": "proved",
   "theorems": [
    "C110_inside",
    "C110_increasing",
    "C110_nearest_refuted"
   ],
   "note": "Stored positions increasing; the range is from the first to the last stored position. A nearest point inside the range that gets zero is a witness."
  },
  {
   "property": "C111",
   "status": "proved",
   "theorems": [
    "C111_even",
    "C111_odd",
    "C111_odd_refuted"
   ],
   "note": "As C110; the raising case is a witness."
  },
  {
   "property": "C112",
   "status": "proved",
   "theorems": [
    "C112_rms",
    "C112_never_finishes",
    "C112_other_types",
    "C112_transport",
    "C112_table_ignores_positions",
    "C112_no_table",
    "C112_s2",
    "C112_lengths"
   ],
   "note": "Length-one arrays broadcast and are outside the length statement."
  },
  {
   "property": "C113",
   "status": "proved",
   "theorems": [
    "C113_scaling",
    "C113_reference"
   ],
   "note": "Slab transport with opacity one and no source, the initial value free."
  },
  {
   "property": "C114",
   "status": "proved",
   "theorems": [
    "C114_layout",
    "C114_unchecked",
    "C114_mesh_reads_refuted",
    "C114_placeholder",
    "C114_element"
   ],
   "note": "Row-major storage; memory outside the array is not modelled (Uninit). The checked read of a packed array is the witness."
  },
  {
   "property": "C115",
   "status": "proved",
   "theorems": [
    "C115_only_switched_off",
    "C115_scalar_opacity",
    "C115_no_run_ends"
   ],
   "note": "The driver statement assumes only that the solver returns when the wave part does."
  },
  {
   "property": "C116",
   "status": "proved",
   "theorems": [
    "C116_bounds",
    "C116_bounds_ignore_the_solution",
    "C116_front",
    "C116_records",
    "C116_left_search",
    "C116_right_search"
   ],
   "note": "For the loop after make_sol, which is never reached; the splines are parameters."
  },
  {
   "property": "C117",
   "status": "proved",
   "theorems": [
    "C117_consistent",
    "C117_defects"
   ],
   "note": "Exact solutions continuously differentiable in each cell (the piece of each cell extends to the plane), edges with continuous velocities, opacity one, exact integration of the source; semi-discrete."
  },
  {
   "property": "C118",
   "status": "proved",
   "theorems": [
    "C118_error"
   ],
   "note": "As C117."
  },
  {
   "property": "C119",
   "status": "proved",
   "theorems": [
    "C119_reproduces",
    "C119_order"
   ],
   "note": "Taylor polynomial at the left end; the constant is not the best one."
  },
  {
   "property": "C120",
   "status": "proved",
   "theorems": [
    "C120_rate"
   ],
   "note": "As C117; order M+1/2 in the norm, as usual for upwind fluxes on general meshes."
  },
  {
   "property": "C121",
   "status": "proved",
   "theorems": [
    "C121_exact"
   ],
   "note": "As C117, positive weights; C121_front is a wave with a jump on a moving edge."
  },
  {
   "property": "C122",
   "status": "proved",
   "theorems": [
    "C122_order_preserved",
    "C122_nonnegative",
    "C122_maximum_principle",
    "C122_linear_functions_go_negative_refuted"
   ],
   "note": "As C103; edges with continuous velocities. The witness for two moments is C122_linear_functions_go_negative_refuted."
  },
  {
   "property": "C123",
   "status": "proved",
   "theorems": [
    "C123_mirror",
    "C123_mirror_values",
    "C123_symmetric_stays_symmetric"
   ],
   "note": "As C103; boundary data given by a quadrature symmetric up to order."
  },
  {
   "property": "C124",
   "status": "proved",
   "theorems": [
    "C124_units",
    "C124_same_values",
    "C124_same_data"
   ],
   "note": "The manufactured-solution boundary data (source type 4) are excluded; emission and source are any courses."
  },
  {
   "property": "C125",
   "status": "proved",
   "theorems": [
    "C125_superposition",
    "C125_proportional"
   ],
   "note": "Boundary data other than the manufactured solution (source type 4)."
  },
  {
   "property": "C126",
   "status": "proved",
   "theorems": [
    "C126_source_dependence"
   ],
   "note": "As C103; the example shows that the factor 1/2 is sharp."
  },
  {
   "property": "C127",
   "status": "proved",
   "theorems": [
    "C127_no_leak",
    "C127_number"
   ],
   "note": "As C103; the boundary data are off."
  },
  {
   "property": "C128",
   "status": "proved",
   "theorems": [
    "C128_coupled_balance",
    "C128_coupled_decay",
    "C128_coupled_distance",
    "C128_coupled_unique"
   ],
   "note": "Dimensionless equations of rhs_class.py 203-215 and 295-305; that the emission of the closure is the material energy is C50."
  },
  {
   "property": "C129",
   "status": "proved",
   "theorems": [
    "C129_succeeds_iff",
    "C129_tables_hold_the_files",
    "C129_rest_is_zero",
    "C129_clashes_up_to_twelve",
    "C129_names_distinct_iff",
    "C129_exact_files_up_to_twelve",
    "C129_no_exact_files_from_thirteen",
    "C129_exact_files_iff",
    "C129_every_file_needed",
    "C129_G_and_VV_coefficients_unread"
   ],
   "note": "An array of one entry fills its row, as numpy does; that the files open 'r+' is part of being openable."
  },
  {
   "property": "C130",
   "status": "proved",
   "theorems": [
    "C130_right_tables_pass_everywhere",
    "C130_right_tables_pass_the_test",
    "C130_passing_at_order_three",
    "C130_mass_checks_one_sided_refuted",
    "C130_tests_one_cell_refuted",
    "C130_motion_check_sees_four_entries",
    "C130_slab_test"
   ],
   "note": "Real arithmetic; 0.16666666666666666 is read as 1/6. No code of this copy calls matrix_test."
  },
  {
   "property": "C131",
   "status": "proved",
   "theorems": [
    "C131_exists",
    "C131_unique",
    "C131_exactly_one",
    "C131_coupled_exists",
    "C131_coupled_exactly_one",
    "C131_steady_when",
    "C131_across_a_switch_refuted"
   ],
   "note": "Exact solutions in time, as all theorems about trajectories; the time integrator of scipy is not modelled. The fields kept between flux calls may be anything at every call."
  },
  {
   "property": "C132",
   "status": "proved",
   "theorems": [
    "C132_form_is_the_integral",
    "C132_positive_definite",
    "C132_symmetric",
    "C132_inverse_exists",
    "C132_inverse_unique",
    "C132_inverse_two_sided",
    "C132_update_independent_of_the_inverse"
   ],
   "note": "Real arithmetic: the condition number is not bounded, and rounding in numpy.linalg.inv is not modelled."
  },
  {
   "property": "C133",
   "status": "proved",
   "theorems": [
    "C133_uniform_rate",
    "C133_preserved_iff",
    "C133_all_directions",
    "C133_gauss_directions_refuted"
   ],
   "note": "Inner cells; exact tables and inverse as in C25. The outermost cell sees the zero outside value."
  },
  {
   "property": "C134",
   "status": "proved",
   "theorems": [
    "C134_energy_identity",
    "C134_energy_decays",
    "C134_gauss_directions_grow_refuted"
   ],
   "note": "Exact tables and inverse, nothing entering; r_edges start at the centre."
  },
  {
   "property": "C135",
   "status": "proved",
   "theorems": [
    "C135_number_rate",
    "C135_number",
    "C135_gauss_weights_change_the_number_refuted"
   ],
   "note": "Exact tables and inverse, nothing entering; the refuted theorem uses three Gauss directions with their weights."
  },
  {
   "property": "C136",
   "status": "proved",
   "theorems": [
    "C136_exists",
    "C136_unique",
    "C136_runs_iff",
    "C136_vector"
   ],
   "note": "Exact solutions in time; the outer boundary source must be off. The checks of the directions are those of C25: every direction a >= N/2 must have its mirror image within the tolerance."
  },
  {
   "property": "C137",
   "status": "proved",
   "theorems": [
    "C137_attenuation",
    "C137_transport_equation",
    "C137_between_0_and_1",
    "C137_after_the_shock",
    "C137_after_the_shock_refuted",
    "C137_defined_iff",
    "C137_scalar_flux",
    "C137_benchmark_is_half"
   ],
   "note": "erf by its contract. The path opacity is that of sigma_func itself, without the factor sigma_a + sigma_s by which the solver multiplies it, so both agree only when that sum is one. The window of emission times keeps the code's tolerance of 1e-10. The benchmark cannot be reached by a run: boundary_source raises first."
  },
  {
   "property": "C138",
   "status": "proved",
   "theorems": [
    "C138_methods",
    "C138_slab",
    "C138_coupled",
    "C138_sphere",
    "C138_runs_exist",
    "C138_sphere_runs_exist",
    "C138_explicit_runs",
    "C138_limit"
   ],
   "note": "scipy's solve_ivp is assumed to take Runge-Kutta steps (the methods RK23, RK45, DOP853 and Radau do; BDF and LSODA do not), with exact real arithmetic and exactly solved stage equations. No order of convergence is claimed here (C184 has rate one); values at requested times inside a step come from interpolation in scipy, which is not modelled. In the sphere exact tables as in C25."
  },
  {
   "property": "C139",
   "status": "proved",
   "theorems": [
    "C139_coupled_contractive",
    "C139_contractive",
    "C139_energy",
    "C139_implicit_euler",
    "C139_radau",
    "C139_explicit_grows",
    "C139_rk45_refuted"
   ],
   "note": "Runge-Kutta steps with exactly solved stage equations and exact arithmetic; the numbers of the methods RK45 and Radau are transcribed from the literature, not from the repository."
  },
  {
   "property": "C140",
   "status": "proved",
   "theorems": [
    "C140_static_balance",
    "C140_moving_mesh_refuted"
   ],
   "note": "As C139. The loss on moving meshes is shown for explicit Euler, whose steps the stated methods contain as building block only; for the others C138 says that it vanishes with the step length."
  },
  {
   "property": "C141",
   "status": "proved",
   "theorems": [
    "C141_methods",
    "C141_slab",
    "C141_coupled",
    "C141_multiplying_refuted"
   ],
   "note": "As C139. Radau's iteration for the stage equations is not modelled: what is shown is that they have exactly one solution."
  },
  {
   "property": "C142",
   "status": "proved",
   "theorems": [
    "C142_constant",
    "C142_gaussian",
    "C142_too_large"
   ],
   "note": "erf through its contract (C79). The curves are never drawn by an unchanged run because the code raises before it reaches them (C93)."
  },
  {
   "property": "C143",
   "status": "proved",
   "theorems": [
    "C143_transport_equation",
    "C143_boundary",
    "C143_left_directions"
   ],
   "note": "scipy's integrate.quad is taken to return the integral. No caller of the function remains in the repository except its own plot method."
  },
  {
   "property": "C144",
   "status": "proved",
   "theorems": [
    "C144_square_table",
    "C144_square_plateau",
    "C144_slab_table",
    "C144_slab_table_refuted"
   ],
   "note": "That the values for the uniform slab must add up to one follows from linearity, mirror symmetry and the constant solution; that argument is not formalised."
  },
  {
   "property": "C145",
   "status": "proved",
   "theorems": [
    "C145_plane",
    "C145_gaussian",
    "C145_dipole",
    "C145_full_refuted",
    "C145_nonisotropic",
    "C145_order",
    "C145_last_ignored"
   ],
   "note": "The script itself imports a module that is not in the repository; only its formulas are modelled."
  },
  {
   "property": "C146",
   "status": "proved",
   "theorems": [
    "C146_methods",
    "C146_slab",
    "C146_coupled",
    "C146_sphere",
    "C146_order_exact"
   ],
   "note": "As C138: exact arithmetic, exactly solved stages, steps of the stated methods. The mesh is at rest and the source constant, so the equations do not depend on time; C138 (convergence) and C184 (rate one) cover moving meshes."
  },
  {
   "property": "C147",
   "status": "proved",
   "theorems": [
    "C147_moving_mesh",
    "C147_mesh_at_rest"
   ],
   "note": "C120 and C138/C146 put together; their assumptions apply (exact arithmetic, exactly solved stages, steps of the stated methods). That the coefficients of the source change continuously in time is a hypothesis."
  },
  {
   "property": "C148",
   "status": "proved",
   "theorems": [
    "C148_shipped_options",
    "C148_shipped_file",
    "C148_every_option_usable_refuted",
    "C148_complete_group",
    "C148_missing_spelling"
   ],
   "note": "Configurations as loaded by the model of load_parameters.py; one point at a time."
  },
  {
   "property": "C149",
   "status": "proved",
   "theorems": [
    "C149_what_is_recorded",
    "C149_run",
    "C149_saving_off",
    "C149_position_of_the_front_refuted",
    "C149_unit_of_length_refuted",
    "C149_latest_profile_only_refuted"
   ],
   "note": "rhs_class_1.py defines the method but its call never uses it, so main_functions.py 190-193 hands back the initial lists [0], [0]; rhs_class.py calls it for every cell. Zero steps between stored points (a division by zero) are excluded in C149_what_is_recorded by no_repeat; C149_run holds without this."
  },
  {
   "property": "C150",
   "status": "proved",
   "theorems": [
    "C150_gauss_rule_exists",
    "C150_gauss_rule_unique",
    "C150_one_node_per_bracket",
    "C150_lobatto_nodes_exist",
    "C150_lobatto_nodes_accurate",
    "C150_no_node_missed"
   ],
   "note": "That the Newton iterations stop is not proved (C150_lobatto_nodes_accurate is about returned results), nor that two brackets cannot lead to the same node; C150_no_node_missed excludes this by the distance of the results. Exact arithmetic: rounding in the last step is not counted."
  },
  {
   "property": "C151",
   "status": "proved",
   "theorems": [
    "C151_normPns_passes",
    "C151_node_finder_slab_passes",
    "C151_node_finder_slab_2",
    "C151_node_finder_sphere",
    "C151_ortho_passes",
    "C151_return_sol_checks_nothing",
    "C151_edgevalues",
    "C151_chebyshev_passes",
    "C151_finite_diff_test_fails"
   ],
   "note": "Random draws are arbitrary numbers in the stated ranges; scipy's fixed_quad, quadpy and numpy rules by their definitions (gauss_points; satisfiable by C150_gauss_rule_exists). Not modelled: test_expi, test_ortho_Tn, test_quadrature_gss_lobatto. Tolerances are irrelevant in exact arithmetic except for test_finite_diff, which misses by more than 0.6."
  },
  {
   "property": "C152",
   "status": "proved",
   "theorems": [
    "C152_angular_term_first_order",
    "C152_error_of_isotropic_flux"
   ],
   "note": "psi is differentiable at the end points in both directions (it extends smoothly past -1 and 1)."
  },
  {
   "property": "C153",
   "status": "proved",
   "theorems": [
    "C153_record_written",
    "C153_nothing_else_is_kept",
    "C153_record_read",
    "C153_rad_record_read",
    "C153_round_trip",
    "C153_time_found_iff",
    "C153_records_of_two_times_refuted",
    "C153_plotter_reads_other_files",
    "C153_new_record_is_plotted_refuted",
    "C153_P1_record_written",
    "C153_P1_record_has_a_reader_iff",
    "C153_framework",
    "C153_framework_groups",
    "C153_constructor"
   ],
   "note": "No live code calls the two saving methods (solver.py 322-326 is commented out). File paths are compared as text from one working directory. Python's str of a float is a parameter with its values at the six times as contract (satisfied in C153_example)."
  },
  {
   "property": "C154",
   "status": "proved",
   "theorems": [
    "C154_least_squares",
    "C154_power_law",
    "C154_exponential_law",
    "C154_no_fit_of_transport_errors",
    "C154_fit_of_transport_errors_refuted",
    "C154_triangle",
    "C154_label_iff",
    "C154_mean_coefficients",
    "C154_mean_between",
    "C154_material_row_is_rejected",
    "C154_single_coefficients"
   ],
   "note": "Exact arithmetic; scipy's linregress by its defining formulas. Positive abscissae for the triangle. Drawing itself is not modelled."
  },
  {
   "property": "C155",
   "status": "proved",
   "theorems": [
    "C155_consistent",
    "C155_error",
    "C155_rate",
    "C155_exact"
   ],
   "note": "Slab, linear Su-Olson closure (emission equal to the material energy). Exact data on inflow faces is a hypothesis (inflow_exact), for the material too: where an outer edge moves outward the code applies the boundary rules also to the material energy. Smoothness of the exact solution inside the moving cells is a hypothesis, satisfied in C155_example."
  },
  {
   "property": "C156",
   "status": "proved",
   "theorems": [
    "C156_moving_mesh",
    "C156_mesh_at_rest"
   ],
   "note": "C155 and C138/C146 put together; their assumptions apply (exact arithmetic, exactly solved stages, steps of the stated methods)."
  },
  {
   "property": "C157",
   "status": "proved",
   "theorems": [
    "C157_first_example",
    "C157_first_example_solved",
    "C157_second_example_refuted",
    "C157_test_error",
    "C157_printed_error"
   ],
   "note": "The second half of test_spline (from line 148: drawing, and a spline of a discontinuous function that is only drawn) is not modelled. mcclarren_spline_2 is not called by any file."
  },
  {
   "property": "C158",
   "status": "proved",
   "theorems": [
    "C158_least_curvature",
    "C158_error",
    "C158_second_order",
    "C158_fourth_order",
    "C158_ends_matter"
   ],
   "note": "Derivatives are assumed on all of R; only the values between the end knots enter the bounds. Exact arithmetic."
  },
  {
   "property": "C159",
   "status": "proved",
   "theorems": [
    "C159_projection",
    "C159_pythagoras",
    "C159_error"
   ],
   "note": "Sphere, no material coupling, runs of the spherical branch as in C134-C136 (exact tables and inverses, time continuous). Smoothness inside the moving cells and exact data on an inflow face are hypotheses, satisfied in C160_example."
  },
  {
   "property": "C160",
   "status": "proved",
   "theorems": [
    "C160_projection_order",
    "C160_order"
   ],
   "note": "Assumptions of C159. For Gauss directions gam times the cell width must exceed 8 (M+1)^2 times the distance of a direction below the middle of its angular cell, so the bound is useful when that distance is at most of the order of the cell width. The constant 3 (M+1)^3 is not sharp."
  },
  {
   "property": "C161",
   "status": "proved",
   "theorems": [
    "C161_error",
    "C161_converges"
   ],
   "note": "C160 for equal angular cells with mid directions and weights 1/K, where gam = 0 and kappa = 1; the code uses Gauss nodes, for which C160 applies. Not proved: a bound without the condition K h^(M+1) -> 0."
  },
  {
   "property": "C162",
   "status": "proved",
   "theorems": [
    "C162_moving_mesh",
    "C162_mesh_at_rest",
    "C162_converges"
   ],
   "note": "Assumptions of C160/C161, M <= 10 (the range in which the mass matrices of the sphere are proved invertible through the tables of the code), exact arithmetic, steps of a Runge-Kutta method given by its tableau (no step size control). The step length depends on the mesh and the solution, as the theorem says."
  },
  {
   "property": "C163",
   "status": "proved",
   "theorems": [
    "C163_reference_integral",
    "C163_test_prints_zero",
    "C163_test_compares_zeros",
    "C163_printed_at_most_rms",
    "C163_printed_is_rms_refuted"
   ],
   "note": "scipy's quad is a parameter that returns the integral (quad_contract_holds). C163_printed_is_rms_refuted records that the printed number is not a root mean square."
  },
  {
   "property": "C164",
   "status": "proved",
   "theorems": [
    "C164_first_version_after_the_source",
    "C164_exact_after_the_source",
    "C164_zero_during_the_source",
    "C164_first_version_exact_refuted"
   ],
   "note": "The function is called by no run (its call in test_s2_sol is commented out)."
  },
  {
   "property": "C165",
   "status": "proved",
   "theorems": [
    "C165_formula_is_cut_integral",
    "C165_error",
    "C165_formula_during_the_source_refuted"
   ],
   "note": "erf enters through its contract (as in C79). The function is imported by uncollided_solutions.py and not called."
  },
  {
   "property": "C166",
   "status": "proved",
   "theorems": [
    "C166_orthonormal",
    "C166_test_passes"
   ],
   "note": "Improper integrals by shrinking the interval at both ends; the contract of the quadrature is met by limit_quad."
  },
  {
   "property": "C167",
   "status": "proved",
   "theorems": [
    "C167_array_of_a_name",
    "C167_identifier",
    "C167_names_agree_refuted"
   ],
   "note": "numba rejects or fails on the unassigned name; modelled as UnboundLocal."
  },
  {
   "property": "C168",
   "status": "proved",
   "theorems": [
    "C168_falling_flux",
    "C168_front_two_thirds",
    "C168_first_entry",
    "C168_travelling_wave",
    "C168_estimate_is_speed_refuted"
   ],
   "note": "The scalar flux at the stored steps is a parameter. The call in main_functions.py is commented out."
  },
  {
   "property": "C169",
   "status": "proved",
   "theorems": [
    "C169_first_derivative",
    "C169_second_derivative",
    "C169_find_edge",
    "C169_left_edge_is_left_refuted"
   ],
   "note": "Not called by the present code."
  },
  {
   "property": "C170",
   "status": "proved",
   "theorems": [
    "C170_one_pass",
    "C170_all_passes",
    "C170_one_pass_falls_refuted",
    "C170_row_read"
   ],
   "note": "Its call in mesh.py line 117 is commented out."
  },
  {
   "property": "C171",
   "status": "proved",
   "theorems": [
    "C171_gaussian_source_error",
    "C171_two_directions_error",
    "C171_converges"
   ],
   "note": "The rule in time is any list of nodes and weights meeting the contract of leggauss; C150 gives one for every number of points."
  },
  {
   "property": "C172",
   "status": "proved",
   "theorems": [
    "C172_square_pulse",
    "C172_plane_pulse",
    "C172_gaussian_pulse",
    "C172_square_source",
    "C172_square_source_two_directions",
    "C172_gaussian_source",
    "C172_shell",
    "C172_point_pulse_total",
    "C172_point_pulse_refuted",
    "C172_one_sided_pulse_refuted"
   ],
   "note": "The data with the treatment off are IC_function, square_source and gaussian_source of the model. The boundary-driven shock (all entries zero) is the subject of the properties about the Sedov profile."
  },
  {
   "property": "C173",
   "status": "proved",
   "theorems": [
    "C173_square_source_moments",
    "C173_square_source_cut_cell_refuted",
    "C173_gaussian_source_moments",
    "C173_manufactured_moments",
    "C173_no_flag_no_source"
   ],
   "note": "Slab geometry with the treatment off. The spherical branch of make_source does nothing there; with the treatment on see C171 and C172."
  },
  {
   "property": "C174",
   "status": "proved",
   "theorems": [
    "C174_gaussian_pulse_coefficients",
    "C174_self_similar_start",
    "C174_self_similar_coefficients",
    "C174_energy_row"
   ],
   "note": "Square and plane pulses are the subject of C53 and the properties about make_IC; this property covers the pulses whose coefficients have no closed form."
  },
  {
   "property": "C175",
   "status": "proved",
   "theorems": [
    "C175_first_rhs_never_returns",
    "C175_first_rhs_coupled_rows",
    "C175_first_rhs_other_opacity",
    "C175_first_rhs_no_path",
    "C175_first_rhs_dimensional",
    "C175_first_rhs_slab",
    "C175_first_rhs_coupled",
    "C175_first_rhs_epsilon",
    "C175_first_rhs_epsilon_moving",
    "C175_flat_field_with_epsilon_refuted",
    "C175_first_rhs_light",
    "C175_flat_balance_with_light_refuted",
    "C175_first_rhs_sphere_no_removal"
   ],
   "note": "Nothing imports rhs_class.py any more; rhs_class_1.py took its place. The repairs are the two fields of the record repair: make_P gets the rows of the directions only, and make_LU gets a sixth argument, whose value the slab does not read."
  },
  {
   "property": "C176",
   "status": "proved",
   "theorems": [
    "C176_dipole_search",
    "C176_dipole_reported",
    "C176_dipole_without_width",
    "C176_point_pulse_reported",
    "C176_shell_reported"
   ],
   "note": "Reported means: make_IC followed by the output of the angular flux with the same mesh. The half point at the first edge is left out, as in C53."
  },
  {
   "property": "C177",
   "status": "proved",
   "theorems": [
    "C177_speed_is_derivative",
    "C177_early_speed",
    "C177_linear_mesh",
    "C177_early_speed_refuted",
    "C177_square_mesh",
    "C177_square_other_counts",
    "C177_static_even",
    "C177_static_gauss",
    "C177_static_square_four",
    "C177_static_square_more",
    "C177_static_square_symmetric_refuted",
    "C177_uncovered"
   ],
   "note": "Nothing imports mesh_old.py any more. An attribute that was never assigned (Dedges_const) is Uninit when read; under numba it is an empty array and the addition fails instead."
  },
  {
   "property": "C178",
   "status": "proved",
   "theorems": [
    "C178_builder_one_moment",
    "C178_builder_fails",
    "C178_builder_more_moments_refuted",
    "C178_outside_is_the_method",
    "C178_set_func",
    "C178_su_olson",
    "C178_stubs"
   ],
   "note": "NameError is reported as UnboundLocal, its subclass. thick_square_moving_func of mesh_functions.py (27-86) is the subject of C181; the test functions of the builder (152-264) are not modelled."
  },
  {
   "property": "C179",
   "status": "proved",
   "theorems": [
    "C179_explicit",
    "C179_implicit",
    "C179_implicit_maximum",
    "C179_long_steps_refuted"
   ],
   "note": "As C122 and C138: slab without material, constant opacity. Euler's methods are named by no configuration; RK45 is, and appears in the refutation. No positive bound for RK45 is proved."
  },
  {
   "property": "C180",
   "status": "proved",
   "theorems": [
    "C180_explicit",
    "C180_implicit",
    "C180_trajectory"
   ],
   "note": "The material energy is direction N_ang of the state vector. The emission is linear in the energy (H = e), as in slab_rhs_thermal of the model; emission by a fourth power is not covered. The trajectory theorem is the limit of the theorem on Euler steps by C138, so it needs the continuity assumed there."
  },
  {
   "property": "C181",
   "status": "proved",
   "theorems": [
    "C181_on_time",
    "C181_span",
    "C181_forward",
    "C181_in_order",
    "C181_kept",
    "C181_past_the_table",
    "C181_first_interval_refuted",
    "C181_packet_refuted",
    "C181_follow",
    "C181_mirror",
    "C181_uniform_front",
    "C181_wrong_interval_refuted",
    "C181_whole_way",
    "C181_not_by_four"
   ],
   "note": "Nothing calls either method (the calls in mesh.py 249 and 527 are comments). Reads outside of an array are errors in the model; numba does not check them. The attribute tactual selects between follow_whole and follow_steps."
  },
  {
   "property": "C182",
   "status": "proved",
   "theorems": [
    "C182_explicit",
    "C182_implicit",
    "C182_trajectory"
   ],
   "note": "As C180, and for a mesh at rest: on a moving mesh Euler steps do not even keep a constant field. The trajectory theorem is the limit of the theorem on Euler steps by C138."
  },
  {
   "property": "C183",
   "status": "proved",
   "theorems": [
    "C183_no_method",
    "C183_four_cells_refuted",
    "C183_four_cells",
    "C183_with_method",
    "C183_other_counts",
    "C183_sliver",
    "C183_two_cells"
   ],
   "note": "The parameter method says whether the class has a method set_func; as the file stands it has not (C183_no_method, C183_four_cells). Odd numbers of cells with an even half are not covered by the theorems with the method."
  },
  {
   "property": "C184",
   "status": "proved",
   "theorems": [
    "C184_sphere",
    "C184_slab",
    "C184_coupled",
    "C184_equal_steps"
   ],
   "note": "As C138: exact arithmetic, exactly solved stages, steps of the stated methods. The rate is one whatever the order of the method: where an edge velocity passes the velocity of a direction the right-hand side is only Lipschitz in time; C146 covers higher orders on meshes at rest. The sphere is without an entering flux at its outer edge and with tables and checks as in C136."
  },
  {
   "property": "C185",
   "status": "proved",
   "theorems": [
    "C185_slab",
    "C185_coupled",
    "C185_source"
   ],
   "note": "C120, C155 and C184 put together; their assumptions apply (exact arithmetic, exactly solved stages, steps of the stated methods, slab). C147 and C156 have the bound in the cell width without the factor two but no rate on moving meshes."
  },
  {
   "property": "C186",
   "status": "proved",
   "theorems": [
    "C186_printed",
    "C186_defined",
    "C186_final_time_refuted"
   ],
   "note": "The plots are left out, and psi1, psi2 which nothing reads. interp1d is modelled as the straight line between neighbours for increasing positions. A boundary_source run raises before it gets here (C93); the claim is about the method itself."
  },
  {
   "property": "C187",
   "status": "proved",
   "theorems": [
    "C187_total",
    "C187_front",
    "C187_copies",
    "C187_test_total",
    "C187_test_total_refuted",
    "C187_study"
   ],
   "note": "The time in the geometry is t + 1e-12 as in the code; the attenuation uses t. At radius 0 numpy divides by zero, the theorems integrate over r > 0. The stored runs and the benchmark of the other package are parameters of the study."
  },
  {
   "property": "C188",
   "status": "proved",
   "theorems": [
    "C188_flux",
    "C188_slab",
    "C188_coupled"
   ],
   "note": "The collided part (uncollided off in the report); with the uncollided part the same function is added to both sides. The exact solution is smooth inside the cells as in C120 and C185; the weights sum to 1 as the ones the code builds."
  },
  {
   "property": "C189",
   "status": "proved",
   "theorems": [
    "C189_sphere",
    "C189_flux",
    "C189_reported"
   ],
   "note": "As C162 and C184: ideal tables as the code builds them, order at most 10, the start at the projections of the exact solution. The collided part of the report."
  },
  {
   "property": "C190",
   "status": "proved",
   "theorems": [
    "C190_points",
    "C190_run"
   ],
   "note": "The collided part of the report, on the slab; the benchmark is the exact scalar flux at the points. The left end of a cell belongs to the cell before it, as in make_phi, except at the first edge."
  },
  {
   "property": "C191",
   "status": "proved",
   "theorems": [
    "C191_points",
    "C191_run"
   ],
   "note": "The collided part on the slab, uncollided off; the smallest cell h0 is at the final time."
  },
  {
   "property": "C192",
   "status": "proved",
   "theorems": [
    "C192_total",
    "C192_run"
   ],
   "note": "The uncollided solution is a parameter that succeeds at the points of the list. C192_run uses the right-hand side of rhs_class.py 259, whose source is c times the moments of the uncollided scalar flux S0; S0 is continuous in x."
  },
  {
   "property": "C193",
   "status": "proved",
   "theorems": [
    "C193_curves",
    "C193_table",
    "C193_not_both",
    "C193_two_curves_refuted"
   ],
   "note": "quad is a parameter that integrates continuous functions exactly; tables of positions with fewer than two columns are an error in the model."
  },
  {
   "property": "C194",
   "status": "proved",
   "theorems": [
    "C194_run_all",
    "C194_failure"
   ],
   "note": "solve is a parameter and may give other results on every call, or raise."
  },
  {
   "property": "C195",
   "status": "proved",
   "theorems": [
    "C195_as_shipped",
    "C195_with_math",
    "C195_normalisation",
    "C195_expected"
   ],
   "note": "The coefficient files are reduced to the two sizes taken from them; the module is taken to be importable."
  }
 ]
}