{"claims": [
 {"property": "C01", "status": "proved", "theorems": ["C01_trajectory_shape", "C01_time_grid", "C01_rosenbrock_time_grid", "C01_rk4_time_grid", "C01_split_time_grid"], "note": "time grid stated for integrator objects whose step reports time+dt"},
 {"property": "C02", "status": "proved", "theorems": ["C02_prefix_stable", "C02_failure_stable", "C02_restart"], "note": ""},
 {"property": "C03", "status": "proved", "theorems": ["C03_history_window", "C03_construction_requires_positive_order"], "note": ""},
 {"property": "C04", "status": "proved", "theorems": ["C04_reset_is_fresh", "C04_rosenbrock_reset", "C04_rk4_reset", "C04_split_reset", "C04_leja_reset_refuted", "C04_leja_reset_never_fresh"], "note": "Leja integrator: refuted by a concrete run over the reals"},
 {"property": "C05", "status": "proved", "theorems": ["C05_rosenbrock_discard", "C05_rk4_discard", "C05_split_discard", "C05_split_krylov_discard", "C05_leja_discard_refuted", "C05_dense_discard_refuted"], "note": "dense split: for L independent of (t,u); Leja integrator: refuted by a concrete run over the reals"},
 {"property": "C06", "status": "proved", "theorems": ["C06_callback_protocol", "C06_step_receives_callback_output", "C06_result_callbacks"], "note": ""},
 {"property": "C07", "status": "proved", "theorems": ["C07_names_unambiguous", "C07_documented_runs", "C07_documented_rust_runs", "C07_documented_diffrax_runs", "C07_accepted_iff", "C07_refused_how", "C07_accepted_executes", "C07_rust_names_iff"], "note": ""},
 {"property": "C08", "status": "proved", "theorems": ["C08_matvec_linear", "C08_dense_is_matvec", "C08_fd_linear_refuted"], "note": "finite-difference operator excluded: refutation proved"},
 {"property": "C09", "status": "proved", "theorems": ["C09_augmented_is_block"], "note": "for p=0 the Python slice v[-0:] is the whole vector and the code raises; p>=1 in all call sites"},
 {"property": "C10", "status": "proved", "theorems": ["C10_fd_exact_on_affine", "C10_fd_time_derivative", "C10_fd_zero_state", "C10_custom_operator", "C10_ad_operator"], "note": ""},
 {"property": "C11", "status": "proved", "theorems": ["C11_block_extension"], "note": "expm is an oracle assumed to be the matrix exponential (visible hypothesis)"},
 {"property": "C12", "status": "proved", "theorems": ["C12_inverse_recurrence", "C12_recurrence_any_field"], "note": "QR and triangular solve are oracles with visible hypotheses; the returned error estimate is not modelled"},
 {"property": "C13", "status": "proved", "theorems": ["C13_poly_is_taylor"], "note": ""},
 {"property": "C14", "status": "proved", "theorems": ["C14_squaring_pass", "C14_scaled_norm", "C14_squaring_result"], "note": ""},
 {"property": "C15", "status": "proved", "theorems": ["C15_error_bound", "C15_not_exact", "C15_single_error_bound", "C15_error_small"], "note": ""},
 {"property": "C16", "status": "proved", "theorems": ["C16_phi_times_block"], "note": ""},
 {"property": "C17", "status": "proved", "theorems": ["C17_implicit_euler", "C17_crank_nicolson", "C17_linear_in_block", "C17_recurrence_defect"], "note": ""},
 {"property": "C18", "status": "proved", "theorems": ["C18_arnoldi"], "note": ""},
 {"property": "C19", "status": "proved", "theorems": ["C19_polynomials", "C19_phi_exact", "C19_phi_error"], "note": ""},
 {"property": "C20", "status": "proved", "theorems": ["C20_zero_and_homogeneous"], "note": ""},
 {"property": "C21", "status": "proved", "theorems": ["C21_phi_sum", "C21_phi_sum_error", "C21_zero", "C21_build_a_tilde"], "note": ""},
 {"property": "C22", "status": "proved", "theorems": ["C22_newton_interpolates"], "note": "coefficients give the unique interpolant, every prefix too, over any field"},
 {"property": "C23", "status": "proved", "theorems": ["C23_real_leja_any_coeffs", "C23_real_leja_interpolates", "C23_matrix_form"], "note": "loop invariant, stopping rule and interpolation at the first i nodes; the last coefficient is never used (i <= n_leja - 1)"},
 {"property": "C24", "status": "proved", "theorems": ["C24_conj_leja_any_coeffs", "C24_conj_leja_interpolates", "C24_imag_leja_any_coeffs", "C24_imag_leja_small_vector_refuted"], "note": "conjugate-pair recurrence = real part of the complex Newton polynomial; the imaginary variant never iterates on vectors of norm <= 0.1"},
 {"property": "C25", "status": "proved", "theorems": ["C25_substep_covers_once", "C25_substep_only_runtime_error", "C25_substep_nonpositive_size", "C25_substep_exact", "C25_substep_terminates"], "note": "for every inner routine and pattern of converged/failed attempts"},
 {"property": "C26", "status": "proved", "theorems": ["C26_substep_size_bounds"], "note": "all call histories, including failing steps"},
 {"property": "C27", "status": "proved", "theorems": ["C27_reordering", "C27_reordering_empty", "C27_padding", "C27_largest_magnitude_first_refuted"], "note": "reworded: the first point is the lexicographic maximum (np.argmax), not the one of largest magnitude"},
 {"property": "C28", "status": "proved", "theorems": ["C28_remainder_zero", "C28_methods_reduce"], "note": ""},
 {"property": "C29", "status": "proved", "theorems": ["C29_ivp_unique", "C29_step_exact", "C29_run_exact", "C29_rosenbrock_error", "C29_epi_error", "C29_dense_error", "C29_error_accumulation", "C29_without_fdt_refuted"], "note": "Exactness under exact phi evaluations at the visited points (satisfied e.g. by every scalar system and by exact dense phis); without assuming anything of the Krylov process, explicit one-step error bounds and their accumulation over n steps."},
 {"property": "C30", "status": "proved", "theorems": ["C30_rosenbrock_equilibrium", "C30_rk4_equilibrium", "C30_split_equilibrium", "C30_rosenbrock_step"], "note": ""},
 {"property": "C31", "status": "proved", "theorems": ["C31_rosenbrock_invariant", "C31_rk4_invariant", "C31_split_invariant"], "note": ""},
 {"property": "C32", "status": "proved", "theorems": ["C32_cache_transparent", "C32_cache_matches_step", "C32_cache_frozen", "C32_stale_operator_refuted"], "note": ""},
 {"property": "C33", "status": "proved", "theorems": ["C33_schedule_independent", "C33_two_schedules", "C33_history_untouched", "C33_no_deadlock", "C33_terminates", "C33_completes", "C33_concurrent_accept_refuted"], "note": "All interleavings of caller and the two pool tasks, any number of workers and of tasks left over from earlier steps. The counterexample shows that a second thread accepting a step on the same object meanwhile does change the result."},
 {"property": "C34", "status": "proved", "theorems": ["C34_rk4_quadrature", "C34_rk4_taylor"], "note": ""},
 {"property": "C35", "status": "proved", "theorems": ["C35_epi3_startup", "C35_epi3_uses_previous"], "note": ""},
 {"property": "C36", "status": "proved", "theorems": ["C36_parameters_reach", "C36_parameters_ignored_refuted", "C36_split_ignores_parameters_refuted"], "note": ""},
 {"property": "C37", "status": "proved", "theorems": ["C37_gate_closed", "C37_gate_open", "C37_no_gate", "C37_added_term"], "note": ""},
 {"property": "C38", "status": "proved", "theorems": ["C38_entries", "C38_column_sums", "C38_metzler", "C38_total", "C38_transmute", "C38_transmute_sign"], "note": "gen_transmute_matrix returns -phi times the same matrix, so it has the opposite sign pattern (C38_transmute_sign)"},
 {"property": "C39", "status": "proved", "theorems": ["C39_lotka_volterra", "C39_lotka_volterra_nonauto", "C39_lv_equilibrium"], "note": ""},
 {"property": "C40", "status": "proved", "theorems": ["C40_flatten_stack", "C40_stack_flatten"], "note": ""},
 {"property": "C41", "status": "proved", "theorems": ["C41_torus_distance", "C41_torus_corollaries"], "note": ""},
 {"property": "C42", "status": "proved", "theorems": ["C42_step_formula", "C42_backward_euler_forever", "C42_refuted"], "note": "documented second order refuted"},
 {"property": "C43", "status": "proved", "theorems": ["C43_implicit_equations", "C43_step_returns", "C43_newton_last", "C43_refuted", "solvers_exist"], "note": ""},
 {"property": "C44", "status": "proved", "theorems": ["C44_acceptance_rule", "C44_refuted"], "note": ""},
 {"property": "C45", "status": "proved", "theorems": ["C45_step_value", "C45_autonomous", "C45_orders", "C45_refuted"], "note": ""},
 {"property": "C46", "status": "proved", "theorems": ["C46_methods", "C46_schedule", "C46_failure", "C46_osteps_zero"], "note": ""},
 {"property": "C47", "status": "proved", "theorems": ["C47_diffrax_interval_refuted"], "note": "property is false of the code; refutation proved"},
 {"property": "C48", "status": "proved", "theorems": ["C48_state_property_refuted"], "note": "property is false of the code; refutation proved"},
 {"property": "C49", "status": "proved", "theorems": ["C49_rosenbrock_step_total"], "note": ""},
 {"property": "C50", "status": "proved", "theorems": ["C50_analytic_bateman"], "note": ""},
 {"property": "C51", "status": "proved", "theorems": ["C51_gll_quadrature"], "note": ""},
 {"property": "C52", "status": "proved", "theorems": ["C52_transfer_conserves", "C52_rhs_conserves"], "note": ""},
 {"property": "C53", "status": "proved", "theorems": ["C53_decay_nonnegative", "C53_decay_total"], "note": ""},
 {"property": "C54", "status": "proved", "theorems": ["C54_dirichlet_rosenbrock", "C54_dirichlet_explicit", "C54_split_remainder"], "note": ""},
 {"property": "C55", "status": "proved", "theorems": ["C55_reset_fresh"], "note": ""},
 {"property": "C56", "status": "proved", "theorems": ["C56_tol_fdt_ignored"], "note": ""},
 {"property": "C57", "status": "proved", "theorems": ["C57_equilibrium_nan", "C57_driver_fails"], "note": ""},
 {"property": "C58", "status": "proved", "theorems": ["C58_rust_arnoldi", "C58_zero_vector", "C58_rust_phi", "exact_evaluator_exists"], "note": ""},
 {"property": "C59", "status": "proved", "theorems": ["C59_extended_operator", "C59_nrows_wrong", "C59_rust_phi_sum", "C59_small_vectors_lost", "C59_small_vectors_refute", "C59_python_homogeneous"], "note": ""},
 {"property": "C60", "status": "proved", "theorems": ["C60_rust_epi2", "C60_exprb3_linear_nan", "C60_rust_epi2_scalar"], "note": ""},
 {"property": "C61", "status": "proved", "theorems": ["C61_expm_coeffs_R", "C61_expm_coeffs", "C61_taylor_coeffs", "C61_taylor_accuracy", "C61_taylor_scaling", "C61_expm_taylor_scale_refuted", "C61_expm_taylor_scale1"], "note": "exact arithmetic; complex accuracy bound not stated (complex nodes: exact value formula)"},
 {"property": "C62", "status": "proved", "theorems": ["C62_circle_points", "C62_circle_nested", "C62_circle_leja", "C62_conjugate_nodes", "C62_empty_box_error", "C62_empty_box_error_refuted", "C62_padded_nodes", "C62_generated_nodes_interpolate"], "note": "exact square roots (sqrtc, principal branch) instead of floating point; n >= 3"},
 {"property": "C63", "status": "proved", "theorems": ["C63_fast_points", "C63_too_few", "C63_fast_leja_default", "C63_nested_default", "C63_default_nodes_interpolate", "C63_unit_interval_refuted", "C63_unit_not_nested_refuted", "C63_gap_never_filled_refuted", "C63_conj_points"], "note": "exact arithmetic; complex64 rounding not modelled"},
 {"property": "C64", "status": "proved", "theorems": ["C64_power_iter_spec", "C64_estimate_between", "C64_eigenvector_start", "C64_psd_estimate", "C64_nsd_estimate", "C64_shift_scale", "C64_nodes_in_segment", "C64_underestimate_refuted"], "note": "exact arithmetic"},
 {"property": "C65", "status": "proved", "theorems": ["C65_step_time", "C65_equilibrium_run", "C65_linear_invariant_run", "C65_real_step_value", "C65_complex_step_value", "C65_step_raises", "C65_affine_error"], "note": "Leja steps; the value theorems are for coefficients equal to the divided differences of exp at distinct nodes"},
 {"property": "C66", "status": "proved", "theorems": ["C66_krylov_order", "C66_epi3_first_order", "C66_epi3_order", "C66_dense_order", "C66_pfd_order", "C66_pfd_rs_order", "C66_split_order", "C66_split_dense_order", "C66_rk4_order", "C66_dense_code_order", "C66_split_dense_code_order", "C66_krylov_kernels"], "note": "Local error o(dt^p) + C|dt| del with del the relative accuracy of the kernel (exact arithmetic)."},
 {"property": "C67", "status": "proved", "theorems": ["C67_linear", "C67_implicit_euler", "C67_crank_nicolson", "C67_exprb2_implicit_euler", "C67_ignores_rhs", "C67_affine_refuted"], "note": "exp_pfd/exp_pfd_rs on linear systems; misuse on affine systems refuted."},
 {"property": "C68", "status": "proved", "theorems": ["C68_matexp_accuracy", "C68_pade_orders", "C68_phi_recurrence", "C68_phi_ext", "C68_phik_apply"], "note": "exact real arithmetic; frexp by its definition; the QR solve is the exact solution"},
 {"property": "C69", "status": "proved", "theorems": ["C69_krylov_convergence", "C69_dense_convergence", "C69_pfd_convergence", "C69_pfd_rs_convergence", "C69_epi3_convergence", "C69_split_convergence", "C69_split_dense_convergence", "C69_rk4_convergence", "C69_dense_code_convergence", "C69_split_dense_code_convergence"], "note": "Exact arithmetic. Constants depend only on B, rad, len."},
 {"property": "C70", "status": "proved", "theorems": ["C70_rust_exponential", "C70_rust_implicit", "C70_rust_rk", "C70_rk_time_dependent", "C70_cn_time_dependent", "C70_bdf2_not_second_order", "C70_rust_exponential_returns", "C70_rust_implicit_returns", "C70_rust_krylov_floor"], "note": "C70_rust_exponential and C70_rust_implicit are about runs that return; the _returns theorems prove that runs return (epi2, exprb2, epi3 away from equilibria; implicit methods with a complete solver); the RK theorem includes that the run returns. Loss of order is proved exactly on concrete problems."},
 {"property": "C71", "status": "proved", "theorems": ["C71_affine_time_exact", "C71_small_forcing_dropped", "C71_exprb3_affine_nan", "C71_error_estimate"], "note": ""},
 {"property": "C72", "status": "proved", "theorems": ["C72_driver_invariant", "C72_rk_invariant", "C72_robertson", "C72_bateman"], "note": ""},
 {"property": "C73", "status": "proved", "theorems": ["C73_fd_fails_iff_zero", "C73_fd_affine", "C73_fd_error", "C73_fd_not_linear", "C73_rk_reset_fresh", "C73_default_options"], "note": ""},
 {"property": "C74", "status": "proved", "theorems": ["C74_bubble_area", "C74_bubble_rate", "C74_linear_sign", "C74_nonlinear_law", "C74_sorption", "C74_arrhenius", "C74_nonlinear_bateman_total", "C74_tank_vol_ignored", "C74_quasi_positive", "C74_inventory", "C74_equations"], "note": "the decimal constants of the libraries are exact decimals; mxf_liq_vapor_raoults raises NotImplementedError and is only modelled"},
 {"property": "C75", "status": "proved", "theorems": ["C75_construct", "C75_history", "C75_first_call", "C75_stale", "C75_stale_wrong"], "note": "scipy's BarycentricInterpolator is modelled by its formulas (second barycentric form, differentiation matrix) with an arbitrary nonzero capacity scaling"},
 {"property": "C76", "status": "proved", "theorems": ["C76_exponential", "C76_phi", "C76_refusals", "C76_parabolic"], "note": "exact complex arithmetic; decimal literals at their exact value; a schedule is any binary tree over the pole range in order"},
 {"property": "C77", "status": "proved", "theorems": ["C77_axis", "C77_matrix", "C77_phi_apply", "C77_conservation"], "note": "exact arithmetic; literals at their decimal value"},
 {"property": "C78", "status": "proved", "theorems": ["C78_jacobian_history", "C78_jacobian_correct", "C78_jacobian_stale", "C78_arnoldi", "C78_arnoldi_point", "C78_arnoldi_refuses", "C78_arnoldi_matrix", "C78_arnoldi_matrix_size"], "note": "exact arithmetic"},
 {"property": "C79", "status": "proved", "theorems": ["C79_equations", "C79_totals", "C79_split", "C79_separable", "C79_transfer", "C79_inventory", "C79_examples"], "note": "The finite-element assembly (skfem) is an argument: the theorems hold for every matrix, masses and Dirichlet set."},
 {"property": "C80", "status": "proved", "theorems": ["C80_table", "C80_coeffs", "C80_substep_first", "C80_ss_table", "C80_ss_exact", "C80_ss_first", "C80_ss_real", "C80_dd_table", "C80_dd_exact", "C80_dd_coeffs"], "note": "exp is a parameter; the diagonal is whatever it returns. Exact arithmetic."}
]}
