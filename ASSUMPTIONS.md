# What Print Assumptions lists

Generated from the built files: one group per distinct axiom set. All axioms are from the Coq standard library.

## Closed under the global context (224 theorems)

C80_dd_table, C80_dd_exact, C80_dd_coeffs, C01_trajectory_shape, C01_time_grid, C01_rosenbrock_time_grid, C01_rk4_time_grid, C01_split_time_grid, C02_prefix_stable, C02_failure_stable, C02_restart, C03_history_window, C03_construction_requires_positive_order, C04_reset_is_fresh, C04_rosenbrock_reset, C04_rk4_reset, C04_split_reset, C04_leja_reset_never_fresh, C05_rosenbrock_discard, C05_rk4_discard, C05_split_discard, C05_split_krylov_discard, C06_callback_protocol, C06_step_receives_callback_output, C06_result_callbacks, C07_names_unambiguous, C07_documented_runs, C07_documented_rust_runs, C07_documented_diffrax_runs, C07_accepted_iff, C07_refused_how, C07_accepted_executes, C07_rust_names_iff, C08_matvec_linear, C08_dense_is_matvec, C08_fd_linear_refuted, C09_augmented_is_block, C10_fd_exact_on_affine, C10_fd_time_derivative, C10_fd_zero_state, C10_custom_operator, C10_ad_operator, C12_recurrence_any_field, C13_poly_is_taylor, C14_squaring_result, C17_implicit_euler, C17_crank_nicolson, C17_linear_in_block, C17_recurrence_defect, C18_arnoldi, C19_polynomials, C20_zero_and_homogeneous, C21_zero, C22_newton_interpolates, C23_real_leja_any_coeffs, C23_real_leja_interpolates, C23_matrix_form, C24_conj_leja_any_coeffs, C24_conj_leja_interpolates, C24_imag_leja_any_coeffs, C24_imag_leja_small_vector_refuted, C25_substep_covers_once, C25_substep_only_runtime_error, C25_substep_nonpositive_size, C25_substep_exact, C25_substep_terminates, C26_substep_size_bounds, C27_reordering, C27_reordering_empty, C27_padding, C27_largest_magnitude_first_refuted, C28_remainder_zero, C28_methods_reduce, C30_rosenbrock_equilibrium, C30_rk4_equilibrium, C30_split_equilibrium, C30_rosenbrock_step, C31_rosenbrock_invariant, C31_rk4_invariant, C31_split_invariant, C32_cache_transparent, C32_cache_matches_step, C32_cache_frozen, C33_schedule_independent, C33_two_schedules, C33_history_untouched, C33_no_deadlock, C33_terminates, C33_completes, C33_concurrent_accept_refuted, C34_rk4_quadrature, C34_rk4_taylor, C35_epi3_startup, C35_epi3_uses_previous, C36_parameters_reach, C36_parameters_ignored_refuted, C36_split_ignores_parameters_refuted, C37_gate_closed, C37_gate_open, C37_no_gate, C37_added_term, C38_entries, C38_column_sums, C38_metzler, C38_total, C38_transmute, C38_transmute_sign, C39_lotka_volterra, C39_lv_equilibrium, C40_flatten_stack, C40_stack_flatten, C42_step_formula, C42_backward_euler_forever, C42_refuted, C43_implicit_equations, C43_step_returns, C43_newton_last, C43_refuted, C44_acceptance_rule, C44_refuted, C45_step_value, C45_autonomous, C45_orders, C45_refuted, C46_methods, C46_schedule, C46_failure, C46_osteps_zero, C47_diffrax_interval_refuted, C48_state_property_refuted, C49_rosenbrock_step_total, C51_gll_quadrature, C52_transfer_conserves, C52_rhs_conserves, C54_dirichlet_rosenbrock, C54_dirichlet_explicit, C54_split_remainder, C55_reset_fresh, C56_tol_fdt_ignored, C57_equilibrium_nan, C57_driver_fails, C58_rust_arnoldi, C58_zero_vector, C59_extended_operator, C59_nrows_wrong, C59_small_vectors_lost, C59_python_homogeneous, C60_exprb3_linear_nan, C61_expm_coeffs, C61_taylor_coeffs, C61_expm_taylor_scale_refuted, C61_expm_taylor_scale1, C62_circle_points, C62_circle_nested, C62_circle_leja, C62_conjugate_nodes, C62_empty_box_error, C62_empty_box_error_refuted, C62_padded_nodes, C62_generated_nodes_interpolate, C63_fast_points, C63_too_few, C63_fast_leja_default, C63_nested_default, C63_default_nodes_interpolate, C63_unit_interval_refuted, C63_unit_not_nested_refuted, C63_gap_never_filled_refuted, C63_conj_points, C64_power_iter_spec, C64_estimate_between, C64_eigenvector_start, C64_psd_estimate, C64_nsd_estimate, C64_shift_scale, C64_nodes_in_segment, C64_underestimate_refuted, C65_step_time, C65_equilibrium_run, C65_linear_invariant_run, C65_real_step_value, C65_complex_step_value, C65_step_raises, C67_implicit_euler, C67_crank_nicolson, C67_exprb2_implicit_euler, C67_ignores_rhs, C71_error_estimate, C72_driver_invariant, C72_rk_invariant, C72_robertson, C72_bateman, C73_fd_fails_iff_zero, C73_fd_affine, C73_fd_error, C73_fd_not_linear, C73_rk_reset_fresh, C73_default_options, C74_linear_sign, C74_sorption, C75_construct, C75_history, C75_first_call, C75_stale, C75_stale_wrong, C78_jacobian_history, C78_jacobian_correct, C78_jacobian_stale, C78_arnoldi, C78_arnoldi_point, C78_arnoldi_refuses, C78_arnoldi_matrix, C78_arnoldi_matrix_size, C79_equations, C79_totals, C79_split, C79_separable, C79_transfer, C80_table, C80_coeffs, C80_substep_first, C80_ss_table, C80_ss_exact, C80_ss_first

## `ClassicalEpsilon.constructive_indefinite_description`, `Classical_Prop.classic` (1 theorems)

solvers_exist

## `ClassicalDedekindReals.sig_forall_dec`, `ClassicalDedekindReals.sig_not_dec`, `Epsilon.epsilon_statement`, `FunctionalExtensionality.functional_extensionality_dep` (30 theorems)

C05_dense_discard_refuted, C11_block_extension, C12_inverse_recurrence, C14_squaring_pass, C16_phi_times_block, C19_phi_exact, C21_phi_sum, C21_build_a_tilde, C32_stale_operator_refuted, C41_torus_distance, C41_torus_corollaries, C53_decay_nonnegative, C53_decay_total, C58_rust_phi, exact_evaluator_exists, C59_rust_phi_sum, C59_small_vectors_refute, C60_rust_epi2, C60_rust_epi2_scalar, C61_expm_coeffs_R, C70_rk_time_dependent, C70_cn_time_dependent, C70_bdf2_not_second_order, C71_exprb3_affine_nan, C76_exponential, C76_phi, C76_refusals, C76_parabolic, C77_conservation, C80_ss_real

## `ClassicalDedekindReals.sig_forall_dec`, `ClassicalDedekindReals.sig_not_dec`, `Classical_Prop.classic`, `Epsilon.epsilon_statement`, `FunctionalExtensionality.functional_extensionality_dep` (73 theorems)

C04_leja_reset_refuted, C05_leja_discard_refuted, C14_scaled_norm, C15_error_bound, C15_not_exact, C15_single_error_bound, C15_error_small, C19_phi_error, C21_phi_sum_error, C29_ivp_unique, C29_step_exact, C29_run_exact, C29_rosenbrock_error, C29_epi_error, C29_dense_error, C29_error_accumulation, C29_without_fdt_refuted, C39_lotka_volterra_nonauto, C50_analytic_bateman, C61_taylor_accuracy, C61_taylor_scaling, C65_affine_error, C66_krylov_order, C66_epi3_first_order, C66_epi3_order, C66_dense_order, C66_pfd_order, C66_pfd_rs_order, C66_split_order, C66_split_dense_order, C66_rk4_order, C66_dense_code_order, C66_split_dense_code_order, C66_krylov_kernels, C67_linear, C67_affine_refuted, C68_matexp_accuracy, C68_pade_orders, C68_phi_recurrence, C68_phi_ext, C68_phik_apply, C69_krylov_convergence, C69_dense_convergence, C69_pfd_convergence, C69_pfd_rs_convergence, C69_epi3_convergence, C69_split_convergence, C69_split_dense_convergence, C69_rk4_convergence, C69_dense_code_convergence, C69_split_dense_code_convergence, C70_rust_exponential, C70_rust_implicit, C70_rust_rk, C70_rust_exponential_returns, C70_rust_implicit_returns, C70_rust_krylov_floor, C71_affine_time_exact, C71_small_forcing_dropped, C74_bubble_area, C74_bubble_rate, C74_nonlinear_law, C74_arrhenius, C74_nonlinear_bateman_total, C74_tank_vol_ignored, C74_quasi_positive, C74_inventory, C74_equations, C77_axis, C77_matrix, C77_phi_apply, C79_inventory, C79_examples

