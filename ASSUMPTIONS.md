# Print Assumptions

Generated by `tools/assumptions.py` from the built development. Axioms (all of the standard library):

* **A** `ClassicalDedekindReals.sig_forall_dec`
* **B** `ClassicalDedekindReals.sig_not_dec`
* **C** `Classical_Prop.classic`
* **D** `FunctionalExtensionality.functional_extensionality_dep`

`-` means "Closed under the global context".

| property | theorem | module | axioms |
|---|---|---|---|
| C01 | `C01_monotone` | `Prop_RK` | A B C D |
| C01 | `C01_within_interval` | `Prop_RK` | A B C D |
| C01 | `C01_lands` | `Prop_RK` | A B C D |
| C01 | `C01_without_proviso_refuted` | `Prop_RK` | - |
| C01 | `library_classes_explicit` | `Prop_RK` | - |
| C01 | `C01_within_interval_max_step` | `Prop_RKLimits` | A B C D |
| C02 | `C02_C06_step` | `Prop_RK` | - |
| C02 | `C02_C06_step_nystrom` | `Prop_RK` | - |
| C02 | `C02_components` | `Prop_RK` | A B C D |
| C03 | `C03_terminates` | `Prop_RK` | A B C D |
| C03 | `C03_bound_exists` | `Prop_RK` | A B D |
| C03 | `C03_C09_rejections_shrink` | `Prop_RK` | A B C D |
| C04 | `C04_tuple_hang_refuted` | `Prop_RK` | - |
| C05 | `C05_failure` | `Prop_RK` | - |
| C06 | `C02_C06_step` | `Prop_RK` | - |
| C06 | `C02_C06_step_nystrom` | `Prop_RK` | - |
| C06 | `C06_initial_derivative` | `Prop_RK` | - |
| C06 | `C06_initial_derivative_nystrom` | `Prop_RK` | - |
| C07 | `C07_cost` | `Prop_RK` | - |
| C07 | `C07_cost_pre` | `Prop_RK` | - |
| C08 | `C08_steps_bounded` | `Prop_RK` | A B C D |
| C08 | `C08_run_ends` | `Prop_RK` | A B C D |
| C09 | `C01_monotone` | `Prop_RK` | A B C D |
| C09 | `C03_C09_rejections_shrink` | `Prop_RK` | A B C D |
| C09 | `C09_growth` | `Prop_RK` | A B C D |
| C09 | `C09_max_factor` | `Prop_RK` | A B C D |
| C09 | `C09_max_factor_stays` | `Prop_RK` | A B C D |
| C10 | `C10_growth_cap_refuted` | `Prop_RK` | - |
| C10 | `C10_max_step_refuted` | `Prop_RK` | - |
| C11 | `C11_no_exception` | `Prop_RK` | A B C D |
| C11 | `C11_controller_defined` | `Prop_RK` | A B C D |
| C12 | `C12_reversal` | `Prop_RK` | A B C D |
| C13 | `C13_detect_irrelevant` | `Prop_RK` | - |
| C14 | `C14_zerodiv` | `Prop_RK` | - |
| C14 | `C14_otherwise_no_exception` | `Prop_RK` | - |
| C15 | `C15_evaluation_times` | `Prop_RK` | A B C D |
| C15 | `C15_library_nodes` | `Prop_RK` | A B C D |
| C15 | `C15_evaluation_times_max_step` | `Prop_RKLimits` | A B C D |
| C16 | `C16_validated` | `Prop_Tol` | A B C D |
| C16 | `C16_refused` | `Prop_Tol` | A B C D |
| C16 | `C16_idempotent` | `Prop_Tol` | A B C D |
| C16 | `C16_scale_positive` | `Prop_Tol` | A B C D |
| C16 | `C16_nan_accepted_refuted` | `Prop_Tol` | A B C D |
| C17 | `C17_rms` | `Prop_Tol` | A B C D |
| C17 | `C17_norm` | `Prop_Tol` | A B C D |
| C17 | `C17_max_norm` | `Prop_Tol` | A B C D |
| C17 | `C17_componentwise_refuted` | `Prop_Tol` | A B C D |
| C18 | `C18_order` | `Prop_Order` | A B C D |
| C18 | `C18_solver_step` | `Prop_Order` | A B C D |
| C18 | `C18_polynomial` | `Prop_Order` | A D |
| C18 | `C18_ckdisc_embedded` | `Prop_CK` | A B C D |
| C18 | `C40_member_order` | `Prop_CK` | A B C D |
| C18 | `C40_order` | `Prop_CK` | A B C D |
| C18 | `C18_near_order` | `Prop_Near` | A B C D |
| C18 | `C18_near_solver_step` | `Prop_Near` | A B C D |
| C19 | `C19_order` | `Prop_Order` | A B C D |
| C19 | `C19_solver_step` | `Prop_Order` | A B C D |
| C19 | `C19_polynomial` | `Prop_Order` | A D |
| C19 | `C19_near_order` | `Prop_Near` | A B C D |
| C19 | `C19_near_solver_step` | `Prop_Near` | A B C D |
| C21 | `C21_dense_order` | `Prop_Order` | A B C D |
| C21 | `C21_dense_order_nystrom` | `Prop_Order` | A B C D |
| C21 | `C40_dense_order` | `Prop_CK` | A B C D |
| C21 | `C21_esdirk` | `Prop_IRKDense` | A B C D |
| C21 | `C21_esdirk_linear` | `Prop_IRKDense` | A B C D |
| C21 | `C21_esdirk_complete` | `Prop_IRKDense` | A B C D |
| C21 | `C21_dense_order_near` | `Prop_DenseNear` | A B C D |
| C21 | `C21_dense_order_quintic` | `Prop_DenseNear` | A B C D |
| C21 | `C21_dense_order_near_nystrom` | `Prop_DenseNear` | A B C D |
| C22 | `C22_joins` | `Prop_Dense` | A B C D |
| C22 | `C22_joins_nystrom` | `Prop_Dense` | A B C D |
| C22 | `C22_continuously_differentiable` | `Prop_Dense` | A B C D |
| C22 | `C22_nearly_joins` | `Prop_Dense` | A B C D |
| C22 | `C22_nearly_joins_nystrom` | `Prop_DenseJoinN` | A B C D |
| C22 | `C22_ssv2stab` | `Prop_RKC` | A B C D |
| C22 | `C22_esdirk_polynomial` | `Prop_ESDDense` | A B C D |
| C22 | `C22_esdirk_piecewise` | `Prop_ESDDense` | A B C D |
| C22 | `C22_esdirk_consecutive` | `Prop_ESDDense` | A B C D |
| C22 | `C22_esdirk_before_first_step` | `Prop_ESDDense` | A B C D |
| C22 | `C22_esdirk_choice` | `Prop_ESDDense` | A B C D |
| C23 | `C23_cubic` | `Prop_Dense` | A B C D |
| C23 | `C23_quintic` | `Prop_Dense` | A B C D |
| C23 | `C23_quintic_velocity` | `Prop_Dense` | A B C D |
| C23 | `C23_horner` | `Prop_Dense` | A B C D |
| C45 | `C45_spurious_failure_refuted` | `Prop_RK` | - |
| C45 | `C01_without_proviso_refuted` | `Prop_RK` | - |
| C40 | `C40_member_order` | `Prop_CK` | A B C D |
| C40 | `C40_ranges` | `Prop_CK` | A B C D |
| C40 | `C40_step` | `Prop_CK` | A B C D |
| C40 | `C40_order` | `Prop_CK` | A B C D |
| C40 | `C40_monotone` | `Prop_CK` | A B C D |
| C40 | `C40_lands` | `Prop_CK` | A B C D |
| C40 | `C40_terminates` | `Prop_CK` | A B C D |
| C40 | `C40_bound_exists` | `Prop_CK` | A B D |
| C40 | `C40_no_exception` | `Prop_CK` | A B C D |
| C40 | `C40_steps_bounded` | `Prop_CK` | A B C D |
| C40 | `C40_run_ends` | `Prop_CK` | A B C D |
| C40 | `C40_failure` | `Prop_CK` | - |
| C40 | `C40_dense` | `Prop_CK` | A B C D |
| C40 | `C40_dense_order` | `Prop_CK` | A B C D |
| C25 | `C25_quadratic_roots` | `Prop_Stiff` | A B C D |
| C25 | `C25_all_roots` | `Prop_Stiff` | A B C D |
| C25 | `C25_real_root` | `Prop_Stiff` | A B C D |
| C26 | `C26_difference_exact` | `Prop_Stiff` | A B C D |
| C26 | `C26_eigenvector` | `Prop_Stiff` | A B C D |
| C26 | `C26_roots_certified` | `Prop_Stiff` | A B C D |
| C26 | `C26_evaluations` | `Prop_Stiff` | - |
| C27 | `C27_only_when_diagnosed` | `Prop_Stiff` | - |
| C27 | `C27_stiff_means` | `Prop_Stiff` | A B C D |
| C27 | `C27_silent_when_unsure_refuted` | `Prop_Stiff` | - |
| C27 | `C27_false_alarm_refuted` | `Prop_Stiff` | - |
| C27 | `C27_nystrom_silent_refuted` | `Prop_Stiff` | A B C D |
| C28 | `C28_first_step` | `Prop_Stiff` | A B C D |
| C43 | `C43_estimate_of_process` | `Prop_Stiff` | A B C D |
| C43 | `C43_instances_independent_refuted` | `Prop_Stiff` | A B C D |
| C30 | `C30_work` | `Prop_ESD` | A B C D |
| C30 | `C30_step_ends` | `Prop_ESD` | A B C D |
| C30 | `C30_after_failed_trial` | `Prop_ESD` | A B C D |
| C31 | `C31_no_assertion` | `Prop_ESD` | A B C D |
| C31 | `C31_factorisation` | `Prop_ESD` | - |
| C32 | `C32_stale_derivative_refuted` | `Prop_ESD` | A B C D |
| C32 | `C32_nan_step_refuted` | `Prop_ESD` | A B C D |
| C32 | `C32_jacobian_twice_refuted` | `Prop_ESD` | - |
| C33 | `C33_within_one_percent` | `Prop_ESD` | A B C D |
| C33 | `C33_max_step_refuted` | `Prop_ESD` | - |
| C33 | `C39_max_step_refuted` | `Prop_RKC` | A B C D |
| C46 | `C46_step` | `Prop_ESD` | A B C D |
| C46 | `C46_steps_bounded` | `Prop_ESD` | A B C D |
| C46 | `C46_run_ends` | `Prop_ESD` | A B C D |
| C46 | `C46_short_interval_refuted` | `Prop_ESD` | A B C D |
| C29 | `C29_linear_step` | `Prop_ESDLin` | A B C D |
| C20 | `C20_order` | `Prop_IRK` | A B C D |
| C20 | `C20_order_exact` | `Prop_IRK` | A B C D |
| C20 | `C20_stiffly_accurate` | `Prop_IRK` | A B C D |
| C20 | `C20_row_sums` | `Prop_IRK` | A B C D |
| C20 | `C20_linear_solver` | `Prop_IRK` | A B C D |
| C20 | `C20_declared_orders` | `Prop_IRK` | A B C D |
| C34 | `C34_order_and_no_exceptions` | `Prop_SWAG` | - |
| C34 | `C34_order_changes` | `Prop_SWAG` | - |
| C35 | `C35_restored` | `Prop_SWAG` | A B C D |
| C35 | `C35_case` | `Prop_SWAG` | A B C D |
| C36 | `C36_step` | `Prop_SWAG` | A B C D |
| C36 | `C36_step_returns` | `Prop_SWAG` | A B C D |
| C36 | `C36_run_ends` | `Prop_SWAG` | A B C D |
| C36 | `C36_run_completes` | `Prop_SWAG` | A B C D |
| C36 | `C36_case` | `Prop_SWAG` | A B C D |
| C36 | `C36_hang_refuted` | `Prop_SWAG` | A B C D |
| C37 | `C37_coefficients` | `Prop_SWAG` | - |
| C37 | `C37_adams` | `Prop_SWAG` | A B C D |
| C37 | `C37_polynomial_exact` | `Prop_SWAG` | A B C D |
| C38 | `C38_cT_is_chebyshev` | `Prop_RKC` | A B D |
| C38 | `C38_recurrences` | `Prop_RKC` | A B C D |
| C38 | `C38_order_two` | `Prop_RKC` | A B C D |
| C38 | `C38_order_case` | `Prop_RKC` | A B C D |
| C38 | `C38_stability_interval` | `Prop_RKC` | A B C D |
| C38 | `C38_exponential` | `Prop_RKC` | A B C D |
| C38 | `C38_linear` | `Prop_RKC` | A B C D |
| C38 | `C38_linear_case` | `Prop_RKC` | A D |
| C39 | `C39_radius_evaluations` | `Prop_RKC` | - |
| C39 | `C39_current_data` | `Prop_RKC` | - |
| C39 | `C39_step` | `Prop_RKC` | A B C D |
| C39 | `C39_step_returns` | `Prop_RKC` | A B C D |
| C39 | `C39_run_ends` | `Prop_RKC` | A B C D |
| C39 | `C39_accepts` | `Prop_RKC` | A B C D |
| C39 | `C39_case` | `Prop_RKC` | A B C D |
| C39 | `C39_max_step_refuted` | `Prop_RKC` | A B C D |
| C39 | `C39_backward_call_refuted` | `Prop_RKC` | A B C D |
| C39 | `C39_infinite_rho_refuted` | `Prop_RKC` | A B C D |
| C39 | `C39_radius_zero_refuted` | `Prop_RKC` | - |
| C39 | `C39_falling_body_refuted` | `Prop_RKC` | - |
| C39 | `C39_qro_accepted` | `Prop_RKC` | - |
| C24 | `C24_A_stable` | `Prop_Stab` | A B C D |
| C24 | `C24_at_infinity` | `Prop_Stab` | A B C D |
| C24 | `C24_Kv3I_limit` | `Prop_Stab` | A D |
| C24 | `C24_TRX2_no_damping_refuted` | `Prop_Stab` | A B C D |
| C24 | `C24_step` | `Prop_Stab` | A B C D |
| C24 | `C24_solver_step` | `Prop_Stab` | A B C D |
| C24 | `C24_solver` | `Prop_Stab` | A B C D |
| C41 | `c41_rhs` | `Prop_Sens` | - |
| C41 | `c41_blocks_exhaust` | `Prop_Sens` | - |
| C41 | `c41_initial` | `Prop_Sens` | - |
| C41 | `c41_sparsity_covers` | `Prop_Sens` | - |
| C41 | `c41_sparsity_when` | `Prop_Sens` | - |
| C41 | `c41_approx_jac` | `Prop_Sens` | - |
| C41 | `c41_output` | `Prop_Sens` | - |
| C41 | `c41_solver_failure` | `Prop_Sens` | - |
| C41 | `c41_list_atol_refuted` | `Prop_Sens` | - |
| C41 | `c41_atol` | `Prop_Sens` | A B C D |
| C41 | `c41_sensitivities_are_derivatives` | `Prop_Sens` | A B C D |
| C42 | `c42_end_point` | `Prop_Sens` | A B C D |
| C42 | `c42_integral` | `Prop_Sens` | A B C D |
| C42 | `c42_backward_jacobian` | `Prop_Sens` | A B C D |
| C44 | `C44_lands_when_difference_exact` | `Prop_F64` | A B C D |
| C44 | `C44_lands_within_factor_two` | `Prop_F64` | A B C D |
| C44 | `C44_lands_from_zero` | `Prop_F64` | A B C D |
| C44 | `C44_lands_nearly` | `Prop_F64` | A B C D |
| C44 | `C44_overshoot_refuted` | `Prop_F64` | A B C D |
| C44 | `C44_short_refuted` | `Prop_F64` | A B C D |
| C47 | `C44_advances` | `Prop_F64` | A B C D |
| C48 | `C48_no_exceptions` | `Prop_SwagDense` | - |
| C48 | `C48_before_step` | `Prop_SwagDense` | - |
| C48 | `C48_interpolant` | `Prop_SwagDense` | A B C D |
| C48 | `C48_polynomial_exact` | `Prop_SwagDense` | A B C D |
| C48 | `C48_smooth_joins` | `Prop_SwagDense` | A B C D |
| C48 | `C48_last_step` | `Prop_SwagDense` | A B C D |
| C49 | `C49_global_error` | `Prop_Global` | A B C D |
| C49 | `C49_global_error_near` | `Prop_Global` | A B C D |
| C49 | `C49_max_step` | `Prop_Global` | A B C D |
| C49 | `C49_max_step_near` | `Prop_Global` | A B C D |
| C49 | `C49_polynomial` | `Prop_Global` | A B C D |
| C49 | `C49_convergence` | `Prop_Global` | A B C D |
| C49 | `C49_nystrom` | `Prop_GlobalN` | A B C D |
| C49 | `C49_nystrom_near` | `Prop_GlobalN` | A B C D |
| C49 | `C49_nystrom_max_step` | `Prop_GlobalN` | A B C D |
| C49 | `C49_nystrom_max_step_near` | `Prop_GlobalN` | A B C D |
| C49 | `C49_nystrom_polynomial` | `Prop_GlobalN` | A B C D |
| C50 | `C50_first_try` | `Prop_Accept` | A B C D |
| C50 | `C50_first_try_near` | `Prop_Accept` | A B C D |
| C50 | `C50_completes` | `Prop_Accept` | A B C D |
| C50 | `C50_polynomial` | `Prop_Accept` | A B C D |
| C51 | `C51_controller` | `Prop_Ctl` | - |
| C51 | `C51_controller_nystrom` | `Prop_Ctl` | - |
| C51 | `C51_names` | `Prop_Ctl` | A B C D |
| C51 | `C51_names_refuted` | `Prop_Ctl` | - |
| C51 | `C51_fi5n_refuted` | `Prop_Ctl` | - |
| C51 | `C51_laws` | `Prop_Ctl` | A B C D |
| C51 | `C51_aim` | `Prop_Ctl` | A B C D |
| C51 | `C51_rest` | `Prop_Ctl` | A B C D |
| C52 | `C52_dense_error` | `Prop_GlobalDense` | A B C D |
| C52 | `C52_dense_error_near` | `Prop_GlobalDense` | A B C D |
| C52 | `C52_polynomial` | `Prop_GlobalDense` | A B C D |
| C52 | `C52_same_order` | `Prop_GlobalDense` | A B C D |
| C52 | `C52_nystrom` | `Prop_GlobalDenseN` | A B C D |
| C52 | `C52_nystrom_same_order` | `Prop_GlobalDenseN` | A B C D |
| C52 | `C52_nystrom_polynomial` | `Prop_GlobalDenseN` | A B C D |
| C52 | `C52_nystrom_decimal` | `Prop_GlobalDenseN` | A B C D |
| C52 | `C52_nystrom_near` | `Prop_GlobalDenseN` | A B C D |
| C53 | `C53_controller` | `Prop_ESDCtl` | - |
| C53 | `C53_controller_dae` | `Prop_ESDCtl` | - |
| C53 | `C53_names` | `Prop_ESDCtl` | A B C D |
| C53 | `C53_soederlind_refuted` | `Prop_ESDCtl` | A B C D |
| C54 | `C54_stages` | `Prop_ESDNewton` | A B C D |
| C54 | `C54_error` | `Prop_ESDNewton` | A B C D |
| C54 | `C54_slopes` | `Prop_ESDNewton` | A B C D |
| C55 | `C55_residuals` | `Prop_GlobalIRK` | A B C D |
| C55 | `C55_linear` | `Prop_GlobalIRK` | A B C D |
| C55 | `C55_linear_plain` | `Prop_GlobalIRK` | A B C D |
| C55 | `C55_max_step` | `Prop_GlobalIRK` | A B C D |
| C55 | `C55_polynomial` | `Prop_GlobalIRK` | A B C D |
| C55 | `C55_dense` | `Prop_GlobalIRKDense` | A B C D |
| C55 | `C55_dense_linear` | `Prop_GlobalIRKDense` | A B C D |
| C55 | `C55_dense_max_step` | `Prop_GlobalIRKDense` | A B C D |
| C55 | `C55_dense_complete` | `Prop_GlobalIRKDense` | A B C D |
| C56 | `C56_consistent_start` | `Prop_DAE` | A B C D |
| C56 | `C56_index_one` | `Prop_DAE` | A B C D |
| C56 | `C56_index_one_accepted` | `Prop_DAE2` | A B C D |
| C56 | `C56_linear` | `Prop_DAE` | A B C D |
| C56 | `C56_first_step_refuted` | `Prop_DAE3` | - |
| C57 | `C57_one_dimensional` | `Prop_DAE3` | - |
| C57 | `C57_shapes` | `Prop_DAE3` | - |
| C57 | `C57_regular` | `Prop_DAE` | A B C D |
| C57 | `C57_runs` | `Prop_DAE` | A B C D |
| C57 | `C57_zero_mass_refuted` | `Prop_DAE` | A B C D |
| C57 | `C57_array_atol_refuted` | `Prop_DAE3` | - |
| C58 | `C58_global_error` | `Prop_GlobalRKC` | A B C D |
| C58 | `C58_convergence` | `Prop_GlobalRKC` | A B C D |
| C58 | `C58_polynomial` | `Prop_GlobalRKC` | A B C D |
| C58 | `C58_dense` | `Prop_GlobalRKC` | A B C D |
| C59 | `C59_global_error` | `Prop_GlobalCK` | A B C D |
| C59 | `C59_max_step` | `Prop_GlobalCK` | A B C D |
| C59 | `C59_convergence` | `Prop_GlobalCK` | A B C D |
| C59 | `C59_polynomial` | `Prop_GlobalCK` | A B C D |
| C59 | `C59_dense` | `Prop_GlobalCK` | A B C D |
| C60 | `C60_esdirk` | `Prop_EvalTimes` | A B C D |
| C60 | `C60_esdirk_stretch` | `Prop_EvalTimes` | A B C D |
| C60 | `C60_all_classes` | `Prop_EvalTimes` | A B C D |
| C60 | `C60_node_max` | `Prop_EvalTimes` | A B C D |
| C60 | `C60_kc4i` | `Prop_EvalTimes` | A B C D |
| C60 | `C60_kc4i_refuted` | `Prop_EvalTimes` | - |
| C60 | `C60_ckdisc` | `Prop_EvalTimesCK` | A B C D |
| C60 | `C60_ckdisc_max_step` | `Prop_EvalTimesCK` | A B C D |
| C60 | `C60_swag` | `Prop_EvalTimesSwag` | A B C D |
| C60 | `C60_ssv2stab` | `Prop_EvalTimesRkc` | A B C D |
| C60 | `C60_ssv2stab_nodes` | `Prop_EvalTimesRkc` | A B C D |
| C60 | `C60_ssv2stab_backward_refuted` | `Prop_EvalTimesRkc` | A B C D |
| C61 | `C61_observer` | `Prop_Observer` | - |
| C61 | `C61_observer_no_detection` | `Prop_Observer` | - |
| C61 | `C61_any_two_sessions` | `Prop_Observer` | - |
| C61 | `C61_again` | `Prop_Observer` | - |
| C61 | `C61_fi5n_interpolant1_refuted` | `Prop_Observer` | - |
