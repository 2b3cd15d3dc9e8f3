{
 "claims": [
  {
   "property": "C01",
   "status": "proved",
   "theorems": [
    "C01_monotone",
    "C01_within_interval",
    "C01_lands",
    "C01_without_proviso_refuted",
    "library_classes_explicit",
    "C01_within_interval_max_step"
   ],
   "note": "Exact arithmetic (extended reals); the proviso max_step >= min_step is shown to be necessary by a run of the model. C01_within_interval_max_step: the interval statement for a finite max_step, as long as max_step is not below the smallest step in the solvers the run passes through."
  },
  {
   "property": "C02",
   "status": "proved",
   "theorems": [
    "C02_C06_step",
    "C02_C06_step_nystrom",
    "C02_components"
   ],
   "note": "Any arithmetic for the norm; the componentwise consequence in exact arithmetic."
  },
  {
   "property": "C03",
   "status": "proved",
   "theorems": [
    "C03_terminates",
    "C03_bound_exists",
    "C03_C09_rejections_shrink"
   ],
   "note": "For every controller with 0 < safety < 1 (all built-in ones)."
  },
  {
   "property": "C04",
   "status": "proved",
   "theorems": [
    "C04_tuple_hang_refuted"
   ],
   "note": "Negative result: accepted sc_params tuple, step() never returns."
  },
  {
   "property": "C05",
   "status": "proved",
   "theorems": [
    "C05_failure"
   ],
   "note": "Any arithmetic."
  },
  {
   "property": "C06",
   "status": "proved",
   "theorems": [
    "C02_C06_step",
    "C02_C06_step_nystrom",
    "C06_initial_derivative",
    "C06_initial_derivative_nystrom"
   ],
   "note": "Any arithmetic, any history."
  },
  {
   "property": "C07",
   "status": "proved",
   "theorems": [
    "C07_cost",
    "C07_cost_pre"
   ],
   "note": "Any arithmetic."
  },
  {
   "property": "C08",
   "status": "proved",
   "theorems": [
    "C08_steps_bounded",
    "C08_run_ends"
   ],
   "note": "Exact arithmetic."
  },
  {
   "property": "C09",
   "status": "proved",
   "theorems": [
    "C01_monotone",
    "C03_C09_rejections_shrink",
    "C09_growth",
    "C09_max_factor",
    "C09_max_factor_stays"
   ],
   "note": "Exact arithmetic; growth cap for the second order controller branch only (C10 shows it fails in the other)."
  },
  {
   "property": "C10",
   "status": "proved",
   "theorems": [
    "C10_growth_cap_refuted",
    "C10_max_step_refuted"
   ],
   "note": "Negative results: runs of the model evaluated by the kernel."
  },
  {
   "property": "C11",
   "status": "proved",
   "theorems": [
    "C11_no_exception",
    "C11_controller_defined"
   ],
   "note": "Exact arithmetic, all histories."
  },
  {
   "property": "C12",
   "status": "proved",
   "theorems": [
    "C12_reversal"
   ],
   "note": "first_step given and stiffness detection off; the automatic first step is not mirror symmetric."
  },
  {
   "property": "C13",
   "status": "proved",
   "theorems": [
    "C13_detect_irrelevant"
   ],
   "note": "Any arithmetic."
  },
  {
   "property": "C14",
   "status": "proved",
   "theorems": [
    "C14_zerodiv",
    "C14_otherwise_no_exception"
   ],
   "note": "Any arithmetic."
  },
  {
   "property": "C15",
   "status": "proved",
   "theorems": [
    "C15_evaluation_times",
    "C15_library_nodes",
    "C15_evaluation_times_max_step"
   ],
   "note": "Exact arithmetic; calls during steps (construction may probe one more time, C28). C15_evaluation_times_max_step: the same for a finite max_step not below the smallest step of the solvers passed through."
  },
  {
   "property": "C16",
   "status": "proved",
   "theorems": [
    "C16_validated",
    "C16_refused",
    "C16_idempotent",
    "C16_scale_positive",
    "C16_nan_accepted_refuted"
   ],
   "note": "exact arithmetic with inf/nan; the nan clause is the refutation theorem"
  },
  {
   "property": "C17",
   "status": "proved",
   "theorems": [
    "C17_rms",
    "C17_norm",
    "C17_max_norm",
    "C17_componentwise_refuted"
   ],
   "note": "exact arithmetic, real vectors of any length >= 1"
  },
  {
   "property": "C18",
   "status": "proved",
   "theorems": [
    "C18_order",
    "C18_solver_step",
    "C18_polynomial",
    "C18_ckdisc_embedded",
    "C40_member_order",
    "C40_order",
    "C18_near_order",
    "C18_near_solver_step"
   ],
   "note": "BS5, CK5, Me4, CFMR7osc, Pr7 and CKdisc (all embedded solutions and the accepted fractions); any vector field with a Taylor expansion at the base point, in particular every polynomial one (C18_polynomial). The decimal tableaux Ts5, Pr8, Pr9 (outside the property's list) satisfy it up to a residual at the level of the printed digits times elementary differentials of f (C18_near_*)."
  },
  {
   "property": "C19",
   "status": "proved",
   "theorems": [
    "C19_order",
    "C19_solver_step",
    "C19_polynomial",
    "C19_near_order",
    "C19_near_solver_step"
   ],
   "note": "Fi4N, Fi5N, MR6NN exactly; Mu5Nmb has coefficients rounded to decimals, so it cannot meet the order conditions exactly: C19_near_* bound the error by C h^6 plus 1e-18 times elementary differentials of f (error estimate: C h^5 plus 1e-14)."
  },
  {
   "property": "C21",
   "status": "proved",
   "theorems": [
    "C21_dense_order",
    "C21_dense_order_nystrom",
    "C40_dense_order",
    "C21_esdirk",
    "C21_esdirk_linear",
    "C21_esdirk_complete",
    "C21_dense_order_near",
    "C21_dense_order_quintic",
    "C21_dense_order_near_nystrom"
   ],
   "note": "Exactly rational interpolants: BS5 (three), CK5, CKdisc, Me4, Pr7, CFMR7osc, Fi5N (1,2), MR6NN; decimal tables (Ts5 order 4, Pr8 order 7, Pr9 order 8, Fi5N 3, both Mu5Nmb interpolants) with their residual in the bound; the quintic Hermite output of Fi4N and Fi5N. Implicit classes: every interpolant of all six (C21_esdirk, complete by C21_esdirk_complete), for steps whose stored slopes solve the stage equations near the base point; C21_esdirk_linear discharges that for every linear problem. Kv3I, KC4I, KC4Ia have decimal coefficients: residuals 4e-15 to 4e-13 are part of the bound."
  },
  {
   "property": "C22",
   "status": "proved",
   "theorems": [
    "C22_joins",
    "C22_joins_nystrom",
    "C22_continuously_differentiable",
    "C22_nearly_joins",
    "C22_nearly_joins_nystrom",
    "C22_ssv2stab",
    "C22_esdirk_polynomial",
    "C22_esdirk_piecewise",
    "C22_esdirk_consecutive",
    "C22_esdirk_before_first_step",
    "C22_esdirk_choice"
   ],
   "note": "All explicit methods with exactly rational interpolants, the cubic/quintic defaults, Fi5N 0-2, MR6NN, Mu5Nmb free and 'better'; interpolants with decimal coefficients (Ts5, Pr8, Pr9, Fi5N 3) join up to the stated coefficient error. Fi5N interpolant 1 joins the position that dense_output() itself writes back into the solver. Implicit classes: KC3I exactly, KC4I, KC4Ia and Kv3I up to their digits (1e-14, 1e-13), TRBDF2 and TRX2 piecewise cubic and C1."
  },
  {
   "property": "C23",
   "status": "proved",
   "theorems": [
    "C23_cubic",
    "C23_quintic",
    "C23_quintic_velocity",
    "C23_horner"
   ],
   "note": "Exact arithmetic."
  },
  {
   "property": "C45",
   "status": "proved",
   "theorems": [
    "C45_spurious_failure_refuted",
    "C01_without_proviso_refuted"
   ],
   "note": "Negative result."
  },
  {
   "property": "C40",
   "status": "proved",
   "theorems": [
    "C40_member_order",
    "C40_ranges",
    "C40_step",
    "C40_order",
    "C40_monotone",
    "C40_lands",
    "C40_terminates",
    "C40_bound_exists",
    "C40_no_exception",
    "C40_steps_bounded",
    "C40_run_ends",
    "C40_failure",
    "C40_dense",
    "C40_dense_order"
   ],
   "note": "Exact arithmetic with inf/nan; C40_failure in any arithmetic. twiddle[1] never changes (C40_ranges)."
  },
  {
   "property": "C25",
   "status": "proved",
   "theorems": [
    "C25_quadratic_roots",
    "C25_all_roots",
    "C25_real_root"
   ],
   "note": "Exact real arithmetic (RX); C25_case_complex is a concrete instance."
  },
  {
   "property": "C26",
   "status": "proved",
   "theorems": [
    "C26_difference_exact",
    "C26_eigenvector",
    "C26_roots_certified",
    "C26_evaluations"
   ],
   "note": "Affine right-hand sides, exact arithmetic; the evaluation bound holds in any arithmetic. C26_case is a concrete instance."
  },
  {
   "property": "C27",
   "status": "proved",
   "theorems": [
    "C27_only_when_diagnosed",
    "C27_stiff_means",
    "C27_silent_when_unsure_refuted",
    "C27_false_alarm_refuted",
    "C27_nystrom_silent_refuted"
   ],
   "note": "Two refutations of the documented intent, one on a complete 79-step run, one with a concrete Nystrom case."
  },
  {
   "property": "C28",
   "status": "proved",
   "theorems": [
    "C28_first_step"
   ],
   "note": "Every finite a<>b, every f, y, tolerance (also inf/nan values)."
  },
  {
   "property": "C43",
   "status": "proved",
   "theorems": [
    "C43_estimate_of_process",
    "C43_instances_independent_refuted"
   ],
   "note": "Process = list of constructor calls with their scale_embedded option."
  },
  {
   "property": "C30",
   "status": "proved",
   "theorems": [
    "C30_work",
    "C30_step_ends",
    "C30_after_failed_trial"
   ],
   "note": "Number of iterations, Jacobian refreshes and the reduction of the step after each failed trial; termination of step()."
  },
  {
   "property": "C31",
   "status": "proved",
   "theorems": [
    "C31_no_assertion",
    "C31_factorisation"
   ],
   "note": "C31_factorisation holds for every arithmetic; C31_no_assertion over the extended reals: the only exceptions are those of scipy's linear algebra."
  },
  {
   "property": "C32",
   "status": "proved",
   "theorems": [
    "C32_stale_derivative_refuted",
    "C32_nan_step_refuted",
    "C32_jacobian_twice_refuted"
   ],
   "note": "Negative results."
  },
  {
   "property": "C33",
   "status": "proved",
   "theorems": [
    "C33_within_one_percent",
    "C33_max_step_refuted",
    "C39_max_step_refuted"
   ],
   "note": "ESDIRK part: C33 theorems; SSV2stab part: C39_max_step_refuted (a step of 1.05 max_step)."
  },
  {
   "property": "C46",
   "status": "proved",
   "theorems": [
    "C46_step",
    "C46_steps_bounded",
    "C46_run_ends",
    "C46_short_interval_refuted"
   ],
   "note": ""
  },
  {
   "property": "C29",
   "status": "proved",
   "theorems": [
    "C29_linear_step"
   ],
   "note": "All six classes, any dimension, with or without mass matrix, and linear DAEs (orthogonal U, consistent initial values, exact linear solves); every history, every accepted step, including the calls of fun in rejected trials."
  },
  {
   "property": "C20",
   "status": "proved",
   "theorems": [
    "C20_order",
    "C20_order_exact",
    "C20_stiffly_accurate",
    "C20_row_sums",
    "C20_linear_solver",
    "C20_declared_orders"
   ],
   "note": "Any vector field with a Taylor expansion at the base point (every polynomial one included), any solution of the stage equations near the base point; KC4Ia: order conditions with residual 1e-24 (its tableau is decimal), error-estimate weights of KC3I/KC4I with residual 1e-15, all others exact. C20_linear_solver ties it to the accepted steps of a solver on linear problems; for nonlinear problems the stage equations are solved by Newton up to the tolerance only."
  },
  {
   "property": "C34",
   "status": "proved",
   "theorems": [
    "C34_order_and_no_exceptions",
    "C34_order_changes"
   ],
   "note": "Every arithmetic, every fun, every content of the np.empty arrays. Example C34_case: a run in which the order rises to 6."
  },
  {
   "property": "C35",
   "status": "proved",
   "theorems": [
    "C35_restored",
    "C35_case"
   ],
   "note": "Exact arithmetic, fun with finite values; rounding errors of the restoration in floating point are not covered."
  },
  {
   "property": "C36",
   "status": "proved",
   "theorems": [
    "C36_step",
    "C36_step_returns",
    "C36_run_ends",
    "C36_run_completes",
    "C36_case",
    "C36_hang_refuted"
   ],
   "note": "Exact arithmetic, any fun (nan and inf allowed). The termination claim is refuted at t = 0."
  },
  {
   "property": "C37",
   "status": "proved",
   "theorems": [
    "C37_coefficients",
    "C37_adams",
    "C37_polynomial_exact"
   ],
   "note": "C37_coefficients: every arithmetic, all patterns of order changes, repeated step sizes and rejections. C37_adams: exact arithmetic, fun with finite values, steps that move t."
  },
  {
   "property": "C38",
   "status": "proved",
   "theorems": [
    "C38_cT_is_chebyshev",
    "C38_recurrences",
    "C38_order_two",
    "C38_order_case",
    "C38_stability_interval",
    "C38_exponential",
    "C38_linear",
    "C38_linear_case"
   ],
   "note": "Exact arithmetic. log, sinh and cosh are the real functions."
  },
  {
   "property": "C39",
   "status": "proved",
   "theorems": [
    "C39_radius_evaluations",
    "C39_current_data",
    "C39_step",
    "C39_step_returns",
    "C39_run_ends",
    "C39_accepts",
    "C39_case",
    "C39_max_step_refuted",
    "C39_backward_call_refuted",
    "C39_infinite_rho_refuted",
    "C39_radius_zero_refuted",
    "C39_falling_body_refuted",
    "C39_qro_accepted"
   ],
   "note": "C39_radius_evaluations and C39_current_data: every arithmetic. The others: exact arithmetic; the last negative results are computed with 53-bit rounded rationals."
  },
  {
   "property": "C24",
   "status": "proved",
   "theorems": [
    "C24_A_stable",
    "C24_at_infinity",
    "C24_Kv3I_limit",
    "C24_TRX2_no_damping_refuted",
    "C24_step",
    "C24_solver_step",
    "C24_solver"
   ],
   "note": "All six implicit classes, exact coefficients of the source (Q(sqrt 2)). Step theorem for every mode (complex left eigenvector, mass matrix allowed) of M y' = J y; exact arithmetic and exact linear solves."
  },
  {
   "property": "C41",
   "status": "proved",
   "theorems": [
    "c41_rhs",
    "c41_blocks_exhaust",
    "c41_initial",
    "c41_sparsity_covers",
    "c41_sparsity_when",
    "c41_approx_jac",
    "c41_output",
    "c41_solver_failure",
    "c41_list_atol_refuted",
    "c41_atol",
    "c41_sensitivities_are_derivatives"
   ],
   "note": "The structure theorems hold for every arithmetic. solve_ivp is an oracle; the derivative theorem assumes that its answer is exact for the one problem handed to it, and quadratic Taylor remainders for the user's derivatives. c41_list_atol_refuted: a list or tuple atol of the right length is rejected although documented."
  },
  {
   "property": "C42",
   "status": "proved",
   "theorems": [
    "c42_end_point",
    "c42_integral",
    "c42_backward_jacobian"
   ],
   "note": "Exact arithmetic; the solves handed to solve_ivp (forward, dense, backward) are assumed exact. Concrete cases: c42_case, c42_case_integral."
  },
  {
   "property": "C44",
   "status": "proved",
   "theorems": [
    "C44_lands_when_difference_exact",
    "C44_lands_within_factor_two",
    "C44_lands_from_zero",
    "C44_lands_nearly",
    "C44_overshoot_refuted",
    "C44_short_refuted"
   ],
   "note": "Flocq binary64 with arbitrary pow and log10; explicit classes; the hypotheses are met by lands_case."
  },
  {
   "property": "C47",
   "status": "proved",
   "theorems": [
    "C44_advances"
   ],
   "note": "Flocq binary64 with arbitrary pow and log10; explicit classes; h_abs >= 0 and y non-empty are assumed of the state before the step (the constructor establishes both, see lands_case)."
  },
  {
   "property": "C48",
   "status": "proved",
   "theorems": [
    "C48_no_exceptions",
    "C48_before_step",
    "C48_interpolant",
    "C48_polynomial_exact",
    "C48_smooth_joins",
    "C48_last_step"
   ],
   "note": "C48_no_exceptions and C48_before_step: every arithmetic. The others: exact arithmetic, fun with finite values, steps that move t. The contents of the uninitialised work arrays are arbitrary."
  },
  {
   "property": "C49",
   "status": "proved",
   "theorems": [
    "C49_global_error",
    "C49_global_error_near",
    "C49_max_step",
    "C49_max_step_near",
    "C49_polynomial",
    "C49_convergence",
    "C49_nystrom",
    "C49_nystrom_near",
    "C49_nystrom_max_step",
    "C49_nystrom_max_step_near",
    "C49_nystrom_polynomial"
   ],
   "note": "Exact arithmetic. A run is any sequence of step() calls while max_step is not below the minimum step. smooth_along: Taylor expansions of order p with uniform constants along Y; polynomial right-hand sides satisfy it and lipschitz_along (C49_polynomial). C49_case, C49_near_case: y'=y^2 on [0,1/2], the oscillator. Nystrom classes: the user's right-hand side is the first order system sys2; MR6NN needs accelerations that do not depend on the velocity; fi5n_init's overwritten controller constants are not part of rkn_init, but the theorem holds for all constants. C49_nystrom_case: x''=-x."
  },
  {
   "property": "C50",
   "status": "proved",
   "theorems": [
    "C50_first_try",
    "C50_first_try_near",
    "C50_completes",
    "C50_polynomial"
   ],
   "note": "Exact arithmetic. Explicit classes with a Runge-Kutta tableau, including the early test (pre-estimate) of BS5 and CFMR7osc. room: the minimum step is neither above max_step nor above the remaining distance to t_bound (otherwise step() fails, C10/C11). Either stiffness detection is off or its interval is at least the number of stages. C50_case: y'=y^2 with Me4 meets the hypotheses for every H from sqrt(tiny) to 1/2."
  },
  {
   "property": "C51",
   "status": "proved",
   "theorems": [
    "C51_controller",
    "C51_controller_nystrom",
    "C51_names",
    "C51_names_refuted",
    "C51_fi5n_refuted",
    "C51_laws",
    "C51_aim",
    "C51_rest"
   ],
   "note": "C51_controller and C51_controller_nystrom hold in every arithmetic (also binary64 with any rounding of the operations); the specification (SpecCtl.v) has no solver flags, only the pair (step, error norm) of the last accepted step. C51_laws, C51_aim, C51_rest: the laws over the reals. C51_case: a run with a refused trial and a step by the second law. CKdisc has its own control (C40). C51_names: the documented parameter sets and defaults; C51_names_refuted: \"H\" and \"W\" are documented and rejected; C51_fi5n_refuted: Fi5N ignores sc_params."
  },
  {
   "property": "C52",
   "status": "proved",
   "theorems": [
    "C52_dense_error",
    "C52_dense_error_near",
    "C52_polynomial",
    "C52_same_order",
    "C52_nystrom",
    "C52_nystrom_same_order",
    "C52_nystrom_polynomial",
    "C52_nystrom_decimal",
    "C52_nystrom_near"
   ],
   "note": "Exact-real semantics (RX). Exactly rational classes: BS5 (best, low and free interpolants), CK5, Me4, Pr7, CFMR7osc; decimal classes Ts5, Pr8, Pr9 up to the residual of their coefficients (those need F Lipschitz everywhere). Nystrom classes: Fi4N, Fi5N interpolants 0, 1, 2 and MR6NN (C52_nystrom: error at most C H^p in positions and velocities), Fi5N interpolant 3 and both interpolants of Mu5Nmb up to their digits. Beyond C21 (one step from a point on the trajectory, constants for that point) the constants hold for every step of every run, starting from the computed (inexact) points. Calls of dense_output between the steps do not change the steps (C14), except that Fi5N with interpolant 1 writes its own position back into the solver: runs with such calls in between are not covered. CKdisc, SSV2stab, SWAG and the implicit classes are not covered. Examples C52_case, C52_nystrom_case meet the hypotheses."
  },
  {
   "property": "C53",
   "status": "proved",
   "theorems": [
    "C53_controller",
    "C53_controller_dae",
    "C53_names",
    "C53_soederlind_refuted"
   ],
   "note": "Every arithmetic (C53_controller, C53_controller_dae): all six classes, any options, any linear algebra. The specification (SpecESD.v) has no solver flags. C53_soederlind_refuted: the documented parameters of \"S\" are not those of the code. C53_case: a run with trials given up by Newton, one refused for its error, and a step by the second law. The specification also says which Jacobian and which step the matrix in use belongs to (at_hand, up_to_date), and Newton's verdicts are exclusive."
  },
  {
   "property": "C54",
   "status": "proved",
   "theorems": [
    "C54_stages",
    "C54_error",
    "C54_slopes"
   ],
   "note": "C54_stages: run level, with mass matrices and differential-algebraic problems. C54_error: consequence of the record it returns. C54_slopes: problems that are not differential-algebraic, linear systems solved exactly. C54_case: y' = -y^2, all six classes, meets the hypotheses at construction; C53_case is an executed run with accepted steps of the same problem."
  },
  {
   "property": "C55",
   "status": "proved",
   "theorems": [
    "C55_residuals",
    "C55_linear",
    "C55_linear_plain",
    "C55_max_step",
    "C55_polynomial",
    "C55_dense",
    "C55_dense_linear",
    "C55_dense_max_step",
    "C55_dense_complete"
   ],
   "note": "Exact arithmetic. C55_residuals: any problem; how Newton's iteration found the slopes does not matter, only the residual dl of the stage equations (C54 says what the iteration guarantees). The existence of the exact stage values on the trajectory is proved (Picard iteration). C55_linear: M regular, stage equations solved exactly (C29); C55_linear_plain: no mass matrix, Lipschitz follows; C55_max_step: C33 allows 1% more than max_step, absorbed in C; C55_polynomial: g polynomial. C55_case: y' = lam y, all six classes, constructed solver, first step. C55_dense, C55_dense_linear, C55_dense_max_step: in every step of such a run the dense output object (the interpolant the class declares) exists and is within C (eps + dl + H^p + e H) of Y on the whole step; C55_dense_complete: each of the six classes has such an interpolant."
  },
  {
   "property": "C56",
   "status": "proved",
   "theorems": [
    "C56_consistent_start",
    "C56_index_one",
    "C56_index_one_accepted",
    "C56_linear",
    "C56_first_step_refuted"
   ],
   "note": "Exact arithmetic. np.linalg.svd, matrix_rank, solve and scipy.optimize.root are oracles; the theorems assume an exact decomposition of this M with no nonzero singular value below the threshold of the code, exact linear solves, the right rank and residuals of root at most e. C56_case: M = diag(1, 0), all six classes, all premises of the four theorems met and the constructor returns. The wrong sign of the reduced Jacobian (common.py 1915) is C56_first_step_refuted."
  },
  {
   "property": "C57",
   "status": "proved",
   "theorems": [
    "C57_one_dimensional",
    "C57_shapes",
    "C57_regular",
    "C57_runs",
    "C57_zero_mass_refuted",
    "C57_array_atol_refuted"
   ],
   "note": "C57_one_dimensional and C57_shapes for every arithmetic, the others for exact arithmetic with an exact singular value decomposition. What fails (M = 0, array atol) is proved as _refuted."
  },
  {
   "property": "C58",
   "status": "proved",
   "theorems": [
    "C58_global_error",
    "C58_convergence",
    "C58_polynomial",
    "C58_dense"
   ],
   "note": "Exact arithmetic. The number of stages changes from step to step (GlobalAny.v: an induction over one-step schemes that may be a different method in every step); it is bounded for all solvers because validated rtol is at most 0.1 (stages_bounded_all). H is a bound for the accepted steps: max_step is none (C39_max_step_refuted: the last step is stretched by up to 10%, and the minimum step or first_step can exceed it). C58_dense: the cubic joining the ends of the step. C58_case: y' = y^2, constructed solver with the built-in power method, step() returns."
  },
  {
   "property": "C59",
   "status": "proved",
   "theorems": [
    "C59_global_error",
    "C59_max_step",
    "C59_convergence",
    "C59_polynomial",
    "C59_dense"
   ],
   "note": "Exact arithmetic. ck_families lists the sets of order_accepted values with the order of the lowest member: {4,2,1}: 2, {4,2}: 3, {4}: 5. C59_max_step and C59_convergence are for the option max_step = H and any run in which max_step is not below the code's minimum step (code_min_step), without a condition on the orders. C59_dense: CKdisc's own interpolant after steps of order 5, the cubic joining the ends of the step after the others. C59_case: y' = y^2, default options, constructed solver, step() returns."
  },
  {
   "property": "C60",
   "status": "proved",
   "theorems": [
    "C60_esdirk",
    "C60_esdirk_stretch",
    "C60_all_classes",
    "C60_node_max",
    "C60_kc4i",
    "C60_kc4i_refuted",
    "C60_ckdisc",
    "C60_ckdisc_max_step",
    "C60_swag",
    "C60_ssv2stab",
    "C60_ssv2stab_nodes",
    "C60_ssv2stab_backward_refuted"
   ],
   "note": "Exact arithmetic; the calls made by step() (those of the constructor come before). Five of the six implicit classes, CKdisc and SWAG stay within [t0, t_bound]; KC4I has a node 26/25, so it may evaluate fun up to 4% of the interval beyond t_bound, and C60_kc4i_refuted is a run that does. The explicit classes are C15. Jacobian evaluations by jac or finite differences are made at accepted points and not in this log. CKdisc: max_step=inf, or (C60_ckdisc_max_step) not below the smallest step in the solvers the run passes through. SSV2stab: stage times t + c_j h with 0 <= c_j <= 1 for every number of stages (C60_ssv2stab_nodes, from the recurrences of the Chebyshev polynomials of the second kind); the power method calls fun at t. Without first_step its first step-size probe ignores the direction: a backward run calls fun outside the interval (C60_ssv2stab_backward_refuted), so C60_ssv2stab assumes first_step given, or a forward run not shorter than the constructor's smallest step."
  },
  {
   "property": "C61",
   "status": "proved",
   "theorems": [
    "C61_observer",
    "C61_observer_no_detection",
    "C61_any_two_sessions",
    "C61_again",
    "C61_fi5n_interpolant1_refuted"
   ],
   "note": "Every arithmetic. All interpolants of the explicit classes but interpolant 1 of Fi5N, for which C61_fi5n_interpolant1_refuted is a run whose next step differs. With nfev_stiff_detect > 0 the theorem compares sessions that end without an exception raised by the stiffness diagnosis (its evaluation counts are user visible only in nfev); without detection the plain run is shown to end normally whenever the session does. In the model the dense output object is a value: aliasing of numpy arrays between solver and object is not modelled."
  }
 ]
}