# Formal model of extensisq in Rocq (Coq 8.16.1)

## 1. Approach

* The code is modelled function by function as total Gallina functions over a record `Arith`
  (Arith.v): a type of numbers with exactly the operations and comparisons the Python code uses.
  The same model text is instantiated with
  - `RX` (RX.v): extended reals `Fin r | PInf | NInf | NaN` with IEEE comparison semantics; no
    rounding, no overflow; inf and nan enter through `fun`, options and division by zero.
    Theorems about order relations, termination, bounds and orders of accuracy are about `RX`;
  - `QX` (QX.v): rationals rounded to 53 bits with inf and nan; executable, so that concrete runs
    (examples, refutations) are evaluated by the kernel;
  - `F64 pow log10` (F64.v): IEEE binary64 from Flocq, `pow` and `log10` arbitrary functions
    (their rounding is not specified by IEEE): landing and progress (C44, C47).
  Theorems about control flow are proved for *every* `Arith`, so they hold in binary64 too.
* The user's `fun` is an arbitrary function `num -> list num -> list num`. Each call is recorded in
  the state, so `nfev` and the points of evaluation are observable.
* Exceptions are values. `while` loops are fuelled; running out of fuel is a separate outcome
  (`StepHang`/`OHang`), which the termination theorems exclude and no other theorem assumes away.
* Histories: `step()` calls from a constructed solver (`made by the constructor` then any number
  of calls); the properties quantify over all of them.

## 2. Which code is modelled, where

| source | model | not modelled |
|---|---|---|
| common.py 30-63 validate_tol, calculate_scale, norm | Common.v | dtype conversion |
| common.py 66-521 RungeKutta, 1211-1490 RungeKuttaNystrom (constructor, step control, stages, error norms, stiffness hook) | RK.v, RKInit.v | complex dtype, logging, debug counters |
| common.py 524-765 h_start | HStart.v | complex dtype |
| common.py 766-818, 1489-1582 dense outputs; every `_dense_output_impl` of the explicit classes | Dense.v | vectorised evaluation (one t at a time) |
| common.py 819-1208 stiff_a .. stiff_d | Stiff.v | - |
| common.py 1617-2254 ESDIRK | ESDIRK.v; DAE.v (`_handle_M`, `_consistent_ICs`, the DAE branch of `__init__`) | `num_jac`, the LU routines, `np.linalg.svd/matrix_rank/solve` and `scipy.optimize.root` (oracles), sparse matrices, warnings filters |
| hosea.py, kennedy.py, kvaerno.py; common.py 2226-2244 dense output | ESDCls.v, ESDDense.v, Tableaux.v | scipy's CubicHermiteSpline is modelled as two cubic Hermite pieces |
| bogacki.py, cash.py (CK5), calvo.py, fine.py, merson.py, mikkawy.py, murua.py, prince.py, tsitouras.py | Classes.v, Tableaux.v, Mu5Scale.v, Dense.v | - |
| cash.py 115-416 CKdisc | CK.v | - |
| shampine.py SWAG, SwagDenseOutput | Swag.v, SwagDense.v | complex dtype |
| sommeijer.py SSV2stab with its dense output | Rkc.v | complex dtype |
| sensitivity.py | Sens.v | `solve_ivp` (an oracle), dtype tests, the `sol` objects returned |
| scipy `OdeSolver.step`, `dense_output`, `validate_*` | Ode.v, RK.v, RKInit.v (from scipy's documented behaviour) | `solve_ivp` driver, events |

Simplifications, also stated next to each definition:
1. numpy arrays are lists; `@`, `dot`, `sum` are left-to-right sums (BLAS order is not modelled).
2. Real dtype only.
3. `K` is the growing list of stage vectors instead of a preallocated array; slices that select
   unset rows are impossible in the model because of the order of evaluation (RK.v).
4. ESDIRK: the LU object is the matrix that was factorised; `lu` and `solve` are arbitrary oracles
   (an exception of scipy is the outcome `lin_error`); theorems over `RX` that need the solve to
   be exact say so in a premise (C24, C29). The Jacobian is an oracle indexed by the number of
   earlier evaluations. `x ** int` is repeated multiplication.
5. SWAG: arrays are lists with checked indices (an index error is an outcome; C34 proves it never
   happens); the contents of `np.empty` arrays are an arbitrary function.
6. SSV2stab: stage counts are integers; log, sinh, cosh, int, round are a record `Elem` (real
   functions in RX); Python-float divisions raise, numpy divisions do not.
7. sensitivity.py: `solve_ivp` is a function from the problem it is handed to an answer; the
   theorems name the problem and assume exactness for that one problem only.

## 3. Method of proof

* Control flow, cost, cleanness of failures, non-interference, FSAL: invariants over trials and
  histories, for every `Arith`.
* Monotonicity, landing, termination, step bounds: invariants and a decreasing measure
  (the step size shrinks by a fixed factor until it is below the minimum) over `RX`; landing and
  strict progress also in binary64.
* Order (C18-C21): a tree expansion (Trees.v, OrderThm.v) shows, for every right-hand side
  with a Taylor expansion at the base point, that the order conditions imply an error
  `<= C |h|^(p+1)`; the conditions of all trees are decided by a verified checker
  (OrderCheck.v) run by the kernel on the exact table. Tables with decimal coefficients are
  checked in verified ball arithmetic (Balls.v, BallTab.v): the error then has an additional term
  `eps * (sum of absolute elementary differentials)`. Implicit methods: GOrder.v/OrderIRK.v, for
  all solutions of the stage equations near the base point; their interpolants: GDense.v,
  GDenseCheck.v, IRKDense.v; explicit decimal interpolants: DenseNear.v, DenseNearN.v.
* Global error (C49): the expansion is redone uniformly in the base point and in the method
  (UOrder.v, UOrder2.v), which gives a local error `C |h|^(p+1)` with one C along the whole
  trajectory; Lipschitz stability of the step and a discrete Gronwall argument (GlobalRK.v) give
  the global bound; GlobalRun.v turns solver histories into such step sequences.
* First-try acceptance (C50): the error estimate, a combination of stages near the trajectory, is
  bounded by `C (e |h| + |h|^(q+1))` uniformly (GlobalEst.v); with max_step and atol this bounds the
  scaled norm below 1, so the accept branch of the step loop is taken (GlobalAccept.v).
* Nystrom classes along runs (C49): GlobalN.v (uniform local error, stability, global bound), GlobalRunN.v (runs of the solver), Prop_GlobalN.v.
* Dense output along runs (C52): uniform order theorem for interpolants (UDense.v), perturbed starts (GlobalDense.v), runs (Prop_GlobalDense.v). Nystrom classes: GlobalDenseN.v, Prop_GlobalDenseN.v.
* Step size control (C51): refinement of the loop by a flagless controller (SpecCtl.v, Ctl.v).
* Control of the implicit solvers (C53): refinement of Newton's iteration, stage loop, trial loop and step by the flagless specification SpecESD.v (ESDCtl.v).
* Accuracy of the stages (C54): the specification's Newton iteration read in exact arithmetic; a finite end makes all iterates finite (ESDNewton.v).
* Implicit classes along runs (C55): GlobalIRK.v (Picard iteration gives the exact stages on the trajectory; they are bounded, the uniform expansion of UOrder2.v applies; stages with residual dl from a point e away differ by 2 (L e + dl); induction along the run), Prop_GlobalIRK.v (runs of the solver: Prop_ESDDense.esd_made, C29 on linear problems, C33 for max_step); Prop_GlobalIRKDense.v (dense output within the step: the error of the interpolant of a step started e away with stage residual dl).
* SSV2stab along runs (C58): GlobalAny.v (global errors of schemes whose step may be a different method each time), GlobalRKC.v (the m stage scheme is an explicit Runge-Kutta method of order two, uniformly in m up to a bound; the cubic dense output as weights of order two), Prop_GlobalRKC.v (runs of the solver: C39_step gives every accepted step; the bound for the number of stages follows from rtol <= 0.1).
* CKdisc along runs (C59): GlobalCK.v (the member accepted, with its coefficients divided by the fraction of the trial step it makes, is an explicit method of its order in the step made; conditions of the scaled tables and of the dense output, cubic included, checked by computation in Q), Prop_GlobalCK.v (C40_step gives the member and the trial of every accepted step; the order may change from step to step, so GlobalAny.v is used).
* Evaluation times (C60): EvalTimes.v (ESDIRK), EvalTimesCK.v (CKdisc), EvalTimesSwag.v (SWAG), EvalTimesRkc.v (SSV2stab; the stage fractions are in [0,1] because T_j''/T_j' does not decrease with j, a wronskian of the U_j): the calls appended to the log by one trial lie at t + c_i h with h clipped to the remaining interval; induction over trials and step() calls. Prop_EvalTimes*.v state it with `within t0 tb` and give the counterexample for KC4I.
* Observing (C61): Observer.v defines a user's session (step() calls, a dense_output() call after a selection of them); every dense output implementation leaves a state that agrees with the old one in everything but the call log and the diagnosis counters (the relation of C13's proof), and gives equal objects on such states; induction over the session. Prop_Observer.v states it and refutes it for Fi5N's interpolant 1, which assigns self.y.
* Mass matrices and DAEs (C56, C57): DAEReal.v (the singular value decomposition read as the algebraic equations w^T X = 0 and the null directions of X), DAETop.v (`_consistent_ICs` returns: what its values satisfy), DAEMake.v (`_handle_M` and the branch taken), DAEAcc.v (when it returns), Prop_DAE.v, Prop_DAE2.v (acceptance, concrete case), Prop_DAE3.v (one-dimensional M, shapes, two defects run in QX).
* Stability (C24): stability functions as rational functions over Q(sqrt 2), maximum principle on
  the imaginary axis replaced by explicit sum-of-squares certificates (Stab.v, Prop_Stab.v).
* Adams coefficients (C37): divided differences and Newton interpolation over the reals (Adams.v).
* Chebyshev (C38): Cheb.v. Sensitivity (C41, C42): Gronwall and differentiability of the flow
  (Flow.v, with Coquelicot).
* Negative results: theorems ending in `_refuted` (or C04, C10, C32, C33, C43, C45) exhibit a concrete reachable
  run, evaluated by the kernel.

## 4. Statements

Statements are in the `Prop_*.v` files and use the public attributes of the solver, plus the small
specifications SpecRK.v (textbook Runge-Kutta step, error estimate), OrderThm.v/OrderRK.v
(`solves`, `smooth_at`, `lifts`), GlobalRK.v (`solution_on`, `smooth_along`, `lipschitz_along`), Adams.v (divided differences), Cheb.v (Chebyshev polynomials),
Flow.v. Next to each group of theorems an `Example` (`*_case`) shows that a concrete nontrivial
case meets the hypotheses.

## 5. Trusted base

* Coq 8.16.1's kernel, including its virtual machine (`vm_compute`, used for the tableau checks and
  the concrete runs; `coqchk` re-checks them without it).
* The axioms listed per theorem in ASSUMPTIONS.md (output of `Print Assumptions`, generated by
  tools/assumptions.py). They are the standard library's
  `ClassicalDedekindReals.sig_forall_dec`, `ClassicalDedekindReals.sig_not_dec`,
  `Classical_Prop.classic`, `FunctionalExtensionality.functional_extensionality_dep`. No others.
* tools/gen_tableaux.py, which transcribes the coefficient tables of the Python source into
  Tableaux.v (exact rationals or pairs a + b sqrt 2).
* The reading of the Python code in the model files (each definition cites file and lines), and
  of scipy's `OdeSolver` in Ode.v.

## 6. Mutation tests

seeded/LOG.jsonl: edits of the model as realistic bugs would make them, and the theorems that fail.

## 7. Property plan

| property | title | status | theorems | scope |
|---|---|---|---|---|
| C01 | Explicit RK: time advances monotonically and never passes t_bound | proved | `C01_monotone`, `C01_within_interval`, `C01_lands`, `C01_without_proviso_refuted`, `library_classes_explicit`, `C01_within_interval_max_step` | Exact arithmetic (extended reals); the proviso max_step >= min_step is shown to be necessary by a run of the model. C01_within_interval_max_step: the interval statement for a finite max_step, as long as max_step is not below the smallest step in the solvers the run passes through. |
| C02 | Explicit RK: only steps with error norm below one are accepted | proved | `C02_C06_step`, `C02_C06_step_nystrom`, `C02_components` | Any arithmetic for the norm; the componentwise consequence in exact arithmetic. |
| C03 | Explicit RK: every step() call terminates | proved | `C03_terminates`, `C03_bound_exists`, `C03_C09_rejections_shrink` | For every controller with 0 < safety < 1 (all built-in ones). |
| C04 | Explicit RK: user-supplied controller with safety >= 1 can hang step() | proved | `C04_tuple_hang_refuted` | Negative result: accepted sc_params tuple, step() never returns. |
| C05 | Explicit RK: failure is clean and correctly diagnosed | proved | `C05_failure` | Any arithmetic. |
| C06 | Explicit RK: cached derivative is consistent (FSAL) | proved | `C02_C06_step`, `C02_C06_step_nystrom`, `C06_initial_derivative`, `C06_initial_derivative_nystrom` | Any arithmetic, any history. |
| C07 | Explicit RK: function evaluation cost | proved | `C07_cost`, `C07_cost_pre` | Any arithmetic. |
| C08 | Explicit RK: the number of steps to t_bound is finite and bounded | proved | `C08_steps_bounded`, `C08_run_ends` | Exact arithmetic. |
| C09 | Explicit RK: step size limits and growth limits | proved | `C01_monotone`, `C03_C09_rejections_shrink`, `C09_growth`, `C09_max_factor`, `C09_max_factor_stays` | Exact arithmetic; growth cap for the second order controller branch only (C10 shows it fails in the other). |
| C10 | Explicit RK: growth limit is not enforced in the standard-controller branch; max_step not enforced below min_step | proved | `C10_growth_cap_refuted`, `C10_max_step_refuted` | Negative results: runs of the model evaluated by the kernel. |
| C11 | Explicit RK: second order controller state is always well defined | proved | `C11_no_exception`, `C11_controller_defined` | Exact arithmetic, all histories. |
| C12 | Explicit RK: time-reversal symmetry | proved | `C12_reversal` | first_step given and stiffness detection off; the automatic first step is not mirror symmetric. |
| C13 | Explicit RK: stiffness diagnosis never alters the numerical solution | proved | `C13_detect_irrelevant` | Any arithmetic. |
| C14 | Stiffness diagnosis can raise ZeroDivisionError | proved | `C14_zerodiv`, `C14_otherwise_no_exception` | Any arithmetic. |
| C15 | Explicit RK: fun is only evaluated inside the step | proved | `C15_evaluation_times`, `C15_library_nodes`, `C15_evaluation_times_max_step` | Exact arithmetic; calls during steps (construction may probe one more time, C28). C15_evaluation_times_max_step: the same for a finite max_step not below the smallest step of the solvers passed through. |
| C16 | Tolerance validation yields usable positive tolerances | proved | `C16_validated`, `C16_refused`, `C16_idempotent`, `C16_scale_positive`, `C16_nan_accepted_refuted` | exact arithmetic with inf/nan; the nan clause is the refutation theorem |
| C17 | RMS norm is a norm and consistent with the maximum norm | proved | `C17_rms`, `C17_norm`, `C17_max_norm`, `C17_componentwise_refuted` | exact arithmetic, real vectors of any length >= 1 |
| C18 | Classical order of explicit RK pairs (exactly rational methods) | proved | `C18_order`, `C18_solver_step`, `C18_polynomial`, `C18_ckdisc_embedded`, `C40_member_order`, `C40_order`, `C18_near_order`, `C18_near_solver_step` | BS5, CK5, Me4, CFMR7osc, Pr7 and CKdisc (all embedded solutions and the accepted fractions); any vector field with a Taylor expansion at the base point, in particular every polynomial one (C18_polynomial). The decimal tableaux Ts5, Pr8, Pr9 (outside the property's list) satisfy it up to a residual at the level of the printed digits times elementary differentials of f (C18_near_*). |
| C19 | Order of Runge-Kutta-Nystrom pairs | proved | `C19_order`, `C19_solver_step`, `C19_polynomial`, `C19_near_order`, `C19_near_solver_step` | Fi4N, Fi5N, MR6NN exactly; Mu5Nmb has coefficients rounded to decimals, so it cannot meet the order conditions exactly: C19_near_* bound the error by C h^6 plus 1e-18 times elementary differentials of f (error estimate: C h^5 plus 1e-14). |
| C20 | Order of the implicit (ESDIRK) methods | proved | `C20_order`, `C20_order_exact`, `C20_stiffly_accurate`, `C20_row_sums`, `C20_linear_solver`, `C20_declared_orders` | Any vector field with a Taylor expansion at the base point (every polynomial one included), any solution of the stage equations near the base point; KC4Ia: order conditions with residual 1e-24 (its tableau is decimal), error-estimate weights of KC3I/KC4I with residual 1e-15, all others exact. C20_linear_solver ties it to the accepted steps of a solver on linear problems; for nonlinear problems the stage equations are solved by Newton up to the tolerance only. |
| C21 | Dense output order of accuracy | proved | `C21_dense_order`, `C21_dense_order_nystrom`, `C40_dense_order`, `C21_esdirk`, `C21_esdirk_linear`, `C21_esdirk_complete`, `C21_dense_order_near`, `C21_dense_order_quintic`, `C21_dense_order_near_nystrom` | Exactly rational interpolants: BS5 (three), CK5, CKdisc, Me4, Pr7, CFMR7osc, Fi5N (1,2), MR6NN; decimal tables (Ts5 order 4, Pr8 order 7, Pr9 order 8, Fi5N 3, both Mu5Nmb interpolants) with their residual in the bound; the quintic Hermite output of Fi4N and Fi5N. Implicit classes: every interpolant of all six (C21_esdirk, complete by C21_esdirk_complete), for steps whose stored slopes solve the stage equations near the base point; C21_esdirk_linear discharges that for every linear problem. Kv3I, KC4I, KC4Ia have decimal coefficients: residuals 4e-15 to 4e-13 are part of the bound. |
| C22 | Dense output is continuous across steps | proved | `C22_joins`, `C22_joins_nystrom`, `C22_continuously_differentiable`, `C22_nearly_joins`, `C22_nearly_joins_nystrom`, `C22_ssv2stab`, `C22_esdirk_polynomial`, `C22_esdirk_piecewise`, `C22_esdirk_consecutive`, `C22_esdirk_before_first_step`, `C22_esdirk_choice` | All explicit methods with exactly rational interpolants, the cubic/quintic defaults, Fi5N 0-2, MR6NN, Mu5Nmb free and 'better'; interpolants with decimal coefficients (Ts5, Pr8, Pr9, Fi5N 3) join up to the stated coefficient error. Fi5N interpolant 1 joins the position that dense_output() itself writes back into the solver. Implicit classes: KC3I exactly, KC4I, KC4Ia and Kv3I up to their digits (1e-14, 1e-13), TRBDF2 and TRX2 piecewise cubic and C1. |
| C23 | Hermite dense outputs reproduce polynomials | proved | `C23_cubic`, `C23_quintic`, `C23_quintic_velocity`, `C23_horner` | Exact arithmetic. |
| C24 | Linear stability of the implicit methods | proved | `C24_A_stable`, `C24_at_infinity`, `C24_Kv3I_limit`, `C24_TRX2_no_damping_refuted`, `C24_step`, `C24_solver_step`, `C24_solver` | All six implicit classes, exact coefficients of the source (Q(sqrt 2)). Step theorem for every mode (complex left eigenvector, mass matrix allowed) of M y' = J y; exact arithmetic and exact linear solves. |
| C25 | Quadratic roots in the stiffness test | proved | `C25_quadratic_roots`, `C25_all_roots`, `C25_real_root` | Exact real arithmetic (RX); C25_case_complex is a concrete instance. |
| C26 | Stiffness power iteration is exact on linear problems | proved | `C26_difference_exact`, `C26_eigenvector`, `C26_roots_certified`, `C26_evaluations` | Affine right-hand sides, exact arithmetic; the evaluation bound holds in any arithmetic. C26_case is a concrete instance. |
| C27 | Stiffness warnings: when they are given | proved | `C27_only_when_diagnosed`, `C27_stiff_means`, `C27_silent_when_unsure_refuted`, `C27_false_alarm_refuted`, `C27_nystrom_silent_refuted` | Two refutations of the documented intent, one on a complete 79-step run, one with a concrete Nystrom case. |
| C28 | Automatic first step | proved | `C28_first_step` | Every finite a<>b, every f, y, tolerance (also inf/nan values). |
| C29 | ESDIRK: linear problems are solved in one Newton iteration | proved | `C29_linear_step` | All six classes, any dimension, with or without mass matrix, and linear DAEs (orthogonal U, consistent initial values, exact linear solves); every history, every accepted step, including the calls of fun in rejected trials. |
| C30 | ESDIRK: step() terminates and Newton work is bounded | proved | `C30_work`, `C30_step_ends`, `C30_after_failed_trial` | Number of iterations, Jacobian refreshes and the reduction of the step after each failed trial; termination of step(). |
| C31 | ESDIRK: the LU assertion never fails | proved | `C31_no_assertion`, `C31_factorisation` | C31_factorisation holds for every arithmetic; C31_no_assertion over the extended reals: the only exceptions are those of scipy's linear algebra. |
| C32 | ESDIRK: stale derivative / nan step / redundant Jacobian (negative results) | proved | `C32_stale_derivative_refuted`, `C32_nan_step_refuted`, `C32_jacobian_twice_refuted` | Negative results. |
| C33 | ESDIRK and stabilised methods: max_step can be exceeded (negative result) | proved | `C33_within_one_percent`, `C33_max_step_refuted`, `C39_max_step_refuted` | ESDIRK part: C33 theorems; SSV2stab part: C39_max_step_refuted (a step of 1.05 max_step). |
| C34 | SWAG: order stays in range and no index error | proved | `C34_order_and_no_exceptions`, `C34_order_changes` | Every arithmetic, every fun, every content of the np.empty arrays. Example C34_case: a run in which the order rises to 6. |
| C35 | SWAG: a failed trial step restores the history | proved | `C35_restored`, `C35_case` | Exact arithmetic, fun with finite values; rounding errors of the restoration in floating point are not covered. |
| C36 | SWAG: time, step size changes, termination | proved | `C36_step`, `C36_step_returns`, `C36_run_ends`, `C36_run_completes`, `C36_case`, `C36_hang_refuted` | Exact arithmetic, any fun (nan and inf allowed). The termination claim is refuted at t = 0. |
| C37 | SWAG: integration coefficients are those of the variable step Adams method | proved | `C37_coefficients`, `C37_adams`, `C37_polynomial_exact` | C37_coefficients: every arithmetic, all patterns of order changes, repeated step sizes and rejections. C37_adams: exact arithmetic, fun with finite values, steps that move t. |
| C38 | SSV2stab: Chebyshev recurrences are the second order RKC coefficients | proved | `C38_cT_is_chebyshev`, `C38_recurrences`, `C38_order_two`, `C38_order_case`, `C38_stability_interval`, `C38_exponential`, `C38_linear`, `C38_linear_case` | Exact arithmetic. log, sinh and cosh are the real functions. |
| C39 | SSV2stab: stage number is sufficient and step() terminates | proved | `C39_radius_evaluations`, `C39_current_data`, `C39_step`, `C39_step_returns`, `C39_run_ends`, `C39_accepts`, `C39_case`, `C39_max_step_refuted`, `C39_backward_call_refuted`, `C39_infinite_rho_refuted`, `C39_radius_zero_refuted`, `C39_falling_body_refuted`, `C39_qro_accepted` | C39_radius_evaluations and C39_current_data: every arithmetic. The others: exact arithmetic; the last negative results are computed with 53-bit rounded rationals. |
| C40 | CKdisc: variable order control stays in its documented ranges | proved | `C40_member_order`, `C40_ranges`, `C40_step`, `C40_order`, `C40_monotone`, `C40_lands`, `C40_terminates`, `C40_bound_exists`, `C40_no_exception`, `C40_steps_bounded`, `C40_run_ends`, `C40_failure`, `C40_dense`, `C40_dense_order` | Exact arithmetic with inf/nan; C40_failure in any arithmetic. twiddle[1] never changes (C40_ranges). |
| C41 | Forward sensitivity right-hand side is blockwise the variational equation | proved | `c41_rhs`, `c41_blocks_exhaust`, `c41_initial`, `c41_sparsity_covers`, `c41_sparsity_when`, `c41_approx_jac`, `c41_output`, `c41_solver_failure`, `c41_list_atol_refuted`, `c41_atol`, `c41_sensitivities_are_derivatives` | The structure theorems hold for every arithmetic. solve_ivp is an oracle; the derivative theorem assumes that its answer is exact for the one problem handed to it, and quadratic Taylor remainders for the user's derivatives. c41_list_atol_refuted: a list or tuple atol of the right length is rejected although documented. |
| C42 | Forward and adjoint sensitivities agree | proved | `c42_end_point`, `c42_integral`, `c42_backward_jacobian` | Exact arithmetic; the solves handed to solve_ivp (forward, dense, backward) are assumed exact. Concrete cases: c42_case, c42_case_integral. |
| C43 | Mu5Nmb: the embedded-error scale option must not leak between instances (negative result) | proved | `C43_estimate_of_process`, `C43_instances_independent_refuted` | Process = list of constructor calls with their scale_embedded option. |
| C44 | Binary64: landing on t_bound | proved | `C44_lands_when_difference_exact`, `C44_lands_within_factor_two`, `C44_lands_from_zero`, `C44_lands_nearly`, `C44_overshoot_refuted`, `C44_short_refuted` | Flocq binary64 with arbitrary pow and log10; explicit classes; the hypotheses are met by lands_case. |
| C45 | Explicit RK: after a very accurate step the solver may overshoot or fail spuriously (negative result) | proved | `C45_spurious_failure_refuted`, `C01_without_proviso_refuted` | Negative result. |
| C46 | Implicit solvers: time, landing and end of a run | proved | `C46_step`, `C46_steps_bounded`, `C46_run_ends`, `C46_short_interval_refuted` |  |
| C47 | Binary64: the solver never stands still | proved | `C44_advances` | Flocq binary64 with arbitrary pow and log10; explicit classes; h_abs >= 0 and y non-empty are assumed of the state before the step (the constructor establishes both, see lands_case). |
| C48 | SWAG: dense output is the interpolating polynomial of the accepted points | proved | `C48_no_exceptions`, `C48_before_step`, `C48_interpolant`, `C48_polynomial_exact`, `C48_smooth_joins`, `C48_last_step` | C48_no_exceptions and C48_before_step: every arithmetic. The others: exact arithmetic, fun with finite values, steps that move t. The contents of the uninitialised work arrays are arbitrary. |
| C49 | Global convergence of the explicit Runge-Kutta and Nystrom classes | proved | `C49_global_error`, `C49_global_error_near`, `C49_max_step`, `C49_max_step_near`, `C49_polynomial`, `C49_convergence`, `C49_nystrom`, `C49_nystrom_near`, `C49_nystrom_max_step`, `C49_nystrom_max_step_near`, `C49_nystrom_polynomial` | Exact arithmetic. A run is any sequence of step() calls while max_step is not below the minimum step. smooth_along: Taylor expansions of order p with uniform constants along Y; polynomial right-hand sides satisfy it and lipschitz_along (C49_polynomial). C49_case, C49_near_case: y'=y^2 on [0,1/2], the oscillator. Nystrom classes: the user's right-hand side is the first order system sys2; MR6NN needs accelerations that do not depend on the velocity; fi5n_init's overwritten controller constants are not part of rkn_init, but the theorem holds for all constants. C49_nystrom_case: x''=-x. |
| C50 | A short enough max_step means no rejected steps | proved | `C50_first_try`, `C50_first_try_near`, `C50_completes`, `C50_polynomial` | Exact arithmetic. Explicit classes with a Runge-Kutta tableau, including the early test (pre-estimate) of BS5 and CFMR7osc. room: the minimum step is neither above max_step nor above the remaining distance to t_bound (otherwise step() fails, C10/C11). Either stiffness detection is off or its interval is at least the number of stages. C50_case: y'=y^2 with Me4 meets the hypotheses for every H from sqrt(tiny) to 1/2. |
| C51 | Explicit RK: the step size control is the documented law | proved | `C51_controller`, `C51_controller_nystrom`, `C51_names`, `C51_names_refuted`, `C51_fi5n_refuted`, `C51_laws`, `C51_aim`, `C51_rest` | C51_controller and C51_controller_nystrom hold in every arithmetic (also binary64 with any rounding of the operations); the specification (SpecCtl.v) has no solver flags, only the pair (step, error norm) of the last accepted step. C51_laws, C51_aim, C51_rest: the laws over the reals. C51_case: a run with a refused trial and a step by the second law. CKdisc has its own control (C40). C51_names: the documented parameter sets and defaults; C51_names_refuted: "H" and "W" are documented and rejected; C51_fi5n_refuted: Fi5N ignores sc_params. |
| C52 | Explicit RK and Nystrom: the dense output is accurate along whole runs | proved | `C52_dense_error`, `C52_dense_error_near`, `C52_polynomial`, `C52_same_order`, `C52_nystrom`, `C52_nystrom_same_order`, `C52_nystrom_polynomial`, `C52_nystrom_decimal`, `C52_nystrom_near` | Exact-real semantics (RX). Exactly rational classes: BS5 (best, low and free interpolants), CK5, Me4, Pr7, CFMR7osc; decimal classes Ts5, Pr8, Pr9 up to the residual of their coefficients (those need F Lipschitz everywhere). Nystrom classes: Fi4N, Fi5N interpolants 0, 1, 2 and MR6NN (C52_nystrom: error at most C H^p in positions and velocities), Fi5N interpolant 3 and both interpolants of Mu5Nmb up to their digits. Beyond C21 (one step from a point on the trajectory, constants for that point) the constants hold for every step of every run, starting from the computed (inexact) points. Calls of dense_output between the steps do not change the steps (C14), except that Fi5N with interpolant 1 writes its own position back into the solver: runs with such calls in between are not covered. CKdisc, SSV2stab, SWAG and the implicit classes are not covered. Examples C52_case, C52_nystrom_case meet the hypotheses. |
| C53 | ESDIRK: which trials are accepted and how the step size is chosen | proved | `C53_controller`, `C53_controller_dae`, `C53_names`, `C53_soederlind_refuted` | Every arithmetic (C53_controller, C53_controller_dae): all six classes, any options, any linear algebra. The specification (SpecESD.v) has no solver flags. C53_soederlind_refuted: the documented parameters of "S" are not those of the code. C53_case: a run with trials given up by Newton, one refused for its error, and a step by the second law. The specification also says which Jacobian and which step the matrix in use belongs to (at_hand, up_to_date), and Newton's verdicts are exclusive. |
| C54 | ESDIRK: how accurately the stages of an accepted step are solved | proved | `C54_stages`, `C54_error`, `C54_slopes` | C54_stages: run level, with mass matrices and differential-algebraic problems. C54_error: consequence of the record it returns. C54_slopes: problems that are not differential-algebraic, linear systems solved exactly. C54_case: y' = -y^2, all six classes, meets the hypotheses at construction; C53_case is an executed run with accepted steps of the same problem. |
| C55 | Global convergence of the implicit (ESDIRK) classes and of their dense output | proved | `C55_residuals`, `C55_linear`, `C55_linear_plain`, `C55_max_step`, `C55_polynomial`, `C55_dense`, `C55_dense_linear`, `C55_dense_max_step`, `C55_dense_complete` | Exact arithmetic. C55_residuals: any problem; how Newton's iteration found the slopes does not matter, only the residual dl of the stage equations (C54 says what the iteration guarantees). The existence of the exact stage values on the trajectory is proved (Picard iteration). C55_linear: M regular, stage equations solved exactly (C29); C55_linear_plain: no mass matrix, Lipschitz follows; C55_max_step: C33 allows 1% more than max_step, absorbed in C; C55_polynomial: g polynomial. C55_case: y' = lam y, all six classes, constructed solver, first step. C55_dense, C55_dense_linear, C55_dense_max_step: in every step of such a run the dense output object (the interpolant the class declares) exists and is within C (eps + dl + H^p + e H) of Y on the whole step; C55_dense_complete: each of the six classes has such an interpolant. |
| C56 | ESDIRK: consistent start of index-1 DAEs | proved | `C56_consistent_start`, `C56_index_one`, `C56_index_one_accepted`, `C56_linear`, `C56_first_step_refuted` | Exact arithmetic. np.linalg.svd, matrix_rank, solve and scipy.optimize.root are oracles; the theorems assume an exact decomposition of this M with no nonzero singular value below the threshold of the code, exact linear solves, the right rank and residuals of root at most e. C56_case: M = diag(1, 0), all six classes, all premises of the four theorems met and the constructor returns. The wrong sign of the reduced Jacobian (common.py 1915) is C56_first_step_refuted. |
| C57 | ESDIRK: which mass matrices make a DAE | proved | `C57_one_dimensional`, `C57_shapes`, `C57_regular`, `C57_runs`, `C57_zero_mass_refuted`, `C57_array_atol_refuted` | C57_one_dimensional and C57_shapes for every arithmetic, the others for exact arithmetic with an exact singular value decomposition. What fails (M = 0, array atol) is proved as _refuted. |
| C58 | Global convergence of SSV2stab | proved | `C58_global_error`, `C58_convergence`, `C58_polynomial`, `C58_dense` | Exact arithmetic. The number of stages changes from step to step (GlobalAny.v: an induction over one-step schemes that may be a different method in every step); it is bounded for all solvers because validated rtol is at most 0.1 (stages_bounded_all). H is a bound for the accepted steps: max_step is none (C39_max_step_refuted: the last step is stretched by up to 10%, and the minimum step or first_step can exceed it). C58_dense: the cubic joining the ends of the step. C58_case: y' = y^2, constructed solver with the built-in power method, step() returns. |
| C59 | Global convergence of CKdisc | proved | `C59_global_error`, `C59_max_step`, `C59_convergence`, `C59_polynomial`, `C59_dense` | Exact arithmetic. ck_families lists the sets of order_accepted values with the order of the lowest member: {4,2,1}: 2, {4,2}: 3, {4}: 5. C59_max_step and C59_convergence are for the option max_step = H and any run in which max_step is not below the code's minimum step (code_min_step), without a condition on the orders. C59_dense: CKdisc's own interpolant after steps of order 5, the cubic joining the ends of the step after the others. C59_case: y' = y^2, default options, constructed solver, step() returns. |
| C60 | Where the other solvers evaluate fun | proved | `C60_esdirk`, `C60_esdirk_stretch`, `C60_all_classes`, `C60_node_max`, `C60_kc4i`, `C60_kc4i_refuted`, `C60_ckdisc`, `C60_ckdisc_max_step`, `C60_swag`, `C60_ssv2stab`, `C60_ssv2stab_nodes`, `C60_ssv2stab_backward_refuted` | Exact arithmetic; the calls made by step() (those of the constructor come before). Five of the six implicit classes, CKdisc and SWAG stay within [t0, t_bound]; KC4I has a node 26/25, so it may evaluate fun up to 4% of the interval beyond t_bound, and C60_kc4i_refuted is a run that does. The explicit classes are C15. Jacobian evaluations by jac or finite differences are made at accepted points and not in this log. CKdisc: max_step=inf, or (C60_ckdisc_max_step) not below the smallest step in the solvers the run passes through. SSV2stab: stage times t + c_j h with 0 <= c_j <= 1 for every number of stages (C60_ssv2stab_nodes, from the recurrences of the Chebyshev polynomials of the second kind); the power method calls fun at t. Without first_step its first step-size probe ignores the direction: a backward run calls fun outside the interval (C60_ssv2stab_backward_refuted), so C60_ssv2stab assumes first_step given, or a forward run not shorter than the constructor's smallest step. |
| C61 | dense_output() observes an integration without influencing it | proved | `C61_observer`, `C61_observer_no_detection`, `C61_any_two_sessions`, `C61_again`, `C61_fi5n_interpolant1_refuted` | Every arithmetic. All interpolants of the explicit classes but interpolant 1 of Fi5N, for which C61_fi5n_interpolant1_refuted is a run whose next step differs. With nfev_stiff_detect > 0 the theorem compares sessions that end without an exception raised by the stiffness diagnosis (its evaluation counts are user visible only in nfev); without detection the plain run is shown to end normally whenever the session does. In the model the dense output object is a value: aliasing of numpy arrays between solver and object is not modelled. |
