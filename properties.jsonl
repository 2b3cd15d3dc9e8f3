{"id": "C01", "title": "Explicit RK: time advances monotonically and never passes t_bound", "statement": "For every explicit Runge-Kutta solver driven by the common stepping loop, each successful step() moves t strictly towards t_bound and never beyond it, in either integration direction; when the remaining interval is at most the current step size, the step lands exactly on t_bound (exact arithmetic; a proviso on max_step/min_step is needed and its necessity is itself proved).", "quantifier": "all right-hand sides (including ones returning nan/inf), initial values, tolerances, tableaux, directions, and all histories of steps", "why_tests_cant": "tests integrate a handful of problems; the claim ranges over all step-size histories a right-hand side can provoke", "anchors": ["/repo/extensisq/common.py:RungeKutta._step_impl", "/repo/extensisq/common.py:RungeKutta._reassess_stepsize", "scipy OdeSolver.step"]}
{"id": "C02", "title": "Explicit RK: only steps with error norm below one are accepted", "statement": "Whenever step() succeeds, the RMS norm of the embedded error estimate of the accepted step, scaled by atol + rtol*max(|y_old|,|y_new|), is < 1, the accepted solution is the one that estimate belongs to, and hence each scaled error component is below sqrt(n).", "quantifier": "every right-hand side, state and tolerance; every number of rejected trials before acceptance; any arithmetic (reals, floats)", "why_tests_cant": "tests see only accepted steps of given problems and never the estimate of the accepted step", "anchors": ["/repo/extensisq/common.py:RungeKutta._step_impl", "/repo/extensisq/common.py:RungeKutta._comp_sol_err", "/repo/extensisq/common.py:calculate_scale", "/repo/extensisq/common.py:norm"]}
{"id": "C03", "title": "Explicit RK: every step() call terminates", "statement": "With the built-in step size controllers a call to step() finishes after finitely many trial steps, with an explicit bound that depends only on the initial trial step and the minimum step; each rejected trial shrinks the step by a factor in [min_factor, safety].", "quantifier": "all right-hand sides incl. adversarial ones, all states, all of the built-in sc_params", "why_tests_cant": "non-termination needs an adversarial right-hand side; a test that passes says nothing about the others", "anchors": ["/repo/extensisq/common.py:RungeKutta._step_impl", "/repo/extensisq/common.py:RungeKutta._init_sc_control"]}
{"id": "C04", "title": "Explicit RK: user-supplied controller with safety >= 1 can hang step()", "statement": "sc_params given as a tuple is not validated: with g >= 1 there are right-hand sides for which a step() call never returns (negative result about the code).", "quantifier": "exists a problem such that for every number of trials the loop is still running", "why_tests_cant": "a test cannot observe non-termination", "anchors": ["/repo/extensisq/common.py:RungeKutta._init_sc_control", "/repo/extensisq/common.py:RungeKutta._step_impl"]}
{"id": "C05", "title": "Explicit RK: failure is clean and correctly diagnosed", "statement": "step() of an explicit RK solver fails only with the 'too small step' message, when the trial step is below the spacing-based minimum, or the overflow message, when the error norm is nan or inf; on failure t, y and f are the values of the last accepted step. A nan or infinite error estimate is never accepted.", "quantifier": "all right-hand sides returning any mix of finite, nan, inf values; all states", "why_tests_cant": "requires all patterns of nan/inf in all stages", "anchors": ["/repo/extensisq/common.py:RungeKutta._step_impl"]}
{"id": "C06", "title": "Explicit RK: cached derivative is consistent (FSAL)", "statement": "After construction and after every successful step the solver's f equals fun(t, y) at the current t, y, for FSAL and non-FSAL methods alike, and a step produces exactly the textbook Runge-Kutta update y + h*sum b_i k_i, with k_i = fun(t+c_i h, y + h sum a_ij k_j) evaluated at the accepted h, whatever was tried before.", "quantifier": "all tableaux, right-hand sides, histories with any number of rejections", "why_tests_cant": "stale stage values after a rejection show only for particular rejection patterns", "anchors": ["/repo/extensisq/common.py:RungeKutta._step_impl", "/repo/extensisq/common.py:RungeKutta._rk_stage", "/repo/extensisq/common.py:RungeKutta._comp_sol_err"]}
{"id": "C07", "title": "Explicit RK: function evaluation cost", "statement": "A step() with k rejected trials costs exactly (k+1)*(s-1)+1 evaluations of fun for non-FSAL methods and (k+1)*s for FSAL methods (stiffness detection off); failed trials of a non-FSAL method cost one evaluation less than scipy's implementation as documented.", "quantifier": "all tableaux, rejections counts, right-hand sides", "why_tests_cant": "depends on the number of rejections, unbounded", "anchors": ["/repo/extensisq/common.py:RungeKutta._step_impl", "/repo/extensisq/common.py:RungeKutta._comp_sol_err"]}
{"id": "C08", "title": "Explicit RK: the number of steps to t_bound is finite and bounded", "statement": "Driving the solver with repeated step() from t0 ends (finished or failed) after finitely many steps; every non-final accepted step is at least the minimum step h_min_b, so at most ceil(|t_bound-t0|/h_min_b)+2 steps are taken (exact arithmetic).", "quantifier": "all problems, all histories", "why_tests_cant": "bound is astronomically large; only an argument can establish it", "anchors": ["/repo/extensisq/common.py:RungeKutta._reassess_stepsize", "/repo/extensisq/common.py:RungeKutta._init_min_step_parameters"]}
{"id": "C09", "title": "Explicit RK: step size limits and growth limits", "statement": "If max_step is at least the minimum step, every accepted step obeys |h| <= max_step; the step size never grows after a rejection in the same step; with the second order controller the growth factor lies in [min_factor, max_factor]; max_factor only ever changes from 10 to 4.", "quantifier": "all states and histories", "why_tests_cant": "needs all controller states", "anchors": ["/repo/extensisq/common.py:RungeKutta._reassess_stepsize", "/repo/extensisq/common.py:RungeKutta._step_impl"]}
{"id": "C10", "title": "Explicit RK: growth limit is not enforced in the standard-controller branch; max_step not enforced below min_step", "statement": "Negative results: (a) a step accepted in the branch standard_sc uses factor = safety*err**exponent without the documented cap, so the next step size can exceed max_factor times the current; (b) if max_step < min_step the look-ahead branch returns a step above max_step.", "quantifier": "exists a state / input", "why_tests_cant": "tests never probe the cap", "anchors": ["/repo/extensisq/common.py:RungeKutta._step_impl", "/repo/extensisq/common.py:RungeKutta._reassess_stepsize"]}
{"id": "C11", "title": "Explicit RK: second order controller state is always well defined", "statement": "The second order controller branch is only entered when the previous step was accepted with an error norm in [tiny_err, 1) and a non-zero previous step, so h/h_previous and error_norm_old ** minbeta2 are always defined (no NoneType error, no division by zero) for every history.", "quantifier": "all histories of steps", "why_tests_cant": "requires reasoning over all histories", "anchors": ["/repo/extensisq/common.py:RungeKutta._step_impl"]}
{"id": "C12", "title": "Explicit RK: time-reversal symmetry", "statement": "Integrating y' = f(t,y) from t0 down to t_bound is the mirror image of integrating y' = -f(-t,y) from -t0 up to -t_bound: all accepted times are negated and all solution values are equal, step by step.", "quantifier": "all right-hand sides, tableaux, tolerances, histories", "why_tests_cant": "ranges over all problems", "anchors": ["/repo/extensisq/common.py:RungeKutta._step_impl", "/repo/extensisq/common.py:RungeKutta._reassess_stepsize"]}
{"id": "C13", "title": "Explicit RK: stiffness diagnosis never alters the numerical solution", "statement": "For every value of nfev_stiff_detect for which no exception is raised, the sequence of accepted (t, y) and step sizes is identical to the run with nfev_stiff_detect=0; only nfev, warnings and logging differ.", "quantifier": "all problems, histories, values of nfev_stiff_detect", "why_tests_cant": "needs equality of all pairs of runs", "anchors": ["/repo/extensisq/common.py:RungeKutta._diagnose_stiffness", "/repo/extensisq/common.py:stiff_a"]}
{"id": "C14", "title": "Stiffness diagnosis can raise ZeroDivisionError", "statement": "Negative result: for every 1 <= nfev_stiff_detect < n_stages (accepted by the constructor) the first successful step raises ZeroDivisionError; it never raises for 0 or >= n_stages.", "quantifier": "all values of the option", "why_tests_cant": "tests use 5000 and 0", "anchors": ["/repo/extensisq/common.py:RungeKutta._diagnose_stiffness"]}
{"id": "C15", "title": "Explicit RK: fun is only evaluated inside the step", "statement": "For tableaux with nodes in [0,1], during a step fun is only evaluated at times between t and t+h of the current trial, hence never beyond t_bound (exact arithmetic). KC4I has a node 26/25 > 1 and can violate this.", "quantifier": "all problems & histories", "why_tests_cant": "ranges over all problems", "anchors": ["/repo/extensisq/common.py:RungeKutta._rk_stage", "/repo/extensisq/kennedy.py:KC4I.C"]}
{"id": "C16", "title": "Tolerance validation yields usable positive tolerances", "statement": "validate_tol either raises ValueError or returns rtol in [10*epsneg, 0.1] and atol >= sqrt(tiny) componentwise; it leaves admissible values unchanged and is idempotent; consequently the error scale is strictly positive and the error norm never divides by zero. nan tolerances are (wrongly) accepted.", "quantifier": "all rtol, atol (scalar or array), y", "why_tests_cant": "all numeric inputs incl. special values", "anchors": ["/repo/extensisq/common.py:validate_tol", "/repo/extensisq/common.py:calculate_scale"]}
{"id": "C17", "title": "RMS norm is a norm and consistent with the maximum norm", "statement": "norm is nonnegative, zero only for the zero vector, absolutely homogeneous, satisfies the triangle inequality, lies between max|x_i|/sqrt(n) and max|x_i|; 'error_norm < 1' therefore does not imply |err_i| < scale_i for n >= 2 (counterexample).", "quantifier": "all vectors of all lengths", "why_tests_cant": "all vectors", "anchors": ["/repo/extensisq/common.py:norm"]}
{"id": "C18", "title": "Classical order of explicit RK pairs (exactly rational methods)", "statement": "For BS5, CK5, CKdisc (all embedded members), Me4, Pr7, CFMR7osc: for every ODE with a polynomial vector field, autonomous or not, of any dimension and degree, one step with the published tableau agrees with the exact solution's Taylor series up to and including the documented order in h; the embedded/secondary solution agrees to its documented order.", "quantifier": "every polynomial vector field in every dimension; every initial value", "why_tests_cant": "order on all problems; the repo's own order-condition tests stop at order 7 and skip several methods", "anchors": ["/repo/extensisq/bogacki.py:BS5", "/repo/extensisq/cash.py:CK5", "/repo/extensisq/cash.py:CKdisc", "/repo/extensisq/merson.py:Me4", "/repo/extensisq/prince.py:Pr7", "/repo/extensisq/calvo.py:CFMR7osc"]}
{"id": "C19", "title": "Order of Runge-Kutta-Nystrom pairs", "statement": "For Fi4N, Fi5N (position & velocity dependent), MR6NN (velocity independent) and Mu5Nmb: on every second order ODE with polynomial right-hand side, the displacement and velocity updates agree with the exact solution up to the documented order (exactly for Fi4N, Fi5N, MR6NN; for Mu5Nmb, whose published coefficients are decimals, up to a residual at the level of their last digits).", "quantifier": "every polynomial second-order ODE of every dimension", "why_tests_cant": "as above; the repo does not test strict Nystrom conditions", "anchors": ["/repo/extensisq/fine.py:Fi4N", "/repo/extensisq/fine.py:Fi5N", "/repo/extensisq/mikkawy.py:MR6NN", "/repo/extensisq/murua.py:Mu5Nmb", "/repo/extensisq/common.py:RungeKuttaNystrom"]}
{"id": "C20", "title": "Order of the implicit (ESDIRK) methods", "statement": "For TRX2, TRBDF2, KC3I, KC4I (and Kv3I, KC4Ia to decimal accuracy): a step whose stages solve the stage equations exactly has the documented order on every polynomial ODE; stages satisfy row sum conditions and the last stage equals the solution (stiffly accurate).", "quantifier": "every polynomial vector field", "why_tests_cant": "order on all problems; irrational coefficients", "anchors": ["/repo/extensisq/hosea.py:TRX2", "/repo/extensisq/hosea.py:TRBDF2", "/repo/extensisq/kennedy.py:KC3I", "/repo/extensisq/kennedy.py:KC4I", "/repo/extensisq/kvaerno.py:Kv3I"]}
{"id": "C21", "title": "Dense output order of accuracy", "statement": "The dense output after a step agrees with the exact solution through the step's start at every fractional time theta in [0,1], up to C |h|^(p+1) with p the interpolant's order (plus, for tables typed as decimals, a stated tiny residual), not only at the end points: every interpolant of the explicit Runge-Kutta and Runge-Kutta-Nystrom classes, and every interpolant of the six implicit classes.", "quantifier": "every theta, every smooth ODE, every step of every run, every interpolant", "why_tests_cant": "all theta and problems", "anchors": ["/repo/extensisq/common.py:HornerDenseOutput", "/repo/extensisq/bogacki.py:BS5.P", "/repo/extensisq/cash.py:CK5.P", "/repo/extensisq/merson.py:Me4.P", "/repo/extensisq/calvo.py:CFMR7osc.P", "/repo/extensisq/kennedy.py:P", "/repo/extensisq/kvaerno.py:P", "/repo/extensisq/hosea.py:_dense_output_impl", "/repo/extensisq/common.py:QuinticHermiteDenseOutput", "/repo/extensisq/fine.py:Fi5N._dense_output_impl", "/repo/extensisq/murua.py:Mu5Nmb._dense_output_impl", "/repo/extensisq/prince.py:P", "/repo/extensisq/tsitouras.py:P"]}
{"id": "C22", "title": "Dense output is continuous across steps", "statement": "sol(t) of each solver interpolates: the dense output equals y_old at t_old and y at t, and where documented its derivative equals f_old and f there (C1), so consecutive pieces join continuously.", "quantifier": "all stage values K, step sizes", "why_tests_cant": "all stage values", "anchors": ["/repo/extensisq/common.py:HornerDenseOutput", "/repo/extensisq/common.py:CubicDenseOutput", "/repo/extensisq/common.py:QuinticHermiteDenseOutput", "/repo/extensisq/bogacki.py:BS5._dense_output_impl", "/repo/extensisq/common.py:ESDIRK._dense_output_impl", "/repo/extensisq/hosea.py:HS._dense_output_impl", "/repo/extensisq/kennedy.py:KC", "/repo/extensisq/sommeijer.py:SSV2stab._dense_output_impl"]}
{"id": "C23", "title": "Hermite dense outputs reproduce polynomials", "statement": "CubicDenseOutput reproduces every cubic polynomial, the quintic Nystrom output reproduces every quintic, its velocity part is the derivative of its displacement part, and Horner evaluation equals the plain polynomial sum.", "quantifier": "all polynomials of the degree, all end points with t != t_old, all evaluation times", "why_tests_cant": "all real inputs", "anchors": ["/repo/extensisq/common.py:CubicDenseOutput", "/repo/extensisq/common.py:HornerDenseOutput"]}
{"id": "C24", "title": "Linear stability of the implicit methods", "statement": "All six implicit classes are A-stable (|R(z)| <= 1 for Re z <= 0); R(z) -> 0 at infinity for TRBDF2, KC3I, KC4I, KC4Ia (L-stable), up to 4e-18 for Kv3I (rounded coefficients), and R -> 1 for TRX2 (not L-stable); for a linear system M y' = J y the code's step multiplies the component of every mode by exactly R(h*lambda), so over a whole integration no decaying mode ever grows, whatever the step size control does.", "quantifier": "all complex z in the left half plane; all linear systems, modes, step histories", "why_tests_cant": "uncountably many z", "anchors": ["/repo/extensisq/hosea.py:TRX2", "/repo/extensisq/hosea.py:TRBDF2", "/repo/extensisq/kennedy.py"]}
{"id": "C25", "title": "Quadratic roots in the stiffness test", "statement": "stiff_c(alpha,beta) returns the two complex roots of x^2+alpha x+beta with |r1| >= |r2|, without division by zero, for all real alpha, beta; stiff_b flags a real dominant root only when the residual/stagnation tests hold and returns the Rayleigh quotient.", "quantifier": "all real alpha, beta", "why_tests_cant": "all reals incl. degenerate ones", "anchors": ["/repo/extensisq/common.py:stiff_c", "/repo/extensisq/common.py:stiff_b"]}
{"id": "C26", "title": "Stiffness power iteration is exact on linear problems", "statement": "For a linear right-hand side the vector used by the test equals havg*J*v exactly; if the perturbation is an eigenvector the test finds that eigenvalue times havg at the first opportunity; the number of extra evaluations is at most 24 per diagnosis.", "quantifier": "all linear problems, all dimension, all eigenpairs", "why_tests_cant": "all matrices", "anchors": ["/repo/extensisq/common.py:stiff_a", "/repo/extensisq/common.py:stiff_d"]}
{"id": "C27", "title": "Stiffness warnings: when they are given", "statement": "A warning is only issued when diagnosis ran; non-convergence together with many failed steps produces the 'complex pair' warning although the documented intent is silence (negative result); for Nystrom methods a diagnosed-stiff complex pair between 0.85 and 0.9 of the boundary gives no warning.", "quantifier": "all diagnosis outcomes", "why_tests_cant": "rare branch combinations", "anchors": ["/repo/extensisq/common.py:RungeKutta._diagnose_stiffness", "/repo/extensisq/common.py:RungeKuttaNystrom._diagnose_stiffness"]}
{"id": "C28", "title": "Automatic first step", "statement": "h_start returns a non-zero step with the sign of b-a, |h| <= max(|b-a|, 100*small*|a|), never divides by zero, and evaluates fun at most 4 times, only at a or a+da, for all finite inputs with b != a.", "quantifier": "all right-hand sides, all finite a, b, y, tolerances > 0, with and without J", "why_tests_cant": "all inputs incl. zero derivatives and zero y", "anchors": ["/repo/extensisq/common.py:h_start"]}
{"id": "C29", "title": "ESDIRK: linear problems are solved in one Newton iteration", "statement": "With constant exact Jacobian (linear problem, optionally mass matrix) each stage equation is solved exactly and the step equals the exact ESDIRK step.", "quantifier": "all linear systems, all dimensions (given exact linear solves)", "why_tests_cant": "all matrices", "anchors": ["/repo/extensisq/common.py:RungeKuttaImplicit", "common.py:ESDIRK"]}
{"id": "C30", "title": "ESDIRK: step() terminates and Newton work is bounded", "statement": "Each stage uses at most NEWTON_MAXITER iterations; after a Newton failure the Jacobian is refreshed at most once before the step is reduced by a factor in [0.2, 0.5]; rejections reduce the step; hence step() terminates (finite error norms).", "quantifier": "all right-hand sides, all convergence/divergence patterns", "why_tests_cant": "all failure patterns", "anchors": ["/repo/extensisq/common.py"]}
{"id": "C31", "title": "ESDIRK: the LU assertion never fails", "statement": "The internal assertions about the current Jacobian and factorised step size hold in every reachable state; a factorisation used in Newton always belongs to the step size and Jacobian in use.", "quantifier": "all histories", "why_tests_cant": "all histories", "anchors": ["/repo/extensisq/common.py"]}
{"id": "C32", "title": "ESDIRK: stale derivative / nan step / redundant Jacobian (negative results)", "statement": "yp_old used by the fallback cubic interpolant is the initial derivative in every step; a nan error norm makes the step size nan; the preemptive refresh does not record that the Jacobian is current.", "quantifier": "exists states", "why_tests_cant": "rare paths", "anchors": ["/repo/extensisq/common.py"]}
{"id": "C33", "title": "ESDIRK and stabilised methods: max_step can be exceeded (negative result)", "statement": "ESDIRK methods may take a step up to 1% above max_step, SSV2stab up to 10%.", "quantifier": "exists input", "why_tests_cant": "tests use generous tolerances", "anchors": ["/repo/extensisq/common.py", "/repo/extensisq/sommeijer.py:SSV2stab"]}
{"id": "C34", "title": "SWAG: order stays in range and no index error", "statement": "The order planned by SWAG satisfies 1 <= k <= k_max in all reachable states and step() raises no exception (all array accesses inside the arrays, shapes agree); an accepted step with r rejected trials used the planned order if r = 0, at least k - r if r < 3, and 1 otherwise, evaluated fun r + 2 times, and the next planned order differs from the one used by at most one.", "quantifier": "all right-hand sides, all histories of order raises, drops and failures", "why_tests_cant": "all histories", "anchors": ["/repo/extensisq/shampine.py:SWAG"]}
{"id": "C35", "title": "SWAG: a failed trial step restores the history", "statement": "After a rejected trial the modified divided differences and past step sums are exactly those before the trial, so a rejected trial has no influence except on step size and order.", "quantifier": "all histories, all k", "why_tests_cant": "all histories", "anchors": ["/repo/extensisq/shampine.py:SWAG"]}
{"id": "C36", "title": "SWAG: time, step size changes, termination", "statement": "Each returned step() call moves t towards t_bound without passing it, by at most the planned step and max_step and at least 4u|t|, lands exactly (the last 4u|t| by one Euler step), reports 'finished' exactly at t_bound, and plans the next step as 2, 1 or [0.5,0.9] times the one taken; step() returns whenever t is not 0, and a run between times of the same sign ends. Negative part: at t = 0 the minimum step is 0 and step() need not return.", "quantifier": "all right-hand sides", "why_tests_cant": "all problems", "anchors": ["/repo/extensisq/shampine.py:SWAG"]}
{"id": "C37", "title": "SWAG: integration coefficients are those of the variable step Adams method", "statement": "The coefficients g computed with caching between steps equal, in every arithmetic, those of the uncached table; in exact arithmetic the predictor and the corrected value are y plus the integral of the interpolation polynomial through the last k (and the predicted) slopes, i.e. the variable step Adams method in PECE form, so a step is exact for polynomial solutions of degree <= k.", "quantifier": "all step size sequences and orders", "why_tests_cant": "all step sequences", "anchors": ["/repo/extensisq/shampine.py:SWAG"]}
{"id": "C38", "title": "SSV2stab: Chebyshev recurrences are the second order RKC coefficients", "statement": "For every number of stages m >= 2 the recurrences compute T_m, T'_m, T''_m at w0, the scheme is consistent of order two, and its stability polynomial satisfies |R_m(z)| <= 1 on [-beta_m, 0] with the beta used to select m.", "quantifier": "all m, all z in the interval", "why_tests_cant": "m up to ten thousands; all z", "anchors": ["/repo/extensisq/sommeijer.py:SSV2stab"]}
{"id": "C39", "title": "SSV2stab: stage number is sufficient and step() terminates", "statement": "Every step uses m stages, 2 <= m <= m_max, chosen (or the step reduced) so that the stability interval of the m stage method covers absh*sprad; the accepted step is the Chebyshev scheme's result with an error estimate below one, towards t_bound and not past it; step() returns, and a run ends when the spectral radius stays bounded. The spectral radius is determined at most once per step() call, once in all with const_jac, and without rho_jac at most once per 25 steps plus once per rejected trial. Negative results: max_step can be exceeded, the first step of a backward integration calls fun on the wrong side of t0, an infinite rho_jac is accepted and then raises, the built-in power method can return 0 at an equilibrium of a stiff problem and does not converge for a falling body.", "quantifier": "all histories, dimensions, right-hand sides with finite values and options; existence for the negative results", "why_tests_cant": "all histories", "anchors": ["/repo/extensisq/sommeijer.py:SSV2stab"]}
{"id": "C40", "title": "CKdisc: variable order control stays in its documented ranges", "statement": "The efficiency parameters stay in [1, 1e4]/[1.1, ...], an abandoned step always leads to a smaller step, accepted fallback solutions have the order of the embedded formula accepted.", "quantifier": "all right-hand sides, all histories", "why_tests_cant": "all histories", "anchors": ["/repo/extensisq/cash.py:CKdisc"]}
{"id": "C41", "title": "Forward sensitivity right-hand side is blockwise the variational equation", "statement": "The extended system integrated by sens_forward is [f, J s_1 + df/dp_1, ...] in the documented layout for all sizes, the reshape round-trips, and the derived sparsity pattern covers every true dependency.", "quantifier": "all n, np, J, dfdp", "why_tests_cant": "all sizes", "anchors": ["/repo/extensisq/sensitivity.py:sens_forward"]}
{"id": "C42", "title": "Forward and adjoint sensitivities agree", "statement": "For exact solutions of the forward and adjoint systems, both methods return the same gradient for end-point and integral objectives.", "quantifier": "all smooth problems", "why_tests_cant": "all problems", "anchors": ["/repo/extensisq/sensitivity.py"]}
{"id": "C43", "title": "Mu5Nmb: the embedded-error scale option must not leak between instances (negative result)", "statement": "Constructing Mu5Nmb repeatedly with scale_embedded multiplies the shared class-level error coefficients by 0.75 each time: the k-th instance uses a different error estimate than the first.", "quantifier": "all numbers of previous constructions", "why_tests_cant": "tests create fresh interpreter state", "anchors": ["/repo/extensisq/murua.py:Mu5Nmb"]}
{"id": "C44", "title": "Binary64: landing on t_bound", "statement": "In IEEE binary64 the last step lands exactly on t_bound when |t| is within a factor two of t_bound with the same sign; in general it does not (counterexamples overshoot t_bound by an ulp, or fall short so that an extra step fails with 'too small step').", "quantifier": "all binary64 t, t_bound", "why_tests_cant": "2^128 pairs", "anchors": ["/repo/extensisq/common.py:RungeKutta._step_impl"]}
{"id": "C45", "title": "Explicit RK: after a very accurate step the solver may overshoot or fail spuriously (negative result)", "statement": "Because the growth factor of the standard controller branch is not capped and the minimum step is computed from the uncapped proposal, a solver whose error estimate is tiny but above the tiny_err threshold either jumps far beyond t_bound and max_step (max_step finite) or stops with 'step size too small' (max_step infinite) although every step was accepted so far.", "quantifier": "exists input", "why_tests_cant": "needs an error norm in a narrow range of magnitudes", "anchors": ["/repo/extensisq/common.py:RungeKutta._step_impl", "/repo/extensisq/common.py:RungeKutta._reassess_stepsize"]}
{"id": "C46", "title": "Implicit solvers: time, landing and end of a run", "statement": "For every ESDIRK method: each successful step() moves t strictly towards t_bound without passing it, reports a positive step_size equal to |t - t_old|, and the status becomes 'finished' exactly when t equals t_bound; the number of successful steps of a run is bounded by a number known in advance (interval length over the smallest allowed step), so every run ends by finishing, failing, or raising a linear-algebra exception of scipy. Negative part: on intervals shorter than the smallest allowed step the first step() fails.", "quantifier": "all right-hand sides, Jacobians, mass matrices, option values accepted by the constructor, histories (exact arithmetic)", "why_tests_cant": "must hold for every problem and every history of accepted and rejected trials", "anchors": ["/repo/extensisq/common.py:ESDIRK", "/repo/extensisq/common.py:ESDIRK._step_impl"]}
{"id": "C47", "title": "Binary64: the solver never stands still", "statement": "In IEEE binary64 arithmetic every successful step() of an explicit solver that starts and ends at a finite time moves t strictly towards t_bound: the minimum step size guarantees that t + h is never rounded back to t.", "quantifier": "all binary64 times, bounds, states, right-hand sides, accepted/rejected histories, pow/log10 implementations", "why_tests_cant": "needs an argument about rounding for all pairs of doubles and all step sizes", "anchors": ["/repo/extensisq/common.py:RungeKutta._step_impl", "/repo/extensisq/common.py:RungeKutta._reassess_stepsize"]}
{"id": "C48", "title": "SWAG: dense output is the interpolating polynomial of the accepted points", "statement": "After every successful step() of SWAG dense_output() returns an object that can be evaluated at any points without exception; before the first step it raises RuntimeError. The object is the unique polynomial of degree at most k+2 (k the order used) that has the old and the new solution at the ends of the step and the slopes fun(t, y) at the new point and at the last k accepted points. Successive pieces have equal values and equal slopes where they join. If the solution is a polynomial of that degree and the accepted points lie on it, sol(t) is the solution itself. After the final extrapolation step (the rest of the interval is below the spacing of t) it is the straight line used for that step.", "quantifier": "all right-hand sides, tolerances, orders, histories of order changes, step size changes and rejections, evaluation points, contents of uninitialised arrays", "why_tests_cant": "the coefficients are computed by recurrences from the history; must hold for every pattern of step sizes and orders", "anchors": ["/repo/extensisq/shampine.py:SWAG._dense_output_impl", "/repo/extensisq/shampine.py:SwagDenseOutput"]}
{"id": "C49", "title": "Global convergence of the explicit Runge-Kutta and Nystrom classes", "statement": "Let Y solve y' = F(t, y) on [lo, hi], with F smooth and Lipschitz along Y. There are C and del such that every run of BS5, CK5, Me4, Pr7, CFMR7osc (order p) that starts on Y, whatever its options, tolerances, direction and number of steps, and whose accepted steps are at most H < del, satisfies |y_n - Y(t_n)| <= C H^p at every accepted point, and is at t_bound when status is 'finished'. In particular max_step = H bounds the global error by C H^p, so any accuracy is reached by making max_step small. For Ts5, Pr8 and Pr9, whose coefficients are rounded decimals, the bound is C (eps + H^p) with eps the residual of the order conditions (2e-15, 2e-21, 1e-21), if F is Lipschitz everywhere. Likewise for the Nystrom classes on x'' = G(t, x, x'), given as the first order system: Fi4N, Fi5N (orders 4, 5), MR6NN (order 6, G independent of x') with C H^p, and Mu5Nmb with C (1e-18 + H^5) if G is Lipschitz everywhere; the bound holds for positions and velocities.", "quantifier": "all right-hand sides F, dimensions, trajectories, intervals in both directions, options, step size sequences, numbers of steps, points of the run", "why_tests_cant": "an asymptotic statement about all problems and all step sequences: the constant must not depend on the number of steps; tests measure a slope on one problem", "anchors": ["/repo/extensisq/common.py:RungeKutta._step_impl", "/repo/extensisq/bogacki.py:BS5", "/repo/extensisq/cash.py:CK5", "/repo/extensisq/merson.py:Me4", "/repo/extensisq/prince.py:Pr7", "/repo/extensisq/prince.py:Pr8", "/repo/extensisq/prince.py:Pr9", "/repo/extensisq/calvo.py:CFMR7osc", "/repo/extensisq/tsitouras.py:Ts5", "/repo/extensisq/common.py:RungeKuttaNystrom", "/repo/extensisq/fine.py:Fi4N", "/repo/extensisq/fine.py:Fi5N", "/repo/extensisq/murua.py:Mu5Nmb", "/repo/extensisq/mikkawy.py:MR6NN"]}
{"id": "C50", "title": "A short enough max_step means no rejected steps", "statement": "Let Y solve y' = F(t, y) on [lo, hi], with F smooth and Lipschitz along Y. For BS5, CK5, Me4, Pr7 and CFMR7osc, with q the order of the error estimate, there are C and del such that for every max_step = H < del and every atol >= a0 > C H^(q+1), every step() of every run that starts on Y (whatever rtol, first_step, step size control, direction) accepts its first trial: it succeeds and the count of failed steps stays 0. Such a run ends with status 'finished' at t_bound, and all its points are within C H^p of Y. For Ts5, Pr8, Pr9 the limit is C (eps H + H^(q+1)) < a0.", "quantifier": "all right-hand sides F, dimensions, trajectories, intervals in both directions, options, points of the run", "why_tests_cant": "the constant must work for all option sets and all points of all runs; a test sees one run and one tolerance", "anchors": ["/repo/extensisq/common.py:RungeKutta._step_impl", "/repo/extensisq/common.py:RungeKutta._estimate_error", "/repo/extensisq/bogacki.py:BS5", "/repo/extensisq/calvo.py:CFMR7osc", "/repo/extensisq/prince.py:Pr7"]}
{"id": "C51", "title": "Explicit RK: the step size control is the documented law", "statement": "Along every run, every step size follows from the earlier (step, error norm) pairs by the documented controller with parameters (kb1, kb2, a, g) and order q of the error estimate: a refused trial of size h with error norm e is repeated with h max(1/5, g e^(-1/(q+1))); after an accepted step the next size is h times g e^(-1/(q+1)) if the past is unknown (first step, size limited by min/max step or made to share the rest of the interval, previous error norm tiny), otherwise h times g^(kb1+kb2) e^(-kb1/(q+1)) e_prev^(-kb2/(q+1)) (h/h_prev)^(-a) limited to [1/5, cap], with cap 10 until a factor was below 4 and 4 afterwards; never growing after a refused trial; cap if e is below sqrt(tiny). If errors behave as C h^(q+1), the first law aims at error norm g^(q+1), and the second law is at rest exactly there.", "quantifier": "all explicit classes, option sets, right-hand sides, runs, steps; every arithmetic for the code part", "why_tests_cant": "the law depends on the whole history of acceptances, refusals, limits and tiny errors; tests only see the sizes of a few runs", "anchors": ["/repo/extensisq/common.py:RungeKutta._step_impl", "/repo/extensisq/common.py:RungeKutta._init_sc_control", "/repo/extensisq/common.py:RungeKutta._reassess_stepsize", "/repo/extensisq/bogacki.py:BS5._step_impl", "/repo/extensisq/calvo.py:CFMR7osc._step_impl"]}
{"id": "C52", "title": "Explicit RK and Nystrom: the dense output is accurate along whole runs", "statement": "If y' = F(t, y) has the solution Y on an interval and F is smooth and Lipschitz along Y, then there are C and del such that for every run of a solver of order p with an interpolant of order q whose steps are at most H < del (in particular with max_step = H), dense_output() after every successful step returns a function sol with |sol(x) - Y(x)| <= C (H^p + H^(q+1)) for all x of the step; and every x between t0 and the current t lies in such a step. The same holds for second order problems x'' = G(t, x, x') and the Nystrom classes, in positions and velocities.", "quantifier": "all smooth problems of all dimensions, all options, either direction, all runs (any number of steps and rejections), all steps of the run and all points x in them", "why_tests_cant": "A test compares interpolated values of a few problems at a few points; a uniform constant over all runs and all points is an asymptotic statement.", "anchors": ["extensisq/common.py: RungeKutta._dense_output_impl, HornerDenseOutput", "extensisq/bogacki.py: BS5._dense_output_impl", "extensisq/prince.py", "extensisq/cash.py: CK5", "extensisq/merson.py", "extensisq/tsitouras.py", "extensisq/calvo.py", "extensisq/fine.py", "extensisq/mikkawy.py", "extensisq/murua.py", "extensisq/common.py: RungeKuttaNystrom, QuinticHermiteDenseOutput"]}
{"id": "C53", "title": "ESDIRK: which trials are accepted and how the step size is chosen", "statement": "Along every run of an implicit solver a step is accepted only if every stage equation M z = h f(t + c h, psi + d z) was solved by a simplified Newton iteration (corrections with the factorised matrix M - h_L d J) that ended by its convergence test (correction below a tiny size, or size*rate < kappa (1 - rate) with observed rate below 1; one exact solve if the Jacobian is constant) within the allowed number of iterations, and the norm of the (filtered) embedded error relative to atol + rtol max(|y|, |y'|) is below 1; the new value is that of the last stage. Step sizes follow from the earlier (step, error norm) pairs: a trial whose iteration fails is repeated once with the Jacobian of the current point if an older one was in use, otherwise with a factor 1/5 / rate between 1/5 and 1/2; a trial with error norm e >= 1 is repeated with factor max(1/5, g e^(-1/(q+1))); after an accepted step the factor is g e^(-1/(q+1)) if the past is unknown, otherwise g^(kb1+kb2) e^(-kb1/(q+1)) e_prev^(-kb2/(q+1)) (h/h_prev)^(-a), limited to [1/5, cap] (cap 10 until a factor was below 4, then 4), at most 1 after a refused trial. The parameter sets are the documented ones, except \"S\".", "quantifier": "all six implicit classes, right-hand sides, Jacobians, mass matrices, options, linear algebra routines, runs; every arithmetic", "why_tests_cant": "the law depends on the whole history of acceptances, refusals, Jacobian ages and Newton rates", "anchors": ["/repo/extensisq/common.py:ESDIRK._step_impl", "/repo/extensisq/common.py:ESDIRK._solve_implicit_stage", "/repo/extensisq/common.py:ESDIRK._assess_error_and_stepsize", "/repo/extensisq/common.py:ESDIRK._reassess_stepsize", "/repo/extensisq/common.py:ESDIRK._init_sc_control"]}
{"id": "C54", "title": "ESDIRK: how accurately the stages of an accepted step are solved", "statement": "Every stage i >= 1 of every accepted step of an implicit solver for a nonlinear problem was solved as follows: h k_i is reached from the predicted value by at most 5 corrections, each the solution of a linear system with the residual h f(t + c_i h, psi + d z) - M z; in the norm weighted with atol + rtol max(|y|, |u|) the last correction is negligible or it, times r / (1 - r) with r < 1 the observed contraction, is below kappa. So if the last correction contracted the distance to a solution z* of the stage equation by a factor not above the observed one, h k_i is within kappa of z* in that norm. If the linear systems are solved exactly, M k_i = f(u) + (h_L / h) J (u_i - u): the slope is the linearisation of f at a point u whose distance to the stage point u_i = y + h sum_{l<=i} a_il k_l is that last correction; J is the Jacobian evaluated at the start of the step or the one kept from earlier steps.", "quantifier": "all six implicit classes, right-hand sides, Jacobians, mass matrices, finite tolerances, runs, accepted steps and stages (exact arithmetic)", "why_tests_cant": "a test sees the result of a few steps, not that every stage of every accepted step met the criterion", "anchors": ["/repo/extensisq/common.py:ESDIRK._solve_implicit_stage", "/repo/extensisq/common.py:ESDIRK._step_impl", "/repo/extensisq/common.py:ESDIRK._preemptive_lu_and_jac", "/repo/extensisq/common.py:calculate_scale"]}
{"id": "C55", "title": "Global convergence of the implicit (ESDIRK) classes and of their dense output", "statement": "Let Y solve y' = G(t, y) on [lo, hi], with G smooth along Y and Lipschitz in y. There are C and del such that every run of TRBDF2, TRX2, KC3I, KC4I, Kv3I, KC4Ia (order p) that starts on Y, whatever its options, Jacobian, mass matrix, direction and number of steps, whose accepted steps are at most H < del and whose slopes satisfy the stage equations up to dl, satisfies |y_n - Y(t_n)| <= C (eps + dl + H^p) at every point, and is at t_bound when status is 'finished'; eps is the residual of the order conditions (0; 1e-24 for KC4Ia). On linear problems M y' = J y + g(t) with a regular M, constant jac and exact linear solves, dl = 0 whatever the solver does: the error is at most C (eps + H^p). In particular max_step = H bounds it by C (eps + H^p). The dense output of every step of such a run is within C (eps + dl + H^p + e H) of Y over the whole step, e being the residual of the interpolant's own order conditions (0 or below 1e-12).", "quantifier": "all right-hand sides, dimensions, trajectories, intervals in both directions, options, Jacobians, step size sequences, numbers of steps, points of the run (exact arithmetic)", "why_tests_cant": "an asymptotic statement about all problems and all step sequences: the constant must not depend on the number of steps or on how the nonlinear equations were solved; tests measure a slope on one problem", "anchors": ["/repo/extensisq/common.py:ESDIRK._step_impl", "/repo/extensisq/common.py:ESDIRK._solve_implicit_stage", "/repo/extensisq/kennedy.py:KC3I", "/repo/extensisq/kennedy.py:KC4I", "/repo/extensisq/kennedy.py:KC4Ia", "/repo/extensisq/kvaerno.py:Kv3I", "/repo/extensisq/hosea.py:TRBDF2", "/repo/extensisq/hosea.py:TRX2"]}
{"id": "C56", "title": "ESDIRK: consistent start of index-1 DAEs", "statement": "Let M be singular (not zero) and M y' = f(t, y). If the constructor of an implicit class returns, then its y and y' satisfy the DAE: |M y' - f(t0, y)| <= n max(e, 1e-8) in every component and every algebraic equation w^T f(t0, y) = 0 (w^T M = 0) holds to that accuracy, e being the accuracy of scipy.optimize.root; M y = M y0, so only the combinations of components not determined by differential equations were changed; the differentiated algebraic equations hold for y' (with a difference quotient for the time derivative); J is the Jacobian at y. If y0 is consistent, y = y0 exactly and M y' = f(t0, y0). The problem has index 1; conversely an index-1 problem with consistent y0 is accepted whenever the same arguments are accepted without M and atol is a number or first_step is given. For linear problems every step then solves the stage equations of the DAE exactly. Fails: the Jacobian of the reduced problem, used for the first step only, has a wrong sign, and the first step can be thousands of times too small.", "quantifier": "all six classes, all problems, dimensions, mass matrices with exact singular value decomposition, initial values, Jacobians, options (exact arithmetic)", "why_tests_cant": "a test checks the residual for one problem; the guarantee is about every singular mass matrix and every inconsistent y0, and about what was not changed", "anchors": ["/repo/extensisq/common.py:ESDIRK._handle_M", "/repo/extensisq/common.py:ESDIRK._consistent_ICs", "/repo/extensisq/common.py:ESDIRK.__init__", "/repo/extensisq/common.py:h_start"]}
{"id": "C57", "title": "ESDIRK: which mass matrices make a DAE", "statement": "M of shape (n,) means diag(M); any shape but (n,) and (n, n) raises ValueError. A mass matrix whose singular values are all at least n^2 2^-52 times the largest one makes an ODE: the solver starts from y0 with M y' = f(t0, y0). A singular nonzero M makes a DAE (C56). Solvers of both kinds are those the theorems on runs speak about. Fails: M = 0 is not recognised as a DAE, the constructor returns only if f(t0, y0) = 0; an array atol of length n is refused for a DAE with more than one differential unknown when first_step is not given.", "quantifier": "all six classes, mass matrices, problems, dimensions, options (exact arithmetic; the shapes for every arithmetic)", "why_tests_cant": "the recognition must be right for every matrix, not for the few in the test suite", "anchors": ["/repo/extensisq/common.py:ESDIRK._handle_M", "/repo/extensisq/common.py:ESDIRK.__init__", "/repo/extensisq/common.py:h_start"]}
{"id": "C58", "title": "Global convergence of SSV2stab", "statement": "Let Y solve y' = F(t, y) on [lo, hi], with F smooth and Lipschitz along Y. There are C and del such that every run of SSV2stab that starts on Y, whatever its options, tolerances, rho_jac, numbers of stages, direction and number of steps, and whose accepted steps are at most H < del, satisfies |y_n - Y(t_n)| <= C H^2 at every accepted point, and is at t_bound when status is 'finished'. The dense output of every step is within C H^2 of Y over the whole step. So any accuracy is reached by making the steps short.", "quantifier": "all right-hand sides, dimensions, trajectories, intervals in both directions, options, spectral radius functions, sequences of step sizes and numbers of stages, numbers of steps, points of the run (exact arithmetic)", "why_tests_cant": "an asymptotic statement about all problems and all sequences of steps and stages: the constant must not depend on the number of steps nor on the stage numbers chosen; tests measure a slope on one problem", "anchors": ["/repo/extensisq/sommeijer.py:SSV2stab._step_impl", "/repo/extensisq/sommeijer.py:SSV2stab._stages", "/repo/extensisq/sommeijer.py:SSV2stab._dense_output_impl", "/repo/extensisq/common.py:CubicDenseOutput"]}
{"id": "C59", "title": "Global convergence of CKdisc", "statement": "Let Y solve y' = F(t, y) on [lo, hi], with F smooth and Lipschitz along Y. There are C and del such that every run of CKdisc that starts on Y, whatever its options, tolerances, rejections, quits, fallbacks to lower order and direction, and whose accepted steps are at most H < del, satisfies |y_n - Y(t_n)| <= C H^p at every accepted point, and is at t_bound when status is 'finished'; p is the order of the lowest member used: 5 when every step has order_accepted = 4, 3 when 2 also occurs, 2 in general. The dense output of every step is within C H^p of Y over the whole step. With max_step = H the steps need no further assumption, so any accuracy is reached by choosing max_step small.", "quantifier": "all right-hand sides, dimensions, trajectories, intervals in both directions, options, sequences of step sizes and of accepted orders, numbers of steps, points of the run (exact arithmetic)", "why_tests_cant": "an asymptotic statement about all problems and all sequences of steps and orders: the constant must not depend on the number of steps nor on where the order drops; tests measure a slope on one problem", "anchors": ["/repo/extensisq/cash.py:CKdisc._step_impl", "/repo/extensisq/cash.py:CKdisc._dense_output_impl", "/repo/extensisq/common.py:CubicDenseOutput", "/repo/extensisq/common.py:HornerDenseOutput"]}
{"id": "C60", "title": "Where the other solvers evaluate fun", "statement": "During every step() call of a run from t0 to t_bound, failed steps and rejected trials included, the implicit solvers TRBDF2, TRX2, KC3I, KC4Ia and Kv3I, CKdisc (with max_step = inf) and SWAG evaluate fun only at times between t0 and t_bound. So does SSV2stab, power method included, when first_step is given or the run is forward and longer than the smallest step; without first_step a backward run of SSV2stab evaluates fun once on the wrong side of t0. For KC4I the statement is false: it evaluates fun beyond t_bound, but by no more than 4% of the interval.", "quantifier": "all right-hand sides (also ones returning nan or inf), options, intervals in both directions, numbers of step() calls, sequences of rejections, convergence failures and order changes (exact arithmetic)", "why_tests_cant": "a single trial step near t_bound with the wrong clipping would evaluate fun outside its domain; which trials occur depends on the problem and on the history of the controller", "anchors": ["/repo/extensisq/hosea.py:TRBDF2._step_impl", "/repo/extensisq/kennedy.py:KC4I", "/repo/extensisq/cash.py:CKdisc._step_impl", "/repo/extensisq/shampine.py:SWAG._step_impl", "/repo/extensisq/sommeijer.py:SSV2stab._step_impl", "/repo/extensisq/sommeijer.py:SSV2stab._init_step_size"]}
{"id": "C61", "title": "dense_output() observes an integration without influencing it", "statement": "Calling dense_output() after any selection of the steps of an integration with an explicit Runge-Kutta or Nystrom class (and so solve_ivp with dense_output=True, t_eval or events) leaves time, solution, derivative, step size, status and all later steps exactly as they are in the integration without those calls, although BS5, Fi5N and Mu5Nmb make extra evaluations of fun for their interpolants; asking again gives the same object. The exception is interpolant 1 of Fi5N, which replaces the position held by the solver: there it is refuted.", "quantifier": "all right-hand sides, options, tableaux and states, all interleavings of step() and dense_output() calls, any arithmetic (reals, floats)", "why_tests_cant": "tests compare a few runs; that no interleaving of queries and steps on any problem changes the trajectory is a statement about all histories", "anchors": ["/repo/extensisq/bogacki.py:BS5._dense_output_impl", "/repo/extensisq/murua.py:Mu5Nmb._dense_output_impl", "/repo/extensisq/fine.py:Fi5N._dense_output_impl", "/repo/extensisq/common.py:RungeKutta._dense_output_impl", "/repo/extensisq/common.py:RungeKuttaNystrom._dense_output_impl"]}
