# Formal model of extensisq in Rocq (Coq 8.16.1)

## 1. Approach

* The code is modelled function by function as total Gallina functions over a record `Arith`
  (Arith.v): a type of numbers with exactly the operations and comparisons the Python code uses.
  The same model text is instantiated with
  - `RX` (RX.v): extended reals `Fin r | PInf | NInf | NaN` with IEEE comparison semantics; no
    rounding, no overflow; inf and nan enter through `fun`, options and division by zero.
    Theorems about order relations, termination, bounds and orders of accuracy are about `RX`;
  - `QX` (QX.v): rationals rounded to 53 bits with inf and nan; executable, so that concrete runs
    (examples, refutations) are evaluated by the kernel;
  - `F64 pow log10` (F64.v): IEEE binary64 from Flocq, `pow` and `log10` arbitrary functions
    (their rounding is not specified by IEEE): landing and progress (C44, C47).
  Theorems about control flow are proved for *every* `Arith`, so they hold in binary64 too.
* The user's `fun` is an arbitrary function `num -> list num -> list num`. Each call is recorded in
  the state, so `nfev` and the points of evaluation are observable.
* Exceptions are values. `while` loops are fuelled; running out of fuel is a separate outcome
  (`StepHang`/`OHang`), which the termination theorems exclude and no other theorem assumes away.
* Histories: `step()` calls from a constructed solver (`made by the constructor` then any number
  of calls); the properties quantify over all of them.

## 2. Which code is modelled, where

| source | model | not modelled |
|---|---|---|
| common.py 30-63 validate_tol, calculate_scale, norm | Common.v | dtype conversion |
| common.py 66-521 RungeKutta, 1211-1490 RungeKuttaNystrom (constructor, step control, stages, error norms, stiffness hook) | RK.v, RKInit.v | complex dtype, logging, debug counters |
| common.py 524-765 h_start | HStart.v | complex dtype |
| common.py 766-818, 1489-1582 dense outputs; every `_dense_output_impl` of the explicit classes | Dense.v | vectorised evaluation (one t at a time) |
| common.py 819-1208 stiff_a .. stiff_d | Stiff.v | - |
| common.py 1617-2254 ESDIRK | ESDIRK.v; DAE.v (`_handle_M`, `_consistent_ICs`, the DAE branch of `__init__`) | `num_jac`, the LU routines, `np.linalg.svd/matrix_rank/solve` and `scipy.optimize.root` (oracles), sparse matrices, warnings filters |
| hosea.py, kennedy.py, kvaerno.py; common.py 2226-2244 dense output | ESDCls.v, ESDDense.v, Tableaux.v | scipy's CubicHermiteSpline is modelled as two cubic Hermite pieces |
| bogacki.py, cash.py (CK5), calvo.py, fine.py, merson.py, mikkawy.py, murua.py, prince.py, tsitouras.py | Classes.v, Tableaux.v, Mu5Scale.v, Dense.v | - |
| cash.py 115-416 CKdisc | CK.v | - |
| shampine.py SWAG, SwagDenseOutput | Swag.v, SwagDense.v | complex dtype |
| sommeijer.py SSV2stab with its dense output | Rkc.v | complex dtype |
| sensitivity.py | Sens.v | `solve_ivp` (an oracle), dtype tests, the `sol` objects returned |
| scipy `OdeSolver.step`, `dense_output`, `validate_*` | Ode.v, RK.v, RKInit.v (from scipy's documented behaviour) | `solve_ivp` driver, events |

Simplifications, also stated next to each definition:
1. numpy arrays are lists; `@`, `dot`, `sum` are left-to-right sums (BLAS order is not modelled).
2. Real dtype only.
3. `K` is the growing list of stage vectors instead of a preallocated array; slices that select
   unset rows are impossible in the model because of the order of evaluation (RK.v).
4. ESDIRK: the LU object is the matrix that was factorised; `lu` and `solve` are arbitrary oracles
   (an exception of scipy is the outcome `lin_error`); theorems over `RX` that need the solve to
   be exact say so in a premise (C24, C29). The Jacobian is an oracle indexed by the number of
   earlier evaluations. `x ** int` is repeated multiplication.
5. SWAG: arrays are lists with checked indices (an index error is an outcome; C34 proves it never
   happens); the contents of `np.empty` arrays are an arbitrary function.
6. SSV2stab: stage counts are integers; log, sinh, cosh, int, round are a record `Elem` (real
   functions in RX); Python-float divisions raise, numpy divisions do not.
7. sensitivity.py: `solve_ivp` is a function from the problem it is handed to an answer; the
   theorems name the problem and assume exactness for that one problem only.

## 3. Method of proof

* Control flow, cost, cleanness of failures, non-interference, FSAL: invariants over trials and
  histories, for every `Arith`.
* Monotonicity, landing, termination, step bounds: invariants and a decreasing measure
  (the step size shrinks by a fixed factor until it is below the minimum) over `RX`; landing and
  strict progress also in binary64.
* Order (C18-C21): a tree expansion (Trees.v, OrderThm.v) shows, for every right-hand side
  with a Taylor expansion at the base point, that the order conditions imply an error
  `<= C |h|^(p+1)`; the conditions of all trees are decided by a verified checker
  (OrderCheck.v) run by the kernel on the exact table. Tables with decimal coefficients are
  checked in verified ball arithmetic (Balls.v, BallTab.v): the error then has an additional term
  `eps * (sum of absolute elementary differentials)`. Implicit methods: GOrder.v/OrderIRK.v, for
  all solutions of the stage equations near the base point; their interpolants: GDense.v,
  GDenseCheck.v, IRKDense.v; explicit decimal interpolants: DenseNear.v, DenseNearN.v.
* Global error (C49): the expansion is redone uniformly in the base point and in the method
  (UOrder.v, UOrder2.v), which gives a local error `C |h|^(p+1)` with one C along the whole
  trajectory; Lipschitz stability of the step and a discrete Gronwall argument (GlobalRK.v) give
  the global bound; GlobalRun.v turns solver histories into such step sequences.
* First-try acceptance (C50): the error estimate, a combination of stages near the trajectory, is
  bounded by `C (e |h| + |h|^(q+1))` uniformly (GlobalEst.v); with max_step and atol this bounds the
  scaled norm below 1, so the accept branch of the step loop is taken (GlobalAccept.v).
* Nystrom classes along runs (C49): GlobalN.v (uniform local error, stability, global bound), GlobalRunN.v (runs of the solver), Prop_GlobalN.v.
* Dense output along runs (C52): uniform order theorem for interpolants (UDense.v), perturbed starts (GlobalDense.v), runs (Prop_GlobalDense.v). Nystrom classes: GlobalDenseN.v, Prop_GlobalDenseN.v.
* Step size control (C51): refinement of the loop by a flagless controller (SpecCtl.v, Ctl.v).
* Control of the implicit solvers (C53): refinement of Newton's iteration, stage loop, trial loop and step by the flagless specification SpecESD.v (ESDCtl.v).
* Accuracy of the stages (C54): the specification's Newton iteration read in exact arithmetic; a finite end makes all iterates finite (ESDNewton.v).
* Implicit classes along runs (C55): GlobalIRK.v (Picard iteration gives the exact stages on the trajectory; they are bounded, the uniform expansion of UOrder2.v applies; stages with residual dl from a point e away differ by 2 (L e + dl); induction along the run), Prop_GlobalIRK.v (runs of the solver: Prop_ESDDense.esd_made, C29 on linear problems, C33 for max_step); Prop_GlobalIRKDense.v (dense output within the step: the error of the interpolant of a step started e away with stage residual dl).
* SSV2stab along runs (C58): GlobalAny.v (global errors of schemes whose step may be a different method each time), GlobalRKC.v (the m stage scheme is an explicit Runge-Kutta method of order two, uniformly in m up to a bound; the cubic dense output as weights of order two), Prop_GlobalRKC.v (runs of the solver: C39_step gives every accepted step; the bound for the number of stages follows from rtol <= 0.1).
* CKdisc along runs (C59): GlobalCK.v (the member accepted, with its coefficients divided by the fraction of the trial step it makes, is an explicit method of its order in the step made; conditions of the scaled tables and of the dense output, cubic included, checked by computation in Q), Prop_GlobalCK.v (C40_step gives the member and the trial of every accepted step; the order may change from step to step, so GlobalAny.v is used).
* Evaluation times (C60): EvalTimes.v (ESDIRK), EvalTimesCK.v (CKdisc), EvalTimesSwag.v (SWAG), EvalTimesRkc.v (SSV2stab; the stage fractions are in [0,1] because T_j''/T_j' does not decrease with j, a wronskian of the U_j): the calls appended to the log by one trial lie at t + c_i h with h clipped to the remaining interval; induction over trials and step() calls. Prop_EvalTimes*.v state it with `within t0 tb` and give the counterexample for KC4I.
* Observing (C61): Observer.v defines a user's session (step() calls, a dense_output() call after a selection of them); every dense output implementation leaves a state that agrees with the old one in everything but the call log and the diagnosis counters (the relation of C13's proof), and gives equal objects on such states; induction over the session. Prop_Observer.v states it and refutes it for Fi5N's interpolant 1, which assigns self.y.
* Mass matrices and DAEs (C56, C57): DAEReal.v (the singular value decomposition read as the algebraic equations w^T X = 0 and the null directions of X), DAETop.v (`_consistent_ICs` returns: what its values satisfy), DAEMake.v (`_handle_M` and the branch taken), DAEAcc.v (when it returns), Prop_DAE.v, Prop_DAE2.v (acceptance, concrete case), Prop_DAE3.v (one-dimensional M, shapes, two defects run in QX).
* Stability (C24): stability functions as rational functions over Q(sqrt 2), maximum principle on
  the imaginary axis replaced by explicit sum-of-squares certificates (Stab.v, Prop_Stab.v).
* Adams coefficients (C37): divided differences and Newton interpolation over the reals (Adams.v).
* Chebyshev (C38): Cheb.v. Sensitivity (C41, C42): Gronwall and differentiability of the flow
  (Flow.v, with Coquelicot).
* Negative results: theorems ending in `_refuted` (or C04, C10, C32, C33, C43, C45) exhibit a concrete reachable
  run, evaluated by the kernel.

## 4. Statements

Statements are in the `Prop_*.v` files and use the public attributes of the solver, plus the small
specifications SpecRK.v (textbook Runge-Kutta step, error estimate), OrderThm.v/OrderRK.v
(`solves`, `smooth_at`, `lifts`), GlobalRK.v (`solution_on`, `smooth_along`, `lipschitz_along`), Adams.v (divided differences), Cheb.v (Chebyshev polynomials),
Flow.v. Next to each group of theorems an `Example` (`*_case`) shows that a concrete nontrivial
case meets the hypotheses.

## 5. Trusted base

* Coq 8.16.1's kernel, including its virtual machine (`vm_compute`, used for the tableau checks and
  the concrete runs; `coqchk` re-checks them without it).
* The axioms listed per theorem in ASSUMPTIONS.md (output of `Print Assumptions`, generated by
  tools/assumptions.py). They are the standard library's
  `ClassicalDedekindReals.sig_forall_dec`, `ClassicalDedekindReals.sig_not_dec`,
  `Classical_Prop.classic`, `FunctionalExtensionality.functional_extensionality_dep`. No others.
* tools/gen_tableaux.py, which transcribes the coefficient tables of the Python source into
  Tableaux.v (exact rationals or pairs a + b sqrt 2).
* The reading of the Python code in the model files (each definition cites file and lines), and
  of scipy's `OdeSolver` in Ode.v.

## 6. Mutation tests

seeded/LOG.jsonl: edits of the model as realistic bugs would make them, and the theorems that fail.

## 7. Property plan

