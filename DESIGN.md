# Formal model of mini_opt in Rocq (Coq 8.16.1)

## 1. Approach

One model, several arithmetics. Every function of the library is modelled once, over an abstract
scalar type `F` equipped with a record of operations `Ops F` (`theories/Scalar.v`): `+ - * /`, `abs`,
`sqrt`, comparisons, `isfinite`, literals, dot products, sums, min/max coefficients. `Ops` has **no
laws**: it is data, not assumptions.

* Control-flow properties (what is logged, what may be returned when, which variables may change) are
  proved for *every* `Ops`, hence for IEEE doubles with NaN, infinities, any summation order, any
  compiler contraction.
* Algebraic properties (optimality, Newton system, interpolation, feasibility) are proved for the
  instance `R_ops` (exact real arithmetic, `theories/RInst.v`).
* Some properties are also proved for IEEE-754 binary64 (`theories/FloatInst.v`, Flocq's
  `BinarySingleNaN`, precision 53, emax 1024, round to nearest even); the order of summation inside dot
  products is left as an arbitrary parameter there.

Exceptional behaviour is an outcome type (`theories/Outcome.v`): `Ok a | Throw e | UB why`.
`F_ASSERT*` throws; `FailedFactorization` throws; out-of-range Eigen accesses and size mismatches are
undefined behaviour in the release configuration (`EIGEN_NO_DEBUG`) and are modelled as `UB`, so a
theorem concluding `Ok` also says that no undefined behaviour happened.

Eigen's decompositions are *oracles*: `LDLT`+`solveInPlace(I)`, `ColPivHouseholderQR`, `LLT`,
`SelfAdjointEigenSolver` are function parameters of the model. Theorems that need them to be correct
state the correctness as an explicit hypothesis (e.g. `H * Hinv = I`); theorems that do not (positivity
of slacks, box feasibility, all control-flow results) hold for arbitrary, even wrong, factorisations.
User callbacks (residual functions, retraction, exit callback) are function parameters too.

Uninitialised memory (`resize` in `Setup`) is an arbitrary argument `garbage`.

## 2. Files (rocq/theories)

| file | contents |
|---|---|
| Scalar, Outcome, LinAlg | scalars, exceptions, Eigen vectors / matrices / blocks |
| Structs | model of structs.hpp, structs.cc |
| Constraint | model of `LinearInequalityConstraint`, `Var` (qp.hpp) |
| QPModel | model of the interior point solver (qp.hpp, qp.cc) |
| NullSpace | model of the null space solver (qp.cc) |
| Report | model of the text reports (structs.cc) |
| Residual | model of residual.hpp, residual.cc: what a residual computes |
| ResidualHandle | model of residual.hpp: `MakeResidual`, handles that were moved from, `ResidualDim == Dynamic`, ownership (unique_ptr level) |
| Assertion | model of assertions.hpp: format strings, message, exception; table of all uses of the macros |
| Nonlinear | model of nonlinear.hpp, nonlinear.cc: Solve as a function |
| NLSObject | model of nonlinear.hpp, nonlinear.cc: the object with its members, throwing user functions and trace scopes |
| Json | model of serialization.cc |
| Tracing | model of tracing.hpp, tracing.cc, with a small-step semantics of threads |
| Chains | model of the kinematic chains of test/transform_chains.hpp, test/transform_chains.cc |
| RInst | arithmetic: exact reals |
| FloatInst | arithmetic: IEEE binary64 (Flocq `BinarySingleNaN`) |
| Spec | independent specification vocabulary (sums, half spaces, objective, feasibility, optimality, ...) |
| Props_Constraint, QPBlocks, QPAlgebra, QPNewton, QPAlpha, QPStep, QPTrace, QPInit, QPSolve, QPDirect, QPBarrier, QPIter, QPFrame, QPUnique, QPLog, QPPath, QPPerm, QPRelabel, QPReuse, QPRegular | theorems on constraints and the interior point solver |
| NSProps, NSRelabel | theorems on the null space solver |
| ResProps, ResidualHandleProps, LinProps, MeritProps, LSProps, InterpProps, LSPoly, NLSTrace, NLSLog, NLSProps, NLSReal, NLSRate, NLSQuadratic, NLSQuadraticLocal, NLSLocal, NLSShift, NLSRelTol, NLSConstrained, Factorisations, NLSRegular, NLSBox, NLSTotal, NLSSame, NLSPerm, NLSRelabel, Penalty, Multipliers, LSSuccess, Optimality, NLSInequality, NLSObjectProps, NLSHistory, NLSEdit, Budget | theorems on residuals and the nonlinear solver |
| Props_Structs, ReportProps, JsonProps, JsonRead, TracingProps, TraceText, AssertionProps | theorems on summaries, text reports, JSON, tracing, assertion messages |
| JsonText | specification: a grammar of JSON texts (RFC 8259) and a proof that it is unambiguous (used by C75) |
| ChainProps, ChainDeriv, ChainUpdate, ChainJacobian, ChainCache | theorems and cases on poses and kinematic chains |
| FloatProps, FloatQP, FloatNLS | theorems in binary64 |
| FloatRun | the model executed in binary64 on the repository's own unit tests |
| Examples, Examples2, CasesQP, CasesNLS, CasesRun, CasesMore, RateCases, ConstrainedCases, RelTolCases, InequalityCases, PathCases, ShiftCases, QuadraticCases, LocalCases, FloatCases, HistoryCases, EditCases, HandleCases, RelabelCases, NLSRelabelCases | concrete cases that meet the hypotheses of the theorems |

## 3. Plan per property

* C01-C03 (constraints): `R_ops` by case analysis / lra; C01 also binary64 with Flocq (sign of a rounded
  sum is the sign of the exact sum).
* C04, C49: boolean characterisation of the asserts, for every `Ops`; witness for the negative index gap.
* C05: list lemmas, any `F`.
* C06, C07: invariant over the iteration loop on `R_ops`, arbitrary LDLT result.
* C08, C09, C17, C18, C19: finite sum algebra on `R_ops` (`Rsum`), all dimensions. In binary64 the complementarity error of C09 can
  cancel (`C09_binary64_cancellation_refuted`).
* C10, C50: relational (two-run) equality, for every `Ops`.
* C11: `R_ops` plus NaN witnesses on binary64.
* C12, C13, C16: induction over the loop, every `Ops` (mu schedule arithmetic on `R_ops`). `C12_componentwise` (QPUnique) reads the tolerances off condition by condition, using positivity (C06): each equality, inequality, gradient component and product s_m z_m on its own.
* C14: weak duality argument on `R_ops`, then composed with C12.
* C15: induction over the constraint list with an interval invariant per variable.
* C20, C21: from the oracle specs `Q^T Q = I`, `A^T P = Q R`, `R_ii <> 0`, LLT success => SPD and exact solve.
* C22-C25: fold invariants over index lists; C24 gives the quadratic form as a sum of squares.
* C26: Coquelicot `is_derive` / right derivative.
* C27, C28, C31-C40: induction over the line search and outer loops, every `Ops` where possible; order facts
  on `R_ops` and on binary64.
* C29, C30: field / nra on `R_ops`.
* C41: from A dx + b = 0.
* C42: composition of C15, C19, C06, C28 through the whole nonlinear solver. In binary64 a rounding error can break it (`C42_binary64_rounding_refuted`, RelTolCases).
* C43-C46: list inductions over JSON trees.
* C51-C53: totality by following every assertion; non-singularity of the reduced KKT matrix by a quadratic form argument.
* C54-C57: the Armijo interval from the right derivative of the merit function (C26), the first order conditions of the exact
  sub-problem (C18, C20), Cauchy-Schwarz for the Gauss-Newton form, and the exactness of the linear model of affine residuals.
* C58: the report as a list of lines; filters by prefix; unique decomposition at header lines.
* C59-C62: a simulation between the object with its mutable members (NLSObject.v) and the function NLS_Solve: what is rewritten
  before it is read, which sizes are invariant, what the object looks like when a user function throws at an arbitrary invocation.
* C63, C64: composition of C12 (what SATISFIED means) with C06 (interior) and a monotonicity argument for the KKT operator.
* C65: two-run equality; the assembled QP and the evaluated errors are shown equal (reals), the loop is a function of them.
* C66: a declarative grammar of documents, proved equivalent to the reader; a relation between documents the reader respects.
* C67: composition of C36, C28, C38, C59, C62; literals computed by the kernel.
* C68: `QPLog.v`; induction over the run of `QPTrace`, each step by C08's residual identities for the primal blocks.
* C69: `QPPerm.v`; simulation between the two solvers under a bijection of constraint indices: every sum, fold and minimum over constraints is invariant, clamping commutes when a common feasible point exists; lifted through Iterate, the loop and the initial guess. A counterexample shows the satisfiability hypothesis is needed.
* C70: quaternion identities by ring, orthogonality from the unit norm.
* C71: induction over the links for the two backward and the forward recursion.
* C72: derivatives at 0 along curves of rotations, from the standard library's `derivable_pt_lim`; the blocks are identified by
  the position of the link (`pre ++ l :: post`).
* C73: the column bookkeeping of Update is proved equal to a concatenation of per-link blocks, then C72 per parameter. The Euler
  angle conversion of geometry_utils is a parameter with a contract, and the contract is shown to be met by Rx Ry Rz.
* C74: invariant over all histories of Update calls (also throwing ones).
* C75: the text is derived in the grammar of JsonText for every history; uniqueness of the reading from a parser that is complete
  for the grammar.
* C76: `NLSPerm.v`; two-run equality: the two linearised QPs are reorderings of each other (C69 applies, the shifted constraints stay satisfiable), everything else in an iteration reads only G, c, A, b.
* C77: `NLSEdit.v`, cases in `EditCases.v`; the sizes of the members are invariant over every history (NLSHistory.v); Hoare-style rules over the object monad show what a linearisation or evaluation that returns implies about the present problem; removed rows are zero rows, to which C21 applies. Not claimed: removed rows together with inequality constraints (the interior point solver): Eigen's LDLT may report success on the singular system.
* C78: `QPRelabel.v`, case in `RelabelCases.v`; simulation between the two solvers under bijections of variables and of equality rows: the reduced matrix of the second is the first one renumbered, the inverse of a symmetric matrix is unique, so the inverses and with them the Newton directions correspond. Failures are tracked by an outcome relation with an optional escape for FailedFactorization.
* C79: `NSRelabel.v` (null space solver) and `NLSRelabel.v` (nonlinear Solve), cases in `NLSRelabelCases.v`; the linearised QP of the renumbered problem is the renumbered QP (from the quadratic and linear models of C24/C25, which determine G, c, A, b), the null space answer is the unique constrained minimiser (C20), the inner interior point solve is C78, and every scalar of the merit function and line search is invariant.
* C80: `NLSRate.v`, case in `RateCases.v`; over consecutive log entries: a success multiplies f/penalty + |c|_1 by at most 1 - relative_exit_tol (the exit test failed and the penalty only grows), a failure multiplies lambda by 10; together with C54 (the line search always finds a step) and C52 (Solve returns) this gives the SATISFIED_* states.
* C81: `LSPoly.v`, cases in `RateCases.v`; invariant over consecutive rejected steps p, s with A = (phi(t) - phi(0) - phi'(0) t) / t^2: A_p s <= (1 - c1) |phi'(0)| and s <= p / (2 (1 - c1)); it makes the cubic coefficient negative and the derivative of the cubic non-negative at both bounds, so the smaller root lies below them. In binary64 cancellation can break it (`C81_binary64_cancellation_refuted`, RelTolCases).
* C82: `NLSRelTol.v`, cases in `RateCases.v` (reals) and `RelTolCases.v` (binary64, computed by the kernel); the accepted step passed the Armijo test (C27) while the exit test says the merit function fell by less than the fraction relative_exit_tol; for exact steps the slope is minus the curvature of the step (as in C55) and Cauchy-Schwarz bounds every tangent slope.
* C83: `NLSConstrained.v`, cases in `ConstrainedCases.v`; by induction over the iterations: SelectPenalty's quotient is |dx' y + ...| / |c|_1 <= max |y| / (1 - rho) at a minimiser of the QP with multipliers y, so the penalty stays below penalty_limit, and f/penalty + |c|_1 does not increase, which keeps the iterates in the set where the multiplier bound is assumed; Solve succeeding then follows as in C80, and a stationary point is caught by the first derivative test.
* C84: `Factorisations.v`, cases in `ConstrainedCases.v`; QR by Householder reflections, inverses by induction on the size after one reflection, positive definiteness by Schur complements (decided with the order on the reals, no axiom beyond those of the real numbers); the assumptions `ldlt_exact`, `fails_only_if_singular`, `qr_ok`, `llt_ok` of the other theorems are therefore satisfiable for all matrices at once.
* C85: `NLSRegular.v`, cases in `ConstrainedCases.v`; the multiplier of constraint l is the slope of the quadratic model at its minimiser along the step that changes only constraint l; the model is a sum of squares, hence non-negative along that line, and the discriminant bounds the slope by the curvature times the minimal model value, which correcting the constraints one at a time bounds by cost and violation; the bound grows like the square root of the penalty, so a Y with the fixed point property of C83 exists. For affine problems the Jacobians are constant and a right inverse comes from C84's elimination.
* C86: `ResidualHandle.v` (model), `ResidualHandleProps.v`, cases in `HandleCases.v`; a handle is an optional object; the pointer level (heap with freed blocks, `release`/`reset`) refines the description of objects as values by induction over the operations, with the invariant that live blocks and non-null pointers correspond one to one; loops over handles are the loops over the residuals they stand for, and stop at the first empty handle.
* C87: `Assertion.v` (model and table of uses), `AssertionProps.v`; induction over the format string; the table is checked by computation, once for all values (number of placeholders, no newline in condition or file, no two uses on the same line).
* C88: `NLSInequality.v`, cases in `InequalityCases.v` (a run of the inner interior point method in exact arithmetic); the logged errors of the last QP iteration (C12) bound the gradient of the Lagrangian, the slacks and the complementarity, whatever the factorisation did; testing the gradient with dx itself bounds the curvature of dx by B, Cauchy-Schwarz then bounds every other slope. The reported multipliers enter through the penalty (C33). C56's extension to inequality constraints is in the same file: a zero gradient makes the directional derivative 0 for every step.
* C89: `QPPath.v`, cases in `PathCases.v`; the classical short-step argument, about the code's own Iterate and Solve: with the products s_m z_m within 25% (2-norm) of mu, the Newton step toward sigma mu has second order terms below 1/12 of mu (dx' G dx >= 0 gives ds' dz >= 0), so the fraction-to-boundary rule returns 1, linear residuals stay zero, and the next products are within 25% of the next mu; for COMPLEMENTARITY the mean product is within 1/(12 M) of the target. The duality gap identity bounds the objective. Needs a start close to the central path (USER_PROVIDED) and sigma near 1: for the default sigma = 0.5 with several constraints, for PREDICTOR_CORRECTOR and for infeasible starts, C89 says nothing (C13 and C52 still do).
* C90: `NLSShift.v`, cases in `ShiftCases.v`; first, in any arithmetic, two problems related by a map of their points that linearisation, evaluation and retraction respect are solved in step (simulation of the line search and of the main loop); then, in exact arithmetic, shifting the origin is such a map: residuals, bounds and a user supplied retraction are rewritten in the new coordinates, out of range indices included (the same exception is thrown). In binary64 a shift rounds, so only the first theorem applies there.
* C91: `NLSQuadratic.v`, case in `QuadraticCases.v` (Rosenbrock). `quadratic_basin` states the constants of the ball: kappa (the linearised residuals at x predict residuals of norm at most kappa |x - x*|^2 at x*), m (least stretch of the Jacobian), M (growth of the residuals). The step minimises the linearised cost, so the cost of the linearisation at x* bounds m^2 |x + dx - x*|^2; squared distances avoid the triangle inequality; the full step passes the Armijo test because the new cost is of fourth order in the distance. Totality by a local version of C51/C52 (`factorization_failed_at` in NLSTotal.v), which needs the curvature only inside the ball. `NLSQuadraticLocal.v`: `C91_converges_from_nearby` derives the ball and its constants for every `regular_zero` with a `jacobian_lipschitz`: kappa and M from the mean value theorem along segments to x*, m from coercivity of an injective Gauss-Newton matrix (`injective_coercive`, by the exact inverse of Factorisations.v and Cauchy-Schwarz).
* C92: `NLSLocal.v`, cases in `LocalCases.v` (a 1-D minimum with residual norm 1/8 and a damped solve; Rosenbrock with damping). `small_residual_minimiser` states the constants. Inner products over all residual components (`rdot`) with Cauchy-Schwarz and triangle inequality; Taylor's bound |r(x+u) - r(x) - J(x)u| <= L |u|^2 by the mean value theorem applied to the product with the remainder itself; the normal equations (J'J + lambda) dx = -J'r of the step, tested with the new error, give the contraction and tested with dx the decrease needed by the Armijo test, so the full step is accepted. `damping` is the sequence of lambdas, `rate` the factor, `local_bound` the bound on the error. The curvature is only needed inside the ball (local version of C51/C52 as for C91). For affine equality constraints see C93.
* C93: `NLSLocal.v`, case in `LocalCases.v` (a cost in x alone with the constraint y = x). The proof of C92 is a special case of this one: `small_residual_minimiser` asks for stationarity and stretching only along directions tangent to the constraints (`tangent`), and a feasible start and affine constraints keep both the step and the error tangent, so the normal equations can be tested with both. The step has no violation to remove, hence its merit slope does not depend on the penalty. Exact null space steps are `exact_steps`; `C93_exact_steps_exist` provides them. `C93_any_accuracy` draws the conclusion for a user: for every eps a number of iterations and a tolerance suffice to bring the result within eps of the minimiser, unless the absolute tolerance is met or the callback stops. Infeasible starts are not covered. `C93_curved_constraint_refuted` shows that affinity of the constraints is needed: for the residual x with the constraint y = x^2 every other hypothesis holds, yet from no feasible start (t, t^2), however close to the minimiser 0, is the first step a full one (the Maratos effect), since the full step trades the cost t^2 / 2 for a violation of t^2; `C93_curved_case` shows that the default parameters meet its hypotheses.
* C47, C48: ring buffer induction; interleavings as an inductive merge relation.

Properties found false of the code are kept: the refutation is a theorem (suffix `_refuted`), together with
the strongest corrected statement.

## 4. Trusted base

1. **Coq's kernel** (8.16.1), and `vm_compute` for the examples of FloatRun.v / FloatCases.v and a few literal computations.
2. **Axioms.** `ASSUMPTIONS.md` (generated by `tools/assumptions.py` with `Print Assumptions` on every theorem named in
   MANIFEST.json) lists them per theorem. Only axioms of Coq's standard library occur:
   `ClassicalDedekindReals.sig_forall_dec`, `ClassicalDedekindReals.sig_not_dec` and
   `FunctionalExtensionality.functional_extensionality_dep` (the construction of `R`), and `Classical_Prop.classic`
   (used by Flocq's and the standard library's real analysis). About a third of the theorems, those which hold for every
   arithmetic, are closed under the global context. Flocq is used as a library of definitions and lemmas; it adds no axiom.
   The development declares no axiom, parameter, functor, module type or plugin, and switches off no check.
3. **The model's faithfulness to the C++ text**, which is a matter of reading: every definition cites the lines it models.
   Evidence beyond reading: FloatRun.v runs the whole model in binary64 on tests of `test/nonlinear_test.cc` and
   `test/qp_test.cc` (Rosenbrock in 2 and 6 dimensions, with and without inequality constraints, Levenberg-Marquardt without
   line search, Himmelblau, sphere with nonlinear equality constraints, eight QP tests, both null space tests) and obtains the
   outcomes asserted there.
4. **The theorem statements**, together with Spec.v and the definitions local to the property files.

### 4.1 What is modelled

| source | modelled | not modelled |
|---|---|---|
| qp.hpp 28-92 | `LinearInequalityConstraint`, `Var`, all methods | |
| qp.hpp 94-295, qp.cc 12-655 | `QP`, `Setup`, constructor, `Solve`, `CheckParams`, `ComputeInitialGuess`, `Iterate`, `ComputeLDLT`, `ComputePredictorCorrectorMuAffine`, `SolveForUpdate`, `SolveForUpdateNoInequalities`, `EvaluateKKTConditions`, `ComputeAlpha`, `ComputeErrors`, `ComputeMu`, blocks, `ComputeLagrangeMultiplierSummary`, `SetVariables`, `BuildFullSystem` | `ostream` output |
| qp.cc 657-731 | `QPNullSpaceSolver::Solve` | |
| residual.hpp/cc | `GatherValues`, `ErrorVector`, `QuadraticError`, `UpdateHessian`, `UpdateJacobian`, index checks, `MakeResidual` (both), moved-from residuals, `ResidualDim == Dynamic`, ownership of the type erased object | |
| nonlinear.hpp/cc | constructor, `Solve`, `CheckParams`, `LinearizeAndFillQP`, `ComputeStepDirection`, `EvaluateNonlinearErrors`, `RetractCandidateVars`, `UpdateLambdaAndCheckExitConditions`, `SelectStepSize`, `ComputeAlphaPolynomialApproximation`, `QuadraticApproxMinimum`, `CubicApproxCoeffs`, `CubicApproxMinimum`, `ComputeQPCostDerivative`, `SelectPenalty` | |
| structs.hpp/cc | enums and their names, `KKTError`, `Errors`, `DirectionalDerivatives`, `NLSSolverOutputs` counters, `ToString` (Report.v) | fmt's conversion of doubles to text (parameter) |
| serialization.cc | `to_json` / `from_json` of all types through an in-memory JSON tree, the text through an abstract printer/parser contract | nlohmann::json's parser and printer |
| tracing.hpp/cc | collector, `scoped_trace`, json writer, interleavings of threads | clock, process and thread ids (arbitrary inputs) |
| test/transform_chains.hpp/cc | `Pose`, `ChainComputationBuffer`, `ComputeChain`, `ComputeAllPoses`, `ActuatorLink`, `ActuatorChain` (the residuals of the inverse kinematics tests) | geometry_utils' Euler angle conversions (parameters), Eigen's vectorised quaternion kernels (order of additions) |
| assertions.hpp | every `F_ASSERT` throws; exception, message and all 101 uses (`Assertion.v`) | conversion of operand values to text (`fmt`); explicit argument numbers and format specifications in a reason (none used) |

### 4.2 What is assumed about the environment

* Eigen's decompositions and `std::pow` are parameters (section 1). Where correctness of a factorisation matters it is a
  hypothesis of the theorem. In particular `ldlt_exact` says that a factorisation reported as successful yields the inverse;
  Eigen's LDLT can also report success on some singular systems, and to those runs the theorems with that hypothesis do not apply
  (C52 is about the opposite direction: regular systems are factorised). C84 shows that factorisations meeting all these
  hypotheses exist for all matrices at once.
* Memory exhaustion, `int` overflow (2^31 constraints, line search iterations), stack overflow and wrap-around of
  `std::size_t` are not modelled; dimensions are natural numbers.
* The caller does not modify the `QP` or `Problem` during a call, nor the `QP` while a QP solver refers to it (a `Problem` may be
  edited between calls: C59-C62, C67, C77); user functions are deterministic
  and do not call back into the solver. They may throw (C59-C62); elsewhere theorems are about calls in which they do not.
* Release configuration (`EIGEN_NO_DEBUG`-like): an out of range access is the outcome `UB`; theorems concluding `Ok` exclude it.
* In binary64: no extended precision, no fused multiply-add outside the reductions (which are arbitrary parameters), default
  rounding mode.

### 4.3 Index of concrete cases

For each property whose theorems have hypotheses, cases that meet them (not listed: C43, C44, C45, C47, C70 part, whose theorems hold
unconditionally).

| property | case | property | case |
|---|---|---|---|
| C01-C05 | `C01_case` ... `C05_case` | C37 | `C37_case`, `C59_C60_case` |
| C06, C08, C17 | `ex_qp_iterates`, `C16_case`, `C06_binary64_case` | C38 | `C38_case_null_space`, `C38_case_interior_point` |
| C07 | `C07_case`, `C07_binary64_case` | C39 | `C39_case` |
| C09-C11 | `C09_case`, `C10_case`, `C11_case` | C41 | `C24_C26_C41_case`, `ex_free_exact`, `ex_ns_exact`, `ex_ns_solved` |
| C12, C14, C16, C53 | `C12_C14_C16_C53_case`, `C18_case` | C42 | `ex_ip_box`, `ex_ip_solved` |
| C13, C15, C18, C19 | `C13_case`, `C15_case`, `C18_case`, `C19_case` | C46 | `C46_case_null_space`, `C46_case_interior_point` |
| C20, C21 | `C20_example`, `ns_ex_solves`, `ns_ex_bad_reports` | C48 | `C48_reading_races` (every program reaches states) |
| C22 | `C22_example` | C49 | `ex_params_valid`, `armijo_valid`, `C49_zero_penalty_case` |
| C23 | `C23_case`, `C23_any_size_case` | C50 | `C50_case` |
| C24, C26 | `C24_C26_C41_case` | C51, C52 | `ex_ip_solved`, `ex_ns_solved`, `ex_ip_well_posed` |
| C25 | `C25_case` | C54-C58 | `C54_rosenbrock`, `C56_minimiser_recognised` (ends with C55's state), `C56_constrained`, `C57_linear_free`, `C58_example_lines` |
| C27, C28 | `C27_C28_case` | C59-C62, C67 | `C59_C60_case`, `C59_case_history`, `C61_case`, `C62_case` |
| C29, C30 | `C29_quadratic_example`, `C30_case` | C63, C64, C68, C69 | `C63_case`, `C64_case`, `C68_case`, `C69_case` |
| C31, C34, C40 | `C31_C34_C40_case`, `C31_C34_C40_real_case`, `C40_zero_case` | C65, C66, C76, C78, C79 | `C65_case`, `C66_case`, `C66_same_document_case`, `C76_case`, `C78_case`, `C79_case` |
| C80 | `C80_case` | C81 | `C81_case`, `C81_case_rejected`, `C81_flat_case` |
| C82 | `C82_case`, `C82_relative_tol_near_minimum_refuted` | C83 | `C83_case`, `C83_bounded_case`, `C83_bounded_case_runs` |
| C86 | `C86_moves_case`, `C86_usable_case`, `C86_list_case`, `C86_constructor_case`, `C86_solve_case`, `C86_dynamic_case`, `C86_dynamic_hessian_case` | | |
| C87 | `C87_case` | C88, C56 (inequalities) | `C88_case`, `C88_case_applies`, `C56_infeasible_start` |
| C89 | `C89_case`, `C89_converges_case`, `C89_iterations_case` | C90 | `C90_case`, `C90_case_retraction` |
| C91 | `C91_case`, `C91_case_start`, `C91_case_ball` | | |
| C92 | `C92_case`, `C92_case_start`, `C92_case_rosenbrock`, `C92_case_superlinear` | | |
| C93 | `C93_case`, `C93_case_start`, `C93_any_accuracy_case`, `C93_curved_case` | | |
| C84 | `C84_case`, `C84_unconstrained_case` | C85 | `C85_case`, `C85_every_start_case`, `C85_affine_case` |
| C77, C59 with edits | `C59_edited_case`, `C77_outgrown_case`, `C77_dimension_case`, `C77_more_rows_case`, `C77_fewer_rows_case` | C73 constructor | `C73_every_rotation_accepted_case` |
| C32, C33 | `C32_binary64_case`, `C33_binary64_case`, `C33_case` | C70-C74 | `C70_case`, `C73_case`, `C74_case` |
| C35, C36 | `C35_case_*` (all seven states occur) | C75 | `C75_case` |

## 5. Findings

Claims that are false of the code, each with a theorem that exhibits it:

* `C17_probe_wrong_refuted`: Solve passes sigma * s^T z / M (or initial_mu) where the predictor-corrector probe expects s^T z / M,
  so the predicted complementarity after the affine step is off by (sigma - 1) s^T z / M.
* `C23_duplicate_index_refuted`: a residual that lists a variable twice does not contribute J^T J.
* `C26_kink_missed_refuted`: for a step that does not satisfy the linearised constraints, the logged directional derivative can
  miss the kink of the L1 term at a constraint whose value is exactly zero.
* `C40_zero_never_ramps_refuted`: with lambda_failure_init = 0 and lambda = 0 failures never raise lambda.
* `C49_zero_initial_penalty_refuted`: equality_penalty_initial = 0 is accepted by the parameter check, yet every solve without equality
  constraints then throws.
* `C82_relative_tol_near_minimum_refuted`: with the default parameters Solve reports SATISFIED_RELATIVE_TOL after one iteration on
  f(x) = 1 - x + 1000 x^20 from x = 0, with cost 0.499999 and f' = -1, although the cost at 1/2 is 0.13: the polynomial line search has
  no lower safeguard, the accepted step is 1e-6 and the exit test only looks at the decrease of the cost.
* `C81_binary64_cancellation_refuted`: with the default parameters, from x = 0 with f = 1 - x + 1000 x^2 / (x^2 + 1e-14) and slope -1, the
  formula -b + sqrt(b^2 - 3 a phi') of CubicApproxMinimum cancels to zero; the line search reports FAILURE_INVALID_ALPHA and, as nothing
  changes, so do all ten iterations. (In exact arithmetic it only gives up where the slope is zero.)
* `C09_binary64_cancellation_refuted`: the complementarity error is computed as |s z|^2 - 2 mu sum(s z) + M mu^2 and cancels: 0 is reported
  although s z differs from mu = 1e8 by 1.
* `C42_binary64_rounding_refuted`: rounding of the last step carries x across a bound: Solve succeeds at a point that `IsFeasible` rejects.
* `C56_infeasible_start`: started outside the box Solve can return SATISFIED_FIRST_ORDER_TOL at that infeasible start (the inequality
  constraints are not part of the test; C42 has them hold at the end if they hold at the start).
* `C07_binary64_underflow_refuted`: in binary64 the fraction-to-boundary rule can fail by underflow (a slack reaches zero).
* `C11_binary64_nan_dropped`: a NaN in any but the first component disappears from `KKTError::Max`.
* `C63_complementarity_tol_not_positive`: `CheckParams` of the interior point solver accepts a non-positive
  `termination_complementarity_tol`; the solver then never reports success.
* `C66_missing_key_is_undefined`: a document without one of the top level or iteration keys is read through const `operator[]`,
  which is undefined behaviour in release builds; `C44_unknown_names_accepted` / `C66_documents_accepted`: misspelt enumerators are
  silently read as the first of their kind.
* `C74_wrong_size`, `C74_nothing_active`, `C74_links_not_noticed`, `C74_binary64_nan`: ActuatorChain (test code) hides a wrong
  number of parameters on the second identical call, never computes a chain without active coordinates, and ignores NaN.
* `C75_names_not_escaped`: trace names are copied into the JSON text without escaping (the names used are function names).
* `C77_outgrown_evaluate`, `C77_fewer_rows`: editing the Problem of an existing solver so that a residual grows beyond the shared
  error buffer, or so that an equality constraint disappears, is undefined behaviour rather than an exception (only a changed number
  of variables and additional rows are checked).
