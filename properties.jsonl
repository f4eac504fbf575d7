{"id": "C01", "title": "Var(i) >= v and Var(i) <= v mean what they say", "statement": "The constraint built by Var(i) >= v (resp. <= v) refers to variable i and its IsFeasible(x) is true exactly when x >= v (resp. x <= v). In exact arithmetic for all x, v; in IEEE binary64 for all finite x, v.", "quantifier": "all indices, all thresholds v, all points x", "why_tests_cant": "ranges over every pair of reals/doubles; rounding and signed zero corner cases cannot be enumerated", "anchors": ["include/mini_opt/qp.hpp:LinearInequalityConstraint::IsFeasible", "include/mini_opt/qp.hpp:Var"]}
{"id": "C02", "title": "ClampX projects onto the feasible half line", "statement": "ClampX(x) throws iff a == 0; otherwise the returned point is feasible, no feasible point is nearer to x, feasible points are returned unchanged, and clamping twice is the same as clamping once.", "quantifier": "all constraints (a,b), all x", "why_tests_cant": "universal over real coefficients and points, with a minimality clause over every other feasible point", "anchors": ["include/mini_opt/qp.hpp:LinearInequalityConstraint::ClampX"]}
{"id": "C03", "title": "ShiftTo re-linearises a constraint exactly", "statement": "c.ShiftTo(x).IsFeasible(dx) iff c.IsFeasible(x+dx), shifting twice equals shifting by the sum, and the vector overload throws when the variable index is not below the vector size.", "quantifier": "all constraints, points and displacements", "why_tests_cant": "universal over reals; compositional law over all pairs of shifts", "anchors": ["include/mini_opt/qp.hpp:LinearInequalityConstraint::ShiftTo"]}
{"id": "C04", "title": "QPInteriorPointSolver::Setup rejects every inconsistent problem", "statement": "Setup succeeds only if G is square, c matches G, A_eq and b_eq have the same number of rows, A_eq has as many columns as G when it is non-empty, and every constraint index is below the number of variables; otherwise it throws. Negative constraint indices are NOT rejected and make a later Solve undefined (finding).", "quantifier": "all matrix/vector shapes and all constraint lists", "why_tests_cant": "unbounded family of shapes and index lists", "anchors": ["source/qp.cc:QPInteriorPointSolver::Setup"]}
{"id": "C05", "title": "x, s, y, z blocks tile the variable vector", "statement": "For every problem accepted by Setup the x, s, y, z block accessors select disjoint consecutive ranges covering the whole variable vector, reading a block after writing another returns the old content, and writing then reading a block returns what was written.", "quantifier": "all dimensions N, M, K including zero, all vector contents", "why_tests_cant": "holds for every triple of dimensions", "anchors": ["source/qp.cc:ConstXBlock", "source/qp.cc:ConstSBlock", "source/qp.cc:ConstYBlock", "source/qp.cc:ConstZBlock"]}
{"id": "C06", "title": "Slacks and inequality multipliers stay strictly positive", "statement": "If the initial guess has s > 0 and z > 0 (always true for the built-in guesses), then at every point of QPInteriorPointSolver::Solve, after every iteration and on return, all s_i > 0 and z_i > 0, whatever the linear solver returned; so the 'slack variables s <= 0' assertion is never triggered.", "quantifier": "all QPs, parameters, barrier strategies, numbers of iterations and all results of the LDLT factorisation", "why_tests_cant": "an invariant over all executions and all (possibly wrong) linear solves", "anchors": ["source/qp.cc:QPInteriorPointSolver::Iterate", "source/qp.cc:QPInteriorPointSolver::ComputeAlpha", "source/qp.cc:ComputeLDLT"]}
{"id": "C07", "title": "Interior-point step lengths satisfy the fraction-to-boundary rule and are maximal", "statement": "The alpha returned for positive val and any direction lies in (0,1], satisfies val + alpha*d >= (1-tau)*val or val + alpha*d > 0 for the components that did not need cutting, and is either 1 or the largest step allowed by the boundary rule for the components a full step would make non-positive.", "quantifier": "all vectors of any length, all directions, all tau in (0,1]", "why_tests_cant": "universal over vectors of unbounded length", "anchors": ["source/qp.cc:QPInteriorPointSolver::ComputeAlpha"]}
{"id": "C08", "title": "The computed update solves the full Newton (KKT) system", "statement": "Given an exact inverse of the reduced matrix, the dx, ds, dy, dz computed by the elimination satisfy all four block rows of the full primal-dual Newton system (19.12) for the given mu (plus the predictor-corrector second order term), for every arrangement of inequality constraints including several on the same variable.", "quantifier": "all N, M, K, all QPs, iterates with s>0, all mu", "why_tests_cant": "algebraic identity over unbounded dimensions", "anchors": ["source/qp.cc:QPInteriorPointSolver::SolveForUpdate", "source/qp.cc:ComputeLDLT", "source/qp.cc:BuildFullSystem"]}
{"id": "C09", "title": "KKT residuals and reported KKT errors are the textbook quantities", "statement": "The residual evaluated by the interior point solver is exactly (Gx+c-A_e^T y-A_i^T z, s.z, A_e x+b_e, A_i x+b_i-s) with G taken symmetric from its lower triangle, and the reported KKTError contains the L2 norms of these, the complementarity one being || s.z - mu ||.", "quantifier": "all QPs, all iterates, all mu >= 0", "why_tests_cant": "identity over unbounded dimensions", "anchors": ["source/qp.cc:EvaluateKKTConditions", "source/qp.cc:ComputeErrors"]}
{"id": "C10", "title": "Only the lower triangle of G is read", "statement": "Changing entries of G strictly above the diagonal changes neither the iterates, the outputs nor the exceptions of QPInteriorPointSolver::Solve and QPNullSpaceSolver::Solve.", "quantifier": "all QPs, all strictly-upper triangles, every scalar type incl. doubles with NaN", "why_tests_cant": "equality of two whole executions for all inputs", "anchors": ["source/qp.cc:triangularView/selfadjointView uses", "source/qp.cc:QPNullSpaceSolver::Solve"]}
{"id": "C11", "title": "Max and LInfinity bound their components", "statement": "KKTError::Max, Errors::LInfinity and DirectionalDerivatives::LInfinity are the least upper bound of their components (absolute values) for all non-NaN values. With NaN in a non-first position they silently ignore it (finding).", "quantifier": "all component values", "why_tests_cant": "includes NaN/infinity combinations and all reals", "anchors": ["include/mini_opt/structs.hpp:KKTError::Max", "include/mini_opt/structs.hpp:Errors::LInfinity", "include/mini_opt/structs.hpp:DirectionalDerivatives::LInfinity"]}
{"id": "C12", "title": "SATISFIED_KKT_TOL means the tolerances really hold", "statement": "If the interior point Solve returns SATISFIED_KKT_TOL then the logged final KKT error of the last iteration has Max() < termination_kkt_tol, it is the residual of the returned variables, and s^T z / M < termination_complementarity_tol; no earlier iteration satisfied both; MAX_ITERATIONS means none did. In exact arithmetic each condition then holds on its own: every gradient component and equality constraint is within the tolerance, every inequality holds to within it, and of every inequality slack times multiplier is below M times the complementarity tolerance.", "quantifier": "all QPs, params, scalars (incl. IEEE), all factorisation results", "why_tests_cant": "history property over all runs", "anchors": ["source/qp.cc:QPInteriorPointSolver::Solve"]}
{"id": "C13", "title": "Interior point Solve terminates within max_iterations and logs each iteration", "statement": "Every returning Solve has logged between 1 and max_iterations iterations, exactly max_iterations when the state is MAX_ITERATIONS, and parameters outside the documented ranges throw instead.", "quantifier": "all QPs and params", "why_tests_cant": "all runs and parameter values", "anchors": ["source/qp.cc:QPInteriorPointSolver::Solve", "source/qp.cc:CheckParams"]}
{"id": "C14", "title": "A satisfied QP is near optimal", "statement": "For G positive semidefinite, the variables returned with SATISFIED_KKT_TOL have objective (1/2 x^T G x + c^T x) within an explicit bound (kkt_tol*(|x-x'|+|y|+|z|) + M*complementarity_tol) of the objective at ANY feasible point x', and violate the constraints by at most kkt_tol. The objective is the one with 1/2; the header comment without 1/2 is wrong (finding).", "quantifier": "all convex QPs, all feasible comparison points x'", "why_tests_cant": "quantifies over every feasible competitor", "anchors": ["source/qp.cc:QPInteriorPointSolver::Solve", "include/mini_opt/qp.hpp:QP"]}
{"id": "C15", "title": "The built-in initial guesses are interior and clamp x", "statement": "After NAIVE or SOLVE_EQUALITY_CONSTRAINED initialisation s_i >= 1e-9, z_i = 1/s_i, x satisfies every constraint whenever the constraints on each variable are jointly satisfiable, a constraint with a = 0 throws, and USER_PROVIDED leaves the variables untouched.", "quantifier": "all QPs and constraint lists in any order", "why_tests_cant": "all permutations and repetitions of box constraints", "anchors": ["source/qp.cc:ComputeInitialGuess"]}
{"id": "C16", "title": "The barrier parameter follows the documented schedule", "statement": "With FIXED_DECREASE the logged mu of iteration k is initial_mu * sigma^k; with COMPLEMENTARITY it is sigma * s^T z / M of the previous iterate (initial_mu at first); it stays positive; with decrease_mu_only_on_small_error it never changes while the error exceeds mu.", "quantifier": "all QPs, params, iteration counts", "why_tests_cant": "unbounded number of iterations", "anchors": ["source/qp.cc:QPInteriorPointSolver::Solve"]}
{"id": "C17", "title": "The predictor-corrector probe measures the complementarity after the affine step", "statement": "mu_affine is (s+a_p ds)^T (z+a_d dz)/M (never negative). This holds when the incoming mu equals s^T z / M, and is refuted for the mu the solver actually passes (finding).", "quantifier": "all iterates and affine steps", "why_tests_cant": "identity over unbounded M; refutation shows wiring error", "anchors": ["source/qp.cc:ComputePredictorCorrectorMuAffine", "source/qp.cc:Iterate"]}
{"id": "C18", "title": "Without inequality constraints the interior point solver is exact in one iteration", "statement": "For a QP with only equality constraints (or none) and a correct factorisation, one iteration reaches zero KKT residual and Solve returns SATISFIED_KKT_TOL after exactly one iteration, with x the constrained minimiser if G is positive semidefinite.", "quantifier": "all QPs with M = 0", "why_tests_cant": "universal over problem sizes and data", "anchors": ["source/qp.cc:Iterate", "source/qp.cc:Solve"]}
{"id": "C19", "title": "Primal infeasibility contracts by exactly (1 - alpha_primal)", "statement": "In each interior point iteration the residual A_i x + b_i - s is multiplied by (1 - alpha.primal), whatever the linear solver returned, and A_e x + b_e likewise when the linear solve is exact; hence x never leaves the feasible set once r_pi = 0.", "quantifier": "all QPs, iterates, linear solver results", "why_tests_cant": "identity across unbounded iterations", "anchors": ["source/qp.cc:Iterate", "source/qp.cc:SolveForUpdate"]}
{"id": "C20", "title": "The null space solver returns the constrained minimiser", "statement": "If QPNullSpaceSolver::Solve returns SUCCESS for a problem with linearly independent constraint rows, variables() satisfies A_eq x + b_eq = 0 and is the unique minimiser of 1/2 x^T G x + c^T x among all points satisfying the constraints.", "quantifier": "all dimensions, all A_eq of full row rank, all G, c, b", "why_tests_cant": "quantifies over all competitors", "anchors": ["source/qp.cc:QPNullSpaceSolver::Solve"]}
{"id": "C21", "title": "Null space solver failure modes", "statement": "NOT_POSITIVE_DEFINITE is returned exactly when the Cholesky factorisation of the reduced Hessian fails and leaves variables() unchanged; no equality constraints throws; a rank deficient A_eq makes the call undefined (dimension mismatch, finding).", "quantifier": "all QPs and factorisation results", "why_tests_cant": "all failing inputs", "anchors": ["source/qp.cc:QPNullSpaceSolver::Solve"]}
{"id": "C22", "title": "UpdateHessian adds J^T J, J^T r and returns 1/2|r|^2", "statement": "For a residual with distinct indices, UpdateHessian adds the scattered J^T J to the lower triangle of H, the scattered J^T r to b, returns half the squared norm, and changes no entry strictly above the diagonal; in full quadratic form the added Hessian is dx -> |J dx|^2. QuadraticError returns the same value without touching H and b, and throws on an index out of range.", "quantifier": "all residuals, index lists, parameter vectors, prior H and b", "why_tests_cant": "unbounded index lists and permutations", "anchors": ["include/mini_opt/residual.hpp:Residual::Model::UpdateHessian"]}
{"id": "C23", "title": "Residual index checking", "statement": "ErrorVector, UpdateHessian and UpdateJacobian throw for any index that is negative or beyond the parameter vector and otherwise call the user function with exactly the gathered entries; repeated indices are accepted but produce a wrong Hessian/Jacobian (finding).", "quantifier": "all index lists and parameter vectors", "why_tests_cant": "all index lists, including duplicates", "anchors": ["include/mini_opt/residual.hpp:GatherValues", "include/mini_opt/residual.hpp:UpdateJacobian"]}
{"id": "C24", "title": "Linearisation builds the damped Gauss-Newton QP", "statement": "The QP solved at each nonlinear iteration has dx^T G dx = sum |J_k dx|^2 + max(lambda,0)|dx|^2 (so it is positive semidefinite, definite when lambda > 0), c = sum J_k^T r_k, A_eq and b_eq the stacked equality Jacobians and values, and constraints equivalent to the original ones at x + dx.", "quantifier": "all problems with distinct indices, all x, dx, lambda", "why_tests_cant": "unbounded sums over residuals and dimensions", "anchors": ["source/nonlinear.cc:LinearizeAndFillQP"]}
{"id": "C25", "title": "Errors logged at linearisation equal EvaluateNonlinearErrors", "statement": "The errors computed while linearising equal EvaluateNonlinearErrors at the same point for user functions whose value does not depend on whether a Jacobian is requested; consequently errors_initial of an iteration equals the last line search errors of the preceding successful iteration.", "quantifier": "all problems and points", "why_tests_cant": "all problems; relates two different code paths", "anchors": ["source/nonlinear.cc:LinearizeAndFillQP", "source/nonlinear.cc:EvaluateNonlinearErrors"]}
{"id": "C26", "title": "The logged directional derivative is the derivative of the merit function", "statement": "d_f is the derivative at 0 of alpha -> f(x + alpha dx) and d_f + penalty*d_equality the (one sided) derivative of the L1 merit function along dx, provided every equality constraint with value exactly zero has zero directional derivative (true for steps satisfying A dx + b = 0); otherwise the kink term is missed (finding).", "quantifier": "all differentiable problems, points and directions", "why_tests_cant": "analytic limit statement", "anchors": ["source/nonlinear.cc:ComputeQPCostDerivative"]}
{"id": "C27", "title": "An accepted step satisfies the Armijo condition", "statement": "If a line search logs SUCCESS then its last step satisfies phi(alpha) <= phi(0) + 1e-4*alpha*phi'(0) with phi'(0) <= 0 as computed, hence the merit does not increase; in exact arithmetic and in IEEE binary64.", "quantifier": "all problems, strategies, directions", "why_tests_cant": "all runs, all doubles", "anchors": ["source/nonlinear.cc:SelectStepSize"]}
{"id": "C28", "title": "Line search step sizes", "statement": "Logged step sizes start at 1, are in (0,1], strictly decrease, at most max_line_search_iterations+1 are tried, each logged error is the error at x retracted by that step, and the stationarity/positive-derivative results are only returned after exactly one evaluation.", "quantifier": "all problems and params", "why_tests_cant": "all runs", "anchors": ["source/nonlinear.cc:SelectStepSize", "source/nonlinear.cc:RetractCandidateVars"]}
{"id": "C29", "title": "Polynomial interpolation is exact", "statement": "The quadratic (cubic) model interpolates phi(0), phi'(0), phi(alpha0) (and phi(alpha1)); the returned step is a stationary point of it and its minimiser among all steps (local minimiser for the cubic).", "quantifier": "all interpolation data with 0 < alpha1 < alpha0", "why_tests_cant": "identity over reals", "anchors": ["source/nonlinear.cc:QuadraticApproxMinimum", "source/nonlinear.cc:CubicApproxCoeffs", "source/nonlinear.cc:CubicApproxMinimum"]}
{"id": "C30", "title": "Interpolated back-tracking steps are usable", "statement": "After a failed Armijo test with phi'(0) < 0 the quadratic step lies strictly between 0 and the previous alpha (below alpha/(2(1-c1))); the cubic step is positive whenever returned and lies below the last alpha if phi did not decrease below phi(0) there.", "quantifier": "all interpolation data", "why_tests_cant": "inequalities over reals", "anchors": ["source/nonlinear.cc:QuadraticApproxMinimum", "source/nonlinear.cc:CubicApproxMinimum", "source/nonlinear.cc:SelectStepSize"]}
{"id": "C31", "title": "variables() only ever moves to an accepted candidate", "statement": "During ConstrainedNonlinearLeastSquares::Solve, variables() changes only in an iteration whose step_result is SUCCESS, and then becomes the point whose errors were logged last; with no successful iteration variables() is the initial guess.", "quantifier": "all problems, params, callbacks, histories", "why_tests_cant": "all runs", "anchors": ["source/nonlinear.cc:UpdateLambdaAndCheckExitConditions", "source/nonlinear.cc:Solve"]}
{"id": "C32", "title": "The merit function never increases", "statement": "For every iteration of a Solve the merit f + penalty*|c|_1 at the point kept is not larger than at the start of the iteration (same penalty); without equality constraints the cost f is non increasing from the initial guess to the returned variables. Exact arithmetic and binary64.", "quantifier": "all problems, params, histories", "why_tests_cant": "monotonicity over unbounded histories", "anchors": ["source/nonlinear.cc:Solve"]}
{"id": "C33", "title": "The equality penalty never decreases", "statement": "The penalty logged per iteration is non decreasing, at least the initial value, and is only raised to scale_factor times the computed lower bound.", "quantifier": "all runs", "why_tests_cant": "history property", "anchors": ["source/nonlinear.cc:Solve", "source/nonlinear.cc:SelectPenalty"]}
{"id": "C34", "title": "lambda stays in [min_lambda, max_lambda]", "statement": "Every logged lambda lies in [min_lambda, max_lambda]; it is multiplied by 10 (at least lambda_failure_init) after a failed line search, and decreases after success by the configured factor, floored at min_lambda.", "quantifier": "all runs", "why_tests_cant": "history property", "anchors": ["source/nonlinear.cc:UpdateLambdaAndCheckExitConditions"]}
{"id": "C35", "title": "Termination states are truthful", "statement": "Each NLSTerminationState is returned only when its documented condition holds: absolute tolerance at the returned variables, relative decrease below the tolerance in the last iteration, directional derivative below tolerance, lambda above max, QP indefinite from the null space solver, user callback returned false, or exactly max_iterations iterations executed.", "quantifier": "all runs", "why_tests_cant": "history property", "anchors": ["source/nonlinear.cc:Solve", "include/mini_opt/structs.hpp:NLSTerminationState"]}
{"id": "C36", "title": "The iteration log is complete and ordered", "statement": "iterations[k].iteration == k for all k, there are at most max_iterations entries (exactly max_iterations on MAX_ITERATIONS, none when max_iterations is 0).", "quantifier": "all runs", "why_tests_cant": "history property", "anchors": ["source/nonlinear.cc:Solve"]}
{"id": "C37", "title": "The user callback protocol", "statement": "The exit callback is called exactly once per logged iteration, in order, with the iteration just logged, and its result is ignored when the solver is already exiting; returning false otherwise ends the solve with USER_CALLBACK.", "quantifier": "all callbacks (stateful), all runs", "why_tests_cant": "quantifies over arbitrary callbacks", "anchors": ["source/nonlinear.cc:Solve", "include/mini_opt/nonlinear.hpp:SetUserExitCallback"]}
{"id": "C38", "title": "Solver selection", "statement": "With equality constraints and no inequality constraints every QP is solved by the null space solver, in all other cases by the interior point solver; the logged outputs have the corresponding alternative, and lagrange multipliers are logged iff there are equality constraints in an interior point solve. The inner interior point solver runs with max_qp_iterations, termination_kkt_tolerance, initial_mu = 1, sigma = 0.1 and the complementarity strategy: its log has between 1 and max_qp_iterations entries, the first with mu = 1, and a success report means the last KKT error is below termination_kkt_tolerance.", "quantifier": "all problems and runs", "why_tests_cant": "all runs", "anchors": ["source/nonlinear.cc:Solve", "source/nonlinear.cc:ComputeStepDirection"]}
{"id": "C39", "title": "Non-finite cost or invalid alpha stalls the solver", "statement": "A line search ending in FAILURE_NON_FINITE_COST or FAILURE_INVALID_ALPHA changes neither variables, lambda nor optimizer state, so (penalty unchanged) all later iterations are identical and the solve can only end by MAX_ITERATIONS or user callback (finding: the solver does not terminate or damp).", "quantifier": "all problems reaching such a state", "why_tests_cant": "consequence over unbounded continuation", "anchors": ["source/nonlinear.cc:UpdateLambdaAndCheckExitConditions"]}
{"id": "C40", "title": "Consecutive failures are bounded by the lambda ceiling", "statement": "After consecutive MAX_ITERATIONS/POSITIVE_DERIVATIVE line search failures lambda is at least lambda_failure_init*10^(k-1), so with lambda_failure_init > 0 the solve ends with MAX_LAMBDA after at most 1 + log10(max_lambda/lambda_failure_init) + 1 failures in a row; with lambda_failure_init = 0 and lambda = 0 it never does (finding).", "quantifier": "all runs", "why_tests_cant": "unbounded failure sequences", "anchors": ["source/nonlinear.cc:UpdateLambdaAndCheckExitConditions"]}
{"id": "C41", "title": "The penalty makes the QP step a descent direction", "statement": "On the null space path, with the penalty at least the selected one and constraint violation at least machine epsilon, the directional derivative of the merit function along the QP step is at most -rho*penalty*|c|_1 - 1/2 max(0, dx^T G dx) (18.36); on the interior point path with an exact QP solution it is at most -dx^T G dx.", "quantifier": "all problems, all steps with A dx + b = 0", "why_tests_cant": "inequality over unbounded dimensions", "anchors": ["source/nonlinear.cc:SelectPenalty", "source/nonlinear.cc:ComputeQPCostDerivative"]}
{"id": "C42", "title": "Inequality constraints hold at every nonlinear iterate", "statement": "With the default retraction and box constraints that are jointly satisfiable, if the initial guess is feasible then every candidate and every accepted point satisfies a*x+b > -1e-9 for each constraint, regardless of cost functions and of linear solver accuracy.", "quantifier": "all problems, all runs, all factorisation results", "why_tests_cant": "safety invariant over all executions, composed across two solvers", "anchors": ["source/nonlinear.cc:Solve", "source/qp.cc:Solve", "source/qp.cc:ComputeInitialGuess"]}
{"id": "C43", "title": "Summary counters", "statement": "NumQPIterations, NumLineSearchSteps and NumFailedLineSearches equal the corresponding counts over the iteration log; TerminationStateIndicatesSatisfiedTol is true exactly for the three SATISFIED states.", "quantifier": "all logs", "why_tests_cant": "all log lengths", "anchors": ["source/structs.cc:NumQPIterations", "source/structs.cc:NumLineSearchSteps", "source/structs.cc:NumFailedLineSearches", "include/mini_opt/structs.hpp:TerminationStateIndicatesSatisfiedTol"]}
{"id": "C44", "title": "Enum names", "statement": "The text names streamed for each enum are pairwise distinct and equal to the JSON names.", "quantifier": "all enumerators of all enums", "why_tests_cant": "finite, but ties two separately maintained tables together", "anchors": ["source/structs.cc:operator<<", "source/serialization.cc:NLOHMANN_JSON_SERIALIZE_ENUM"]}
{"id": "C45", "title": "JSON conversion round-trips in memory", "statement": "from_json(to_json(outputs)) == outputs for every NLSSolverOutputs value.", "quantifier": "all output values, any number of iterations", "why_tests_cant": "unbounded nested data", "anchors": ["source/serialization.cc:to_json", "source/serialization.cc:from_json"]}
{"id": "C46", "title": "JSON text round-trip", "statement": "Dumping to text and parsing back yields the same outputs when all numbers are finite; any log containing a non-predictor-corrector interior point iteration contains NaN fields, which are dumped as null and make deserialisation throw (finding).", "quantifier": "all outputs", "why_tests_cant": "all outputs of the solver", "anchors": ["source/serialization.cc", "include/mini_opt/structs.hpp:IPIterationOutputs"]}
{"id": "C47", "title": "The trace collector keeps the most recent 100000 events in order", "statement": "After any sequence of submit_event calls the JSON lists exactly the last min(n,100000) events in submission order.", "quantifier": "all event sequences", "why_tests_cant": "unbounded sequences", "anchors": ["source/tracing.cc:submit_event", "source/tracing.cc:get_trace_json"]}
{"id": "C48", "title": "Tracing under concurrency", "statement": "For every interleaving of threads submitting events, the log is a suffix of a merge of the per-thread sequences, preserving each thread's order.", "quantifier": "all thread schedules", "why_tests_cant": "all interleavings", "anchors": ["source/tracing.cc:submit_event"]}
{"id": "C49", "title": "Nonlinear parameter validation", "statement": "Solve throws for every parameter outside the documented range (including NaN) before evaluating anything; equality_penalty_initial = 0 is accepted by the check yet makes the first line search throw unless the penalty is raised (finding). The constructor accepts exactly non-null problems with at least one variable.", "quantifier": "all parameter values", "why_tests_cant": "all parameter combinations", "anchors": ["source/nonlinear.cc:CheckParams", "source/nonlinear.cc:SelectStepSize"]}
{"id": "C50", "title": "Re-using a solver does not leak state", "statement": "The result of Setup+Solve with a built-in initial guess does not depend on what was left in the solver's storage (or on uninitialised memory); repeated nonlinear Solve calls with equal inputs give equal outputs.", "quantifier": "all previous contents, all problems", "why_tests_cant": "all histories of previous use", "anchors": ["source/qp.cc:Setup", "source/qp.cc:Solve", "source/nonlinear.cc:Solve"]}
{"id": "C51", "title": "Nonlinear Solve never trips an assertion on a well-posed problem", "statement": "If the parameters are in their documented ranges with a positive initial penalty, the initial vector has the problem's dimension, all residual and constraint indices are in range, no inequality constraint has a zero coefficient, a custom retraction keeps the number of variables, and (only when the null space solver is used) the QR factorisation reports full row rank, then Solve returns a result; the only possible exception is FailedFactorization, thrown by the interior point method after the LDLT of one of its reduced KKT matrices failed.", "quantifier": "all problems, residual functions, starting points, parameters, callbacks, uninitialised memory contents, and all (even wrong) factorisations", "why_tests_cant": "the internal assertions depend on the data in every iteration; tests only cover trajectories that happened to occur", "anchors": ["source/nonlinear.cc: Solve, SelectStepSize, ComputeAlphaPolynomialApproximation, CubicApproxCoeffs", "source/qp.cc: Solve, Iterate, ComputeLDLT"]}
{"id": "C52", "title": "Regular problems can always be factorised and solved", "statement": "If the rows of A_eq are linearly independent and the objective curves upwards along every direction in the null space of A_eq, the reduced KKT matrix is non-singular for all positive slacks and multipliers; hence, with a factorisation that fails only on singular matrices, Solve never throws FailedFactorization, in the QP solver and in the nonlinear solver (for example whenever min_lambda > 0 and constraint gradients are independent). Dependent rows make the matrix singular for every choice of slacks.", "quantifier": "all QPs, slacks, multipliers, nonlinear problems and starting points", "why_tests_cant": "non-singularity over all iterates and problems is a universally quantified algebraic fact", "anchors": ["source/qp.cc: ComputeLDLT, SolveForUpdate", "source/nonlinear.cc: LinearizeAndFillQP, ComputeStepDirection"]}
{"id": "C53", "title": "The multiplier summary describes the returned multipliers", "statement": "After a QP solve, lagrange_multipliers is absent exactly when the QP has no equality constraint; otherwise min is the smallest entry of y_block() and l_infinity the largest absolute value of an entry.", "quantifier": "all QPs, parameters and starting points for which Solve returns", "why_tests_cant": "all problems and iterates", "anchors": ["source/qp.cc:ComputeLagrangeMultiplierSummary", "include/mini_opt/structs.hpp:QPLagrangeMultipliers"]}
{"id": "C54", "title": "The line search cannot get stuck", "statement": "With either line search strategy, correct derivatives and exact factorisations, a step direction is always a descent direction of the merit function or has zero slope, and therefore there is a number N such that with max_line_search_iterations >= N the line search ends in SUCCESS or FIRST_ORDER_SATISFIED; an unconstrained Solve with such a limit never fails a step and never returns MAX_LAMBDA, and its result does not depend on how much larger the limit is.", "quantifier": "all differentiable problems without inequality constraints, all starting points, all parameters", "why_tests_cant": "existence of a sufficient limit for every smooth problem and every iterate is an analytic fact (a derivative), not an enumeration", "anchors": ["source/nonlinear.cc: SelectStepSize, Solve, UpdateLambdaAndCheckExitConditions"]}
{"id": "C55", "title": "SATISFIED_FIRST_ORDER_TOL means approximately stationary", "statement": "When Solve (no inequality constraints, exact factorisations, correct derivatives) returns SATISFIED_FIRST_ORDER_TOL, the L1 norm of the equality constraints at the returned variables is below absolute_first_derivative_tol and, where it is zero, the slope s of the cost along every direction u tangent to the constraints satisfies s^2 <= tol (|J u|^2 + lambda |u|^2), lambda being the value logged in the last iteration.", "quantifier": "all problems, starting points, parameters, callbacks, directions u", "why_tests_cant": "ranges over all directions and problems; a test can only check the problems it lists", "anchors": ["source/nonlinear.cc: Solve, SelectStepSize", "include/mini_opt/structs.hpp: NLSTerminationState"]}
{"id": "C56", "title": "A stationary start is recognised", "statement": "Solve started at a feasible point where the cost has zero slope along all tangent directions returns that point unchanged after one iteration with SATISFIED_FIRST_ORDER_TOL (or with QP_INDEFINITE and no iteration if the null space solver finds the reduced Hessian not positive definite). With inequality but no equality constraints, a start where the gradient of the cost vanishes is likewise returned unchanged after one iteration with SATISFIED_FIRST_ORDER_TOL, whatever step was computed, even if the start violates the inequality constraints.", "quantifier": "all problems without inequality constraints, all stationary points, all parameters with positive first order tolerance; all problems with inequality and no equality constraints, all points with zero gradient", "why_tests_cant": "all problems and all their stationary points", "anchors": ["source/nonlinear.cc: Solve, SelectStepSize"]}
{"id": "C57", "title": "Linear least squares is solved to the global minimum", "statement": "For affine costs, affine equality constraints satisfied by the initial guess, no inequality constraints, no damping and the default retraction, every iteration of Solve takes the full step alpha = 1 at once (or stops as first-order stationary), the returned variables satisfy the constraints exactly and their cost is within absolute_first_derivative_tol / 2 of the global minimum over the constraint set.", "quantifier": "all linear least squares problems, starting points and line search strategies", "why_tests_cant": "global optimality ranges over all competing points of all problems", "anchors": ["source/nonlinear.cc: Solve, SelectStepSize, LinearizeAndFillQP", "source/qp.cc: Solve", "source/null_space.cc"]}
{"id": "C58", "title": "The text report is faithful", "statement": "NLSSolverOutputs::ToString without colour contains no escape character; with colour it is the same text plus escape sequences (green exactly for satisfied tolerances and for step result SUCCESS, red for QP_INDEFINITE and other step results, orange otherwise). Its lines contain, in order, exactly one header (number, state, lambda) and one search result per iteration, one line of errors per iteration and per line search step, the interior point iterations if and only if include_qp is set, and a last line that names the termination state; two runs with the same report agree in termination state and, iteration by iteration, in number, state, step result, number of steps and QP outcome.", "quantifier": "all outputs (any number of iterations, steps and QP iterations), both flags, all number formats that print no comma, space, line feed or ESC", "why_tests_cant": "all logs of all lengths; a test compares a few fixed texts", "anchors": ["source/structs.cc: NLSSolverOutputs::ToString, NLSIteration::ToString, QPInteriorPointIteration::ToString, ColorFmt"]}
{"id": "C59", "title": "A solver object can be reused", "statement": "Solve on an object with any history (its problem edited between calls as long as the number of variables and of equality rows stays and no residual outgrows all the original ones; any sequence of Solve and EvaluateNonlinearErrors calls with any arguments, parameters and callbacks, some of them abandoned by an exception at an arbitrary point) returns exactly the outputs, variables() and callback effects that an object newly constructed from the present problem would, whatever uninitialised storage contains; it throws only the library exceptions the new object would throw or what a user function threw, and EvaluateNonlinearErrors never overruns the shared error buffer nor changes variables().", "quantifier": "all problems, all histories of calls, all arguments, all sets of throwing invocations, all arithmetics", "why_tests_cant": "histories of calls and exception points are unbounded", "anchors": ["include/mini_opt/nonlinear.hpp: ConstrainedNonlinearLeastSquares members", "source/nonlinear.cc: Solve, LinearizeAndFillQP, ComputeStepDirection, EvaluateNonlinearErrors"]}
{"id": "C60", "title": "Exceptions leave a well defined iterate", "statement": "If a residual, the retraction or the callback throws during Solve (or the library does), variables() is unchanged when the parameters were rejected, and otherwise equals what a Solve limited to j iterations would have produced, for some j not above max_iterations; the object can be used again as in C59. Whenever the callback is invoked for the k-th time variables() is the result of k iterations.", "quantifier": "all problems, histories, parameters and all points at which a user function can throw", "why_tests_cant": "every invocation of every user function is a possible crash point", "anchors": ["source/nonlinear.cc: Solve, RetractCandidateVars, UpdateLambdaAndCheckExitConditions"]}
{"id": "C61", "title": "The trace of a Solve matches its log", "statement": "A Solve that returns adds to the trace, in this order, for each logged iteration the scopes LinearizeAndFillQP, ComputeStepDirection, ComputeQPCostDerivative, one EvaluateNonlinearErrors per logged line search step and SelectStepSize, then the two scopes of the unlogged iteration if the QP was indefinite, then Solve; a Solve that throws never reports a Solve event.", "quantifier": "all problems, parameters, callbacks, histories and exception points", "why_tests_cant": "the number of iterations and line search steps is unbounded", "anchors": ["source/nonlinear.cc: MINI_OPT_FUNCTION_TRACE uses", "include/mini_opt/tracing.hpp", "source/tracing.cc: scoped_trace::~scoped_trace"]}
{"id": "C62", "title": "User functions are invoked a known number of times", "statement": "A Solve that returns has invoked each residual exactly once per started iteration (for its Jacobian) and once per logged line search step (for its error), the retraction once per logged step and the callback once per logged iteration; nothing else is invoked.", "quantifier": "all problems, parameters, callbacks and histories", "why_tests_cant": "the number of iterations and steps is unbounded", "anchors": ["source/nonlinear.cc: LinearizeAndFillQP, EvaluateNonlinearErrors, RetractCandidateVars, Solve"]}
{"id": "C63", "title": "An infeasible QP is never reported as solved", "statement": "If no point satisfies the constraints of a QP to within the KKT tolerance (in the norms the solver uses), or if the complementarity tolerance is not positive, then an interior point Solve that returns never reports SATISFIED_KKT_TOL: it runs its full max_iterations and reports MAX_ITERATIONS. (CheckParams does not reject a non-positive complementarity tolerance.)", "quantifier": "all QPs, LDLT results, parameters and reachable solver states", "why_tests_cant": "a test shows one infeasible QP; the claim is about every infeasible QP and every iterate the loop could visit", "anchors": ["source/qp.cc: QPInteriorPointSolver::Solve, CheckParams, EvaluateKKTConditions"]}
{"id": "C64", "title": "Two solves that report satisfaction agree", "statement": "For a QP whose Hessian has smallest eigenvalue at least kappa > 0, the x of two Solves that both report SATISFIED_KKT_TOL (whatever their parameters, initial guesses and factorisations) are within a distance bounded by the tolerances: kappa |dx|^2 <= (tol1 + tol2)(|dx| + |dy| + |dz|) + M (ctol1 + ctol2); and each is within the same kind of bound of the exact solution.", "quantifier": "all strongly convex QPs, pairs of solver histories, parameters and tolerances", "why_tests_cant": "needs a quantified comparison of two unbounded executions and of an execution with the exact solution", "anchors": ["source/qp.cc: QPInteriorPointSolver::Solve, EvaluateKKTConditions", "include/mini_opt/qp.hpp: QP"]}
{"id": "C65", "title": "Only the problem, not its presentation, determines a solve", "statement": "Two nonlinear problems whose cost, constraints and their first order models agree produce the identical outputs, variables and log: permuting the list of cost residuals, splitting a residual into stacked ones (cost or equality), or adding a residual that is identically zero changes nothing in exact arithmetic; in any arithmetic, problems whose linearisation and error functions return the same values give the same solve.", "quantifier": "all problems, permutations, splits, parameters, callbacks, solver histories and factorisations", "why_tests_cant": "a relation between pairs of unbounded runs over all user functions", "anchors": ["source/nonlinear.cc: LinearizeAndFillQP, EvaluateNonlinearErrors, Solve", "include/mini_opt/residual.hpp: UpdateHessian, UpdateJacobian"]}
{"id": "C66", "title": "Reading a document someone edited", "statement": "Reading outputs from JSON depends only on the values stored under the library's own keys (order and additional entries do not matter), accepts exactly the documents a stated grammar describes, and gives them the meaning stated there: unknown or non-string enumerators silently become the first of their kind, integers are accepted for numbers, qp_outputs is taken for the interior point solver's exactly if it has both distinguishing keys. Undefined behaviour arises only if the top level object or an iteration lacks a key, and for documents the library wrote removing such a key always leads to it (const operator[]); every other deviation throws.", "quantifier": "all JSON trees of any size, all outputs, all keys", "why_tests_cant": "the set of documents is unbounded", "anchors": ["source/serialization.cc: from_json, adl_serializer<NLSIteration>, adl_serializer<NLSSolverOutputs>"]}
{"id": "C67", "title": "The parameters bound the work of a Solve", "statement": "A Solve that returns performed at most max_iterations iterations, each with 1 to max_line_search_iterations + 1 line search steps and at most max_qp_iterations interior point iterations; NumLineSearchSteps and NumQPIterations are bounded accordingly, and every residual was invoked at most max_iterations * (max_line_search_iterations + 2) times. The default parameters have the documented values (in binary64 the nearest doubles), pass every check, and allow at most 10 iterations and 40 invocations per residual.", "quantifier": "all problems, parameters, callbacks, retractions, histories; any arithmetic", "why_tests_cant": "holds for every problem and history, not for the runs a test samples", "anchors": ["include/mini_opt/nonlinear.hpp: Params", "include/mini_opt/qp.hpp: Params", "source/nonlinear.cc: Solve, SelectStepSize"]}
{"id": "C68", "title": "The interior point log tells how infeasibility shrinks", "statement": "In the log of an interior point Solve the errors at the end of every iteration are the errors at the start of the next (same primal infeasibilities), and in exact arithmetic each iteration multiplies the norm of the inequality residual a x + b - s by 1 - alpha_primal (and, when the factorisation is exact, that of the equality residual as well). So the infeasibility at any entry is the product of the logged factors times the first one; the returned point's infeasibility is that product over the whole log, strictly smaller than at the start unless zero, and zero once some iteration took a full primal step.", "quantifier": "all problems, parameters, guesses, histories of the solver; the continuity of the log for any arithmetic, the factors over the reals", "why_tests_cant": "a test sees some runs; the relation between the log and the true residuals holds for every run of any length", "anchors": ["source/qp.cc: QPInteriorPointSolver::Solve, Iterate, EvaluateKKTConditions, ComputeErrors", "include/mini_opt/structs.hpp: QPInteriorPointIteration"]}
{"id": "C69", "title": "The order of the inequality constraints is irrelevant", "statement": "Two QPs that differ only in the order of their inequality constraints are accepted by Setup alike, and the interior point solver fails on both with the same error or returns identical outputs (iteration log, termination state, multiplier summary), identical x and y, and the same slack and multiplier for every constraint. With the built-in initial guesses this needs the inequalities to be jointly satisfiable (otherwise the guess depends on the order); with user provided variables it holds whenever these are reordered as well.", "quantifier": "all problems, permutations, parameters, factorisations, prior storage; exact arithmetic", "why_tests_cant": "ranges over all problems, all permutations and all runs of any length", "anchors": ["source/qp.cc: QPInteriorPointSolver::Solve, Iterate, ComputeInitialGuess, ComputeAlpha", "include/mini_opt/qp.hpp: LinearInequalityConstraint"]}
{"id": "C70", "title": "Poses are rigid motions", "statement": "For poses whose quaternion has unit norm, composition is associative with the identity pose as unit, Inverse is a two-sided inverse and keeps the norm, acting on a point with a composition is acting twice, Inverse undoes the action, distances between points are preserved, and ToMatrix is the homogeneous matrix of the action, multiplicative in the pose.", "quantifier": "all unit poses and points, exact arithmetic", "why_tests_cant": "the tests compare a few poses numerically; the laws range over all of them", "anchors": ["test/transform_chains.hpp: Pose", "test/transform_chains.cc: Pose::ToMatrix"]}
{"id": "C71", "title": "A chain composes its links", "statement": "ComputeChain leaves, for every frame i, the pose of the end frame in frame i, which is the composition of links i to the end; start_T_end is the composition of all links; ComputeAllPoses gives for every frame its pose in the start frame, the composition of the links before it. Without links start_T_end throws and ComputeAllPoses is undefined.", "quantifier": "all chains of any length, exact arithmetic", "why_tests_cant": "ranges over chains of any length", "anchors": ["test/transform_chains.cc: ComputeChain, ComputeAllPoses, ChainComputationBuffer::start_T_end"]}
{"id": "C72", "title": "The chain's matrices are the derivatives of the effector pose", "statement": "Block i of translation_D_translation is exactly the linear change of the effector's translation with link i's translation; along any differentiable curve of rotations applied on the right of link i's rotation, the effector's translation has the derivative block i of translation_D_rotation times the tangent vector, and its rotation has, in its own right tangent space, the derivative block i of rotation_D_rotation times it.", "quantifier": "all chains of unit poses, all links, displacements and curves; exact arithmetic", "why_tests_cant": "the tests compare with finite differences at a few configurations; the claim is about every configuration and direction", "anchors": ["test/transform_chains.cc: ComputeChain", "test/transform_chains.hpp: ChainComputationBuffer"]}
{"id": "C73", "title": "Update computes the effector and its Jacobians", "statement": "The first Update of a chain with as many parameters as active coordinates returns normally; translation() and rotation() are those of the composition of the links with the parameters put into their active coordinates in order; column k of translation_D_params is the derivative of the effector's translation with respect to parameter k, column k of rotation_D_params that of its rotation in the right tangent space (zero for a translation parameter). A link with an active angle can only be constructed when its Euler angles reproduce its rotation matrix to 1e-5 in every entry.", "quantifier": "all links, masks and parameters; exact arithmetic; any Euler angle conversion with correct derivatives", "why_tests_cant": "64 masks per link, any number of links and all parameter values; tests compare numerical derivatives at some", "anchors": ["test/transform_chains.cc: ActuatorChain::Update, ActuatorLink::Compute, ActuatorLink::ActuatorLink", "test/transform_chains.hpp: ActuatorChain"]}
{"id": "C74", "title": "The cache of a chain never mixes results", "statement": "After any history of Update calls, including ones that threw, an Update with the right number of parameters returns normally and leaves the chain exactly as a new chain updated once, with parameters passed now or earlier that differ from the given ones by at most 1e-9 per entry (no drift). A wrong number of parameters throws, but the same call repeated returns normally without effect; without active coordinates nothing is ever computed and reading the pose is undefined; changed links are not noticed while the parameters stay; in binary64 an Update whose entries are NaN (now or in the cache) is silently ignored.", "quantifier": "all links, all histories and parameters; exact arithmetic, the NaN case in binary64", "why_tests_cant": "ranges over all histories of calls", "anchors": ["test/transform_chains.cc: ActuatorChain::Update, ShouldUpdate, TotalActive", "test/transform_chains.hpp: ActuatorChain::translation, rotation"]}
{"id": "C75", "title": "The trace text is JSON", "statement": "Whatever scopes have ended before, get_trace_json returns a JSON document (RFC 8259) whose only reading is: an object with traceEvents, the list of the last 100000 submitted events in order, each with name, cat, ph = X, ts, pid, tid and dur (microseconds, truncated), and displayTimeUnit = ns, provided no event name contains a control character, double quote or backslash. Names are not escaped: with a double quote in a name the text can be no JSON at all, or one event can read as two.", "quantifier": "all histories of submitted events, all names without control characters, quotes and backslashes", "why_tests_cant": "ranges over all histories and all numbers and names in them", "anchors": ["source/tracing.cc: fmt::formatter<trace_event>, json_object_template, trace_collector::get_trace_json"]}
{"id": "C76", "title": "The order of the inequality constraints does not matter to the nonlinear solver", "statement": "Two problems with the same costs and equality constraints and the same inequality constraints listed in a different order are solved identically by ConstrainedNonlinearLeastSquares: the same termination state and log (errors, inner QP iterations, step lengths, multiplier norms), the same variables, the same calls of the user callback, or the same exception, whenever some point satisfies all the inequality constraints.", "quantifier": "all problems with indices in range, all orders of the inequality constraints, all initial points, parameters and callbacks; exact arithmetic", "why_tests_cant": "quantifies over all permutations and all problems; compares two runs", "anchors": ["source/nonlinear.cc: ConstrainedNonlinearLeastSquares::Solve, LinearizeAndFillQP, ComputeStepDirection", "source/qp.cc: QPInteriorPointSolver::Solve"]}
{"id": "C77", "title": "Which edits of a Problem a solver object tolerates", "statement": "A ConstrainedNonlinearLeastSquares keeps a pointer to its Problem but sizes its storage once, at construction. Editing the problem between calls is safe (C59-C62, C67 keep holding) as long as the number of variables and the total number of equality rows stay the same and no residual becomes larger than the largest one at construction. Every other edit is never silently tolerated: with another number of variables Solve throws before any user function is invoked; with more equality rows Solve never returns normally; with a residual that outgrew the buffer EvaluateNonlinearErrors never returns (the buffer access is undefined) and Solve can only return if its very first QP is indefinite; with fewer equality rows and no inequality constraints Solve never returns normally.", "quantifier": "all problems at construction and now, all histories of calls, all arguments, parameters, callbacks and throwing user functions; all arithmetics (the last clause: exact arithmetic and a QR decomposition meeting its documentation)", "why_tests_cant": "quantifies over all edits and all histories of calls", "anchors": ["include/mini_opt/nonlinear.hpp: ConstrainedNonlinearLeastSquares::p_, error_buffer_", "source/nonlinear.cc: constructor, Solve, LinearizeAndFillQP, EvaluateNonlinearErrors"]}
{"id": "C78", "title": "The numbering of the variables does not matter to the interior point solver", "statement": "Renumbering the variables of a QP (rows and columns of G, entries of c, columns of A_eq, the variable of every inequality constraint) and listing its equality constraints in another order changes nothing but the numbering of the answer: QPInteriorPointSolver returns the same termination state, iteration log and multiplier summary, the same slacks and inequality multipliers, and x and y renumbered in the same way, or fails with the same exception. This needs a factorisation that is exact when it succeeds and whose success does not depend on the numbering (a factorisation failing only on singular matrices is one); without the latter it holds whenever neither run reports a failed factorisation. In particular two exact factorisations give the same result.", "quantifier": "all QPs with indices in range, all renumberings, all parameters, strategies, initial guesses and previous contents of the storage, all exact factorisations; exact arithmetic", "why_tests_cant": "quantifies over all permutations and all problems; compares two runs", "anchors": ["source/qp.cc: QPInteriorPointSolver::Solve, Iterate, ComputeLDLT, SolveForUpdate, ComputeInitialGuess"]}
{"id": "C79", "title": "The numbering of the variables does not matter to the null space and nonlinear solvers", "statement": "Renumbering the variables of a nonlinear problem (the index lists of costs and equality constraints, the variable of every inequality constraint, the initial values, the retraction) and listing costs and equality constraints in another order changes nothing but the numbering of the answer: ConstrainedNonlinearLeastSquares::Solve returns the same outputs (termination state and every field of every logged iteration), leaves the callback in the same state and returns the variables renumbered in the same way, or fails with the same error. Likewise QPNullSpaceSolver on a renumbered QP. This needs factorisations that are exact when they succeed and whose success does not depend on the numbering (an LDLT failing only on singular matrices, a QR reporting the exact rank); without the latter it holds whenever both calls return. In particular, which exact factorisation is used leaves no trace in the result.", "quantifier": "all problems with distinct indices in range, all renumberings and orders, all parameters, callbacks, retractions and initial values, all contents of uninitialised memory, all exact factorisations; exact arithmetic", "why_tests_cant": "quantifies over all permutations and all problems; compares two runs", "anchors": ["source/nonlinear.cc: ConstrainedNonlinearLeastSquares::Solve, LinearizeAndFillQP, ComputeStepDirection, EvaluateNonlinearErrors", "source/qp.cc: QPNullSpaceSolver::Solve, QPInteriorPointSolver::Solve"]}
{"id": "C80", "title": "A bound on the number of nonlinear iterations; unconstrained problems are solved", "statement": "Every successful step of ConstrainedNonlinearLeastSquares::Solve that does not end the solve lowers f/penalty + |c|_1 by the factor 1 - relative_exit_tol, so the number of successful iterations before the last is bounded by the initial errors, the two exit tolerances and the largest penalty; between two successes there are at most F failures, where lambda_failure_init * 10^F > max_lambda. The iteration log is therefore never longer than N (F + 1), whatever max_iterations is, and with a larger max_iterations MAX_ITERATIONS is never returned. For a problem without constraints (either line search strategy, correct derivatives, curved or damped): when max_iterations and max_line_search_iterations are large enough, Solve always returns, and with one of the SATISFIED_* states.", "quantifier": "all problems, residual functions, parameters with positive tolerances, initial values, retractions, callbacks, factorisations and contents of uninitialised memory; exact arithmetic", "why_tests_cant": "a bound for all problems on the length of a run whose limit is a parameter; needs an argument about the whole sequence of iterations", "anchors": ["source/nonlinear.cc: ConstrainedNonlinearLeastSquares::Solve, UpdateLambdaAndCheckExitConditions, SelectStepSize", "include/mini_opt/nonlinear.hpp: ConstrainedNonlinearLeastSquares::Params"]}
{"id": "C81", "title": "The polynomial line search never gives up on a descent direction", "statement": "With POLYNOMIAL_APPROXIMATION (the default) and a negative merit slope, the line search never returns FAILURE_INVALID_ALPHA and none of its assertions fails: after every rejected step the quadratic or cubic model has a minimiser, it is positive and at most 1 / (2 (1 - c1)) (0.50005) times the previous step. Given enough line search iterations, both strategies therefore end in SUCCESS (or FIRST_ORDER_SATISFIED) on every descent direction of a merit function that has a right derivative there. FAILURE_INVALID_ALPHA is returned only if the merit slope is exactly 0 while one of the two derivatives is not below the tolerance, which is impossible without equality constraints.", "quantifier": "all merit curves (any values at the tried steps), slopes, penalties, c1 < 1/4, iteration limits, retractions and problems; exact arithmetic", "why_tests_cant": "needs an invariant over the history of rejected steps for all functions; a test samples a few curves", "anchors": ["source/nonlinear.cc: ConstrainedNonlinearLeastSquares::SelectStepSize, ComputeAlphaPolynomialApproximation, QuadraticApproxMinimum, CubicApproxCoeffs, CubicApproxMinimum"]}
{"id": "C82", "title": "What SATISFIED_RELATIVE_TOL certifies", "statement": "When Solve returns SATISFIED_RELATIVE_TOL, the last line search accepted a step of length alpha, the merit function did not increase and fell by less than the fraction relative_exit_tol, and c1 * alpha * |merit slope| is below relative_exit_tol times the merit value. Without inequality constraints and with exact factorisations and derivatives, if the point x before the last step satisfies the equality constraints, every tangent slope s of the cost at x obeys c1 alpha s^2 <= relative_exit_tol f(x) (|J u|^2 + lambda |u|^2); alpha is 1 if the full step was accepted and at least tau^max_line_search_iterations with ARMIJO_BACKTRACK. With the default POLYNOMIAL_APPROXIMATION there is no such lower bound on alpha, and the claim that SATISFIED_RELATIVE_TOL is only reported near a minimum is false (refuted by an execution with the default parameters).", "quantifier": "all problems, residual functions, parameters, initial values, retractions and callbacks; exact arithmetic (the refutation is a binary64 execution)", "why_tests_cant": "a bound for all problems on how far from stationary a reported success can be; tests only see problems where the answer is good", "anchors": ["source/nonlinear.cc: ConstrainedNonlinearLeastSquares::UpdateLambdaAndCheckExitConditions, SelectStepSize, ComputeAlphaPolynomialApproximation"]}
{"id": "C83", "title": "Equality constraints: penalty bounded by the multipliers, and Solve succeeds", "statement": "For a problem with equality constraints only: if the Lagrange multipliers of the linearised problems are at most Y in absolute value at all points no worse than the initial guess, the penalty reported in the log never exceeds max(equality_penalty_initial, scale_factor * Y / (1 - rho)), the result is no worse than the initial guess, and with ARMIJO_BACKTRACK some number of iterations K, independent of the limits, suffices. If moreover the constraint Jacobian has full rank and the Hessian is positive on its null space at those points, Solve ends with one of the SATISFIED_* states whenever max_iterations and max_line_search_iterations are large enough, every step being accepted. When the interior point solver logs multipliers of at most Y, the penalty never exceeds max(equality_penalty_initial, scale_factor * Y).", "quantifier": "all problems with equality constraints, residual functions, parameters, initial values; retractions and callbacks for the bounds; exact arithmetic", "why_tests_cant": "quantifies over all residual functions, starting points and iteration counts; a test sees the penalty of one run", "anchors": ["source/nonlinear.cc: ConstrainedNonlinearLeastSquares::SelectPenalty, Iterate, Solve, UpdateLambdaAndCheckExitConditions, SelectStepSize"]}
{"id": "C84", "title": "The exact factorisations assumed elsewhere exist; then regular problems are always solved", "statement": "There are one LDLT (exact, failing only on singular matrices), one column pivoted QR (orthogonal Q, triangular R, full rank whenever the rows are independent) and one LLT (succeeding exactly on positive definite matrices) for all matrices of all sizes. With them, Solve ends with one of the SATISFIED_* states, given enough iterations and line search steps, on every unconstrained problem with correct derivatives whose damped model curves upwards (in particular whenever min_lambda > 0) and on every equality constrained problem with independent constraint rows, curvature on their null space and bounded multipliers.", "quantifier": "all matrices of all sizes; all unconstrained and equality constrained problems, parameters and initial values; exact arithmetic", "why_tests_cant": "existence for every size and success for every problem cannot be established by running finitely many of them", "anchors": ["source/qp.cc: QPInteriorPointSolver::ComputeLDLT, QPNullSpaceSolver::Solve", "source/nonlinear.cc: ConstrainedNonlinearLeastSquares::Solve"]}
{"id": "C85", "title": "Controllable equality constraints: multipliers are bounded and the iterations suffice", "statement": "Suppose that, wherever the constraints are violated by at most the initial merit value, each equality constraint can be changed alone, to first order, at a curvature cost of at most kappa. Then the Lagrange multipliers at a point are at most sqrt(2 kappa cost) + kappa violation; hence (without assuming anything about multipliers) some number of iterations, independent of the limits, retraction and callback, always suffices with ARMIJO_BACKTRACK, and, if the objective curves upwards on the null space and the resulting bound times machine epsilon is below the first order tolerance, Solve ends with a SATISFIED_* state. Linear least squares problems with independent affine equality constraints qualify from every initial guess.", "quantifier": "all equality constrained problems, residual functions, parameters, initial values, retractions and callbacks; exact arithmetic", "why_tests_cant": "quantifies over all problems, starting points and iteration limits", "anchors": ["source/nonlinear.cc: ConstrainedNonlinearLeastSquares::Solve, SelectPenalty, LinearizeAndFillQP, UpdateLambdaAndCheckExitConditions"]}
{"id": "C86", "title": "Residual handles: construction, moving, ownership", "statement": "MakeResidual with a braced index list throws exactly when the number of indices differs from P, and otherwise builds the same residual as the other overload. After any sequence of creations, moves, (self-)assignments, swaps and calls of Residual objects each object contains exactly what value semantics predicts, no residual is shared by two objects, nothing is leaked, freed twice or used after being freed. Every method of a moved-from residual throws; a solver cannot be constructed on a problem that contains one, and if a residual is moved out later, Solve throws instead of returning or running into undefined behaviour. A residual with ResidualDim == Eigen::Dynamic can be built, but Dimension() is -1, it accepts no output block, and a problem that contains it is never evaluated.", "quantifier": "all index lists and dimensions; all histories of operations on any number of residual objects; all problems, parameters and initial values", "why_tests_cant": "the histories of moves and the problems are unbounded", "anchors": ["include/mini_opt/residual.hpp: Residual, MakeResidual", "source/residual.cc: Residual::QuadraticError", "source/nonlinear.cc: ConstrainedNonlinearLeastSquares::ConstrainedNonlinearLeastSquares, LinearizeAndFillQP, EvaluateNonlinearErrors"]}
{"id": "C87", "title": "Assertion failures say what failed and where", "statement": "An assertion whose condition holds does nothing. One that fails throws assert::default_error - never fmt::format_error - and the message consists of the condition's source text, the file, the line, for a comparison the source text and value of both operands, and the reason, if there is one, with each {} replaced by the corresponding argument verbatim, even if it contains braces. Condition, file and line can be read off the message, so two different assertions of the library never produce the same one. what() shows all of it if it contains no NUL. A reason with more placeholders than arguments would throw fmt::format_error instead; no assertion in the library has one.", "quantifier": "all uses of the macros in the library; all operand values, arguments, reasons, file names and build directories", "why_tests_cant": "texts of operands and arguments are arbitrary strings; most assertions fail only on inputs no test has, and a wrong placeholder would replace the documented exception type by another one", "anchors": ["include/mini_opt/assertions.hpp: format_assert, format_assert_binary, default_error, F_ASSERT, F_ASSERT_EQ", "source/qp.cc, source/nonlinear.cc, source/tracing.cc, include/mini_opt/qp.hpp, include/mini_opt/residual.hpp: every F_ASSERT"]}
{"id": "C88", "title": "What SATISFIED_FIRST_ORDER_TOL means with inequality constraints", "statement": "If Solve on a problem with inequality constraints returns SATISFIED_FIRST_ORDER_TOL at a point x that satisfies them, and its last QP reported SATISFIED_KKT_TOL, then, however inaccurate the factorisations were: the equality constraints are violated by less than tol + K kkt_tol in total; and in no direction u that stays in the box does the cost fall faster than kkt_tol |u| + B + sqrt(B (|J u|^2 + lambda |u|^2)) + penalty |J_c u|_1, where dx is the last step, K and M the numbers of equality and inequality constraints, and B = tol + kkt_tol (|dx| + K penalty) + penalty |c(x)|_1 + M 1e-6. For linear least squares with box constraints the cost at x exceeds that of no feasible point v by more than B + kkt_tol |v - x| + lambda |v - x|^2 / 2 + penalty |c(x)|_1.", "quantifier": "all problems with inequality constraints whose Jacobians are the derivatives (or that are affine), all parameters, starts, factorisations and uninitialised memory", "why_tests_cant": "a bound over all directions and all feasible points, for all problems and all rounding of the factorisation", "anchors": ["source/nonlinear.cc: Solve, ComputeStepDirection, SelectStepSize, SelectPenalty", "source/qp.cc: QPInteriorPointSolver::Solve"]}
{"id": "C89", "title": "Short steps converge", "statement": "On a convex QP with M > 0 inequality constraints, with exact factorisations and a USER_PROVIDED start that is strictly feasible (all linear conditions hold, slacks and multipliers positive) and whose products s_m z_m are within 25% (in the 2-norm) of the first barrier parameter mu0, with FIXED_DECREASE or COMPLEMENTARITY and 1 - 1/(4 sqrt M) <= sigma <= 1: if 5/4 mu0 rate^N is at most the complementarity tolerance, 1/4 mu0 rate^N at most the KKT tolerance (rate = sigma, respectively sigma + 1/(12 M)) and max_iterations exceeds N, Solve returns SATISFIED_KKT_TOL after at most N + 1 iterations, each a full step (alpha = 1), at a strictly feasible point whose objective is within M times the complementarity tolerance of that of every feasible point. With FIXED_DECREASE and sigma = 1 - 1/(4 sqrt M), N >= 4 sqrt M ln(5/4 mu0 / tol) is enough.", "quantifier": "all convex QPs, strictly feasible centred starts, parameters of the two strategies, tolerances, exact factorisations", "why_tests_cant": "a convergence bound for every problem, size and tolerance", "anchors": ["source/qp.cc: QPInteriorPointSolver::Solve, Iterate, ComputeAlpha, ComputeMu", "include/mini_opt/qp.hpp: Params"]}
{"id": "C90", "title": "The origin of the coordinates does not matter", "statement": "In exact arithmetic, if a problem is rewritten in coordinates shifted by a vector t (residuals and inequality constraints, and a user supplied retraction if there is one), Solve started at the shifted point returns the same termination state and the same iteration log (every cost, step size, multiplier and derivative), makes the same callback calls, and leaves variables() shifted by t; or throws the same exception. More generally, in any arithmetic, two problems related by a map of their points under which linearisation, evaluation and retraction agree are solved in step.", "quantifier": "all problems (also ill-formed ones), shifts, parameters, starts, callbacks, length preserving retractions, factorisations and uninitialised memory", "why_tests_cant": "a relation between two runs, for every problem and shift", "anchors": ["source/nonlinear.cc: Solve, LinearizeAndFillQP, RetractCandidateVars, EvaluateNonlinearErrors", "include/mini_opt/residual.hpp: GatherValues", "include/mini_opt/qp.hpp: LinearInequalityConstraint::ShiftTo"]}
{"id": "C91", "title": "Near a regular solution with zero residual, Solve converges quadratically", "statement": "In exact arithmetic, for problems without constraints and with lambda_initial = 0 (the default), suppose x* is a zero of the residuals and the start lies within a radius of x* in which the Jacobian has full rank and the linearisation errs by at most kappa |x - x*|^2 (with a radius small enough for these constants). Then Solve returns; every iteration takes the full step in a single evaluation, or is accepted as first order stationary and is the last; the distance to x* is squared by every step, d' <= (kappa / m) d^2; it ends as satisfied, by max_iterations or by the callback, and after at most N iterations if the bound after N steps is within absolute_exit_tol; a first order exit is within a distance of x* given by the tolerance. Such a ball exists around every zero of the residuals at which the Jacobian is injective and around which it is Lipschitz continuous, with a number of iterations that suffices for all starts in it and all factorisations.", "quantifier": "all such problems of any size, starts in the ball, valid parameters without initial damping, callbacks, exact factorisations that only fail on singular matrices, and uninitialised memory", "why_tests_cant": "a bound on the error of every iteration, for every problem and start", "anchors": ["source/nonlinear.cc: Solve, LinearizeAndFillQP, ComputeStepDirection, SelectStepSize, UpdateLambdaAndCheckExitConditions", "source/qp.cc: QPInteriorPointSolver::Solve"]}
{"id": "C92", "title": "Near a regular minimiser with a small residual, Solve converges, damped or not", "statement": "In exact arithmetic, for problems without constraints, let x* be a stationary point of the cost at which the Jacobian stretches every direction by at least m, around which the Jacobian is Lipschitz continuous with constant L, and where the norm T of the residuals satisfies L T <= m^2/16; let the start lie within a radius rho of x* with L rho <= m/16. Then, for every valid setting of the damping parameters, Solve returns; every iteration takes the full step in a single evaluation, or is accepted as first order stationary and is the last; lambda is lambda_initial, decreased by lambda_decrease_on_success and kept above min_lambda, once per step; every step moves towards x*: the distance falls at least by the factor (mu L d + L T + lambda) / (mu^2 + lambda) with mu = 15/16 m, hence linearly with a factor below 1, and superlinearly if T = 0 and lambda may fall to 0; Solve ends as satisfied, by max_iterations or by the callback; exits by the first order or relative tolerance happen within a distance of x* given by the tolerance; and after at most N iterations if N decreases by relative_exit_tol, or the bound on the distance, reach absolute_exit_tol. Every zero of the residuals at which the Jacobian is injective and around which it is Lipschitz continuous has such a ball.", "quantifier": "all such problems of any size, starts in the ball, valid parameters, callbacks, exact factorisations that only fail on singular matrices, and uninitialised memory", "why_tests_cant": "a bound on the error of every iteration, for every problem, start and damping", "anchors": ["source/nonlinear.cc: Solve, LinearizeAndFillQP, ComputeStepDirection, SelectStepSize, UpdateLambdaAndCheckExitConditions", "source/qp.cc: QPInteriorPointSolver::Solve"]}
{"id": "C93", "title": "Near a regular constrained minimiser, Solve converges along affine equality constraints", "statement": "In exact arithmetic, for problems with affine equality constraints and no inequality constraints, let x* satisfy the constraints and be a stationary point of the cost on them, at which the Jacobian of the residuals stretches every direction tangent to the constraints by at least m, around which it is Lipschitz continuous with constant L, and where the norm T of the residuals satisfies L T <= m^2/16; let the start satisfy the constraints and lie within a radius rho of x* with L rho <= m/16. Then, for every valid setting of the damping and penalty parameters, Solve returns; all points it visits, and the result, satisfy the constraints exactly; every iteration takes the full step in a single evaluation, or is accepted as first order stationary and is the last; lambda falls once per step; the distance to x* falls at least by the factor (mu L d + L T + lambda) / (mu^2 + lambda) in every step, hence linearly with a factor below 1; and the exits are as in C92. Exact linear algebra for this exists for all such problems whose constraint Jacobian has independent rows. Any accuracy can be asked for: for every eps > 0 there are a number of iterations and a tolerance such that all parameters asking for that much put the result within eps of x*, unless the cost is below the absolute tolerance there or the callback stops Solve. The restriction to affine constraints is needed: with a curved constraint the first step need not be a full one, however close the start is to x*.", "quantifier": "all such problems of any size, feasible starts in the ball, valid parameters, callbacks, exact factorisations that find full rank, and uninitialised memory", "why_tests_cant": "a bound on the error of every iteration, for every problem, start and damping", "anchors": ["source/nonlinear.cc: Solve, LinearizeAndFillQP, ComputeStepDirection, SelectStepSize, UpdateLambdaAndCheckExitConditions", "source/qp.cc: QPNullSpaceSolver::Solve"]}
