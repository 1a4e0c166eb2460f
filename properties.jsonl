{"id": "C01", "title": "Option dictionaries are accepted exactly when every key is known and every value has the documented type", "statement": "Optimizer(options=d) raises ValueError for any unknown key and TypeError/ValueError for a value of the wrong type; if it does not raise, every entry has a known key and an admissible value, and reading an option afterwards yields the last value stored for that key whether it was written as a string or as an enum member, else the documented default.", "quantifier": "every options dictionary (any number, order and kind of entries)", "why_tests_cant": "the set of dictionaries is infinite; tests try four of them", "anchors": ["fides/constants.py:validate_options", "fides/constants.py:DEFAULT_OPTIONS", "fides/minimize.py:Optimizer.get_option"]}
{"id": "C02", "title": "Enumerated options are checked against their enumerations", "statement": "Every dictionary that passes validation has subspace_solver in {2D, full, scg} and stepback_strategy in {reflect_single, reflect, truncate, mixed, refine}. (Found false: the check uses `is` on the key, so a plain-string key escapes it; true for enum-member keys.)", "quantifier": "every options dictionary accepted by the constructor", "why_tests_cant": "tests only pass enum-member keys for these two options", "anchors": ["fides/constants.py:validate_options", "fides/trust_region.py:trust_region"]}
{"id": "C03", "title": "Incompatible configurations are rejected when the optimizer is built", "statement": "Construction fails with ValueError iff the residual flag disagrees with the scheme's requirement, an option is invalid, or the scg solver is combined with the refine strategy; and conversely every configuration that is accepted can evaluate some objective. (Found false in part: resfun=True without a hessian scheme is accepted but every evaluation raises ValueError.)", "quantifier": "every combination of hessian scheme, resfun flag, options, and every objective", "why_tests_cant": "finite tests cover a handful of combinations and objectives", "anchors": ["fides/minimize.py:Optimizer.__init__", "fides/minimize.py:FunEvaluator.__call__"]}
{"id": "C04", "title": "The objective's output contract is enforced at the initial point", "statement": "The first evaluation is accepted only if the objective returned a tuple of exactly the expected length with scalar value, 1-d gradient as long as x, and (when present) a square 2-d Hessian of that size; anything else raises ValueError and no optimization step is taken.", "quantifier": "every objective return value (arity, scalars, arrays of any rank and shape)", "why_tests_cant": "the space of malformed return values is unbounded", "anchors": ["fides/minimize.py:FunEvaluator.__call__", "fides/minimize.py:Funout.checkdims", "fides/minimize.py:Optimizer.minimize"]}
{"id": "C05", "title": "Residual objectives are turned into the right least-squares quantities", "statement": "With resfun=True the value is half the squared residual norm (hence non-negative), the gradient is J^T r, and the Gauss-Newton Hessian is J^T J, which is symmetric and positive semidefinite.", "quantifier": "every residual vector and Jacobian of compatible dimensions", "why_tests_cant": "algebraic law over all dimensions and reals", "anchors": ["fides/minimize.py:FunEvaluator.__call__"]}
{"id": "C06", "title": "Every run terminates within the iteration budget", "statement": "For every objective, however adversarial, minimize performs at most max(0,maxiter) iterations and at most that many plus one objective evaluations, or raises; in exact arithmetic it also returns, for every solver. (In double precision it need not: with the scg solver the conjugate-gradient loop runs forever on NaN when the square of the gradient norm overflows, e.g. 4e180 x^2 from 1.)", "quantifier": "all objectives (including stateful ones), all clocks, all linear-algebra oracle behaviours, all starts", "why_tests_cant": "non-termination cannot be shown by a finite run", "anchors": ["fides/minimize.py:Optimizer.minimize", "fides/minimize.py:Optimizer.check_continue"]}
{"id": "C07", "title": "The exit flag states the real reason for stopping", "statement": "When minimize returns, exitflag is one of MAXITER, MAXTIME, DELTA_TOO_SMALL, FTOL, XTOL, GTOL; it is positive iff `converged` is set; each flag implies its inequality about the last iteration/state, and conversely an iteration meeting one of the convergence inequalities is the last one and reports the first inequality that is met; when minimize raises a RuntimeError for non-finite values or bounds the flag is NOT_FINITE or EXCEEDED_BOUNDARY respectively.", "quantifier": "all objectives, clocks, options and starts", "why_tests_cant": "depends on the whole history of the run", "anchors": ["fides/minimize.py:Optimizer.check_continue", "fides/minimize.py:Optimizer.check_convergence", "fides/minimize.py:Optimizer.check_finite", "fides/minimize.py:Optimizer.check_in_bounds"]}
{"id": "C08", "title": "Accepted iterates strictly decrease the objective, in IEEE arithmetic", "statement": "Whenever a step is accepted the new objective value is strictly smaller than the current one, so the value returned by minimize never exceeds the value at the start; this holds with rounding, infinities and NaN, not only for exact reals.", "quantifier": "all objectives, all double inputs, all histories", "why_tests_cant": "rounding could in principle break it on some unsampled input", "anchors": ["fides/minimize.py:Optimizer.update_tr_radius", "fides/minimize.py:Optimizer.update"]}
{"id": "C09", "title": "The best point ever evaluated is tracked", "statement": "At every moment fval_min is the minimum of all finite objective values seen so far in this run (inf if none), grad_min is the gradient returned by an evaluation attaining it, fval_min <= fval, and x_min is the point of that evaluation up to the boundary nudge applied in place.", "quantifier": "all objectives and histories, IEEE comparisons", "why_tests_cant": "history-dependent", "anchors": ["fides/minimize.py:Optimizer.track_minimum"]}
{"id": "C10", "title": "Accepted iterates and the returned point respect the bounds", "statement": "Every point that becomes the current iterate has been checked lb <= x <= ub component-wise in the machine's own comparison (NaN excluded), otherwise RuntimeError is raised with EXCEEDED_BOUNDARY; in exact arithmetic the boundary nudge keeps it in the box, so the returned x satisfies lb <= x <= ub.", "quantifier": "all objectives, bounds (including infinite), starts and histories", "why_tests_cant": "universally quantified over runs", "anchors": ["fides/minimize.py:Optimizer.check_in_bounds", "fides/minimize.py:Optimizer.update", "fides/minimize.py:Optimizer.make_non_degenerate"]}
{"id": "C11", "title": "The objective is only evaluated inside the box (exact arithmetic)", "statement": "In exact arithmetic with 0 <= theta_max <= 1, every trial point of every step-back strategy and every subproblem solver has each coordinate within [lb, ub] (or the coordinate is NaN because the subproblem solver produced a non-finite step); hence the bounds error is never raised after a valid start.", "quantifier": "all objectives, bounds, strategies, solver outputs (eigen-decomposition, root finders and trust-constr arbitrary)", "why_tests_cant": "quantifies over arbitrary numerical solver outputs", "anchors": ["fides/steps.py:Step.step_back", "fides/steps.py:TRStepReflected", "fides/steps.py:TRStepTruncated", "fides/steps.py:RefinedStep", "fides/minimize.py:Optimizer.minimize"]}
{"id": "C12", "title": "Step-back keeps a plain trust-region step inside the box in double precision", "statement": "With IEEE double rounding, if lb<=x<=ub, the proposed step is finite, no breakpoint (distance to a bound divided by the step) underflows and 0 < theta <= 1-2^-50, the trial point of every candidate that starts from the current point (main step of each solver, gradient step, refined step) is within [lb,ub] exactly, with no rounding excursion. The same holds for truncated candidates, which put one coordinate a factor theta short of its bound and go on in the others, when the main step and the truncated ones before it are finite. The condition on theta is needed: with theta = 1, which the optimizer uses when the scaled gradient is small, an accepted trial point can leave the box by rounding and minimize raises RuntimeError (EXCEEDED_BOUNDARY). For reflected candidates, which start from a point on the bound, it is false: minimizing x+y over x,y >= 0.1 from (1, 1.2) with the default options raises RuntimeError because the second trial point is one rounding unit below the bounds; with other numbers the objective is called outside of the box and the run ends normally.", "quantifier": "all doubles x, s, lb, ub, theta in range", "why_tests_cant": "2^64-sized input space per coordinate; failures are rare roundings", "anchors": ["fides/steps.py:Step.step_back", "fides/minimize.py:Optimizer.minimize"]}
{"id": "C13", "title": "Starting points on or next to a bound are moved inside, far-out ones rejected", "statement": "make_non_degenerate maps an in-box point to an in-box point, moves each coordinate by at most 100 ulp(1), leaves coordinates away from the bounds untouched and makes the point strictly interior when the box is wider than 300 ulp(1) (exact arithmetic; false in doubles for |bound| >= 256); a start outside the box by more than that margin raises.", "quantifier": "all starting points and boxes", "why_tests_cant": "all reals / all doubles", "anchors": ["fides/minimize.py:Optimizer.make_non_degenerate", "fides/minimize.py:Optimizer.check_in_bounds"]}
{"id": "C14", "title": "The trust-region radius follows the documented update rule", "statement": "After each evaluation the radius is multiplied by gamma2 iff ratio >= eta and the step reached 0.9 of the radius, shrunk to min(gamma1*radius, |step|/4) iff that fails and ratio <= mu or the value is not finite, and otherwise unchanged; with 0<gamma1<1<=gamma2 a positive radius stays non-negative and increases only after very successful boundary steps.", "quantifier": "all values, steps, radii and options", "why_tests_cant": "decision rule over a continuum", "anchors": ["fides/minimize.py:Optimizer.update_tr_radius"]}
{"id": "C15", "title": "Rejected steps change nothing but the radius bookkeeping", "statement": "If a step is not accepted, x, fval, grad, hess and the Hessian approximation are exactly as before; if accepted, fval/grad are the evaluation's and x is the trial point (nudged). A step is accepted iff value is finite, predicted decrease > 0 and ratio > 0. (So mu is not the acceptance threshold it is documented to be: a step with a ratio in (0, mu] is accepted.)", "quantifier": "all iterations of all runs", "why_tests_cant": "frame property over all states", "anchors": ["fides/minimize.py:Optimizer.minimize", "fides/minimize.py:Optimizer.update", "fides/minimize.py:Optimizer.update_tr_radius"]}
{"id": "C16", "title": "The returned triple is an evaluation of the objective", "statement": "The returned fval and grad are what the objective returned for one of the points it was called with, and the returned x equals that point up to one boundary nudge of at most 100 ulp(1) per coordinate. (Exact equality is false: after the nudge the objective is not re-evaluated.)", "quantifier": "all runs", "why_tests_cant": "history-dependent", "anchors": ["fides/minimize.py:Optimizer.update", "fides/minimize.py:Optimizer.make_non_degenerate"]}
{"id": "C17", "title": "Convergence flags describe the returned point", "statement": "If exitflag is GTOL then the returned gradient satisfies the gradient tolerance. (Found false: the test uses the trial point's gradient even when the trial is rejected or non-finite; true when the last step was accepted.)", "quantifier": "all runs that return with a positive flag", "why_tests_cant": "needs an adversarial objective, tests use smooth ones", "anchors": ["fides/minimize.py:Optimizer.check_convergence", "fides/minimize.py:Optimizer.minimize"]}
{"id": "C18", "title": "Non-finite objective outputs never enter the iterate", "statement": "A trial with non-finite value is always rejected and shrinks the radius; a trial with finite value and non-finite gradient or Hessian raises RuntimeError with NOT_FINITE; a non-finite initial evaluation raises; hence the returned fval and grad are finite.", "quantifier": "all objectives including ones returning NaN/inf arbitrarily", "why_tests_cant": "adversarial objectives", "anchors": ["fides/minimize.py:Optimizer.check_finite", "fides/minimize.py:Optimizer.update_tr_radius"]}
{"id": "C19", "title": "Persistent rejection stops the run", "statement": "Each rejected step multiplies the radius by at most gamma1 (exact arithmetic), so k consecutive rejections leave radius <= gamma1^k * radius and a run in which every trial is rejected stops with DELTA_TOO_SMALL (or an earlier criterion) after at most k iterations once gamma1^k*delta < 2^-52.", "quantifier": "all objectives, gamma1 in (0,1), all initial radii", "why_tests_cant": "limit behaviour", "anchors": ["fides/minimize.py:Optimizer.update_tr_radius", "fides/minimize.py:Optimizer.check_continue"]}
{"id": "C20", "title": "The history has one record per iteration and one group per run", "statement": "With history_file set, after a normal return the file has exactly one new group named by the start id, every series in it has length equal to the number of iterations, with the documented quantity of that iteration as its entry, and earlier groups are untouched; a run that raises writes nothing; a reused start id raises and leaves old data in place; without history_file nothing is recorded.", "quantifier": "all runs and all prior file contents", "why_tests_cant": "all histories", "anchors": ["fides/minimize.py:Optimizer.track_history", "fides/minimize.py:Optimizer.minimize", "fides/minimize.py:Optimizer._reset"]}
{"id": "C21", "title": "An optimizer can be reused", "statement": "Calling minimize again on the same object behaves as on a fresh object: result, trace and flags depend only on the arguments of the new call. (Found false for HybridFixed/HybridFraction, whose switch survives; proved for all other schemes.)", "quantifier": "all previous histories of the object", "why_tests_cant": "all prior histories", "anchors": ["fides/minimize.py:Optimizer._reset", "fides/hessian_approximation.py:HybridSwitchApproximation", "fides/hessian_approximation.py:HessianApproximation._init_mat"]}
{"id": "C22", "title": "Caller-owned arrays and earlier results are not modified", "statement": "minimize never modifies x0 or hess0 passed by the caller nor the x returned by an earlier call.", "quantifier": "all call sequences", "why_tests_cant": "aliasing over all histories", "anchors": ["fides/minimize.py:Optimizer.minimize", "fides/minimize.py:Optimizer.make_non_degenerate", "fides/hessian_approximation.py:HessianApproximation._init_mat"]}
{"id": "C23", "title": "The affine scaling is Coleman-Li's", "statement": "v_i = x_i-ub_i if g_i<0 and ub_i finite, x_i-lb_i if g_i>=0 and lb_i finite, -1/+1 otherwise by the sign of g_i, and its derivative is 1 exactly for the finite-bound cases; for a strictly interior point v_i != 0, so the scaling matrix is invertible; in every pass of a run theta is max(theta_max, 1 - |v g|_inf) and lies in [theta_max,1].", "quantifier": "all points, gradients and bounds", "why_tests_cant": "continuum", "anchors": ["fides/minimize.py:Optimizer.get_affine_scaling", "fides/minimize.py:Optimizer.minimize"]}
{"id": "C24", "title": "The wall-clock budget rule", "statement": "minimize stops with MAXTIME exactly when not converged, iterations remain and the remaining time is smaller than the average time per iteration so far; with an infinite budget the clock never stops a run.", "quantifier": "all clocks, including non-monotone ones", "why_tests_cant": "all clock readings", "anchors": ["fides/minimize.py:Optimizer.check_continue"]}
{"id": "C25", "title": "The one-dimensional subproblem is solved exactly", "statement": "For any symmetric B, gradient g, direction s != 0, start s0 strictly inside the radius, the returned tau satisfies |s0+tau s| <= delta and minimizes the quadratic model over all feasible t (exact arithmetic).", "quantifier": "all dimensions, B, g, s, s0, delta>0", "why_tests_cant": "continuum of inputs", "anchors": ["fides/subproblem.py:solve_1d_trust_region_subproblem", "fides/subproblem.py:get_1d_trust_region_boundary_solution"]}
{"id": "C26", "title": "The one-dimensional solver always returns a number", "statement": "For finite inputs with |s0| <= delta the returned step length is finite. (Found false: 0/0 when |s0|=delta and s is orthogonal to s0; in doubles also by overflow.)", "quantifier": "all finite inputs", "why_tests_cant": "measure-zero corner", "anchors": ["fides/subproblem.py:get_1d_trust_region_boundary_solution"]}
{"id": "C27", "title": "The n-dimensional subproblem solver respects the trust region", "statement": "Given an exact orthonormal eigen-decomposition and arbitrary root finders, a step labelled posdef/indef has norm <= delta+2^-26 and a step labelled hard has norm <= delta whenever the secular equation was not negative at the left end.", "quantifier": "all symmetric B, g, delta, and all root-finder outcomes", "why_tests_cant": "quantifies over root finder behaviour", "anchors": ["fides/subproblem.py:solve_nd_trust_region_subproblem", "fides/subproblem.py:slam", "fides/subproblem.py:secular"]}
{"id": "C28", "title": "The n-dimensional subproblem solver returns a global minimizer", "statement": "If the label is posdef the step is the unconstrained minimizer of the model; if it is indef and the root finder returned an exact root, or hard in the true hard case, the step minimizes the model over the whole ball. (As a claim about all inputs it is false: see C29.)", "quantifier": "all dimensions and inputs", "why_tests_cant": "global optimality over a continuum", "anchors": ["fides/subproblem.py:solve_nd_trust_region_subproblem"]}
{"id": "C29", "title": "Exactly when the n-dimensional subproblem solver solves a non-positive-definite problem", "statement": "The documentation says the solver exactly solves the subproblem for every symmetric B and g. Found false, with this exact extent (exact arithmetic, exact eigen-decomposition, smallest eigenvalue m <= 0): let p be the code's step at the left end of the bracket (Newton step for B - m I outside the lowest eigenspace, minus the gradient inside it). If |p| > delta the answer is a global minimizer. If |p| <= delta the code answers 'hard' with a step of norm delta, and that step is a global minimizer if and only if the gradient has no component in the lowest eigenspace, or is a negative multiple of the first lowest eigenvector; otherwise it is not a solution and may even increase the model.", "quantifier": "all symmetric B with smallest eigenvalue <= 0, all g, radii, root finders", "why_tests_cant": "tests only use |w| large or exactly zero", "anchors": ["fides/subproblem.py:solve_nd_trust_region_subproblem", "fides/subproblem.py:slam"]}
{"id": "C30", "title": "The secular equation and its derivative are consistent", "statement": "On lam > -mineig the function dsecular is the derivative of secular, secular is strictly increasing there when w is non-zero, so it has at most one root.", "quantifier": "all eigenvalues, coefficients and lam", "why_tests_cant": "analysis over a continuum", "anchors": ["fides/subproblem.py:secular", "fides/subproblem.py:dsecular", "fides/subproblem.py:slam", "fides/subproblem.py:dslam"]}
{"id": "C31", "title": "The Steihaug conjugate-gradient solver terminates and stays in the region", "statement": "In exact arithmetic with non-zero gradient and symmetric model Hessian the CG loop stops after at most n+1 passes, its iterate has norm <= delta and model value no larger than at zero.", "quantifier": "all dimensions, symmetric matrices, gradients, radii", "why_tests_cant": "termination over unbounded dimension", "anchors": ["fides/steps.py:TRStepSteihaug.conj_grad"]}
{"id": "C32", "title": "The predicted decrease is computed for the step that is taken", "statement": "For every non-CG candidate s = D ss and s0 = D ss0 and qpval is the quadratic model at ss+ss0, so predicted decrease is that of x_new - x. (Found false for the scg solver after step-back.)", "quantifier": "all candidates of all strategies", "why_tests_cant": "all states", "anchors": ["fides/steps.py:Step.calculate", "fides/steps.py:CGStep.calculate", "fides/steps.py:TRStepReflected", "fides/steps.py:TRStepTruncated"]}
{"id": "C33", "title": "Candidate steps stay in the trust region", "statement": "The scaled gradient candidate satisfies |ss+ss0| <= delta; the main step (2-D, full, conjugate gradient) and every candidate reflected from it satisfy |ss+ss0| <= delta+2^-26, or (reflected ones) are NaN throughout. (Found false for truncated candidates: with the default solver 2D the two columns of the subspace are no longer orthogonal once a coordinate is fixed, so the step is longer than its coordinates; on a convex quadratic the first step tried is 1.38 times as long as the radius.) With the solver full the truncated candidates do stay in the region.", "quantifier": "all problem data", "why_tests_cant": "continuum", "anchors": ["fides/steps.py:Step.compute_step", "fides/steps.py:Step.step_back"]}
{"id": "C34", "title": "The best candidate is chosen", "statement": "trust_region returns a candidate whose model value is <= that of every candidate (when none is NaN; a NaN candidate is chosen first), in particular no worse than the stepped-back scaled-gradient step whenever the main step hits the boundary.", "quantifier": "all problem data and strategies, IEEE comparisons", "why_tests_cant": "all inputs", "anchors": ["fides/trust_region.py:trust_region"]}
{"id": "C35", "title": "The scaled-gradient candidate predicts a decrease", "statement": "The gradient candidate has model value <= 0, strictly negative when the scaled gradient is non-zero and x is strictly inside; hence whenever step-back happened and no candidate is NaN, the chosen step's predicted decrease is positive.", "quantifier": "all problem data", "why_tests_cant": "continuum", "anchors": ["fides/steps.py:GradientStep", "fides/trust_region.py:trust_region"]}
{"id": "C36", "title": "Step-back loops terminate", "statement": "Recursive reflection produces at most n candidates; recursive truncation produces at most n+1 candidates in exact arithmetic because each pass removes at least one further coordinate.", "quantifier": "all dimensions and data", "why_tests_cant": "termination", "anchors": ["fides/stepback.py:stepback_reflect", "fides/stepback.py:stepback_truncate"]}
{"id": "C37", "title": "Reported reflection and truncation counts count all reflections", "statement": "step.reflection_count is the number of reflections applied to obtain the step. (Found false: each recursive step starts a new set, so only the last breakpoints are counted.)", "quantifier": "all recursive reflections", "why_tests_cant": "only visible in multi-reflection steps", "anchors": ["fides/steps.py:Step.reflection_count", "fides/steps.py:TRStepReflected", "fides/steps.py:TRStepTruncated"]}
{"id": "C38", "title": "The two-dimensional subspace basis is orthonormal", "statement": "For n>1 the columns of the 2-D subspace are unit vectors, mutually orthogonal when there are two, so subspace coordinates and steps have equal norm.", "quantifier": "all data, arbitrary lstsq/eig results with non-zero chosen vector", "why_tests_cant": "continuum", "anchors": ["fides/steps.py:TRStep2D", "fides/steps.py:normalize"]}
{"id": "C39", "title": "One-dimensional problems with zero curvature do not poison the iterate", "statement": "For a one-variable problem the proposed step is finite whenever value, gradient and Hessian are finite. (Found false for zero scaled curvature: division by zero, the objective is evaluated at NaN, the step is then rejected.)", "quantifier": "all finite 1-d data", "why_tests_cant": "corner case", "anchors": ["fides/steps.py:TRStep2D"]}
{"id": "C40", "title": "Broyden-class updates satisfy the secant equation", "statement": "After an update with curvature y.s>0 (or non-zero with the guard off) and s.Bs != 0 the new matrix maps s to y, for every phi. In a run of minimize with such a scheme this is what happens to the model Hessian at every accepted step, with s the step to the trial point and y the difference of the gradients the objective returned at the two points.", "quantifier": "all dimensions, B symmetric, s, y, phi", "why_tests_cant": "algebraic law", "anchors": ["fides/hessian_approximation.py:broyden_class_update", "fides/hessian_approximation.py:Broyden"]}
{"id": "C41", "title": "Broyden-class, SR1 and structured updates preserve symmetry", "statement": "Starting from a symmetric matrix, after any sequence of updates the approximation is symmetric.", "quantifier": "all update sequences", "why_tests_cant": "induction over histories", "anchors": ["fides/hessian_approximation.py:Broyden", "fides/hessian_approximation.py:SR1", "fides/hessian_approximation.py:SSM", "fides/hessian_approximation.py:TSSM", "fides/hessian_approximation.py:GNSBFGS"]}
{"id": "C42", "title": "BFGS/DFP/Broyden stay positive definite", "statement": "With the curvature guard on and phi in [0,1], starting from a positive definite matrix (the default identity) the approximation is positive definite after any sequence of updates with non-zero steps. (For merely semidefinite starts the docstring's claim is false: 0/0.)", "quantifier": "all histories of steps and gradient differences", "why_tests_cant": "induction over histories and continuum", "anchors": ["fides/hessian_approximation.py:broyden_class_update", "fides/hessian_approximation.py:Broyden"]}
{"id": "C43", "title": "Curvature-violating pairs are discarded", "statement": "With the guard on, y.s <= 0 leaves the matrix exactly unchanged and reports a zero update. In a run of minimize with such a scheme this is what happens to the model Hessian at every accepted step, with s the step to the trial point and y the difference of the gradients the objective returned at the two points.", "quantifier": "all matrices and pairs, IEEE", "why_tests_cant": "all inputs", "anchors": ["fides/hessian_approximation.py:broyden_class_update"]}
{"id": "C44", "title": "SR1 updates satisfy the secant equation or are skipped", "statement": "A non-degenerate SR1 update maps s to y and a degenerate one leaves the matrix unchanged; the new matrix is finite whenever the inputs are. (Finiteness found false when y = B s exactly: 0/0.) In a run of minimize with such a scheme this is what happens to the model Hessian at every accepted step, with s the step to the trial point and y the difference of the gradients the objective returned at the two points.", "quantifier": "all inputs", "why_tests_cant": "corner y=Bs", "anchors": ["fides/hessian_approximation.py:SR1"]}
{"id": "C45", "title": "Broyden's good method satisfies the secant equation", "statement": "For s != 0 the updated matrix maps s to y and agrees with the old one on the orthogonal complement of s. In a run of minimize with such a scheme this is what happens to the model Hessian at every accepted step, with s the step to the trial point and y the difference of the gradients the objective returned at the two points.", "quantifier": "all inputs", "why_tests_cant": "algebraic law", "anchors": ["fides/hessian_approximation.py:BG"]}
{"id": "C46", "title": "Broyden's bad method updates the approximation", "statement": "After an update with positive curvature the matrix satisfies the secant equation. (Found false: BB.update never applies its update; the matrix stays at its initial value forever.)", "quantifier": "all update sequences", "why_tests_cant": "a test on an easy problem still converges", "anchors": ["fides/hessian_approximation.py:BB"]}
{"id": "C47", "title": "Reported Hessian updates add up", "statement": "After every update get_mat equals the previous get_mat plus get_diff. In a run with a history file, the series hess_update_min_ev and hess_update_max_ev get the extreme eigenvalues of the matrix added to the model Hessian by an accepted step, and 0 for a rejected one. (Holds for every scheme except BB and FX over BB.)", "quantifier": "all schemes and histories, exact arithmetic", "why_tests_cant": "history", "anchors": ["fides/hessian_approximation.py:HessianApproximation", "fides/hessian_approximation.py:FX"]}
{"id": "C48", "title": "Hybrid schemes switch once, at the documented moment", "statement": "HybridFixed/HybridFraction use the objective's Hessian until the switch condition has been met at an earlier update, the iterative matrix ever after, and never switch back; the iterative matrix is updated from the first iteration. In a run of minimize the updates are exactly the accepted iterations, with their step, gradient difference, Hessian and counters.", "quantifier": "all histories", "why_tests_cant": "history", "anchors": ["fides/hessian_approximation.py:HybridFixed", "fides/hessian_approximation.py:HybridFraction", "fides/hessian_approximation.py:HybridSwitchApproximation"]}
{"id": "C49", "title": "FX alternates correctly", "statement": "After each update the FX matrix equals the Gauss-Newton Hessian when the relative decrease is >= hybrid_tol and otherwise the iterative update of the previous matrix; with BFGS inside and positive-definite Gauss-Newton matrices it stays positive definite.", "quantifier": "all histories", "why_tests_cant": "history", "anchors": ["fides/hessian_approximation.py:FX"]}
{"id": "C50", "title": "Structured secant methods satisfy their structured secant equations", "statement": "SSM: A+ s = yb; TSSM: |r| A+ s = yb (r != 0); GNSBFGS: A+ s = yb when the ratio exceeds the tolerance; and the reported matrix is the documented combination of the Gauss-Newton part and A+. In a run of minimize this holds at every accepted step s with yb = (J(x+)-J(x))^T r(x+) (times |r(x+)|/|r(x)| for TSSM and GNSBFGS) for the residuals and Jacobians the objective returned at the two points.", "quantifier": "all inputs with positive curvature", "why_tests_cant": "algebraic law", "anchors": ["fides/hessian_approximation.py:SSM", "fides/hessian_approximation.py:TSSM", "fides/hessian_approximation.py:GNSBFGS"]}
{"id": "C51", "title": "GNSBFGS is always positive definite", "statement": "With hybrid_tol >= 0, positive semidefinite Gauss-Newton parts, non-zero steps and non-zero residuals, the matrix is positive definite after any history.", "quantifier": "all histories", "why_tests_cant": "induction over histories", "anchors": ["fides/hessian_approximation.py:GNSBFGS"]}
{"id": "C52", "title": "Initialization and set_mat copy and check dimensions", "statement": "_init_mat without matrix gives the identity; with a matrix of matching first dimension it stores a copy; differences start at zero, the inner approximation of a hybrid holds the same matrix, the structured part starts at the identity times the spacing of one. The first quadratic model of a run uses exactly that matrix (hess0, or the objective's Hessian for hess0='hess', or the identity), and without an approximation the objective's Hessian at the starting point. set_mat rejects any other shape. (A non-square initial matrix is not rejected.; and for the purely iterative schemes BFGS, DFP, SR1, Broyden, BB and BG the objective is asked for no Hessian, so hess0='hess' silently means the identity instead of the Hessian the documentation promises.)", "quantifier": "all matrices", "why_tests_cant": "all shapes", "anchors": ["fides/hessian_approximation.py:HessianApproximation._init_mat", "fides/hessian_approximation.py:HessianApproximation.set_mat"]}
{"id": "C53", "title": "Each optimization gets its own logger", "statement": "create_logger calls made one after the other return distinct loggers; under threads interleaving at bytecode boundaries distinctness is lost (Found false for concurrent calls).", "quantifier": "all numbers of calls, all interleavings", "why_tests_cant": "schedules", "anchors": ["fides/logging.py:create_logger"]}
{"id": "C54", "title": "The log is a faithful table of the run", "statement": "Logging does not influence the run. A run that returns logs: the header, row 0 with the objective value, radius and gradient norm at the start, then one row per iteration numbered 1,2,...; each row shows the value that was current after that iteration (strictly smaller than the previous row if marked accepted, the same if not), the header is repeated before every tenth row, the last row shows the returned value, and exactly one stop message is logged, last, naming the exit flag.", "quantifier": "all runs, number systems, option sets", "why_tests_cant": "all runs", "anchors": ["fides/minimize.py:Optimizer.log_header", "fides/minimize.py:Optimizer.log_step", "fides/minimize.py:Optimizer.log_step_initial", "fides/minimize.py:Optimizer.check_continue", "fides/minimize.py:Optimizer.check_convergence"]}
{"id": "C55", "title": "Without bounds the step-back strategy does not matter", "statement": "If no parameter has a finite bound and theta_max is positive, a step is never shortened, only one candidate is considered, and minimize behaves identically for every step-back strategy.", "quantifier": "all objectives, options, starting points and number systems", "why_tests_cant": "all inputs", "anchors": ["fides/trust_region.py:trust_region", "fides/stepback.py:stepback_reflect", "fides/minimize.py:Optimizer.minimize"]}
{"id": "C56", "title": "Convergence to a stationary point", "statement": "On a problem without bounds whose gradient is Lipschitz continuous and which is bounded below, with any of the three subspace solvers (for 'full' and '2D': positive definite Hessians, exact linear algebra, and a tolerance the solvers' own 1e-8 slack does not obscure) and exact Hessians (or any approximation with bounded curvature), minimize returns after at most an explicitly computable number of iterations with a convergence flag; with zero function and step tolerances the flag is GTOL and the gradient at the last evaluated point is at most gatol.", "quantifier": "all dimensions, objectives, starting points and option values in the documented ranges; exact arithmetic", "why_tests_cant": "unbounded runs: tests see only finitely many problems", "anchors": ["fides/minimize.py:Optimizer.minimize", "fides/minimize.py:Optimizer.update_tr_radius", "fides/trust_region.py:trust_region"]}
{"id": "C57", "title": "Time and history recording only observe the run", "statement": "The result of minimize does not depend on the clock, on run identifiers or on what was recorded before: a run with a time limit and a history file either returns exactly what the bare run returns, or raises because recording/writing failed, or stops early with MAXTIME; in every case the points it evaluated are a prefix of those of the bare run.", "quantifier": "all objectives (also stateful ones), clocks, identifiers, history files, time limits, options and number systems", "why_tests_cant": "all schedules of the clock", "anchors": ["fides/minimize.py:Optimizer.check_continue", "fides/minimize.py:Optimizer.track_history", "fides/minimize.py:Optimizer.minimize", "fides/minimize.py:Optimizer._reset"]}
{"id": "C58", "title": "Reflected and truncated candidates go where documented", "statement": "When the main step crosses a bound, every reflected candidate starts exactly where its parent met its first bound (or at the end of the parent's full step), goes along the parent's step with precisely the components that met the bound reversed, and goes as far as minimises the model along that line within the trust region. Every truncated candidate leaves the components that met the bound at the fraction theta of the way to it, returns all others to where the parent started, searches exactly the parent's directions without these components, and the fixed components never move again in later truncations.", "quantifier": "all dimensions, points, gradients, symmetric Hessians, bounds, radii, theta in (0,1), subspace solvers; exact arithmetic", "why_tests_cant": "all inputs", "anchors": ["fides/stepback.py:stepback_reflect", "fides/stepback.py:stepback_truncate", "fides/steps.py:TRStepReflected", "fides/steps.py:TRStepTruncated"]}
{"id": "C59", "title": "Richer step-back strategies never predict a worse step", "statement": "At the same point, with the same radius, bounds and solver: if the main step need not be shortened or there is only one parameter, every strategy uses it unchanged; if 'mixed' finds a step, then so do 'reflect', 'truncate' and 'reflect_single', and (unless a predicted value is NaN) it predicts at least as much decrease as each of them; likewise 'reflect' compared to 'reflect_single'. An unknown strategy name silently considers just the main and the gradient step.", "quantifier": "all inputs of trust_region, all external linear algebra, all IEEE-like number systems including binary64", "why_tests_cant": "all inputs", "anchors": ["fides/trust_region.py:trust_region", "fides/stepback.py:stepback_reflect", "fides/stepback.py:stepback_truncate"]}
{"id": "C60", "title": "Strictly convex quadratics are minimized in finitely many steps", "statement": "On x'Ax/2 + b'x + c with A symmetric positive definite, no bounds, exact Hessians and an exact subspace solver ('full' or '2D'), every trial point is accepted with decrease ratio 1 and the radius never shrinks; if the minimizer lies within the radius the next point is the minimizer, otherwise the step has full length and the radius is enlarged. If the minimizer lies within delta_init of the start, minimize evaluates exactly the start and the minimizer and returns the minimizer after one iteration, whatever the tolerances; with all tolerances zero it returns exactly the minimizer (GTOL) after at most k+1 iterations, where k enlargements of the radius suffice to reach it.", "quantifier": "all dimensions, matrices, vectors, starting points, options in the documented ranges; exact arithmetic", "why_tests_cant": "all problems", "anchors": ["fides/minimize.py:Optimizer.minimize", "fides/minimize.py:Optimizer.update_tr_radius", "fides/trust_region.py:trust_region"]}
{"id": "C61", "title": "SR1 never forgets a direction of a quadratic", "statement": "Given displacements s and the gradient changes A s of a quadratic, in any number and order, as long as the SR1 matrix consists of numbers it is symmetric and maps every earlier displacement whose update changed it to exactly A s; once those displacements span the space the matrix is A. In a run of minimize without bounds on an objective with gradient A x + b, a pass that changes the model makes its curvature right along the displacement of the iterate, and a direction on which it is right stays right in all later passes.", "quantifier": "all dimensions, symmetric matrices, sequences of displacements, and runs (any steps, subspace solver, acceptances); exact arithmetic", "why_tests_cant": "all histories", "anchors": ["fides/hessian_approximation.py:SR1", "fides/minimize.py:Optimizer.update"]}
{"id": "C62", "title": "Only the answers of the objective matter", "statement": "Two objectives that give the same answers to the calls made in a run are optimized in exactly the same way: same result or exception, same evaluations, same final state of the optimizer (so wrapping an objective in a cache or a logger changes nothing). In exact arithmetic all calls are inside the box, so whatever the objective does outside the bounds (raise, return garbage) is irrelevant.", "quantifier": "all objectives (stateful ones included), configurations, starts and runs, in binary64; for the box: exact arithmetic, 0 <= theta_max <= 1", "why_tests_cant": "all pairs of objectives and all runs", "anchors": ["fides/minimize.py:Optimizer.minimize", "fides/minimize.py:FunEvaluator", "fides/steps.py:Step.step_back"]}
{"id": "C63", "title": "With bounds, near first-order points are reached after a bounded number of iterations", "statement": "For an objective with Lipschitz gradient on the box, bounded below and with every finite bound at bounded distance from the points no worse than the start, model Hessians of curvature at most M, and a subspace solver that delivers a fixed fraction of the Cauchy decrease: for every tolerance eps coarser than the fixed tolerances of the code, the number of iterations started while the gradient in the scaled variables has norm at least eps is smaller than an explicit bound. A run that goes on that long visited a point x at which |g_i| < eps, or |g_i| sqrt(distance to the bound that -g_i points to) < eps, in every coordinate. With exact linear algebra the solvers 'full' (for every eps) and '2D' deliver that decrease on positive definite models.", "quantifier": "all dimensions >= 2, boxes (finite, one-sided, infinite bounds), objectives, starts in the box, options in the documented ranges, the strategies reflect and reflect_single; exact arithmetic; passes whose reflected candidate is not a number are excluded by hypothesis", "why_tests_cant": "all problems and runs of any length", "anchors": ["fides/minimize.py:Optimizer.minimize", "fides/minimize.py:Optimizer.get_affine_scaling", "fides/minimize.py:Optimizer.update_tr_radius", "fides/trust_region.py:trust_region", "fides/steps.py:Step.step_back", "fides/steps.py:GradientStep"]}
{"id": "C64", "title": "Stopping criteria only decide when to stop", "statement": "maxiter, maxtime and the tolerances fatol, frtol, xtol, gatol, grtol have no influence on the steps: two runs that differ in these options only are in the same state (iterate, value, gradient, model Hessian, radius, counters, history, evaluations made) after equally many iterations, up to the attributes converged and exitflag. If no criterion of the second run is looser than that of the first, the second evaluates all points of the first in the same order before any other, raises the same exception if the first raised one, and returns a value at most that of the first. A run that did not stop with MAXITER is literally unchanged by a larger maxiter.", "quantifier": "all objectives (stateful ones included), clocks, configurations, starts, runs of any length, all IEEE-like number systems including binary64", "why_tests_cant": "all runs and all pairs of option values", "anchors": ["fides/minimize.py:Optimizer.check_convergence", "fides/minimize.py:Optimizer.check_continue", "fides/minimize.py:Optimizer.minimize"]}
{"id": "C65", "title": "A stationary starting point is recognized", "statement": "If the gradient at the starting point (moved off the bounds) is zero and the model Hessian there is positive definite, the solvers 'full' and '2D' propose the zero step: minimize evaluates the objective exactly twice, both times at that point, and returns it, its value, the zero gradient and the Hessian after one iteration with exit flag GTOL, whatever the tolerances and bounds. The same step is proposed whenever a pass starts with a zero gradient. The solver 'scg' fails this: it proposes a point all of whose coordinates are NaN, so the objective is evaluated at undefined points until the trust region is too small.", "quantifier": "all dimensions, boxes, starting points, objectives that answer alike when asked twice at the same point, Hessian strategies, step-back strategies, options in the documented ranges; exact arithmetic", "why_tests_cant": "all problems and starting points", "anchors": ["fides/minimize.py:Optimizer.minimize", "fides/minimize.py:Optimizer.check_convergence", "fides/steps.py:TRStepFull", "fides/steps.py:TRStep2D", "fides/steps.py:CGStep"]}
{"id": "C66", "title": "Moving the whole problem moves the whole run", "statement": "If the objective, the bounds and the starting point are all translated by the same vector c, minimize performs the same run moved by c: the same result (value, gradient, Hessian, exit flag, or exception), the same number of iterations and evaluations, the same radii and histories, and every evaluated, current, best and returned point differs from that of the original run by exactly c.", "quantifier": "all dimensions, translations, objectives (stateful, raising or ill-shaped ones included), boxes, Hessian strategies, subspace solvers, step-back strategies, options, clocks, and fresh as well as reused optimizers; exact arithmetic", "why_tests_cant": "all problems, translations and runs", "anchors": ["fides/minimize.py:Optimizer.minimize", "fides/minimize.py:Optimizer.make_non_degenerate", "fides/minimize.py:Optimizer.get_affine_scaling", "fides/steps.py:Step.step_back", "fides/steps.py:TRStepReflected", "fides/steps.py:TRStepTruncated", "fides/steps.py:RefinedStep"]}
{"id": "C67", "title": "Adding a constant to the objective changes only the reported values", "statement": "With the relative tolerances frtol and grtol set to zero (and an objective that is not given as residuals), adding a constant k to the objective leaves every evaluated point, radius, gradient, Hessian, flag, counter and exception unchanged; k is added to the returned value, the best value and the fval series of the history and nothing else changes.", "quantifier": "all constants, objectives (stateful, raising or ill-shaped ones included), boxes, Hessian strategies, solvers, strategies, options with frtol = grtol = 0, starts; exact arithmetic", "why_tests_cant": "all objectives, constants and runs", "anchors": ["fides/minimize.py:Optimizer.minimize", "fides/minimize.py:Optimizer.update_tr_radius", "fides/minimize.py:Optimizer.check_convergence", "fides/minimize.py:Optimizer.track_minimum", "fides/minimize.py:Optimizer.track_history"]}
{"id": "C68", "title": "A stationary point that is not a minimizer is left", "statement": "Without bounds, at a point with zero gradient whose model Hessian has a direction of negative curvature (a saddle point or a maximum), the solvers 'full' and (with two or more variables) '2D' propose a point at exactly the trust radius d in a direction of lowest curvature m < 0, with predicted decrease exactly -m d^2 / 2. The point is accepted if and only if the objective is lower there; if the objective differs from its quadratic model by at most K |w|^3 and 2 K d < -m, the pass moves there and lowers the value by at least (-m/2 - K d) d^2. The default solver '2D' fails this with one variable: it proposes the zero step whatever the sign of the curvature, so a run started at a maximum reports convergence (GTOL) there.", "quantifier": "all dimensions, points, symmetric indefinite Hessians, radii, objectives, step-back strategies; exact arithmetic and exact eigenvalue routines, theta_max in (0, 1], for '2D' curvatures not below 2^-52 of the largest", "why_tests_cant": "all problems and states", "anchors": ["fides/minimize.py:Optimizer.minimize", "fides/steps.py:TRStepFull", "fides/steps.py:TRStep2D", "fides/subproblem.py:solve_nd_trust_region_subproblem", "fides/subproblem.py:solve_1d_trust_region_subproblem"]}
{"id": "C69", "title": "Near a nondegenerate minimizer the error is squared by every iteration", "statement": "Without bounds, with exact Hessians and an exact subspace solver ('full' or '2D'): let xs be a minimizer around which the Hessian has no eigenvalue below m > 0 and the second-order Taylor expansions hold with Hessian Lipschitz constant K. Once an iterate x is close to xs (K|x-xs|/(2m) at most 1/2 and below 1 - mu) and the trust region has room for the step (3/2 |x-xs|), the trial point of every further pass is the Newton point, it is accepted, the value decreases, the radius does not shrink, the decrease ratio differs from 1 by at most K|step|/(3m), and the new error is at most K/(2m) times the square of the old one. A run started there returns with a convergence flag after at most k iterations, where k need only satisfy that the gradient tolerance is met within e(Ke/(2m))^(2^k-1) of xs (e the initial error), and the returned point is that close for the number of iterations made.", "quantifier": "all dimensions, objectives (no assumption away from xs except the shapes of the answers), minimizers, starting points, step-back strategies, options in the documented ranges; exact arithmetic", "why_tests_cant": "all problems, starting points and numbers of iterations", "anchors": ["fides/minimize.py:Optimizer.minimize", "fides/minimize.py:Optimizer.update_tr_radius", "fides/trust_region.py:trust_region", "fides/steps.py:TRStepFull", "fides/steps.py:TRStep2D"]}
{"id": "C70", "title": "A starting vector given as integers is rounded, not nudged, off the bounds", "statement": "If x0 is an integer array inside the box: when every coordinate is at least the margin (1e2 * np.spacing(1)) away from both bounds, minimize behaves exactly as for the same numbers given as floats. A coordinate less than the margin from its upper bound is moved down by a whole unit if it is positive, one less than the margin from its lower bound is moved up by a whole unit if it is negative; all other coordinates, zero included, stay where they are, on the bound if need be. The objective is first evaluated at that point, or, if it lies outside the box, minimize raises RuntimeError (EXCEEDED_BOUNDARY) without evaluating it. Boxes with integer or infinite bounds at least a unit wide never lose the start.", "quantifier": "all dimensions, integer starting vectors, boxes, objectives, Hessian strategies, options; exact arithmetic (int64 overflow aside)", "why_tests_cant": "all boxes and integer starting vectors", "anchors": ["fides/minimize.py:Optimizer.minimize", "fides/minimize.py:Optimizer.make_non_degenerate", "fides/minimize.py:Optimizer.check_in_bounds"]}
{"id": "C71", "title": "The refine strategy looks for the best step of the subspace that respects bounds and radius", "statement": "With stepback_strategy 'refine' and the solvers '2D' and 'full': when the main step is cut at a bound (and the search subspace has two or more dimensions) the problem handed to the external solver is exactly this one: minimize the predicted change of the objective over the steps of the subspace inside the trust region that use at most the fraction theta of the way to every bound, started from the cut main step, which keeps that distance itself. An answer within these limits is taken as it is, without being cut. If the answer solves the problem, the step of the pass predicts at least the decrease of every such step; the same holds without a refinement if the main step is not cut and is the best one in the trust region.", "quantifier": "all dimensions, points, gradients, symmetric Hessians, scalings, radii, theta in (0, 1], boxes (infinite bounds included), subspaces; exact arithmetic", "why_tests_cant": "all problems, and all answers of the external solver", "anchors": ["fides/steps.py:RefinedStep", "fides/trust_region.py:trust_region", "fides/steps.py:Step.step_back"]}
{"id": "C72", "title": "The documented stopping inequalities", "statement": "The documentation of minimize says that the run converges when |f_{k+1} - f_k| < fatol - f_k frtol, ||x_{k+1} - x_k|| < xtol ||x_k||, ||g|| < gatol or ||g|| < grtol f_k. An iteration in which the documented criterion on the gradient, or the one on the values with a ratio above mu, holds is the last one; FTOL is reported under the documented inequality if f_k <= 0, GTOL (up to strictness) if f_k >= 0. (Found false otherwise: for f_k > 0 FTOL, for f_k < 0 GTOL, and XTOL in general are reported in runs in which the documented inequality never holds: the code tests fatol + frtol |f_k|, an absolute xtol and grtol |f_k|.)", "quantifier": "all objectives, options with non-negative relative tolerances, all iterations", "why_tests_cant": "quantifies over all iterations of all runs", "anchors": ["fides/minimize.py:Optimizer.minimize", "fides/minimize.py:Optimizer.check_convergence"]}
{"id": "C73", "title": "A quasi-Newton scheme given the exact Hessian of a quadratic keeps it", "statement": "Let the gradient of the objective be A x + b (values and gradients only, no bounds) and let minimize be called with hess0 = A and BFGS, DFP, any finite member of Broyden's class with the curvature condition, Broyden's bad method (whose Hessian never changes anyway), or, if the objective gives every point one value, Broyden's good method. Then the model Hessian is A at every iteration, and the run is the run of an optimizer without approximation on the same objective returning A as its Hessian: the same result or exception, evaluated points, iterations, exit flag, best point and radii. So for a strictly convex quadratic with zero tolerances it returns the minimizer after finitely many iterations, after exactly one (two evaluations) if the minimizer lies within the initial radius. SR1 fails this: its first update divides 0 by 0 and minimize raises RuntimeError.", "quantifier": "all dimensions, matrices A (indefinite and asymmetric ones included), starting points, solvers, step-back strategies, options, clocks, values (which need not belong to the quadratic); exact arithmetic", "why_tests_cant": "all quadratics, starting points and runs of any length", "anchors": ["fides/minimize.py:Optimizer.minimize", "fides/minimize.py:Optimizer.update", "fides/hessian_approximation.py:Broyden", "fides/hessian_approximation.py:BFGS", "fides/hessian_approximation.py:DFP", "fides/hessian_approximation.py:BG", "fides/hessian_approximation.py:BB", "fides/hessian_approximation.py:SR1"]}
{"id": "C74", "title": "The members of Broyden's class are the textbook formulas", "statement": "Let B be symmetric and the step s and gradient difference y of one update have s.Bs and y.s nonzero (y.s positive if the curvature condition is enforced). Then the matrix an object of class BFGS holds afterwards maps every v to Bv - (s.Bv / s.Bs) Bs + (y.v / y.s) y, that of class DFP maps every v to (1 - y s^T / y.s) B (1 - s y^T / y.s) v + (y.v / y.s) y, that of Broyden(phi) is (1 - phi) times the first plus phi times the second, and if H is the inverse of B, the DFP update of H with s and y exchanged is the inverse of the BFGS update of B. Starting from positive definite B and H with the curvature condition enforced, this stays so after any sequence of updates.", "quantifier": "all dimensions, symmetric matrices, steps, gradient differences, weights phi, vectors v; exact arithmetic", "why_tests_cant": "algebraic identities over all real matrices", "anchors": ["fides/hessian_approximation.py:Broyden.update", "fides/hessian_approximation.py:BFGS", "fides/hessian_approximation.py:DFP", "fides/hessian_approximation.py:broyden_class_update"]}
{"id": "C75", "title": "Broyden's good method changes least, SR1 is the only rank-one correction", "statement": "For a nonzero step s the matrix an object of class BG holds after an update of B satisfies the secant equation M's = y, and every matrix M with Ms = y obeys |M - B|^2 = |M' - B|^2 + |M - M'|^2 in the Frobenius norm: the update is the least change of B that satisfies the secant equation, and no other matrix changes B as little. If an SR1 update is not skipped and y differs from Bs, the matrix afterwards is the only one of the form B + sigma v v^T that satisfies the secant equation.", "quantifier": "all dimensions, matrices B and M, steps, gradient differences, sigma, v; exact arithmetic", "why_tests_cant": "quantifies over all competing matrices", "anchors": ["fides/hessian_approximation.py:BG", "fides/hessian_approximation.py:SR1"]}
{"id": "C76", "title": "A truncated candidate is the best step only as long as the model does not couple it to what was fixed", "statement": "When the main step is cut at a bound, the step-back strategies 'truncate' and 'mixed' fix the components at the bound and search again for the others. With one search direction left, that candidate (before it is stepped back) has the least predicted value of all points of the line through the fixed part inside the trust region. With several directions left and a convex, exactly solved reduced problem (solver 'full'), its moving part minimizes the predicted change as if nothing had been fixed, within the part of the trust region that the fixed components leave; so if the model Hessian does not couple the search directions with the fixed components, no step along these directions in the trust region predicts a lower value. (Found false otherwise: with default solver and strategy 'mixed' the first step of a run on a strictly convex quadratic in two variables is such a candidate, well inside the trust region, and another step with the same fixed component, inside the trust region and the bounds, predicts a value that is lower by more than 1/100.)", "quantifier": "all dimensions, points, symmetric Hessians, scalings, radii, theta, boxes, solvers; exact arithmetic", "why_tests_cant": "all problems and every candidate of every pass", "anchors": ["fides/steps.py:TRStepTruncated", "fides/steps.py:Step.calculate", "fides/steps.py:Step.reduce_to_subspace", "fides/subproblem.py:solve_1d_trust_region_subproblem", "fides/stepback.py:stepback_truncate"]}
