#!/usr/bin/env python3
"""Writes /verif/properties.jsonl (one JSON object per property)."""
import json
P = []
def p(title, statement, quantifier, why, anchors):
    P.append(dict(id=f"C{len(P)+1:02d}", title=title, statement=statement,
                  quantifier=quantifier, why_tests_cant=why, anchors=anchors))
M="fides/minimize.py"; S="fides/steps.py"; Q="fides/subproblem.py"; H="fides/hessian_approximation.py"; K="fides/constants.py"; T="fides/trust_region.py"; B="fides/stepback.py"; L="fides/logging.py"

# ---- options, constructor, objective contract
p("Option dictionaries are accepted exactly when every key is known and every value has the documented type",
  "Optimizer(options=d) raises ValueError for any unknown key and TypeError/ValueError for a value of the wrong type; if it does not raise, every entry has a known key and an admissible value, and reading an option afterwards yields the last value stored for that key whether it was written as a string or as an enum member, else the documented default.",
  "every options dictionary (any number, order and kind of entries)", "the set of dictionaries is infinite; tests try four of them", [K+":validate_options", K+":DEFAULT_OPTIONS", M+":Optimizer.get_option"])
p("Enumerated options are checked against their enumerations",
  "Every dictionary that passes validation has subspace_solver in {2D, full, scg} and stepback_strategy in {reflect_single, reflect, truncate, mixed, refine}. (Found false: the check uses `is` on the key, so a plain-string key escapes it; true for enum-member keys.)",
  "every options dictionary accepted by the constructor", "tests only pass enum-member keys for these two options", [K+":validate_options", T+":trust_region"])
p("Incompatible configurations are rejected when the optimizer is built",
  "Construction fails with ValueError iff the residual flag disagrees with the scheme's requirement, an option is invalid, or the scg solver is combined with the refine strategy; and conversely every configuration that is accepted can evaluate some objective. (Found false in part: resfun=True without a hessian scheme is accepted but every evaluation raises ValueError.)",
  "every combination of hessian scheme, resfun flag, options, and every objective", "finite tests cover a handful of combinations and objectives", [M+":Optimizer.__init__", M+":FunEvaluator.__call__"])
p("The objective's output contract is enforced at the initial point",
  "The first evaluation is accepted only if the objective returned a tuple of exactly the expected length with scalar value, 1-d gradient as long as x, and (when present) a square 2-d Hessian of that size; anything else raises ValueError and no optimization step is taken.",
  "every objective return value (arity, scalars, arrays of any rank and shape)", "the space of malformed return values is unbounded", [M+":FunEvaluator.__call__", M+":Funout.checkdims", M+":Optimizer.minimize"])
p("Residual objectives are turned into the right least-squares quantities",
  "With resfun=True the value is half the squared residual norm (hence non-negative), the gradient is J^T r, and the Gauss-Newton Hessian is J^T J, which is symmetric and positive semidefinite.",
  "every residual vector and Jacobian of compatible dimensions", "algebraic law over all dimensions and reals", [M+":FunEvaluator.__call__"])

# ---- the run
p("Every run terminates within the iteration budget",
  "For every objective, however adversarial, minimize performs at most max(0,maxiter) iterations and at most that many plus one objective evaluations, or raises; in exact arithmetic it also returns, for every solver. (In double precision it need not: with the scg solver the conjugate-gradient loop runs forever on NaN when the square of the gradient norm overflows, e.g. 4e180 x^2 from 1.)",
  "all objectives (including stateful ones), all clocks, all linear-algebra oracle behaviours, all starts", "non-termination cannot be shown by a finite run", [M+":Optimizer.minimize", M+":Optimizer.check_continue"])
p("The exit flag states the real reason for stopping",
  "When minimize returns, exitflag is one of MAXITER, MAXTIME, DELTA_TOO_SMALL, FTOL, XTOL, GTOL; it is positive iff `converged` is set; each flag implies its inequality about the last iteration/state, and conversely an iteration meeting one of the convergence inequalities is the last one and reports the first inequality that is met; when minimize raises a RuntimeError for non-finite values or bounds the flag is NOT_FINITE or EXCEEDED_BOUNDARY respectively.",
  "all objectives, clocks, options and starts", "depends on the whole history of the run", [M+":Optimizer.check_continue", M+":Optimizer.check_convergence", M+":Optimizer.check_finite", M+":Optimizer.check_in_bounds"])
p("Accepted iterates strictly decrease the objective, in IEEE arithmetic",
  "Whenever a step is accepted the new objective value is strictly smaller than the current one, so the value returned by minimize never exceeds the value at the start; this holds with rounding, infinities and NaN, not only for exact reals.",
  "all objectives, all double inputs, all histories", "rounding could in principle break it on some unsampled input", [M+":Optimizer.update_tr_radius", M+":Optimizer.update"])
p("The best point ever evaluated is tracked",
  "At every moment fval_min is the minimum of all finite objective values seen so far in this run (inf if none), grad_min is the gradient returned by an evaluation attaining it, fval_min <= fval, and x_min is the point of that evaluation up to the boundary nudge applied in place.",
  "all objectives and histories, IEEE comparisons", "history-dependent", [M+":Optimizer.track_minimum"])
p("Accepted iterates and the returned point respect the bounds",
  "Every point that becomes the current iterate has been checked lb <= x <= ub component-wise in the machine's own comparison (NaN excluded), otherwise RuntimeError is raised with EXCEEDED_BOUNDARY; in exact arithmetic the boundary nudge keeps it in the box, so the returned x satisfies lb <= x <= ub.",
  "all objectives, bounds (including infinite), starts and histories", "universally quantified over runs", [M+":Optimizer.check_in_bounds", M+":Optimizer.update", M+":Optimizer.make_non_degenerate"])
p("The objective is only evaluated inside the box (exact arithmetic)",
  "In exact arithmetic with 0 <= theta_max <= 1, every trial point of every step-back strategy and every subproblem solver has each coordinate within [lb, ub] (or the coordinate is NaN because the subproblem solver produced a non-finite step); hence the bounds error is never raised after a valid start.",
  "all objectives, bounds, strategies, solver outputs (eigen-decomposition, root finders and trust-constr arbitrary)", "quantifies over arbitrary numerical solver outputs", [S+":Step.step_back", S+":TRStepReflected", S+":TRStepTruncated", S+":RefinedStep", M+":Optimizer.minimize"])
p("Step-back keeps a plain trust-region step inside the box in double precision",
  "With IEEE double rounding, if lb<=x<=ub, the proposed step is finite, no breakpoint (distance to a bound divided by the step) underflows and 0 < theta <= 1-2^-50, the trial point of every candidate that starts from the current point (main step of each solver, gradient step, refined step) is within [lb,ub] exactly, with no rounding excursion. The same holds for truncated candidates, which put one coordinate a factor theta short of its bound and go on in the others, when the main step and the truncated ones before it are finite. The condition on theta is needed: with theta = 1, which the optimizer uses when the scaled gradient is small, an accepted trial point can leave the box by rounding and minimize raises RuntimeError (EXCEEDED_BOUNDARY). For reflected candidates, which start from a point on the bound, it is false: minimizing x+y over x,y >= 0.1 from (1, 1.2) with the default options raises RuntimeError because the second trial point is one rounding unit below the bounds; with other numbers the objective is called outside of the box and the run ends normally.",
  "all doubles x, s, lb, ub, theta in range", "2^64-sized input space per coordinate; failures are rare roundings", [S+":Step.step_back", M+":Optimizer.minimize"])
p("Starting points on or next to a bound are moved inside, far-out ones rejected",
  "make_non_degenerate maps an in-box point to an in-box point, moves each coordinate by at most 100 ulp(1), leaves coordinates away from the bounds untouched and makes the point strictly interior when the box is wider than 300 ulp(1) (exact arithmetic; false in doubles for |bound| >= 256); a start outside the box by more than that margin raises.",
  "all starting points and boxes", "all reals / all doubles", [M+":Optimizer.make_non_degenerate", M+":Optimizer.check_in_bounds"])
p("The trust-region radius follows the documented update rule",
  "After each evaluation the radius is multiplied by gamma2 iff ratio >= eta and the step reached 0.9 of the radius, shrunk to min(gamma1*radius, |step|/4) iff that fails and ratio <= mu or the value is not finite, and otherwise unchanged; with 0<gamma1<1<=gamma2 a positive radius stays non-negative and increases only after very successful boundary steps.",
  "all values, steps, radii and options", "decision rule over a continuum", [M+":Optimizer.update_tr_radius"])
p("Rejected steps change nothing but the radius bookkeeping",
  "If a step is not accepted, x, fval, grad, hess and the Hessian approximation are exactly as before; if accepted, fval/grad are the evaluation's and x is the trial point (nudged). A step is accepted iff value is finite, predicted decrease > 0 and ratio > 0. (So mu is not the acceptance threshold it is documented to be: a step with a ratio in (0, mu] is accepted.)",
  "all iterations of all runs", "frame property over all states", [M+":Optimizer.minimize", M+":Optimizer.update", M+":Optimizer.update_tr_radius"])
p("The returned triple is an evaluation of the objective",
  "The returned fval and grad are what the objective returned for one of the points it was called with, and the returned x equals that point up to one boundary nudge of at most 100 ulp(1) per coordinate. (Exact equality is false: after the nudge the objective is not re-evaluated.)",
  "all runs", "history-dependent", [M+":Optimizer.update", M+":Optimizer.make_non_degenerate"])
p("Convergence flags describe the returned point",
  "If exitflag is GTOL then the returned gradient satisfies the gradient tolerance. (Found false: the test uses the trial point's gradient even when the trial is rejected or non-finite; true when the last step was accepted.)",
  "all runs that return with a positive flag", "needs an adversarial objective, tests use smooth ones", [M+":Optimizer.check_convergence", M+":Optimizer.minimize"])
p("Non-finite objective outputs never enter the iterate",
  "A trial with non-finite value is always rejected and shrinks the radius; a trial with finite value and non-finite gradient or Hessian raises RuntimeError with NOT_FINITE; a non-finite initial evaluation raises; hence the returned fval and grad are finite.",
  "all objectives including ones returning NaN/inf arbitrarily", "adversarial objectives", [M+":Optimizer.check_finite", M+":Optimizer.update_tr_radius"])
p("Persistent rejection stops the run",
  "Each rejected step multiplies the radius by at most gamma1 (exact arithmetic), so k consecutive rejections leave radius <= gamma1^k * radius and a run in which every trial is rejected stops with DELTA_TOO_SMALL (or an earlier criterion) after at most k iterations once gamma1^k*delta < 2^-52.",
  "all objectives, gamma1 in (0,1), all initial radii", "limit behaviour", [M+":Optimizer.update_tr_radius", M+":Optimizer.check_continue"])
p("The history has one record per iteration and one group per run",
  "With history_file set, after a normal return the file has exactly one new group named by the start id, every series in it has length equal to the number of iterations, with the documented quantity of that iteration as its entry, and earlier groups are untouched; a run that raises writes nothing; a reused start id raises and leaves old data in place; without history_file nothing is recorded.",
  "all runs and all prior file contents", "all histories", [M+":Optimizer.track_history", M+":Optimizer.minimize", M+":Optimizer._reset"])
p("An optimizer can be reused",
  "Calling minimize again on the same object behaves as on a fresh object: result, trace and flags depend only on the arguments of the new call. (Found false for HybridFixed/HybridFraction, whose switch survives; proved for all other schemes.)",
  "all previous histories of the object", "all prior histories", [M+":Optimizer._reset", H+":HybridSwitchApproximation", H+":HessianApproximation._init_mat"])
p("Caller-owned arrays and earlier results are not modified",
  "minimize never modifies x0 or hess0 passed by the caller nor the x returned by an earlier call.",
  "all call sequences", "aliasing over all histories", [M+":Optimizer.minimize", M+":Optimizer.make_non_degenerate", H+":HessianApproximation._init_mat"])
p("The affine scaling is Coleman-Li's",
  "v_i = x_i-ub_i if g_i<0 and ub_i finite, x_i-lb_i if g_i>=0 and lb_i finite, -1/+1 otherwise by the sign of g_i, and its derivative is 1 exactly for the finite-bound cases; for a strictly interior point v_i != 0, so the scaling matrix is invertible; in every pass of a run theta is max(theta_max, 1 - |v g|_inf) and lies in [theta_max,1].",
  "all points, gradients and bounds", "continuum", [M+":Optimizer.get_affine_scaling", M+":Optimizer.minimize"])
p("The wall-clock budget rule",
  "minimize stops with MAXTIME exactly when not converged, iterations remain and the remaining time is smaller than the average time per iteration so far; with an infinite budget the clock never stops a run.",
  "all clocks, including non-monotone ones", "all clock readings", [M+":Optimizer.check_continue"])

# ---- subproblem
p("The one-dimensional subproblem is solved exactly",
  "For any symmetric B, gradient g, direction s != 0, start s0 strictly inside the radius, the returned tau satisfies |s0+tau s| <= delta and minimizes the quadratic model over all feasible t (exact arithmetic).",
  "all dimensions, B, g, s, s0, delta>0", "continuum of inputs", [Q+":solve_1d_trust_region_subproblem", Q+":get_1d_trust_region_boundary_solution"])
p("The one-dimensional solver always returns a number",
  "For finite inputs with |s0| <= delta the returned step length is finite. (Found false: 0/0 when |s0|=delta and s is orthogonal to s0; in doubles also by overflow.)",
  "all finite inputs", "measure-zero corner", [Q+":get_1d_trust_region_boundary_solution"])
p("The n-dimensional subproblem solver respects the trust region",
  "Given an exact orthonormal eigen-decomposition and arbitrary root finders, a step labelled posdef/indef has norm <= delta+2^-26 and a step labelled hard has norm <= delta whenever the secular equation was not negative at the left end.",
  "all symmetric B, g, delta, and all root-finder outcomes", "quantifies over root finder behaviour", [Q+":solve_nd_trust_region_subproblem", Q+":slam", Q+":secular"])
p("The n-dimensional subproblem solver returns a global minimizer",
  "If the label is posdef the step is the unconstrained minimizer of the model; if it is indef and the root finder returned an exact root, or hard in the true hard case, the step minimizes the model over the whole ball. (As a claim about all inputs it is false: see C29.)",
  "all dimensions and inputs", "global optimality over a continuum", [Q+":solve_nd_trust_region_subproblem"])
p("Exactly when the n-dimensional subproblem solver solves a non-positive-definite problem",
  "The documentation says the solver exactly solves the subproblem for every symmetric B and g. Found false, with this exact extent (exact arithmetic, exact eigen-decomposition, smallest eigenvalue m <= 0): let p be the code's step at the left end of the bracket (Newton step for B - m I outside the lowest eigenspace, minus the gradient inside it). If |p| > delta the answer is a global minimizer. If |p| <= delta the code answers 'hard' with a step of norm delta, and that step is a global minimizer if and only if the gradient has no component in the lowest eigenspace, or is a negative multiple of the first lowest eigenvector; otherwise it is not a solution and may even increase the model.",
  "all symmetric B with smallest eigenvalue <= 0, all g, radii, root finders", "tests only use |w| large or exactly zero", [Q+":solve_nd_trust_region_subproblem", Q+":slam"])
p("The secular equation and its derivative are consistent",
  "On lam > -mineig the function dsecular is the derivative of secular, secular is strictly increasing there when w is non-zero, so it has at most one root.",
  "all eigenvalues, coefficients and lam", "analysis over a continuum", [Q+":secular", Q+":dsecular", Q+":slam", Q+":dslam"])
p("The Steihaug conjugate-gradient solver terminates and stays in the region",
  "In exact arithmetic with non-zero gradient and symmetric model Hessian the CG loop stops after at most n+1 passes, its iterate has norm <= delta and model value no larger than at zero.",
  "all dimensions, symmetric matrices, gradients, radii", "termination over unbounded dimension", [S+":TRStepSteihaug.conj_grad"])

# ---- steps
p("The predicted decrease is computed for the step that is taken",
  "For every non-CG candidate s = D ss and s0 = D ss0 and qpval is the quadratic model at ss+ss0, so predicted decrease is that of x_new - x. (Found false for the scg solver after step-back.)",
  "all candidates of all strategies", "all states", [S+":Step.calculate", S+":CGStep.calculate", S+":TRStepReflected", S+":TRStepTruncated"])
p("Candidate steps stay in the trust region",
  "The scaled gradient candidate satisfies |ss+ss0| <= delta; the main step (2-D, full, conjugate gradient) and every candidate reflected from it satisfy |ss+ss0| <= delta+2^-26, or (reflected ones) are NaN throughout. (Found false for truncated candidates: with the default solver 2D the two columns of the subspace are no longer orthogonal once a coordinate is fixed, so the step is longer than its coordinates; on a convex quadratic the first step tried is 1.38 times as long as the radius.) With the solver full the truncated candidates do stay in the region.",
  "all problem data", "continuum", [S+":Step.compute_step", S+":Step.step_back"])
p("The best candidate is chosen",
  "trust_region returns a candidate whose model value is <= that of every candidate (when none is NaN; a NaN candidate is chosen first), in particular no worse than the stepped-back scaled-gradient step whenever the main step hits the boundary.",
  "all problem data and strategies, IEEE comparisons", "all inputs", [T+":trust_region"])
p("The scaled-gradient candidate predicts a decrease",
  "The gradient candidate has model value <= 0, strictly negative when the scaled gradient is non-zero and x is strictly inside; hence whenever step-back happened and no candidate is NaN, the chosen step's predicted decrease is positive.",
  "all problem data", "continuum", [S+":GradientStep", T+":trust_region"])
p("Step-back loops terminate",
  "Recursive reflection produces at most n candidates; recursive truncation produces at most n+1 candidates in exact arithmetic because each pass removes at least one further coordinate.",
  "all dimensions and data", "termination", [B+":stepback_reflect", B+":stepback_truncate"])
p("Reported reflection and truncation counts count all reflections",
  "step.reflection_count is the number of reflections applied to obtain the step. (Found false: each recursive step starts a new set, so only the last breakpoints are counted.)",
  "all recursive reflections", "only visible in multi-reflection steps", [S+":Step.reflection_count", S+":TRStepReflected", S+":TRStepTruncated"])
p("The two-dimensional subspace basis is orthonormal",
  "For n>1 the columns of the 2-D subspace are unit vectors, mutually orthogonal when there are two, so subspace coordinates and steps have equal norm.",
  "all data, arbitrary lstsq/eig results with non-zero chosen vector", "continuum", [S+":TRStep2D", S+":normalize"])
p("One-dimensional problems with zero curvature do not poison the iterate",
  "For a one-variable problem the proposed step is finite whenever value, gradient and Hessian are finite. (Found false for zero scaled curvature: division by zero, the objective is evaluated at NaN, the step is then rejected.)",
  "all finite 1-d data", "corner case", [S+":TRStep2D"])

# ---- hessian approximations
p("Broyden-class updates satisfy the secant equation",
  "After an update with curvature y.s>0 (or non-zero with the guard off) and s.Bs != 0 the new matrix maps s to y, for every phi. In a run of minimize with such a scheme this is what happens to the model Hessian at every accepted step, with s the step to the trial point and y the difference of the gradients the objective returned at the two points.",
  "all dimensions, B symmetric, s, y, phi", "algebraic law", [H+":broyden_class_update", H+":Broyden"])
p("Broyden-class, SR1 and structured updates preserve symmetry",
  "Starting from a symmetric matrix, after any sequence of updates the approximation is symmetric.",
  "all update sequences", "induction over histories", [H+":Broyden", H+":SR1", H+":SSM", H+":TSSM", H+":GNSBFGS"])
p("BFGS/DFP/Broyden stay positive definite",
  "With the curvature guard on and phi in [0,1], starting from a positive definite matrix (the default identity) the approximation is positive definite after any sequence of updates with non-zero steps. (For merely semidefinite starts the docstring's claim is false: 0/0.)",
  "all histories of steps and gradient differences", "induction over histories and continuum", [H+":broyden_class_update", H+":Broyden"])
p("Curvature-violating pairs are discarded",
  "With the guard on, y.s <= 0 leaves the matrix exactly unchanged and reports a zero update. In a run of minimize with such a scheme this is what happens to the model Hessian at every accepted step, with s the step to the trial point and y the difference of the gradients the objective returned at the two points.",
  "all matrices and pairs, IEEE", "all inputs", [H+":broyden_class_update"])
p("SR1 updates satisfy the secant equation or are skipped",
  "A non-degenerate SR1 update maps s to y and a degenerate one leaves the matrix unchanged; the new matrix is finite whenever the inputs are. (Finiteness found false when y = B s exactly: 0/0.) In a run of minimize with such a scheme this is what happens to the model Hessian at every accepted step, with s the step to the trial point and y the difference of the gradients the objective returned at the two points.",
  "all inputs", "corner y=Bs", [H+":SR1"])
p("Broyden's good method satisfies the secant equation",
  "For s != 0 the updated matrix maps s to y and agrees with the old one on the orthogonal complement of s. In a run of minimize with such a scheme this is what happens to the model Hessian at every accepted step, with s the step to the trial point and y the difference of the gradients the objective returned at the two points.",
  "all inputs", "algebraic law", [H+":BG"])
p("Broyden's bad method updates the approximation",
  "After an update with positive curvature the matrix satisfies the secant equation. (Found false: BB.update never applies its update; the matrix stays at its initial value forever.)",
  "all update sequences", "a test on an easy problem still converges", [H+":BB"])
p("Reported Hessian updates add up",
  "After every update get_mat equals the previous get_mat plus get_diff. In a run with a history file, the series hess_update_min_ev and hess_update_max_ev get the extreme eigenvalues of the matrix added to the model Hessian by an accepted step, and 0 for a rejected one. (Holds for every scheme except BB and FX over BB.)",
  "all schemes and histories, exact arithmetic", "history", [H+":HessianApproximation", H+":FX"])
p("Hybrid schemes switch once, at the documented moment",
  "HybridFixed/HybridFraction use the objective's Hessian until the switch condition has been met at an earlier update, the iterative matrix ever after, and never switch back; the iterative matrix is updated from the first iteration. In a run of minimize the updates are exactly the accepted iterations, with their step, gradient difference, Hessian and counters.",
  "all histories", "history", [H+":HybridFixed", H+":HybridFraction", H+":HybridSwitchApproximation"])
p("FX alternates correctly",
  "After each update the FX matrix equals the Gauss-Newton Hessian when the relative decrease is >= hybrid_tol and otherwise the iterative update of the previous matrix; with BFGS inside and positive-definite Gauss-Newton matrices it stays positive definite.",
  "all histories", "history", [H+":FX"])
p("Structured secant methods satisfy their structured secant equations",
  "SSM: A+ s = yb; TSSM: |r| A+ s = yb (r != 0); GNSBFGS: A+ s = yb when the ratio exceeds the tolerance; and the reported matrix is the documented combination of the Gauss-Newton part and A+. In a run of minimize this holds at every accepted step s with yb = (J(x+)-J(x))^T r(x+) (times |r(x+)|/|r(x)| for TSSM and GNSBFGS) for the residuals and Jacobians the objective returned at the two points.",
  "all inputs with positive curvature", "algebraic law", [H+":SSM", H+":TSSM", H+":GNSBFGS"])
p("GNSBFGS is always positive definite",
  "With hybrid_tol >= 0, positive semidefinite Gauss-Newton parts, non-zero steps and non-zero residuals, the matrix is positive definite after any history.",
  "all histories", "induction over histories", [H+":GNSBFGS"])
p("Initialization and set_mat copy and check dimensions",
  "_init_mat without matrix gives the identity; with a matrix of matching first dimension it stores a copy; differences start at zero, the inner approximation of a hybrid holds the same matrix, the structured part starts at the identity times the spacing of one. The first quadratic model of a run uses exactly that matrix (hess0, or the objective's Hessian for hess0='hess', or the identity), and without an approximation the objective's Hessian at the starting point. set_mat rejects any other shape. (A non-square initial matrix is not rejected.; and for the purely iterative schemes BFGS, DFP, SR1, Broyden, BB and BG the objective is asked for no Hessian, so hess0='hess' silently means the identity instead of the Hessian the documentation promises.)",
  "all matrices", "all shapes", [H+":HessianApproximation._init_mat", H+":HessianApproximation.set_mat"])
p("Each optimization gets its own logger",
  "create_logger calls made one after the other return distinct loggers; under threads interleaving at bytecode boundaries distinctness is lost (Found false for concurrent calls).",
  "all numbers of calls, all interleavings", "schedules", [L+":create_logger"])
p("The log is a faithful table of the run",
  "Logging does not influence the run. A run that returns logs: the header, row 0 with the objective value, radius and gradient norm at the start, then one row per iteration numbered 1,2,...; each row shows the value that was current after that iteration (strictly smaller than the previous row if marked accepted, the same if not), the header is repeated before every tenth row, the last row shows the returned value, and exactly one stop message is logged, last, naming the exit flag.",
  "all runs, number systems, option sets", "all runs", [M+":Optimizer.log_header", M+":Optimizer.log_step", M+":Optimizer.log_step_initial", M+":Optimizer.check_continue", M+":Optimizer.check_convergence"])
p("Without bounds the step-back strategy does not matter",
  "If no parameter has a finite bound and theta_max is positive, a step is never shortened, only one candidate is considered, and minimize behaves identically for every step-back strategy.",
  "all objectives, options, starting points and number systems", "all inputs", [T+":trust_region", B+":stepback_reflect", M+":Optimizer.minimize"])
p("Convergence to a stationary point",
  "On a problem without bounds whose gradient is Lipschitz continuous and which is bounded below, with any of the three subspace solvers (for 'full' and '2D': positive definite Hessians, exact linear algebra, and a tolerance the solvers' own 1e-8 slack does not obscure) and exact Hessians (or any approximation with bounded curvature), minimize returns after at most an explicitly computable number of iterations with a convergence flag; with zero function and step tolerances the flag is GTOL and the gradient at the last evaluated point is at most gatol.",
  "all dimensions, objectives, starting points and option values in the documented ranges; exact arithmetic", "unbounded runs: tests see only finitely many problems", [M+":Optimizer.minimize", M+":Optimizer.update_tr_radius", T+":trust_region"])
p("Time and history recording only observe the run",
  "The result of minimize does not depend on the clock, on run identifiers or on what was recorded before: a run with a time limit and a history file either returns exactly what the bare run returns, or raises because recording/writing failed, or stops early with MAXTIME; in every case the points it evaluated are a prefix of those of the bare run.",
  "all objectives (also stateful ones), clocks, identifiers, history files, time limits, options and number systems", "all schedules of the clock", [M+":Optimizer.check_continue", M+":Optimizer.track_history", M+":Optimizer.minimize", M+":Optimizer._reset"])
p("Reflected and truncated candidates go where documented",
  "When the main step crosses a bound, every reflected candidate starts exactly where its parent met its first bound (or at the end of the parent's full step), goes along the parent's step with precisely the components that met the bound reversed, and goes as far as minimises the model along that line within the trust region. Every truncated candidate leaves the components that met the bound at the fraction theta of the way to it, returns all others to where the parent started, searches exactly the parent's directions without these components, and the fixed components never move again in later truncations.",
  "all dimensions, points, gradients, symmetric Hessians, bounds, radii, theta in (0,1), subspace solvers; exact arithmetic", "all inputs", [B+":stepback_reflect", B+":stepback_truncate", "fides/steps.py:TRStepReflected", "fides/steps.py:TRStepTruncated"])
p("Richer step-back strategies never predict a worse step",
  "At the same point, with the same radius, bounds and solver: if the main step need not be shortened or there is only one parameter, every strategy uses it unchanged; if 'mixed' finds a step, then so do 'reflect', 'truncate' and 'reflect_single', and (unless a predicted value is NaN) it predicts at least as much decrease as each of them; likewise 'reflect' compared to 'reflect_single'. An unknown strategy name silently considers just the main and the gradient step.",
  "all inputs of trust_region, all external linear algebra, all IEEE-like number systems including binary64", "all inputs", [T+":trust_region", B+":stepback_reflect", B+":stepback_truncate"])
p("Strictly convex quadratics are minimized in finitely many steps",
  "On x'Ax/2 + b'x + c with A symmetric positive definite, no bounds, exact Hessians and an exact subspace solver ('full' or '2D'), every trial point is accepted with decrease ratio 1 and the radius never shrinks; if the minimizer lies within the radius the next point is the minimizer, otherwise the step has full length and the radius is enlarged. If the minimizer lies within delta_init of the start, minimize evaluates exactly the start and the minimizer and returns the minimizer after one iteration, whatever the tolerances; with all tolerances zero it returns exactly the minimizer (GTOL) after at most k+1 iterations, where k enlargements of the radius suffice to reach it.",
  "all dimensions, matrices, vectors, starting points, options in the documented ranges; exact arithmetic", "all problems", [M+":Optimizer.minimize", M+":Optimizer.update_tr_radius", T+":trust_region"])
p("SR1 never forgets a direction of a quadratic",
  "Given displacements s and the gradient changes A s of a quadratic, in any number and order, as long as the SR1 matrix consists of numbers it is symmetric and maps every earlier displacement whose update changed it to exactly A s; once those displacements span the space the matrix is A. In a run of minimize without bounds on an objective with gradient A x + b, a pass that changes the model makes its curvature right along the displacement of the iterate, and a direction on which it is right stays right in all later passes.",
  "all dimensions, symmetric matrices, sequences of displacements, and runs (any steps, subspace solver, acceptances); exact arithmetic", "all histories", [H+":SR1", M+":Optimizer.update"])
p("Only the answers of the objective matter",
  "Two objectives that give the same answers to the calls made in a run are optimized in exactly the same way: same result or exception, same evaluations, same final state of the optimizer (so wrapping an objective in a cache or a logger changes nothing). In exact arithmetic all calls are inside the box, so whatever the objective does outside the bounds (raise, return garbage) is irrelevant.",
  "all objectives (stateful ones included), configurations, starts and runs, in binary64; for the box: exact arithmetic, 0 <= theta_max <= 1", "all pairs of objectives and all runs", [M+":Optimizer.minimize", M+":FunEvaluator", S+":Step.step_back"])
p("With bounds, near first-order points are reached after a bounded number of iterations",
  "For an objective with Lipschitz gradient on the box, bounded below and with every finite bound at bounded distance from the points no worse than the start, model Hessians of curvature at most M, and a subspace solver that delivers a fixed fraction of the Cauchy decrease: for every tolerance eps coarser than the fixed tolerances of the code, the number of iterations started while the gradient in the scaled variables has norm at least eps is smaller than an explicit bound. A run that goes on that long visited a point x at which |g_i| < eps, or |g_i| sqrt(distance to the bound that -g_i points to) < eps, in every coordinate. With exact linear algebra the solvers 'full' (for every eps) and '2D' deliver that decrease on positive definite models.",
  "all dimensions >= 2, boxes (finite, one-sided, infinite bounds), objectives, starts in the box, options in the documented ranges, the strategies reflect and reflect_single; exact arithmetic; passes whose reflected candidate is not a number are excluded by hypothesis", "all problems and runs of any length", [M+":Optimizer.minimize", M+":Optimizer.get_affine_scaling", M+":Optimizer.update_tr_radius", T+":trust_region", S+":Step.step_back", S+":GradientStep"])
p("Stopping criteria only decide when to stop",
  "maxiter, maxtime and the tolerances fatol, frtol, xtol, gatol, grtol have no influence on the steps: two runs that differ in these options only are in the same state (iterate, value, gradient, model Hessian, radius, counters, history, evaluations made) after equally many iterations, up to the attributes converged and exitflag. If no criterion of the second run is looser than that of the first, the second evaluates all points of the first in the same order before any other, raises the same exception if the first raised one, and returns a value at most that of the first. A run that did not stop with MAXITER is literally unchanged by a larger maxiter.",
  "all objectives (stateful ones included), clocks, configurations, starts, runs of any length, all IEEE-like number systems including binary64", "all runs and all pairs of option values", [M+":Optimizer.check_convergence", M+":Optimizer.check_continue", M+":Optimizer.minimize"])
p("A stationary starting point is recognized",
  "If the gradient at the starting point (moved off the bounds) is zero and the model Hessian there is positive definite, the solvers 'full' and '2D' propose the zero step: minimize evaluates the objective exactly twice, both times at that point, and returns it, its value, the zero gradient and the Hessian after one iteration with exit flag GTOL, whatever the tolerances and bounds. The same step is proposed whenever a pass starts with a zero gradient. The solver 'scg' fails this: it proposes a point all of whose coordinates are NaN, so the objective is evaluated at undefined points until the trust region is too small.",
  "all dimensions, boxes, starting points, objectives that answer alike when asked twice at the same point, Hessian strategies, step-back strategies, options in the documented ranges; exact arithmetic", "all problems and starting points", [M+":Optimizer.minimize", M+":Optimizer.check_convergence", S+":TRStepFull", S+":TRStep2D", S+":CGStep"])
p("Moving the whole problem moves the whole run",
  "If the objective, the bounds and the starting point are all translated by the same vector c, minimize performs the same run moved by c: the same result (value, gradient, Hessian, exit flag, or exception), the same number of iterations and evaluations, the same radii and histories, and every evaluated, current, best and returned point differs from that of the original run by exactly c.",
  "all dimensions, translations, objectives (stateful, raising or ill-shaped ones included), boxes, Hessian strategies, subspace solvers, step-back strategies, options, clocks, and fresh as well as reused optimizers; exact arithmetic", "all problems, translations and runs", [M+":Optimizer.minimize", M+":Optimizer.make_non_degenerate", M+":Optimizer.get_affine_scaling", S+":Step.step_back", S+":TRStepReflected", S+":TRStepTruncated", S+":RefinedStep"])
p("Adding a constant to the objective changes only the reported values",
  "With the relative tolerances frtol and grtol set to zero (and an objective that is not given as residuals), adding a constant k to the objective leaves every evaluated point, radius, gradient, Hessian, flag, counter and exception unchanged; k is added to the returned value, the best value and the fval series of the history and nothing else changes.",
  "all constants, objectives (stateful, raising or ill-shaped ones included), boxes, Hessian strategies, solvers, strategies, options with frtol = grtol = 0, starts; exact arithmetic", "all objectives, constants and runs", [M+":Optimizer.minimize", M+":Optimizer.update_tr_radius", M+":Optimizer.check_convergence", M+":Optimizer.track_minimum", M+":Optimizer.track_history"])
p("A stationary point that is not a minimizer is left",
  "Without bounds, at a point with zero gradient whose model Hessian has a direction of negative curvature (a saddle point or a maximum), the solvers 'full' and (with two or more variables) '2D' propose a point at exactly the trust radius d in a direction of lowest curvature m < 0, with predicted decrease exactly -m d^2 / 2. The point is accepted if and only if the objective is lower there; if the objective differs from its quadratic model by at most K |w|^3 and 2 K d < -m, the pass moves there and lowers the value by at least (-m/2 - K d) d^2. The default solver '2D' fails this with one variable: it proposes the zero step whatever the sign of the curvature, so a run started at a maximum reports convergence (GTOL) there.",
  "all dimensions, points, symmetric indefinite Hessians, radii, objectives, step-back strategies; exact arithmetic and exact eigenvalue routines, theta_max in (0, 1], for '2D' curvatures not below 2^-52 of the largest", "all problems and states", [M+":Optimizer.minimize", S+":TRStepFull", S+":TRStep2D", Q+":solve_nd_trust_region_subproblem", Q+":solve_1d_trust_region_subproblem"])
p("Near a nondegenerate minimizer the error is squared by every iteration",
  "Without bounds, with exact Hessians and an exact subspace solver ('full' or '2D'): let xs be a minimizer around which the Hessian has no eigenvalue below m > 0 and the second-order Taylor expansions hold with Hessian Lipschitz constant K. Once an iterate x is close to xs (K|x-xs|/(2m) at most 1/2 and below 1 - mu) and the trust region has room for the step (3/2 |x-xs|), the trial point of every further pass is the Newton point, it is accepted, the value decreases, the radius does not shrink, the decrease ratio differs from 1 by at most K|step|/(3m), and the new error is at most K/(2m) times the square of the old one. A run started there returns with a convergence flag after at most k iterations, where k need only satisfy that the gradient tolerance is met within e(Ke/(2m))^(2^k-1) of xs (e the initial error), and the returned point is that close for the number of iterations made.",
  "all dimensions, objectives (no assumption away from xs except the shapes of the answers), minimizers, starting points, step-back strategies, options in the documented ranges; exact arithmetic", "all problems, starting points and numbers of iterations", [M+":Optimizer.minimize", M+":Optimizer.update_tr_radius", T+":trust_region", S+":TRStepFull", S+":TRStep2D"])
p("A starting vector given as integers is rounded, not nudged, off the bounds",
  "If x0 is an integer array inside the box: when every coordinate is at least the margin (1e2 * np.spacing(1)) away from both bounds, minimize behaves exactly as for the same numbers given as floats. A coordinate less than the margin from its upper bound is moved down by a whole unit if it is positive, one less than the margin from its lower bound is moved up by a whole unit if it is negative; all other coordinates, zero included, stay where they are, on the bound if need be. The objective is first evaluated at that point, or, if it lies outside the box, minimize raises RuntimeError (EXCEEDED_BOUNDARY) without evaluating it. Boxes with integer or infinite bounds at least a unit wide never lose the start.",
  "all dimensions, integer starting vectors, boxes, objectives, Hessian strategies, options; exact arithmetic (int64 overflow aside)", "all boxes and integer starting vectors", [M+":Optimizer.minimize", M+":Optimizer.make_non_degenerate", M+":Optimizer.check_in_bounds"])
p("The refine strategy looks for the best step of the subspace that respects bounds and radius",
  "With stepback_strategy 'refine' and the solvers '2D' and 'full': when the main step is cut at a bound (and the search subspace has two or more dimensions) the problem handed to the external solver is exactly this one: minimize the predicted change of the objective over the steps of the subspace inside the trust region that use at most the fraction theta of the way to every bound, started from the cut main step, which keeps that distance itself. An answer within these limits is taken as it is, without being cut. If the answer solves the problem, the step of the pass predicts at least the decrease of every such step; the same holds without a refinement if the main step is not cut and is the best one in the trust region.",
  "all dimensions, points, gradients, symmetric Hessians, scalings, radii, theta in (0, 1], boxes (infinite bounds included), subspaces; exact arithmetic", "all problems, and all answers of the external solver", [S+":RefinedStep", T+":trust_region", S+":Step.step_back"])
p("The documented stopping inequalities",
  "The documentation of minimize says that the run converges when |f_{k+1} - f_k| < fatol - f_k frtol, ||x_{k+1} - x_k|| < xtol ||x_k||, ||g|| < gatol or ||g|| < grtol f_k. An iteration in which the documented criterion on the gradient, or the one on the values with a ratio above mu, holds is the last one; FTOL is reported under the documented inequality if f_k <= 0, GTOL (up to strictness) if f_k >= 0. (Found false otherwise: for f_k > 0 FTOL, for f_k < 0 GTOL, and XTOL in general are reported in runs in which the documented inequality never holds: the code tests fatol + frtol |f_k|, an absolute xtol and grtol |f_k|.)",
  "all objectives, options with non-negative relative tolerances, all iterations", "quantifies over all iterations of all runs", [M+":Optimizer.minimize", M+":Optimizer.check_convergence"])
p("A quasi-Newton scheme given the exact Hessian of a quadratic keeps it",
  "Let the gradient of the objective be A x + b (values and gradients only, no bounds) and let minimize be called with hess0 = A and BFGS, DFP, any finite member of Broyden's class with the curvature condition, Broyden's bad method (whose Hessian never changes anyway), or, if the objective gives every point one value, Broyden's good method. Then the model Hessian is A at every iteration, and the run is the run of an optimizer without approximation on the same objective returning A as its Hessian: the same result or exception, evaluated points, iterations, exit flag, best point and radii. So for a strictly convex quadratic with zero tolerances it returns the minimizer after finitely many iterations, after exactly one (two evaluations) if the minimizer lies within the initial radius. SR1 fails this: its first update divides 0 by 0 and minimize raises RuntimeError.",
  "all dimensions, matrices A (indefinite and asymmetric ones included), starting points, solvers, step-back strategies, options, clocks, values (which need not belong to the quadratic); exact arithmetic", "all quadratics, starting points and runs of any length", [M+":Optimizer.minimize", M+":Optimizer.update", H+":Broyden", H+":BFGS", H+":DFP", H+":BG", H+":BB", H+":SR1"])
p("The members of Broyden's class are the textbook formulas",
  "Let B be symmetric and the step s and gradient difference y of one update have s.Bs and y.s nonzero (y.s positive if the curvature condition is enforced). Then the matrix an object of class BFGS holds afterwards maps every v to Bv - (s.Bv / s.Bs) Bs + (y.v / y.s) y, that of class DFP maps every v to (1 - y s^T / y.s) B (1 - s y^T / y.s) v + (y.v / y.s) y, that of Broyden(phi) is (1 - phi) times the first plus phi times the second, and if H is the inverse of B, the DFP update of H with s and y exchanged is the inverse of the BFGS update of B. Starting from positive definite B and H with the curvature condition enforced, this stays so after any sequence of updates.",
  "all dimensions, symmetric matrices, steps, gradient differences, weights phi, vectors v; exact arithmetic", "algebraic identities over all real matrices", [H+":Broyden.update", H+":BFGS", H+":DFP", H+":broyden_class_update"])
p("Broyden's good method changes least, SR1 is the only rank-one correction",
  "For a nonzero step s the matrix an object of class BG holds after an update of B satisfies the secant equation M's = y, and every matrix M with Ms = y obeys |M - B|^2 = |M' - B|^2 + |M - M'|^2 in the Frobenius norm: the update is the least change of B that satisfies the secant equation, and no other matrix changes B as little. If an SR1 update is not skipped and y differs from Bs, the matrix afterwards is the only one of the form B + sigma v v^T that satisfies the secant equation.",
  "all dimensions, matrices B and M, steps, gradient differences, sigma, v; exact arithmetic", "quantifies over all competing matrices", [H+":BG", H+":SR1"])
p("A truncated candidate is the best step only as long as the model does not couple it to what was fixed",
  "When the main step is cut at a bound, the step-back strategies 'truncate' and 'mixed' fix the components at the bound and search again for the others. With one search direction left, that candidate (before it is stepped back) has the least predicted value of all points of the line through the fixed part inside the trust region. With several directions left and a convex, exactly solved reduced problem (solver 'full'), its moving part minimizes the predicted change as if nothing had been fixed, within the part of the trust region that the fixed components leave; so if the model Hessian does not couple the search directions with the fixed components, no step along these directions in the trust region predicts a lower value. (Found false otherwise: with default solver and strategy 'mixed' the first step of a run on a strictly convex quadratic in two variables is such a candidate, well inside the trust region, and another step with the same fixed component, inside the trust region and the bounds, predicts a value that is lower by more than 1/100.)",
  "all dimensions, points, symmetric Hessians, scalings, radii, theta, boxes, solvers; exact arithmetic", "all problems and every candidate of every pass", [S+":TRStepTruncated", S+":Step.calculate", S+":Step.reduce_to_subspace", Q+":solve_1d_trust_region_subproblem", B+":stepback_truncate"])
with open('/verif/properties.jsonl','w') as f:
    for r in P: f.write(json.dumps(r)+"\n")
print(len(P))
