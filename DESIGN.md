# Design of the formal model of fides

(Plan written before the proofs; the sections "Trusted base" and "Findings" are kept current as the model grows.)

## 1. One model, three number systems

Everything in fides is arithmetic on numpy doubles.  The code is modelled **once**, by Gallina
functions that are generic in a number type `T` with the operations of the class `Num T`
(`theories/Num.v`: + - * / sqrt abs, IEEE comparisons, isnan/isfinite/signbit, integer literals).
The same text is then instantiated at

* `F64` (`theories/F64.v`): IEEE-754 binary64 with round-to-nearest-even, NaN, infinities, signed
  zeros, from Flocq's `BinarySingleNaN` (computable: used for refutation witnesses and runs by `vm_compute`,
  and for theorems that must survive rounding);
* `ER` (`theories/ER.v`): real numbers extended with +inf, -inf and NaN under IEEE rules (no rounding, one unsigned zero):
  "exact arithmetic", used for algebraic and optimality theorems;
* `R` with Coq's total operations, only as a proof device: on finite values `ER` agrees with `R`.

Theorems about control flow, bookkeeping, comparisons and signs are proved for every `Num` satisfying a
short list of laws (`NumLaws`), and both `F64` and `ER` are proved to satisfy them, so they hold in double precision.

Vectors are lists, matrices lists of rows, subspace bases / eigenvector matrices lists of columns.
Exceptions are values; the optimizer is a state/exception monad which keeps the state reached
when an exception is raised (so exit flags set before raising are visible).  Arrays that the code mutates in place and shares
(`self.x`, `funout.x`, `x_min`) live in an explicit heap.

External behaviour enters as unconstrained function arguments ("oracles"): the user's objective (a function
of the call number and the argument, so stateful objectives are covered), the clock, `uuid1`, `scipy.linalg.eig/lstsq`, `numpy.linalg.eig/eigvals/cond`,
`scipy.optimize.newton/brentq/minimize(trust-constr)`.  Where a theorem needs an oracle to be correct
(e.g. eigen-decomposition exact and orthonormal) this is an explicit hypothesis of the theorem.  The root finders
are assumed to do their job (`roots_found`, Prop_SubNd.v) in the way they really do: either Newton's method returns
the root, or it fails and Brent's method finds the root in the bracket the code constructs (at most 100 powers of ten wide).

## 2. Files (`rocq/theories`)

Model (every definition cites the lines of /repo it models):

| file | models |
|---|---|
| `Num.v` | the operations the code uses on numpy doubles, numpy vector/matrix primitives, argmin/any/all |
| `ER.v`, `F64.v` | the two number systems (extended reals; IEEE binary64 via Flocq), the laws of `NumFacts.v` proved for both |
| `Constants.v` | constants.py: enums, defaults, `validate_options` |
| `Subproblem.v` | subproblem.py |
| `HessApprox.v` | hessian_approximation.py, every scheme |
| `Steps.v` | steps.py, stepback.py |
| `TrustRegion.v` | trust_region.py |
| `Minimize.v` | minimize.py: `Funout`, `FunEvaluator`, `Optimizer` (state, heap, main loop), history file |
| `Logging.v` | logging.py: counter at bytecode granularity with threads |
| `LogTable.v` | the `logger.info/warning` calls of minimize.py, as a second version of the loop that also emits messages; proved to erase to `Minimize.v` |

Specification vocabulary: `Spec.v` and short definitions at the top of each `Prop_*.v` (e.g. `told` in `Prop_Update.v`,
`table` in `LogTable.v`/`Prop_LogTable.v`).

Proof libraries: `NumFacts MonadFacts MinFacts Run RunInv RunFrame HessRun TRErr StepFacts Cand RVec Quasi Ortho Argmin SubNd
RShess RealStep Region HessDim GradEx Unbounded Converge`. Computed runs: `Witness` (binary64), `WitnessER`.

Property theorems: `Prop_*.v`; theorem names start with the property id, non-vacuity examples are called `Cxx_ex...`/`Cxx_example`
or are the closed runs of the refutation theorems.

## 3. Per-property plan

| id | model | proof |
|---|---|---|
| C01,C02 | dictionary as association list of (key written as str or enum, python value) | case analysis + induction on the list; C02 refuted by a witness, proved for enum keys |
| C03 | constructor decision procedure; FunEvaluator | case analysis; refutation quantified over all objectives |
| C04 | python return values with rank/shape | case analysis |
| C05 | FunEvaluator at ER | list algebra |
| C06 | main loop on fuel, fuel exhaustion = distinct outcome | induction on remaining iterations; with the inner loops (CG, recursive truncation) in exact arithmetic via the invariants of the head and C31/C36 (Prop_Terminates.v) |
| C07,C24 | check_continue/check_convergence | Hoare-style lemmas, loop invariant |
| C08,C09,C10(check),C15,C18 | generic number laws | loop invariants, instantiated at F64 and ER |
| C10(nudge),C11,C13,C19,C23 | ER | order reasoning; induction |
| C12 | F64 | Flocq rounding lemmas; induction over the chain of truncated candidates (Prop_BoxTrunc.v); witnesses for theta = 1 and for reflection (Prop_BoxReflect.v) |
| C14 | generic + ER | case analysis |
| C16,C17 | generic; ghost log of evaluations; heap | loop invariant; refutations by a concrete run (vm_compute at F64) |
| C20 | history as association list, file as list of groups | loop invariant |
| C21,C22 | state reset; heap | simulation of runs from different pre-states; heap monotonicity |
| C25,C26 | ER | quadratic functions on an interval; witness |
| C27-C29 | ER with exact eig hypothesis | More-Sorensen sufficiency; for C29 also necessity: first-order condition on the sphere by a rational parametrisation of great circles (Prop_SubNd2.v) |
| C30 | R functions | derivability (stdlib Ranalysis/Coquelicot) |
| C31 | ER, CG loop on fuel | CG orthogonality invariants, Bessel inequality |
| C32-C39 | ER | list algebra, convexity, termination measure; C33_truncated_full: disjoint supports of the truncated columns and the fixed part of the step (Pythagoras); witnesses at F64 |
| C40-C52 | ER (secant, symmetry, definiteness), generic (frame/guards) | list linear algebra, Cauchy-Schwarz, induction over update sequences; whole runs through C15_update_data (Prop_SecantRun, Prop_StructRun, Prop_QuasiRun) |
| C48-C50 (run level) | the same updaters as `minimize` drives them | Prop_Hybrid, Prop_StructRun: what the updater holds at every loop head and which pair each accepted pass feeds it, from C15_update_data |
| C53 | counter machine with bytecode-level interleaving | induction; witness schedule |
| C54 | writer version of the loop | erasure to the loop of `Minimize.v`, induction on the loop |
| C55 | `trust_region`, `minimize` with two strategies | breakpoints are infinite so alpha is not below 1; extensional equality of the two loops |
| C56 | whole run against a smooth objective | Cauchy decrease of the step of each subspace solver (`Unbounded.v` for scg, `UnboundedFull.v` for full, `Unbounded2D.v` for 2D), lower bound of the radius, counting of accepted and rejected passes (`Converge.v`) |
| C57 | two runs in two worlds | all pieces commute with changes of clock, identifier, history and files; induction on the loop |
| C58 | `stepback_reflect`, `stepback_truncate` | breakpoints characterised as first hits of a bound; invariant of finite candidates (`fcand`, `regular`) along both loops |
| C59 | `candidates`, `trust_region` for two strategies | inclusion of candidate lists, argmin over the larger list |
| C60 | a whole run on a strictly convex quadratic, exact solvers | the model is the objective, so the ratio is 1; strict convexity on the segment to the Newton point; loop invariant with the radius D0*gamma2^k |
| C61 | SR1 updates with the pairs of a quadratic, as a list and inside runs | the residual of an update is orthogonal to every direction already right (symmetry); NaN is absorbing; induction on the list of updates / on passes |
| C62 | minimize with the objective replaced by another one | relational argument through every monadic operation: the log grows by the answers received, and equal answers give equal results; C11 for the box |
| C63 | a run with bounds, model Hessians of bounded curvature, a solver delivering a fraction of the Cauchy decrease | BoundedGrad/BoundedStep: the chosen candidate is at least as good as the shortened scaled gradient step, whose length is bounded below by the distance to the bounds in the scaled variables (Coleman-Li); model error against actual decrease including the scaling term; counting of successful and unsuccessful passes as in C56 |
| C64 | two configurations that differ in the seven stopping options only; minimize and the loop heads of both runs | Prop_Stopping: an iteration is split at check_convergence; every other piece neither reads converged/exitflag nor writes converged (`alike`), and the criteria are monotone in the tolerances by monotonicity of rounding; induction over loop heads and over fuel |
| C65 | first pass (and any pass) at a zero gradient with a positive definite model, then the whole run | StatStep: the zero step is the only candidate for full (uniqueness of the minimizer of a positive definite model) and 2D (the least-squares solution is zero); Prop_Stationary: ratio 0, so rejected, gradient criterion met, two evaluations; scg: NaN step from Prop_Terminates, double-precision witness |
| C66 | whole model of minimize and of the steps, over the extended reals | Translate, Prop_Translate: every function of the model commutes with the translation (a simulation with an explicit map on states), composed over the monad; no invariant needed since (x+c)-(b+c) = x-b and (x+c)+s = (x+s)+c hold for infinities and NaN too |
| C67 | same simulation with k added to the function values | Prop_Translate: values enter only through differences, comparisons with each other and the relative tolerances |
| C68 | hard case of the subproblem with zero gradient: lowest eigenvector reached by the exact solver in a subspace containing it | Saddle, Prop_Saddle: C28_hard_global on the reduced problem; acceptance and pass via C15_pass; the one-variable 2D subspace is the zero vector |
| C69 | Newton's method as the limit of the trust-region run: the unconstrained minimizer of the model fits into the region, so both exact solvers return it | Newton (error recursion, decrease ratio, invertibility from the eigendecomposition), Prop_Newton: one pass via C14_radius_rule/C15_pass, induction over passes, totality of the loop; no global smoothness or convexity is assumed |
| C70 | `minimize` called with an integer array: `minimize_int`, in which assignments into x truncate toward zero; otherwise the code of `minimize` | Prop_IntStart: generic reduction to the float run from the moved point; per-coordinate rule by Flocq's Ztrunc in exact arithmetic; findings by evaluation in doubles |
| C71 | `RefinedStep`, `trust_region` with 'refine'; the external solver is an oracle whose arguments are part of the model | Prop_Refine: breakpoints of a step that keeps its distance, reduced model = full model on the subspace (`redB`), best candidate (C34) |
| C72 | the docstring of `minimize` transcribed (`documented_f`, `documented_x`, `documented_g`), `check_convergence` | Prop_Stops: C07_criteria (converged exactly when a criterion is met) plus case analysis; Prop_StopsEx: double-precision runs |
| C73 | two runs of `minimize` side by side: iterative approximation with hess0 = A, and no approximation with the objective returning A | Prop_ExactStart: simulation relating the two states pass by pass (any number system, given that the model Hessian stays A); Prop_ExactQuad: the updates are zero on exact pairs, invariant over all passes; Prop_ExactRun: the combination, with C60 for finite termination |
| C74 | `broyden_class_update` for BFGS, DFP, Broyden(phi) against the formulas of the textbooks, as maps on vectors | Prop_Textbook: the update applied to a vector, coordinate by coordinate; duality by substituting H'v into the BFGS formula |
| C75 | the updates of `BG` and `SR1` against all competing matrices | Prop_LeastChange: row by row Pythagoras for BG; sigma v v^T with the secant equation forces v parallel to y - Bs |
| C76 | what the truncated candidates of `stepback_truncate` minimise | Prop_TruncModel: every truncated candidate is a `calculate` from masked columns and a fixed part; C25_any_start for one column, C28_solves for several; splitting of the quadratic model into fixed part, moving part and coupling; F64 run as the counterexample |

## 4. Trusted base

* The Coq 8.16.1 kernel (and `coqchk`, which `vcheck` runs). No axioms of our own, no kernel check switched off, no `Admitted`,
  no functors or module types of our own.
* `Print Assumptions` for every claimed theorem is in `AUDIT.md` (regenerate: `python3 tools/audit.py`). Only these standard
  library axioms occur: `ClassicalDedekindReals.sig_forall_dec`, `ClassicalDedekindReals.sig_not_dec`,
  `FunctionalExtensionality.functional_extensionality_dep` (all three through the reals) and `Classical_Prop.classic` (through
  Flocq/Coquelicot). The theorems about control flow that are generic in the number system are closed.
* The tie between model and code is reading: the code cannot be run here. Python evaluation order, exceptions, shared arrays and
  IEEE comparisons with NaN were followed line by line.

### Modelled

All of `constants.py`, `subproblem.py`, `hessian_approximation.py`, `steps.py`, `stepback.py`, `trust_region.py`, `minimize.py`,
`logging.py`. The objective is an arbitrary function of call number and argument; it may raise, return anything, and keep
state. The clock is an arbitrary function of the number of readings. Results of LAPACK and scipy calls are arbitrary values of the
right shape (possibly NaN); theorems that need more say so in a hypothesis.

### Not modelled, or simplified

* Summation order and fused operations inside numpy/BLAS: `dot` is a left fold. Theorems in binary64 that depend on the
  order are not claimed, except where stated (`C05_value_not_negative` holds for any order of non-negative terms by the same proof).
* Overflow/`RuntimeWarning` side effects, warnings turned into errors, `numpy.errstate`, KeyboardInterrupt, memory exhaustion.
* dtype: all arrays are float arrays, except that C70 models a call of `minimize` with an integer `x0` (`minimize_int`). An integer `hess0`, and overflow of int64, are outside the model;
  so are complex eigenvalues of `numpy.linalg.eig` (the code takes `.real`; the model takes the real parts as oracle).
* Broadcasting of length-1 arrays against longer ones: the model has equal lengths or an exception.
* The objective mutating the array it is given: the objective sees a value, not the array.
* h5py: the file is an association list of groups, each an association list of series; I/O errors and partially written files are
  not modelled. Formatting of numbers in log lines is not modelled, the fields are.
* `logging` handlers other than the one created by `create_logger`.
* `scipy.optimize.minimize` in the `refine` strategy is an oracle for the minimizer, its option dictionary is not modelled.
* The main loop runs on fuel; running out of fuel is a separate outcome, and `C06` shows it does not happen with fuel > maxiter.

## 5. Findings (behaviour proved to contradict the documentation or the natural claim)

| theorem | what it shows |
|---|---|
| `C02_...refuted` | `validate_options` compares keys with `is`: enumerated options given under plain-string keys are not checked |
| `C03_...` | `resfun=True` without a Hessian approximation is accepted but no objective can satisfy it |
| `C06_scg_hangs_refuted` | with the scg solver minimize never returns on 4e180 x^2 from 1: the squared gradient norm overflows and the conjugate-gradient loop turns on NaN forever |
| `C09_exact_xmin_refuted`, `C16_...` | boundary nudge modifies `x` in place after the evaluation: returned `x`/`x_min` differ from the evaluated point |
| `C12_reflected_refuted`, `C12_unnoticed_refuted` | minimizing x+y over x,y >= 0.1 from (1, 1.2) with the default options raises RuntimeError: the reflected trial point, which starts on the bound, is one rounding unit outside; with other numbers the objective is called outside of the box without an error |
| `C12_run_refuted`, `C13_..._refuted_in_doubles` | rounding: default-option run in doubles that raises; the nudge is lost for bounds >= 256 |
| `C17_gtol_refuted` | GTOL is decided on the gradient of a rejected trial point |
| `C19_nan_ratio_refuted`, `C39_refuted` | zero curvature in 1-D gives NaN steps; a NaN ratio keeps the radius |
| `C21_hybrid_refuted`, `C21_error_flag_refuted` | state surviving into the next `minimize` call |
| `C26_refuted`, `C27_fallback_refuted`, `C29_...` | subproblem solvers: NaN, steps outside the region, wrong branch |
| `C32_scg_refuted` | scg: predicted decrease not updated after step-back |
| `C33_truncated_refuted` | strategy `mixed` or `truncate` with the solver `2D`: after fixing a coordinate the subspace basis is not orthogonal; the step tried is 1.38 times as long as the trust-region radius |
| `C76_best_step_refuted` | `TRStepTruncated` solves the reduced problem with the gradient at the start of the step, not at its fixed part: with more than one search direction the coupling of the fixed components with the free ones is ignored, so a better step along the same directions exists (the one-dimensional solver does take the fixed part into account) |
| `C37_refuted` | reflection count counts only the last reflection |
| `C42_...refuted`, `C44_...refuted` | semidefinite claim of the docstring; SR1 with y = Bs gives 0/0 |
| `C46_...` | Broyden's bad method never applies its update |
| `C49` | FX switches in the direction opposite to its docstring |
| `C53_concurrent_refuted` | two concurrent optimizations can share a logger |
| `C65_scg_undefined`, `C65_scg_refuted` | scg started at (or reaching) a zero gradient evaluates the objective at NaN points |
| `C68_one_variable_stays`, `C68_one_variable_refuted` | with one variable the default solver `2D` never leaves a stationary point: started at the maximum of -x^2 it reports GTOL |
| `C52_hess_string_refuted` | with a purely iterative Hessian approximation `hess0='hess'` is silently the identity |
| `C70_same_start_refuted`, `C70_first_points_refuted` | an integer x0 on a bound is moved by a whole unit, left on the bound, or rejected as out of bounds although it is feasible |
| `C72_ftol_refuted`, `C72_xtol_refuted`, `C72_gtol_refuted` | FTOL, XTOL and GTOL are reported although the documented inequality holds at no point of the run (sign and absolute values) |
| `C15_mu_refuted` | steps with a ratio below `mu`, the documented acceptance threshold, are accepted |
| `C73_sr1_refuted` | SR1 started from the exact Hessian of x^2 divides 0 by 0 (the guard compares with >=, 0 >= 0) and minimize raises RuntimeError |

The exact theorem names are in `MANIFEST.json`; where a property is refuted the part that does hold is proved beside it.

## 6. Testing the theorems

`seeded/LOG.jsonl`: one line per seeded bug (edit of a model definition, the theorems that stopped proving, and what was tightened).
