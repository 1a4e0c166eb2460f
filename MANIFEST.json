{
 "claims": [
  {
   "property": "C01",
   "status": "proved",
   "theorems": [
    "C01_accepts_iff",
    "C01_unknown_key",
    "C01_wrong_value",
    "C01_exception",
    "C01_read_last",
    "C01_read_default",
    "C01_defaults",
    "C01_configured"
   ],
   "note": "maxiter=inf raises OverflowError instead of TypeError/ValueError (stated in C01_wrong_value)"
  },
  {
   "property": "C02",
   "status": "proved",
   "theorems": [
    "C02_enum_keys",
    "C02_string_key_refuted"
   ],
   "note": "true for enum-member keys; refuted for plain-string keys"
  },
  {
   "property": "C03",
   "status": "proved",
   "theorems": [
    "C03_accepts_iff",
    "C03_rejection_is_ValueError",
    "C03_nargout",
    "C03_evaluable",
    "C03_resfun_without_scheme_refuted"
   ],
   "note": "the converse part is refuted for resfun=True without a scheme"
  },
  {
   "property": "C04",
   "status": "proved",
   "theorems": [
    "C04_contract_enforced",
    "C04_valid_output_accepted"
   ],
   "note": "AttributeError instead of ValueError when a component is None; the user's own exception propagates"
  },
  {
   "property": "C05",
   "status": "proved",
   "theorems": [
    "C05_least_squares",
    "C05_value_not_negative",
    "C05_bad_shapes"
   ],
   "note": "value 1/2|r|^2, gradient J^T r and Hessian J^T J for every residual vector and Jacobian of every size (exact arithmetic: equality, symmetry, positive semidefiniteness); value not negative and Hessian exactly symmetric also in doubles; shapes that do not fit give ValueError. Example C05_ex."
  },
  {
   "property": "C06",
   "status": "proved",
   "theorems": [
    "C06_iteration_budget",
    "C06_evaluations_counted",
    "C06_terminates",
    "C06_no_divergence",
    "C06_no_divergence_exact",
    "C06_scg_hangs_refuted"
   ],
   "note": "C06_no_divergence: any number system, configurations without inner while loops. C06_no_divergence_exact: exact arithmetic, every subspace solver and step-back strategy, symmetric model Hessians, finite answers of the external linear algebra; so the conjugate-gradient and recursive-truncation loops also end. In binary64 the two inner loops have no a-priori bound on their passes; they are cut by fuel and running out is the separate outcome EDiverge. C06_scg_hangs_refuted: the conjugate-gradient loop of scg then really need not end, for any number of passes (gradient 2^601 at a finite point). Examples C06_exact_ex, C06_scg_hangs_finite."
  },
  {
   "property": "C07",
   "status": "proved",
   "theorems": [
    "C07_exit_flag",
    "C07_converged_iff",
    "C07_flag_numbers",
    "C07_runtime_error",
    "C07_criteria",
    "C07_none_missed"
   ],
   "note": ""
  },
  {
   "property": "C08",
   "status": "proved",
   "theorems": [
    "C08_step_decreases",
    "C08_never_worse_than_start"
   ],
   "note": ""
  },
  {
   "property": "C09",
   "status": "proved",
   "theorems": [
    "C09_best_point",
    "C09_best_point_returned",
    "C09_exact_xmin_refuted"
   ],
   "note": "x_min as an exact evaluated point is refuted: the in-place nudge changes it"
  },
  {
   "property": "C10",
   "status": "proved",
   "theorems": [
    "C10_check_is_membership",
    "C10_iterates_in_box",
    "C10_returned_in_box",
    "C10_iterates_exactly_in_box",
    "C10_returned_exactly_in_box"
   ],
   "note": ""
  },
  {
   "property": "C11",
   "status": "proved",
   "theorems": [
    "C11_trial_points",
    "C11_all_evaluations",
    "C11_accepted_in_box",
    "C11_no_bounds_error"
   ],
   "note": "exact arithmetic, every solver and strategy; NaN coordinates possible (C39)"
  },
  {
   "property": "C12",
   "status": "proved",
   "theorems": [
    "C12_step_back",
    "C12_plain_trial_point",
    "C12_truncated_trial_point",
    "C12_run_refuted",
    "C12_reflected_refuted",
    "C12_unnoticed_refuted"
   ],
   "note": "binary64 with correct rounding, for candidates that start from the current point and for truncated candidates. Non-vacuity: plain_trial_point_exists, truncated_trial_point_exists. theta = 1: a default-option run that raises, C12_run_refuted. Reflected candidates: refuted by default-option runs, C12_reflected_refuted (RuntimeError), C12_unnoticed_refuted (objective called outside of the box, run ends normally)"
  },
  {
   "property": "C13",
   "status": "proved",
   "theorems": [
    "C13_moved_inside",
    "C13_far_outside_rejected",
    "C13_strict_interior_refuted_in_doubles"
   ],
   "note": "exact arithmetic; in doubles the move is lost for bounds of magnitude >= 256"
  },
  {
   "property": "C14",
   "status": "proved",
   "theorems": [
    "C14_radius_rule",
    "C14_radius_stays_nonnegative",
    "C14_radius_grows_only_when",
    "C14_counters"
   ],
   "note": ""
  },
  {
   "property": "C15",
   "status": "proved",
   "theorems": [
    "C15_pass",
    "C15_update_data",
    "C15_mu_refuted"
   ],
   "note": "C15_mu_refuted: the option mu is documented as the acceptance threshold, steps with a ratio in (0, mu] are accepted"
  },
  {
   "property": "C16",
   "status": "proved",
   "theorems": [
    "C16_returned_is_evaluated",
    "C16_value_at_x_refuted"
   ],
   "note": "Proved up to the boundary nudge; exact equality refuted by a double-precision run"
  },
  {
   "property": "C17",
   "status": "proved",
   "theorems": [
    "C17_gtol_when_accepted",
    "C17_gtol_refuted"
   ],
   "note": "refuted as stated; the part that holds (last step accepted) proved"
  },
  {
   "property": "C18",
   "status": "proved",
   "theorems": [
    "C18_returned_finite",
    "C18_nonfinite_trial_rejected",
    "C18_nonfinite_derivative_raises",
    "C18_nonfinite_start_raises"
   ],
   "note": ""
  },
  {
   "property": "C19",
   "status": "proved",
   "theorems": [
    "C19_rejection_shrinks",
    "C19_geometric_decrease",
    "C19_stops",
    "C19_halving_doubles",
    "C19_stops_doubles",
    "C19_nan_ratio_keeps_radius",
    "C19_nan_ratio_refuted"
   ],
   "note": "exact arithmetic and binary64 (gamma1<=1/2); for a NaN ratio the property is refuted"
  },
  {
   "property": "C20",
   "status": "proved",
   "theorems": [
    "C20_written_once",
    "C20_nothing_on_error",
    "C20_reused_id",
    "C20_no_history_file",
    "C20_record_of_a_pass",
    "C20_fval_series",
    "C20_every_series"
   ],
   "note": ""
  },
  {
   "property": "C21",
   "status": "proved",
   "theorems": [
    "C21_reuse",
    "C21_like_new",
    "C21_hybrid_refuted",
    "C21_error_flag_refuted"
   ],
   "note": "any number of earlier calls with any arguments and outcomes; the world may change between calls. The switch of HybridFixed/HybridFraction survives from an earlier run (refuted for these schemes), and an exception raised before the loop leaves the old exit flag (refuted). Example C21_ex"
  },
  {
   "property": "C22",
   "status": "proved",
   "theorems": [
    "C22_old_arrays_untouched"
   ],
   "note": ""
  },
  {
   "property": "C23",
   "status": "proved",
   "theorems": [
    "C23_entries",
    "C23_scaling_invertible",
    "C23_theta_range",
    "C23_theta_of_every_pass"
   ],
   "note": "entries and theta in any IEEE-like number system, invertibility in exact arithmetic"
  },
  {
   "property": "C24",
   "status": "proved",
   "theorems": [
    "C24_start_time",
    "C24_stops_iff",
    "C24_infinite_budget"
   ],
   "note": ""
  },
  {
   "property": "C25",
   "status": "proved",
   "theorems": [
    "C25_exact_line_minimizer",
    "C25_any_start",
    "C25_degenerate"
   ],
   "note": "exact arithmetic"
  },
  {
   "property": "C26",
   "status": "proved",
   "theorems": [
    "C26_tangential_is_NaN",
    "C26_finite_refuted"
   ],
   "note": "refuted as stated; the failure is characterised exactly"
  },
  {
   "property": "C27",
   "status": "proved",
   "theorems": [
    "C27_accepted_steps",
    "C27_hard_on_boundary",
    "C27_with_newton",
    "C27_fallback_refuted"
   ],
   "note": "exact arithmetic, exact eigen-decomposition, arbitrary root finders; C27_with_newton: on the sphere for all root finders that do their job (roots_found: Newton's method finds the root, or it fails - as it must when it starts on a pole, the usual indefinite case - and Brent's method finds it in the bracket the code constructs; Example C28_ex_brentq); with root finders that both give up the fallback leaves the region"
  },
  {
   "property": "C28",
   "status": "proved",
   "theorems": [
    "C28_posdef_unconstrained",
    "C28_indef_global",
    "C28_hard_global",
    "C28_solves"
   ],
   "note": "exact arithmetic, exact eigen-decomposition; root finders as in C27 (roots_found); Examples C28_ex_newton, C28_ex_brentq, C28_ex_hard"
  },
  {
   "property": "C29",
   "status": "proved",
   "theorems": [
    "C29_exact_extent",
    "C29_left_end_exists",
    "C29_refuted"
   ],
   "note": "exact characterisation of the problems that are solved (root finders as in C27); the documented claim itself is refuted"
  },
  {
   "property": "C30",
   "status": "proved",
   "theorems": [
    "C30_secular_derivative"
   ],
   "note": "exact arithmetic"
  },
  {
   "property": "C31",
   "status": "proved",
   "theorems": [
    "C31_conjugate_gradient",
    "C31_step"
   ],
   "note": "exact arithmetic, non-zero gradient: n passes suffice, point in the ball, model strictly below zero and at least as good as the Cauchy point. Example C31_ex."
  },
  {
   "property": "C32",
   "status": "proved",
   "theorems": [
    "C32_model_value_of_step_taken",
    "C32_predicted_decrease",
    "C32_scg_refuted"
   ],
   "note": "exact arithmetic; all strategies but scg, for which it is refuted Example C32_ex (Prop_TruncFull): the hypotheses of C32_predicted_decrease met by a main candidate that is stepped back."
  },
  {
   "property": "C33",
   "status": "proved",
   "theorems": [
    "C33_gradient",
    "C33_main",
    "C33_candidates",
    "C33_truncated_full",
    "C33_truncated_refuted"
   ],
   "note": "exact arithmetic; main step: exact eigen-decomposition and root finders that do their job (roots_found, see C27; without it C27_fallback_refuted). C33_truncated_refuted: truncated candidates can leave the region, in a run in double precision (eig2, solve2, bisect, newton_it are executable stand-ins for LAPACK and scipy for two variables). C33_truncated_full: solver full, every strategy but refine, every candidate of the set (each with >= 2 columns is assumed solved: solved_within, the remaining radius positive, example C33_truncated_ex with a truncated candidate). Refined candidates: C71. Example C33_ex."
  },
  {
   "property": "C34",
   "status": "proved",
   "theorems": [
    "C34_best_candidate",
    "C34_no_worse_than_gradient"
   ],
   "note": "any IEEE-like number system"
  },
  {
   "property": "C35",
   "status": "proved",
   "theorems": [
    "C35_gradient_candidate",
    "C35_predicted_decrease"
   ],
   "note": "exact arithmetic. Example C35_ex."
  },
  {
   "property": "C36",
   "status": "proved",
   "theorems": [
    "C36_reflections_bounded",
    "C36_candidate_set"
   ],
   "note": "reflection bound in any number system; truncation (and the whole candidate set, every solver and strategy, at most 2n+3 candidates) in exact arithmetic with finite eigen-decompositions. Example C36_ex."
  },
  {
   "property": "C37",
   "status": "proved",
   "theorems": [
    "C37_only_last_reflection_counted",
    "C37_refuted"
   ],
   "note": "refuted as stated"
  },
  {
   "property": "C38",
   "status": "proved",
   "theorems": [
    "C38_orthonormal_basis"
   ],
   "note": "exact arithmetic; arbitrary lstsq/eig results with non-zero vectors. Example C38_ex."
  },
  {
   "property": "C39",
   "status": "proved",
   "theorems": [
    "C39_zero_curvature_is_NaN",
    "C39_curved_is_finite",
    "C39_refuted"
   ],
   "note": "refuted as stated; the NaN case is characterised exactly"
  },
  {
   "property": "C40",
   "status": "proved",
   "theorems": [
    "C40_secant_equation",
    "C40_BFGS_DFP",
    "C40_run"
   ],
   "note": "per update, and for every accepted step of a run of minimize in terms of the gradients returned at the two points (example secant_run_ex); exact arithmetic"
  },
  {
   "property": "C41",
   "status": "proved",
   "theorems": [
    "C41_updates_preserve_symmetry",
    "C41_model_hessian_symmetric"
   ],
   "note": "any number system with commutative multiplication (instances ER, F64), at scheme level and for whole runs; Broyden's good method excluded (C41_BG_not_symmetric)"
  },
  {
   "property": "C42",
   "status": "proved",
   "theorems": [
    "C42_positive_definite",
    "C42_default_start",
    "C42_semidefinite_refuted",
    "C42_run_positive_definite"
   ],
   "note": "exact arithmetic; per update and for the Hessian in use at every loop head of a run; the docstring's semidefinite claim is refuted"
  },
  {
   "property": "C43",
   "status": "proved",
   "theorems": [
    "C43_guard_discards",
    "C43_exact",
    "C43_run"
   ],
   "note": "per update, and for every accepted step of a run of minimize in terms of the gradients returned at the two points (example secant_run_ex); any IEEE-like number system"
  },
  {
   "property": "C44",
   "status": "proved",
   "theorems": [
    "C44_secant",
    "C44_skipped",
    "C44_exhaustive",
    "C44_exact_model_refuted",
    "C44_run"
   ],
   "note": "per update, and for every accepted step of a run of minimize in terms of the gradients returned at the two points (example secant_run_ex); exact arithmetic; finiteness refuted when y = B s"
  },
  {
   "property": "C45",
   "status": "proved",
   "theorems": [
    "C45_good_broyden",
    "C45_run"
   ],
   "note": "per update, and for every accepted step of a run of minimize in terms of the gradients returned at the two points (example secant_run_ex); exact arithmetic"
  },
  {
   "property": "C46",
   "status": "proved",
   "theorems": [
    "C46_never_updates",
    "C46_secant_refuted",
    "C46_run_never_updates"
   ],
   "note": "refuted as stated: BB never applies its update, in any number system; hence a run keeps its initial Hessian"
  },
  {
   "property": "C47",
   "status": "proved",
   "theorems": [
    "C47_iterative",
    "C47_updates_add_up",
    "C47_run",
    "C47_run_iterative",
    "C47_BB_refuted"
   ],
   "note": "refuted for BB; proved for all other schemes, per update and for every pass of a run with a history file (the recorded smallest and largest eigenvalue of the update are those of the matrix that was added); non-vacuity C47_run_ex"
  },
  {
   "property": "C48",
   "status": "proved",
   "theorems": [
    "C48_fixed",
    "C48_fraction",
    "C48_never_back",
    "C48_run_fixed",
    "C48_run_fraction",
    "C48_passes"
   ],
   "note": "any number system; for the schemes alone and for the matrix in use at every loop head of a run of minimize (accepted_so_far lists the accepted passes of the run, shown is the specification); example C48_run_ex"
  },
  {
   "property": "C49",
   "status": "proved",
   "theorems": [
    "C49_alternates",
    "C49_documented_direction_refuted",
    "C49_positive_definite",
    "C49_run"
   ],
   "note": "the docstring states the switch in the opposite direction; C49_run is about every accepted step of a run of minimize, in any number system, with the residuals and Jacobians the objective returned; example C49_run_ex"
  },
  {
   "property": "C50",
   "status": "proved",
   "theorems": [
    "C50_SSM",
    "C50_TSSM",
    "C50_GNSBFGS",
    "C50_run_SSM",
    "C50_run_TSSM",
    "C50_run_GNSBFGS"
   ],
   "note": "exact arithmetic; per update, and for every accepted step of a run of minimize in terms of the residuals and Jacobians returned at the two points; example C50_run_ex"
  },
  {
   "property": "C51",
   "status": "proved",
   "theorems": [
    "C51_positive_definite",
    "C51_run_positive_definite"
   ],
   "note": "exact arithmetic; per update and for the Hessian in use at every loop head of a run"
  },
  {
   "property": "C52",
   "status": "proved",
   "theorems": [
    "C52_init",
    "C52_init_contents",
    "C52_first_model",
    "C52_set_mat",
    "C52_nonsquare_refuted",
    "C52_hess_string_refuted"
   ],
   "note": "copying is value semantics in the model"
  },
  {
   "property": "C53",
   "status": "proved",
   "theorems": [
    "C53_sequential",
    "C53_alone",
    "C53_exclusive",
    "C53_any_interleaving",
    "C53_concurrent_refuted"
   ],
   "note": "any number of calls and threads, any schedule at bytecode granularity; distinctness of concurrent calls refuted, and proved for schedules whose counter accesses do not overlap. Example C53_ex."
  },
  {
   "property": "C54",
   "status": "proved",
   "theorems": [
    "C54_logging_is_transparent",
    "C54_messages_of_a_pass",
    "C54_table",
    "C54_columns"
   ],
   "note": "messages as structured data (iteration, value, radius, norms, accepted flag); number formatting is not modelled. Example C54_example."
  },
  {
   "property": "C55",
   "status": "proved",
   "theorems": [
    "C55_step_not_shortened",
    "C55_same_step",
    "C55_strategy_irrelevant"
   ],
   "note": "any IEEE-like number system, in particular binary64. Example C55_ex."
  },
  {
   "property": "C56",
   "status": "proved",
   "theorems": [
    "C56_steep_passes_bounded",
    "C56_iterations_bounded",
    "C56_minimize_converges",
    "C56_stationary_point_found",
    "C56_bound_exists",
    "C56_small_gradient_reached"
   ],
   "note": "exact arithmetic, all three subspace solvers, no finite bounds; for 'full' and '2D' the model Hessians must be positive definite and the eigen/least-squares/root finding oracles exact on them (usable), and the tolerance must exceed the fixed slack of the exact solvers (coarse); the bound most_passes is explicit and C56_bound_exists shows its parameters exist. The radius must not have fallen below machine spacing (hypothesis on least_radius, given explicitly). Examples C56_ex (scg) and C56_ex_exact (full, 2D)."
  },
  {
   "property": "C57",
   "status": "proved",
   "theorems": [
    "C57_observers",
    "C57_clock_and_names_do_not_matter",
    "C57_history_file"
   ],
   "note": "any IEEE-like number system, in particular binary64. Example C57_ex shows all three outcomes."
  },
  {
   "property": "C58",
   "status": "proved",
   "theorems": [
    "C58_reflected_candidates",
    "C58_truncated_candidates",
    "C58_truncated_components_stay"
   ],
   "note": "exact arithmetic; first_hit/mirrored/cut_down are a small separate vocabulary. A candidate whose line problem has no finite answer is reported as NaN (disjunct nan_step). Example C58_ex: both lists non-empty with explicit coordinates."
  },
  {
   "property": "C59",
   "status": "proved",
   "theorems": [
    "C59_main_step_alone",
    "C59_mixed_best",
    "C59_reflect_better_than_single",
    "C59_unknown_strategy"
   ],
   "note": "any IEEE-like number system, in particular binary64. Example C59_ex: seven candidates, strict improvement."
  },
  {
   "property": "C60",
   "status": "proved",
   "theorems": [
    "C60_every_pass",
    "C60_minimizer_found",
    "C60_one_iteration",
    "C60_bound_exists"
   ],
   "note": "exact arithmetic; the external eigen/least-squares/root finding routines must be exact for A. reach k says that the minimizer is within delta_init*gamma2^k of every point the run can visit; strong_reach derives it from a lower eigenvalue bound and C60_bound_exists shows that k exists when gamma2 > 1. Examples C60_ex, C60_ex1 (both solvers)."
  },
  {
   "property": "C61",
   "status": "proved",
   "theorems": [
    "C61_hereditary",
    "C61_recovers_hessian",
    "C61_run_keeps",
    "C61_run_learns"
   ],
   "note": "exact arithmetic. With bounds, minimize moves accepted points off the bounds after evaluating them, so its pairs are no longer exact differences: the run theorems therefore assume no bounds. Examples C61_ex (two updates recover a 2x2 Hessian), C61_run_ex (a pass of minimize turns the model 1 into 2)."
  },
  {
   "property": "C62",
   "status": "proved",
   "theorems": [
    "C62_only_answers_matter",
    "C62_outside_the_box_irrelevant"
   ],
   "note": "the first theorem for any number system; the objective is one that does not modify its argument and does not look at the clock of the run. Examples C62_ex (objective cut off after the calls made), C62_box_ex (objective that raises above the upper bound)."
  },
  {
   "property": "C63",
   "status": "proved",
   "theorems": [
    "C63_steep_passes_bounded",
    "C63_first_order_point_reached",
    "C63_bound_exists",
    "C63_exact_solvers"
   ],
   "note": "exact arithmetic; solvers full and 2D, strategies reflect and reflect_single. good_run / exact_run are hypotheses on the heads of the run: bounded model Hessian, solver decrease (proved from exact linear algebra in C63_exact_solvers), and that no proposal is NaN (a reflected candidate whose start lies outside the trust region is NaN in the code, and argmin picks it). scg is excluded because a shortened scg step is inconsistent with its model value (C32). Example C63_ex: x^2+y^2 on [-10,10]^2 from (1,1), every hypothesis verified along the whole run."
  },
  {
   "property": "C64",
   "status": "proved",
   "theorems": [
    "C64_same_trajectory",
    "C64_tighter_continues",
    "C64_iteration_budget"
   ],
   "note": "any number system, so binary64; C64_tighter_continues needs finite fatol, frtol, grtol (inf*0 is NaN in the code). EDiverge is running out of model fuel, EExternal is a failing external routine or history file. Example C64_ex."
  },
  {
   "property": "C65",
   "status": "proved",
   "theorems": [
    "C65_zero_step",
    "C65_stationary_start",
    "C65_scg_undefined",
    "C65_scg_refuted"
   ],
   "note": "exact arithmetic with exact linear algebra for the scaled Hessian (exact_solver); theta_max in (0,1], delta_init >= 2^-52, gatol >= 0, mu >= 0, no history file, maxtime infinite, bounds at least two margins apart. C65_scg_refuted is a binary64 run of x^2+y^2 from (0,0): 28 evaluations, 27 of them at NaN points, DELTA_TOO_SMALL. Examples C65_ex, C65_double_precision."
  },
  {
   "property": "C66",
   "status": "proved",
   "theorems": [
    "C66_translation",
    "C66_new_optimizer",
    "C66_result"
   ],
   "note": "exact arithmetic. moved c s is s with c added to the stored and evaluated points only; shv c v = v + c (shv_vadd). Example C66_ex: x^2+y^2 moved to (5,7)"
  },
  {
   "property": "C67",
   "status": "proved",
   "theorems": [
    "C67_constant_offset",
    "C67_new_optimizer"
   ],
   "note": "exact arithmetic. raised k s is s with k added to the stored function values only. Example C67_ex"
  },
  {
   "property": "C68",
   "status": "proved",
   "theorems": [
    "C68_saddle_step",
    "C68_saddle_accepted",
    "C68_saddle_pass",
    "C68_one_variable_stays",
    "C68_one_variable_refuted"
   ],
   "note": "exact arithmetic, no bounds. at_saddle describes the optimizer's state (point, zero gradient, model Hessian with lowest curvature m < 0, radius d); lowest is the Rayleigh-quotient characterization; sees: the eigenvalue routines are exact. C68_one_variable_refuted is a binary64 run of -x^2 from 0 with the default solver. Examples C68_ex (both solvers), C68_double_precision."
  },
  {
   "property": "C69",
   "status": "proved",
   "theorems": [
    "C69_newton_step",
    "C69_quadratic_convergence",
    "C69_fast_local_convergence"
   ],
   "note": "exact arithmetic, no bounds, exact Hessians; nondegenerate (Newton.v) is the specification of the minimizer, close the neighbourhood; the external eigen/least-squares/root finding routines must be exact for the Hessians near xs (nothing is needed of them with one variable). onwards f0 s0 k f s: k further passes of the loop. Example C69_ex: x^2/2 + x^3/6 (unbounded below) from 1/4"
  },
  {
   "property": "C70",
   "status": "proved",
   "theorems": [
    "C70_first_evaluated_point",
    "C70_away_from_bounds",
    "C70_integer_box_keeps_start",
    "C70_same_start_refuted",
    "C70_first_points_refuted"
   ],
   "note": "minimize_int (Prop_IntStart.v) models a call with an integer array: assignments into it truncate toward zero; toward_zero is the specification of the move. The _refuted theorems show in doubles that the type of x0 matters: a feasible integer start is rejected, one is moved by a whole unit, one is evaluated on the bound"
  },
  {
   "property": "C71",
   "status": "proved",
   "theorems": [
    "C71_handed_problem",
    "C71_refine_best",
    "C71_guess"
   ],
   "note": "exact arithmetic; allowed, predicted, short_of (the admissible steps and the model) and feasible, exact_refine (what scipy's trust-constr is asked and supposed to do) are the specification; that the search space and the subspace solver's answer are finite is a hypothesis; example C71_ex, where the refined step is more than twice as good as the cut one"
  },
  {
   "property": "C72",
   "status": "proved",
   "theorems": [
    "C72_documented_stops",
    "C72_reported",
    "C72_ftol_refuted",
    "C72_xtol_refuted",
    "C72_gtol_refuted"
   ],
   "note": "documented_f, documented_x, documented_g transcribe the docstring; the positive parts in exact arithmetic, the counterexamples are double-precision runs"
  },
  {
   "property": "C73",
   "status": "proved",
   "theorems": [
    "C73_stays_exact",
    "C73_same_run",
    "C73_finite",
    "C73_one_iteration",
    "C73_sr1_refuted"
   ],
   "note": "with_hessian and three_outputs define the second optimizer, same_trace what is compared, keeps_exact the schemes; the finite-termination corollaries use the setting of C60; no history output; SR1 fails (double-precision run); examples C73_ex, C73_ex1"
  },
  {
   "property": "C74",
   "status": "proved",
   "theorems": [
    "C74_BFGS",
    "C74_DFP",
    "C74_interpolates",
    "C74_dual",
    "C74_dual_updates",
    "C74_run"
   ],
   "note": "per update, and for every accepted step of a run of minimize in terms of the gradients returned at the two points (example secant_run_ex); the formulas are the definitions bfgs_formula and dfp_formula, regular the assumptions, updated the model's update; exact arithmetic; C40 to C43 are the consequences (secant equation, symmetry, definiteness, guard)"
  },
  {
   "property": "C75",
   "status": "proved",
   "theorems": [
    "C75_BG_pythagoras",
    "C75_BG_least_change",
    "C75_SR1_unique"
   ],
   "note": "fro2 is the squared Frobenius norm, updated the model's update (Prop_Textbook); exact arithmetic; complements C44 and C45"
  },
  {
   "property": "C76",
   "status": "proved",
   "theorems": [
    "C76_one_direction",
    "C76_moving_part",
    "C76_decoupled",
    "C76_best_step_refuted"
   ],
   "note": "explores says which directions and which fixed part a candidate has; solved_convex that the reduced problem is positive definite and the external routines solve it; qmodel is the predicted change; with the solver 2D several masked columns may be dependent, then the reduced matrix is singular and only the counterexample applies; positive parts in exact arithmetic, the counterexample is a double-precision run; examples C76_ex (two directions left), C33_truncated_ex (one)"
  }
 ]
}