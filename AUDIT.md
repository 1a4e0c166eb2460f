# Assumptions of every claimed theorem

Generated by `tools/audit.py` (Coq `Print Assumptions`).

## Closed under the global context

- C01 `Prop_Options.C01_accepts_iff`
- C01 `Prop_Options.C01_unknown_key`
- C01 `Prop_Options.C01_wrong_value`
- C01 `Prop_Options.C01_exception`
- C01 `Prop_Options.C01_read_last`
- C01 `Prop_Options.C01_read_default`
- C01 `Prop_Options.C01_defaults`
- C01 `Prop_Options.C01_configured`
- C02 `Prop_Options.C02_enum_keys`
- C02 `Prop_Options.C02_string_key_refuted`
- C03 `Prop_Options.C03_accepts_iff`
- C03 `Prop_Options.C03_rejection_is_ValueError`
- C03 `Prop_Options.C03_nargout`
- C03 `Prop_Options.C03_evaluable`
- C03 `Prop_Options.C03_resfun_without_scheme_refuted`
- C04 `Prop_Options.C04_contract_enforced`
- C04 `Prop_Options.C04_valid_output_accepted`
- C05 `Prop_LSQ.C05_bad_shapes`
- C06 `Prop_Run.C06_terminates`
- C06 `Prop_Run.C06_no_divergence`
- C07 `Prop_Run.C07_exit_flag`
- C07 `Prop_Run.C07_converged_iff`
- C07 `Prop_Run.C07_flag_numbers`
- C07 `Prop_Stops.C07_criteria`
- C07 `Prop_Stops.C07_none_missed`
- C14 `Prop_Run.C14_radius_rule`
- C14 `Prop_Run.C14_counters`
- C18 `Prop_Run.C18_nonfinite_start_raises`
- C20 `Prop_Run2.C20_nothing_on_error`
- C24 `Prop_Run2.C24_start_time`
- C36 `Prop_Cand.C36_reflections_bounded`
- C37 `Prop_StepFind.C37_only_last_reflection_counted`
- C41 `Prop_Sym.C41_updates_preserve_symmetry`
- C46 `Prop_Quasi.C46_never_updates`
- C47 `Prop_Quasi2.C47_iterative`
- C48 `Prop_Quasi2.C48_fixed`
- C48 `Prop_Quasi2.C48_fraction`
- C48 `Prop_Quasi2.C48_never_back`
- C49 `Prop_Quasi2.C49_alternates`
- C52 `Prop_Quasi2.C52_init`
- C52 `Prop_Start.C52_init_contents`
- C52 `Prop_Start.C52_first_model`
- C52 `Prop_Quasi2.C52_set_mat`
- C52 `Prop_HessString.C52_hess_string_refuted`
- C53 `Prop_Logging.C53_sequential`
- C53 `Prop_Logging.C53_alone`
- C53 `Prop_Logging.C53_exclusive`
- C53 `Prop_Logging.C53_any_interleaving`
- C53 `Prop_Logging.C53_concurrent_refuted`
- C54 `Prop_LogTable.C54_logging_is_transparent`
- C54 `Prop_LogTable.C54_columns`
- C59 `Prop_Strategy.C59_main_step_alone`
- C62 `Prop_Local.C62_only_answers_matter`
- C64 `Prop_Stopping.C64_iteration_budget`

## Axioms (all from the standard library): `ClassicalDedekindReals.sig_forall_dec`, `ClassicalDedekindReals.sig_not_dec`, `FunctionalExtensionality.functional_extensionality_dep`

- C05 `Prop_LSQ.C05_least_squares`
- C05 `Prop_LSQ.C05_value_not_negative`
- C06 `Prop_Run.C06_iteration_budget`
- C06 `Prop_Run.C06_evaluations_counted`
- C06 `Prop_Terminates.C06_no_divergence_exact`
- C07 `Prop_Run.C07_runtime_error`
- C08 `Prop_Run.C08_step_decreases`
- C08 `Prop_Run.C08_never_worse_than_start`
- C09 `Prop_Run.C09_best_point`
- C09 `Prop_Run.C09_best_point_returned`
- C10 `Prop_Run.C10_check_is_membership`
- C10 `Prop_Run.C10_iterates_in_box`
- C10 `Prop_Run.C10_returned_in_box`
- C10 `Prop_Nudge.C10_iterates_exactly_in_box`
- C10 `Prop_Nudge.C10_returned_exactly_in_box`
- C11 `Prop_BoxRun2.C11_trial_points`
- C11 `Prop_BoxRun2.C11_all_evaluations`
- C11 `Prop_BoxRun2.C11_accepted_in_box`
- C11 `Prop_BoxRun2.C11_no_bounds_error`
- C13 `Prop_Nudge.C13_moved_inside`
- C13 `Prop_Nudge.C13_far_outside_rejected`
- C14 `Prop_Run.C14_radius_stays_nonnegative`
- C14 `Prop_Run.C14_radius_grows_only_when`
- C15 `Prop_Run.C15_pass`
- C15 `Prop_Update.C15_update_data`
- C16 `Prop_Run.C16_returned_is_evaluated`
- C17 `Prop_RunEx.C17_gtol_when_accepted`
- C18 `Prop_Run.C18_returned_finite`
- C18 `Prop_Run.C18_nonfinite_trial_rejected`
- C18 `Prop_Run.C18_nonfinite_derivative_raises`
- C19 `Prop_Reject.C19_rejection_shrinks`
- C19 `Prop_Reject.C19_geometric_decrease`
- C19 `Prop_Reject.C19_stops`
- C19 `Prop_Reject.C19_nan_ratio_keeps_radius`
- C20 `Prop_Run2.C20_written_once`
- C20 `Prop_Run2.C20_reused_id`
- C20 `Prop_Run2.C20_no_history_file`
- C20 `Prop_Run2.C20_record_of_a_pass`
- C20 `Prop_Run2.C20_fval_series`
- C20 `Prop_History.C20_every_series`
- C21 `Prop_Reuse.C21_reuse`
- C21 `Prop_Reuse.C21_like_new`
- C22 `Prop_Run2.C22_old_arrays_untouched`
- C23 `Prop_Nudge.C23_entries`
- C23 `Prop_BoxRun.C23_scaling_invertible`
- C23 `Prop_BoxRun.C23_theta_range`
- C23 `Prop_Start.C23_theta_of_every_pass`
- C24 `Prop_Run2.C24_stops_iff`
- C24 `Prop_Run2.C24_infinite_budget`
- C25 `Prop_Sub1d.C25_exact_line_minimizer`
- C25 `Prop_Sub1d.C25_any_start`
- C25 `Prop_Sub1d.C25_degenerate`
- C26 `Prop_Sub1d.C26_tangential_is_NaN`
- C26 `Prop_Sub1d.C26_finite_refuted`
- C27 `Prop_SubNd.C27_accepted_steps`
- C27 `Prop_SubNd.C27_hard_on_boundary`
- C27 `Prop_SubNd.C27_with_newton`
- C27 `Prop_SubNd.C27_fallback_refuted`
- C28 `Prop_SubNd.C28_posdef_unconstrained`
- C28 `Prop_SubNd.C28_indef_global`
- C28 `Prop_SubNd.C28_hard_global`
- C28 `Prop_SubNd.C28_solves`
- C29 `Prop_SubNd2.C29_exact_extent`
- C29 `Prop_SubNd2.C29_left_end_exists`
- C29 `Prop_SubNd.C29_refuted`
- C30 `Prop_Secular.C30_secular_derivative`
- C31 `Prop_CG.C31_conjugate_gradient`
- C31 `Prop_CG.C31_step`
- C32 `Prop_Pred.C32_model_value_of_step_taken`
- C32 `Prop_Pred.C32_predicted_decrease`
- C33 `Prop_Region.C33_gradient`
- C33 `Prop_Region.C33_main`
- C33 `Prop_Region.C33_candidates`
- C33 `Prop_TruncFull.C33_truncated_full`
- C34 `Prop_Cand.C34_best_candidate`
- C34 `Prop_Cand.C34_no_worse_than_gradient`
- C35 `Prop_Grad.C35_gradient_candidate`
- C35 `Prop_Grad.C35_predicted_decrease`
- C36 `Prop_Stepback.C36_candidate_set`
- C38 `Prop_TwoD.C38_orthonormal_basis`
- C39 `Prop_StepFind.C39_zero_curvature_is_NaN`
- C39 `Prop_StepFind.C39_curved_is_finite`
- C40 `Prop_Quasi.C40_secant_equation`
- C40 `Prop_Quasi.C40_BFGS_DFP`
- C40 `Prop_SecantRun.C40_run`
- C41 `Prop_Sym.C41_model_hessian_symmetric`
- C42 `Prop_Quasi.C42_positive_definite`
- C42 `Prop_Quasi.C42_default_start`
- C42 `Prop_Quasi.C42_semidefinite_refuted`
- C42 `Prop_QuasiRun.C42_run_positive_definite`
- C43 `Prop_Quasi.C43_guard_discards`
- C43 `Prop_Quasi.C43_exact`
- C43 `Prop_SecantRun.C43_run`
- C44 `Prop_Quasi.C44_secant`
- C44 `Prop_Quasi.C44_skipped`
- C44 `Prop_Quasi.C44_exhaustive`
- C44 `Prop_Quasi.C44_exact_model_refuted`
- C44 `Prop_SecantRun.C44_run`
- C45 `Prop_Quasi.C45_good_broyden`
- C45 `Prop_SecantRun.C45_run`
- C46 `Prop_Quasi.C46_secant_refuted`
- C46 `Prop_QuasiRun.C46_run_never_updates`
- C47 `Prop_Quasi2.C47_updates_add_up`
- C47 `Prop_UpdatesRun.C47_run`
- C47 `Prop_UpdatesRun.C47_run_iterative`
- C47 `Prop_Quasi2.C47_BB_refuted`
- C48 `Prop_Hybrid.C48_run_fixed`
- C48 `Prop_Hybrid.C48_run_fraction`
- C48 `Prop_Hybrid.C48_passes`
- C49 `Prop_Quasi2.C49_documented_direction_refuted`
- C49 `Prop_Quasi2.C49_positive_definite`
- C49 `Prop_StructRun.C49_run`
- C50 `Prop_Quasi2.C50_SSM`
- C50 `Prop_Quasi2.C50_TSSM`
- C50 `Prop_Quasi2.C50_GNSBFGS`
- C50 `Prop_StructRun.C50_run_SSM`
- C50 `Prop_StructRun.C50_run_TSSM`
- C50 `Prop_StructRun.C50_run_GNSBFGS`
- C51 `Prop_Quasi2.C51_positive_definite`
- C51 `Prop_QuasiRun.C51_run_positive_definite`
- C52 `Prop_Quasi2.C52_nonsquare_refuted`
- C54 `Prop_LogTable.C54_messages_of_a_pass`
- C54 `Prop_LogTable.C54_table`
- C55 `Prop_Unbounded.C55_step_not_shortened`
- C55 `Prop_Unbounded.C55_same_step`
- C55 `Prop_Unbounded.C55_strategy_irrelevant`
- C56 `Prop_Converge.C56_steep_passes_bounded`
- C56 `Prop_Converge2.C56_iterations_bounded`
- C56 `Prop_Converge2.C56_minimize_converges`
- C56 `Prop_Converge2.C56_stationary_point_found`
- C56 `Prop_Converge2.C56_small_gradient_reached`
- C57 `Prop_Observers.C57_observers`
- C57 `Prop_Observers.C57_clock_and_names_do_not_matter`
- C57 `Prop_Observers.C57_history_file`
- C58 `Prop_Reflect.C58_reflected_candidates`
- C58 `Prop_Reflect.C58_truncated_candidates`
- C58 `Prop_Reflect.C58_truncated_components_stay`
- C59 `Prop_Strategy.C59_mixed_best`
- C59 `Prop_Strategy.C59_reflect_better_than_single`
- C59 `Prop_Strategy.C59_unknown_strategy`
- C60 `Prop_Quadratic.C60_every_pass`
- C60 `Prop_Quadratic.C60_minimizer_found`
- C60 `Prop_Quadratic.C60_one_iteration`
- C60 `Prop_Quadratic.C60_bound_exists`
- C61 `Prop_SR1.C61_hereditary`
- C61 `Prop_SR1.C61_recovers_hessian`
- C61 `Prop_SR1.C61_run_keeps`
- C61 `Prop_SR1.C61_run_learns`
- C62 `Prop_Local.C62_outside_the_box_irrelevant`
- C63 `Prop_ConvergeBox.C63_steep_passes_bounded`
- C63 `Prop_ConvergeBox.C63_first_order_point_reached`
- C63 `Prop_ConvergeBox2.C63_exact_solvers`
- C64 `Prop_Stopping.C64_same_trajectory`
- C64 `Prop_Stopping.C64_tighter_continues`
- C65 `Prop_Stationary.C65_zero_step`
- C65 `Prop_Stationary.C65_stationary_start`
- C65 `Prop_Stationary.C65_scg_undefined`
- C66 `Prop_Translate.C66_translation`
- C66 `Prop_Translate.C66_new_optimizer`
- C66 `Prop_Translate.C66_result`
- C67 `Prop_Translate.C67_constant_offset`
- C67 `Prop_Translate.C67_new_optimizer`
- C68 `Prop_Saddle.C68_saddle_step`
- C68 `Prop_Saddle.C68_saddle_accepted`
- C68 `Prop_Saddle.C68_saddle_pass`
- C68 `Prop_Saddle.C68_one_variable_stays`
- C69 `Prop_Newton.C69_newton_step`
- C69 `Prop_Newton.C69_quadratic_convergence`
- C69 `Prop_Newton.C69_fast_local_convergence`
- C70 `Prop_IntStart.C70_first_evaluated_point`
- C70 `Prop_IntStart.C70_away_from_bounds`
- C70 `Prop_IntStart.C70_integer_box_keeps_start`
- C71 `Prop_Refine.C71_handed_problem`
- C71 `Prop_Refine.C71_refine_best`
- C71 `Prop_Refine.C71_guess`
- C72 `Prop_Stops.C72_documented_stops`
- C72 `Prop_Stops.C72_reported`
- C73 `Prop_ExactQuad.C73_stays_exact`
- C73 `Prop_ExactRun.C73_same_run`
- C73 `Prop_ExactRun.C73_finite`
- C73 `Prop_ExactRun.C73_one_iteration`
- C74 `Prop_Textbook.C74_BFGS`
- C74 `Prop_Textbook.C74_DFP`
- C74 `Prop_Textbook.C74_interpolates`
- C74 `Prop_Textbook.C74_dual`
- C74 `Prop_Textbook.C74_dual_updates`
- C74 `Prop_SecantRun.C74_run`
- C75 `Prop_LeastChange.C75_BG_pythagoras`
- C75 `Prop_LeastChange.C75_BG_least_change`
- C75 `Prop_LeastChange.C75_SR1_unique`
- C76 `Prop_TruncModel.C76_one_direction`
- C76 `Prop_TruncModel.C76_moving_part`
- C76 `Prop_TruncModel.C76_decoupled`

## Axioms (all from the standard library): `ClassicalDedekindReals.sig_forall_dec`, `ClassicalDedekindReals.sig_not_dec`, `Classical_Prop.classic`, `FunctionalExtensionality.functional_extensionality_dep`

- C06 `Prop_ScgHang.C06_scg_hangs_refuted`
- C09 `Prop_RunEx.C09_exact_xmin_refuted`
- C12 `Prop_BoxF64.C12_step_back`
- C12 `Prop_BoxF64.C12_plain_trial_point`
- C12 `Prop_BoxTrunc.C12_truncated_trial_point`
- C12 `Prop_BoxF64.C12_run_refuted`
- C12 `Prop_BoxReflect.C12_reflected_refuted`
- C12 `Prop_BoxReflect.C12_unnoticed_refuted`
- C13 `Prop_Nudge.C13_strict_interior_refuted_in_doubles`
- C15 `Prop_StopsEx.C15_mu_refuted`
- C16 `Prop_RunEx.C16_value_at_x_refuted`
- C17 `Prop_RunEx.C17_gtol_refuted`
- C19 `Prop_Reject.C19_halving_doubles`
- C19 `Prop_Reject.C19_stops_doubles`
- C19 `Prop_RunEx.C19_nan_ratio_refuted`
- C21 `Prop_Reuse.C21_hybrid_refuted`
- C21 `Prop_Reuse.C21_error_flag_refuted`
- C32 `Prop_StepFind.C32_scg_refuted`
- C33 `Prop_TruncRegion.C33_truncated_refuted`
- C37 `Prop_StepFind.C37_refuted`
- C39 `Prop_StepFind.C39_refuted`
- C65 `Prop_Stationary.C65_scg_refuted`
- C68 `Prop_Saddle.C68_one_variable_refuted`
- C70 `Prop_IntStart.C70_same_start_refuted`
- C70 `Prop_IntStart.C70_first_points_refuted`
- C72 `Prop_StopsEx.C72_ftol_refuted`
- C72 `Prop_StopsEx.C72_xtol_refuted`
- C72 `Prop_StopsEx.C72_gtol_refuted`
- C73 `Prop_ExactSR1.C73_sr1_refuted`
- C76 `Prop_TruncModel.C76_best_step_refuted`

## Axioms (all from the standard library): `ClassicalDedekindReals.sig_forall_dec`, `FunctionalExtensionality.functional_extensionality_dep`

- C56 `Prop_Converge2.C56_bound_exists`
- C63 `Prop_ConvergeBox.C63_bound_exists`
