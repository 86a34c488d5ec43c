# Print Assumptions of every theorem named in MANIFEST.json

Generated by `tools/assumptions.py` after a build. Axioms that occur: `ClassicalDedekindReals.sig_forall_dec`, `ClassicalDedekindReals.sig_not_dec`, `Classical_Prop.classic`, `FunctionalExtensionality.functional_extensionality_dep`. All are axioms of the Coq standard library.

## Closed under the global context (no axioms)

* C01: `DofsProps.C01_free_x_roundtrip`, `DofsProps.C01_full_x_roundtrip`
* C02: `DofsProps.C02_free_wrong_length_rejected`, `DofsProps.C02_full_wrong_length_rejected`, `DofsProps.C02_failed_operation_is_atomic`
* C03: `DofsProps.C03_fix_unfix`, `DofsProps.C03_unknown_key`, `DofsProps.C03_status_is_last_given`, `DofsProps.C03_status_untouched`, `DofsProps.C03_free_count`, `DofsProps.C03_all_any_status`
* C04: `DofsProps.C04_set_get`, `DofsProps.C04_get`, `DofsProps.C04_unknown_key_rejected`, `DofsProps.C04_bound_updates`, `DofsProps.C04_key_denotes_one`
* C05: `DofsProps.C05_views_aligned`, `DofsProps.C05_bounds_roundtrip`
* C06: `DofsProps.C06_constructed_wf`, `DofsProps.C06_constructor_accepts_exactly`, `DofsProps.C06_constructor_defaults`, `DofsProps.C06_history_wf`, `DofsProps.C06_history_names`
* C07: `DofsProps.C07_full_bounds_setter_refuted`
* C08: `AliasModel.C08_independent_when_arrays_are_fresh`, `AliasModel.C08_target_gets_the_values`, `AliasModel.C08_shared_array_refuted`, `AliasModel.C08_constructor_and_getter_refuted`, `ExactAlias.C08_exact_effect`
* C09: `GraphProps.C09_ancestors_are_the_closure`, `GraphProps.C09_add_parent`, `GraphProps.C09_cycle_never_returns`, `GraphProps.C09_pop_parent`, `GraphProps.C09_pop_parent_out_of_range`, `GraphProps.C09_remove_parent`, `GraphProps.C09_remove_parent_absent`, `GraphProps.C09_every_call_returns`
* C10: `GraphProps.C10_sizes_count_each_dofs_once`, `GraphProps.C10_free_blocks`, `GraphProps.C10_full_blocks`
* C11: `GraphProps.C11_set_x`, `GraphProps.C11_wrong_length_rejected`
* C12: `GraphProps.C12_set_full_x`, `GraphProps.C12_length_contract_refuted`, `ExactGraph.C12_too_long`, `ExactGraph.C12_too_short`
* C13: `GraphProps.C13_set_x_flags`, `GraphProps.C13_set_full_x_flags`, `GraphProps.C13_set_flags`, `GraphProps.C13_unflagged_means_unchanged`
* C14: `GraphProps.C14_cached_value_is_current`, `GraphProps.C14_evaluation_returns`, `GraphProps.C14_value_unique`
* C15: `GraphProps.C15_fix_unfix`, `GraphProps.C15_fix_all_unfix_all`, `GraphProps.C15_local_fix_all`, `GraphProps.C15_full_fix_unfix`, `GraphProps.C15_unknown_key`, `GraphProps.C10_sizes_count_each_dofs_once`
* C16: `GraphProps.C16_pop_keeps_others`, `GraphProps.C16_duplicate_parent_refuted`, `ExactGraph.C16_pop_drops_the_link`, `ExactGraph.C16_notified_along_child_links`
* C17: `GraphProps.C17_lower_bounds`, `GraphProps.C17_upper_bounds`, `GraphProps.C17_wrong_length_rejected`, `GraphProps.C17_full_lower_bounds_refuted`, `ExactGraph.C17_full_lower_bounds_always_raise`
* C18: `MakeOptModel.C18_arguments_in_place`, `MakeOptModel.C18_unchanged_dofs_give_original_call`, `MakeOptModel.C18_accepts_exactly`, `MakeOptModel.C18_inferred_indicators`
* C19: `MakeOptModel.C19_same_class_distinct_names`, `MakeOptModel.C19_make_optimizable_names_refuted`, `MakeOptModel.C19_equal_names_lose_dofs_refuted`, `ExactGraph.C19_all_names_equal`, `ExactGraph.C19_one_ancestor_per_name`, `ExactGraph.C19_full_vector_of_same_named_parents`
* C21: `PartitionProps.C21_every_index_on_exactly_one_process`, `PartitionProps.C21_intervals_balanced_and_ordered`
* C22: `DerivProps.C22_results_may_be_updated`, `DerivProps.C22_inplace_arrays`
* C25: `JsonProps.C25_contents_preserved`, `JsonProps.C25_graph_preserved`
* C26: `JsonProps.C26_equal_names_confused`, `JsonProps.C26_not_preserved`
* C30: `PartitionProps.C30_ngroups_clamped`, `PartitionProps.C30_groups_partition_the_processes`, `PartitionProps.C30_group_communicator`, `PartitionProps.C30_leaders`
* C31: `MpiLoopProps.C31_terminates`, `MpiLoopProps.C31_no_deadlock`, `MpiLoopProps.C31_tasks_in_order`, `MpiLoopProps.C31_every_maximal_run_completes`
* C45: `SurfProps.C45_mn_match_names`, `SurfProps.C45_names_exactly_the_dofs`, `SurfProps.C45_names_distinct`
* C46: `SurfRes.C46_fixed_range`
* C47: `GraphProps.C47_external_copies_in_sync`, `GraphProps.C47_history`, `GraphProps.C47_replace_dofs_refuted`, `ExactGraph.C47_replace_dofs`, `ExactGraph.C47_repaired_by_assignment`
* C51: `JsonProps.C51_methods_split`, `JsonProps.C51_object_and_method_split`
* C52: `JsonProps.C52_no_redirect`, `JsonProps.C52_same_module`, `JsonProps.C52_moved_fails`, `JsonProps.C52_moved_mixture`
* C53: `JsonProps.C53_ref_dict_fails`, `JsonProps.C53_class_dict_becomes_object`
* C63: `InterpProps.C63_batches`
* C68: `CurveProps.C68_one_name_per_dof`
* C74: `DistProps.C74_num_basecurves`
* C75: `DistGrad.C75_fresh_histories`
* C77: `CurveObjProps.C77_arguments`, `CurveObjProps.C77_index_partition`
* C81: `MpiObjProps.C81_enough_objectives`
* C82: `MpiObjProps.C82_access`, `MpiObjProps.C82_no_bell`, `MpiObjProps.C82_owner_keeps`
* C88: `GPMOOver.C88_count`, `GPMOOver.C88_divides`
* C90: `WFCells.C90_neighbors`
* C97: `ProfileProps.C97_pressure_arguments`
* C99: `VmecFiles.C99_files_of_group_0`, `VmecFiles.C99_first_and_last`, `VmecFiles.C99_other_groups`, `VmecFiles.C99_keep_all`
* C112: `TensorProps.C112_num_dofs`
* C114: `BoozRunProps.C114_needs_first_run`, `BoozRunProps.C114_solver_memo`
* C120: `NormProps.C120_positions`, `NormProps.C120_names`
* C123: `CoilSetProps.C123_penalty_parents`, `CoilSetProps.C123_single_parent`, `CoilSetProps.C123_sum_refuted`, `CoilSetProps.C123_set_surface`

## `ClassicalDedekindReals.sig_forall_dec`

* C23: `GradProps.C23_as_derivative`
* C29: `FDProps.C29_each_point_evaluated_once`
* C33: `LsqProps.C33_no_recomputation`
* C36: `ConProps.C36_no_finite_bound`
* C37: `ConProps.C37_history_matches_reference`, `ConProps.C37_values_at_current_x`, `ConProps.C37_refuted_length`
* C45: `SurfProps.C45_dofs_are_named_coefficients`, `SurfProps.C45_sizes`, `SurfProps.C45_set_then_get`, `SurfProps.C45_set_leaves_others`, `SurfProps.C45_set_get_coefficient`, `SurfProps.C45_get_is_coefficient`, `SurfProps.C45_bad_index`, `SurfProps.C45_absent_arrays`, `SurfProps.C45_hidden_coefficients`
* C46: `SurfRes.C46_coefficients`, `SurfRes.C46_dofs`, `SurfRes.C46_status_forgotten`, `SurfRes.C46_grow_shrink`, `SurfRes.C46_grow_shrink_dofs`, `SurfRes.C46_change_wf`
* C65: `SurfGeomProps.C65_simd_rows`
* C68: `CurveProps.C68_set_dofs_reads_past_the_end_iff_short`, `CurveProps.C68_set_then_get`
* C69: `CurveProps.C69_arrays_keep_their_sizes`, `CurveProps.C69_set_then_get`
* C70: `PlanarProps.C70_set_then_get`, `PlanarProps.C70_get_then_set`
* C72: `CacheProps.C72_every_query_is_fresh`, `CacheProps.C72_persistent_values_are_never_recomputed`, `CacheProps.C72_shape_is_fixed_at_first_use`, `CacheProps.C72_nan_is_forever`, `CacheProps.C72_returned_arrays_are_the_cache`
* C92: `WFConstr.C92_update`, `WFCalls.C92_set_free`, `WFCalls.C92_free_undone`, `WFCalls.C92_add_implied`, `WFCalls.C92_set_constrained`
* C96: `RCLSProps.C96_single_unknown`
* C98: `VmecThms.C98_no_needless_run`, `VmecThms.C98_wout_object`, `VmecThms.C98_file_boundary`, `VmecThms.C98_total_current`
* C103: `SolveCon.C103_serial_solve`, `SolveCon.C103_objective_at_x`, `SolveCon.C103_solve_is_pure_run`, `SolveCon.C103_one_length`, `SolveCon.C103_first_failure_refuted`
* C104: `SolveMpiProps.C104_constrained_in_step`, `SolveMpiProps.C104_constrained_same_as_serial`, `SolveMpiProps.C104_constrained_repeat_refuted`, `SolveMpiProps.C104_constrained_evaluated_before_refuted`
* C112: `TensorProps.C112_set_then_get`, `TensorProps.C112_get_then_set`
* C120: `NormProps.C120_constructor`, `NormProps.C120_new`, `NormProps.C120_set_get`, `NormProps.C120_x_update_lost`, `NormProps.C120_asarray`, `NormProps.C120_set_asarray`, `NormProps.C120_change_resolution`, `NormProps.C120_set_shifted`, `NormProps.C120_set_after_change_refuted`
* C122: `RedProps.C122_nsv_fixed_refuted`, `RedProps.C122_default_refuted`

## `ClassicalDedekindReals.sig_forall_dec`, `FunctionalExtensionality.functional_extensionality_dep`

* C20: `PartitionProps.C20_steps`, `PartitionProps.C20_raises_exactly`, `PartitionProps.C20_which_error`
* C22: `DerivProps.C22_add`, `DerivProps.C22_sub`, `DerivProps.C22_mul`, `DerivProps.C22_iadd`, `DerivProps.C22_isub`, `DerivProps.C22_laws`, `DerivProps.C22_iadd_shared_array_refuted`
* C23: `GradProps.C23_gradient`, `GradProps.C23_nothing_free`, `GradProps.C23_gradient_pairs_with_x`
* C24: `ExprProps.C24_value`, `ExprProps.C24_derivative`, `ExprProps.C24_gradient`, `ExprProps.C24_empty_sum_refuted`
* C27: `FDProps.C27_difference_quotients`, `FDProps.C27_exact_on_affine_maps`, `FDProps.C27_centered_exact_on_quadratic_maps`
* C28: `FDProps.C28_stale_shape_refuted`, `FDProps.C27_difference_quotients`, `ExactFD.C28_columns_of_the_first_call`, `ExactFD.C28_columns`
* C29: `FDProps.C29_distributed_equals_serial`
* C32: `LsqProps.C32_from_tuples`, `LsqProps.C32_from_sigma`
* C35: `LsqSum.C35_sum_of_problems`, `LsqSum.C35_sum_of_many`, `LsqSum.C35_refuted`
* C36: `ConProps.C36_feasible_iff_nonpositive`, `ConProps.C36_infinite_bound_refuted`
* C39: `CoilProps.C39_arithmetic`, `CoilProps.C39_builtin_sum`, `CoilProps.C39_vjp_is_derivative`, `CoilProps.C39_vjp_entries`
* C40: `PenaltyModel.C40_value`, `PenaltyModel.C40_gradient`
* C43: `SymModel.C43_gradient_signs`
* C44: `SurfQuad.C44_phi_points`, `SurfQuad.C44_theta_points`, `SurfQuad.C44_defaults`, `SurfQuad.C44_errors`, `SurfQuad.C44_grid_shape`, `SurfQuad.C44_half_period_mirror`, `SurfQuad.C44_periods_tile_torus`, `SurfQuad.C44_half_periods_tile_period`, `SurfQuad.C44_deduced_range`
* C48: `FDProps.C48_no_argument_uses_current_x`, `FDProps.C48_no_argument_uses_last_explicit_point_refuted`, `ExactFD.C48_no_argument`
* C49: `FDProps.C49_x_not_restored_after_exception_refuted`, `FDProps.C27_difference_quotients`, `ExactFD.C49_x_after_the_call`
* C50: `FDProps.C50_explicit_point_is_never_stale`, `FDProps.C50_no_argument_is_stale_refuted`, `ExactFD.C50_no_argument_first_call`, `ExactFD.C50_no_argument_after_explicit`, `ExactFD.C50_no_argument_is_frozen`
* C63: `InterpProps.C63_skip_cell_iff`, `InterpProps.C63_value`, `InterpProps.C63_skipped`, `InterpThms.C63_interpolant_exists`, `InterpThms.C63_reproduces_polynomials`, `InterpThms.C63_exact_at_nodes`, `InterpThms.uniform_good`
* C64: `InterpThms.C64_throws_iff`, `InterpThms.C64_first_axis_outside_unchanged`, `InterpThms.C64_last_axis_wraps`, `InterpThms.C64_extrapolation_wrong_refuted`, `InterpThms.C64_below_box_accepted_refuted`
* C67: `SurfDiffProps.C67_dnormal_by_dcoeff`, `SurfDiffProps.C67_dfirst_fund_form_by_dcoeff`, `SurfDiffProps.C67_dnormal_by_dcoeff_vjp`, `SurfDiffProps.C67_d2normal_by_dcoeffdcoeff`, `SurfDiffProps.C67_dvolume_by_dcoeff`, `SurfDiffProps.C67_d2volume_by_dcoeffdcoeff`, `SurfDiffProps.C67_d2volume_simd`
* C68: `CurveProps.C68_vjp`
* C71: `CurveDiffProps.C71_dtorsion`, `CurveDiffProps.C71_dtorsion_vjp`
* C73: `DistProps.C73_zero_threshold`
* C77: `CurveObjProps.C77_value`, `CurveObjProps.C77_nonnegative_and_zero`, `CurveObjProps.C77_too_many_intervals`
* C81: `MpiObjProps.C81_value`, `MpiObjProps.C81_derivative`, `MpiObjProps.C81_gradient`, `MpiObjProps.C81_failures`
* C85: `PMRelax.C85_prox_l1`, `PMRelax.C85_prox_l0`
* C86: `GPMOProps.C86_greedy`, `GPMOProps.C86_magnets`, `GPMOOver.C86_overrun`
* C87: `GPMOBack.C87_run`, `GPMOBack.C87_magnets`, `GPMOBack.C87_parity`
* C88: `GPMOProps.C88_baseline`, `GPMOOver.C88_overflow`, `GPMOBack.C88_backtracking_overflow`, `GPMOBack.C88_connectivity`
* C89: `WFThms.C89_exact`
* C90: `WFCells.C90_span`, `WFCells.C90_loop`
* C91: `WFCurrents.C91_toroidal`, `WFCurrents.C91_poloidal`, `WFCurrents.C91_set_poloidal`, `WFCurrents.C91_set_toroidal`, `WFCurrents.C91_tf`, `WFCurrents.C91_tf_check`
* C92: `WFConstr.C92_wellformed`, `WFConstr.C92_constrained`, `WFConstr.C92_sound`, `WFCalls.C92_disjoint`, `WFCalls.C92_breaks`, `WFCalls.C92_breaks_nothing`
* C93: `WFMatrix.C93_matrices`, `WFMatrix.C93_no_crossings`, `WFMatrix.C93_all_constrained`
* C94: `GSCOWire.C94_constraints`, `GSCOWire.C94_free_cells`, `GSCOProps.C94_currents`, `GSCOProps.C94_counts`, `GSCOWire.C94_crossings`, `GSCOProps.C94_no_new_coils`
* C95: `GSCOProps.C95_trace`, `GSCOProps.C95_replay`, `GSCOProps.C95_increase`, `GSCOWire.C95_undo_missed`, `GSCOWire.C95_match_current_stop`
* C96: `RCLSProps.C96_optimal`, `RCLSProps.C96_dependent`, `RCLSProps.C96_sizes`, `RCLSProps.C96_weights`, `RCLSFresh.C96_fresh`, `RCLSFresh.C96_diagonal_only`, `RCLSFresh.C96_matrix_not_minimised`
* C97: `ProfileProps.C97_values`, `ProfileProps.C97_dfds_is_the_derivative`, `ProfileProps.C97_one_species`, `ProfileProps.C97_spec_value`, `ProfileProps.C97_spec_jump`, `ProfileProps.C97_spec_range`
* C98: `VmecProps.C98_accessors_are_current`, `VmecThms.C98_history_does_not_matter`, `VmecThms.C98_removed_profile_stays`, `VmecThms.C98_asymmetric_boundary_ignored`, `VmecThms.C98_second_object_takes_over`, `VmecThms.C98_shared_profile_goes_stale`, `VmecThms.C98_indata_assignment_is_not_seen`
* C100: `BoozerProps.C100_data_are_current`, `BoozerProps.C100_after_a_change`, `BoozerProps.C100_register`, `BoozerProps.C100_unnoticed`, `BoozerProps.C100_one_transform_per_surface`, `BoozerProps.C100_distance`, `BoozerProps.C100_documented_clearing_breaks_register`
* C105: `TraceRhs.C105_boozer_noK`
* C113: `MaskProps.C113_kept_not_redundant`, `MaskProps.C113_dropped_redundant`, `MaskProps.C113_square_system`, `MaskProps.C113_rejected`, `MaskProps.C113_docstring_layout_refuted`
* C114: `BoozRunProps.C114_exact_success`, `BoozRunProps.C114_penalty_success`, `BoozRunProps.C114_exact_false_failure_refuted`, `BoozRunProps.C114_run_code`, `BoozRunProps.C114_objective`, `BoozRunProps.C114_free_currents`, `BoozRunProps.C114_manual_not_recorded`, `BoozRunProps.C114_stale_surface_and_target`, `BoozRunProps.C114_zero_weight`, `BoozRunProps.C114_new_target_ignored_refuted`, `BoozRunProps.C114_lbfgs_result`
* C115: `AdjLin.C115_forward_backward`, `AdjLin.C115_adjoint`
* C116: `AdjThms.C116_iotas`, `AdjThms.C116_surface_function`
* C122: `RedProps.C122_assign`, `RedProps.C122_recalculate`, `RedProps.C122_consistent`, `RedProps.C122_nsv`, `RedProps.C122_isometry`, `RedProps.C122_response`, `RedProps.C122_lower_nsv_refuted`, `RedProps.C122_default`
* C123: `CoilSetProps.C123_new`, `CoilSetProps.C123_set_base_refuted`
* C125: `FrameProps.C125_filament`, `FrameProps.C125_grid`
* C127: `FieldAProps.C127_toroidal_d2A`
* C135: `SampleProps.C135_probability`, `SampleProps.C135_curve`, `SampleProps.C135_edge`, `SampleProps.C135_scale`, `SampleProps.C135_surface`, `SampleProps.C135_fortran_refuted`

## `ClassicalDedekindReals.sig_forall_dec`, `ClassicalDedekindReals.sig_not_dec`, `FunctionalExtensionality.functional_extensionality_dep`

* C32: `LsqProps.C32_objective_is_weighted_sum`
* C33: `LsqProps.C33_history_matches_reference`, `LsqProps.C33_current_residuals`
* C34: `LsqProps.C33_history_matches_reference`, `LsqProps.C34_refuted`, `LsqProps.C34_refuted_raises`
* C38: `CoilProps.C38_order_and_count`, `CoilProps.C38_data`, `CoilProps.C38_rotation_invariant`, `CoilProps.C38_reflection_invariant`
* C43: `SymModel.C43_reduced_point_in_domain`, `SymModel.C43_negative_angle_leaves_domain`, `SymModel.C43_negative_angle_refuted`, `SymModel.C43_symmetric_evaluation_exact`, `SymModel.C43_coils_symmetric_evaluation`
* C54: `LsqSum.C54_shared_object_three_problems`
* C55: `CoilProps.C55_field_has_field_period`, `CoilProps.C55_field_is_stellarator_symmetric`
* C56: `BSDeriv.C56_dB_is_derivative_of_B`, `BSDeriv.C56_d2B_is_derivative_of_dB`, `BSDeriv.C56_dA_is_derivative_of_A`, `BSDeriv.C56_d2A_is_derivative_of_dA`
* C57: `BSVjp.C57_B_vjp`, `BSVjp.C57_dB_vjp`, `BSVjp.C57_A_vjp`, `BSVjp.C57_dA_vjp`
* C58: `BSDeriv.C58_div_B_zero`, `BSDeriv.C58_B_is_curl_A`, `BSDeriv.C58_second_derivatives_symmetric`
* C59: `CoilProps.C59_rotated_curve`, `CoilProps.C59_rotation_preserves_geometry`, `CoilProps.C59_vjp_is_transposed`
* C60: `CoilProps.C60_B_vjp`, `CoilProps.C60_dB_vjp`, `CoilProps.C60_A_vjp`, `CoilProps.C60_dA_vjp`
* C61: `PointsModel.C61_cyl_to_cart`, `PointsModel.C61_set_cyl_get_cyl`
* C62: `FieldProps.C62_GradAbsB_is_gradient_of_AbsB`, `FieldProps.C62_cylindrical_components_rotate`
* C63: `InterpThms.chebyshev_good`
* C65: `SurfGeomProps.C65_gamma_closed_form`, `SurfGeomProps.C65_gammadash1`, `SurfGeomProps.C65_gammadash2`, `SurfGeomProps.C65_gammadash1dash1`, `SurfGeomProps.C65_gammadash1dash2`, `SurfGeomProps.C65_gammadash2dash2`, `SurfGeomProps.C65_field_period`, `SurfGeomProps.C65_stellsym`
* C66: `SurfGeomJac.C66_length`, `SurfGeomJac.C66_dgamma_by_dcoeff`, `SurfGeomJac.C66_dgammadash1_by_dcoeff`, `SurfGeomJac.C66_dgammadash2_by_dcoeff`, `SurfGeomJac.C66_dgammadash1dash1_by_dcoeff`, `SurfGeomJac.C66_dgammadash1dash2_by_dcoeff`, `SurfGeomJac.C66_dgammadash2dash2_by_dcoeff`, `SurfGeomJac.C66_dgamma_vjp`, `SurfGeomJac.C66_dgammadash1_vjp`, `SurfGeomJac.C66_dgammadash2_vjp`, `SurfGeomJac.C66_vjp_in_bounds`, `SurfGeomJac.C66_vjp_length`, `SurfGeomJac.C66_hidden_entries_move_the_surface`
* C67: `SurfDiffProps.C67_dunitnormal_by_dcoeff`, `SurfDiffProps.C67_dsecond_fund_form_by_dcoeff`, `SurfDiffProps.C67_discriminant`, `SurfDiffProps.C67_principal_curvatures`, `SurfDiffProps.C67_unitnormal`, `SurfDiffProps.C67_dmean_curvature`, `SurfDiffProps.C67_dgauss_curvature`, `SurfDiffProps.C67_dprincipal_curvatures`, `SurfDiffProps.C67_darea_by_dcoeff`, `SurfDiffProps.C67_d2area_by_dcoeffdcoeff`, `SurfDiffProps.C67_second_derivatives_symmetric`, `SurfRZDiff.C67_rz_linear`, `SurfRZDiff.C67_rz_area`, `SurfRZDiff.C67_rz_volume`, `SurfRZDiff.C67_rz_d2area`, `SurfRZDiff.C67_rz_d2volume`, `SurfRZDiff.C67_torus_regular`
* C68: `CurveProps.C68_gamma_is_the_documented_series`, `CurveProps.C68_derivatives_along_the_curve`, `CurveProps.C68_closed`, `CurveProps.C68_derivatives_by_dofs`, `CurveProps.C68_jax_agrees`
* C69: `CurveProps.C69_gamma_is_the_documented_series`, `CurveProps.C69_derivatives_along_the_curve`, `CurveProps.C69_derivatives_by_dofs`, `CurveProps.C69_field_period`
* C70: `PlanarProps.C70_rotation`, `PlanarProps.C70_zero_quaternion_is_no_rotation`, `PlanarProps.C70_scaling_the_quaternion`, `PlanarProps.C70_gamma_is_the_documented_curve`, `PlanarProps.C70_planar`, `PlanarProps.C70_derivatives_along_the_curve`, `PlanarProps.C70_derivatives_by_dofs`, `PlanarProps.C70_zero_quaternion_not_differentiable`
* C71: `CurveDiffProps.C71_dincremental_arclength`, `CurveDiffProps.C71_dkappa`, `CurveDiffProps.C71_dkappadash`, `CurveDiffProps.C71_dfrenet_frame`, `CurveDiffProps.C71_kappadash`, `CurveDiffProps.C71_frenet_frame_is_orthonormal`, `CurveDiffProps.C71_frenet_serret`, `CurveDiffProps.C71_dincremental_vjp`, `CurveDiffProps.C71_dkappa_vjp`, `CurveDiffProps.C71_rotated_curve`
* C72: `CurveCache.C72_curvexyzfourier_is_fresh`, `CurveCache.C72_curverzfourier_is_fresh`, `CurveCache.C72_current_values`, `CurveCache.C72_positions_are_always_fresh`, `CurveCache.C72_curveplanarfourier_derivatives_are_stale`, `CurveCache.C72_curveplanarfourier_stale_is_wrong`, `CurveCache.C72_user_nan_stays`
* C73: `DistProps.C73_within_collection`, `DistProps.C73_between_collections`
* C74: `DistProps.C74_value`, `DistProps.C74_nonnegative_and_zero`, `DistGrad.C74_gradient`, `DistProps.C74_shortest_distance`, `DistGrad.C74_symmetric_curves`
* C75: `DistGrad.C75_answers`, `DistGrad.C75_fresh_answer`, `DistGrad.C75_gradient`, `DistGrad.C75_shortest_distance`, `DistGrad.C75_stale_answer`
* C76: `CurveObjProps.C76_values`, `CurveObjProps.C76_nonnegative_and_zero`, `CurveObjProps.C76_length_gradient`, `CurveObjProps.C76_curvature_gradient`, `CurveObjProps.C76_torsion_gradient`, `CurveObjProps.C76_msc_gradient`, `CurveObjProps.C76_vjp_met`
* C77: `CurveObjProps.C77_gradient`
* C78: `LinkProps.C78_value`, `LinkProps.C78_downsampling`, `LinkProps.C78_permutation`, `LinkProps.C78_motions`, `LinkProps.C78_orientation`, `LinkProps.C78_coplanar`, `LinkProps.C78_locally_constant`
* C79: `FluxProps.C79_value`, `FluxProps.C79_nonnegative_and_zero`, `FluxProps.C79_scaling`, `FluxProps.C79_orientation`, `FluxProps.C79_gradient`
* C80: `FluxProps.C80_fresh`, `FluxProps.C80_other_objective`, `FluxProps.C80_moved_surface`, `FluxProps.C80_stale_refuted`
* C83: `PMProps.C83_projection`, `PMProps.C83_largest_step`, `PMProps.C83_overshoot_bound`, `PMRelax.C83_overshoot_refuted`
* C84: `PMProps.C84_descent`, `PMProps.C84_fixed_point`, `PMRelax.C84_short_verbose`
* C85: `PMRelax.C85_proxy_feasible`, `PMRelax.C85_descent`, `PMRelax.C85_quiet_fails`
* C86: `GPMOOver.C86_moments`, `GPMOOver.C86_overrun_refuted`
* C89: `WFThms.C89_kirchhoff`, `WFThms.C89_partners`
* C96: `RCLSKern.C96_kernels_exist`
* C101: `QSProps.C101_values`, `QSProps.C101_zero_iff_symmetric`, `QSProps.C101_documented_symmetry`, `QSProps.C101_documented_sign_is_reversed`, `QSProps.C101_helicity_m`, `QSProps.C101_asymmetric_part_ignored`, `QSProps.C101_asymmetric_counterexample`, `QSProps.C101_blocks`
* C102: `SolveProps.C102_optimizer_sees_residuals_at_x`, `SolveProps.C102_solve_is_pure_run`, `SolveProps.C102_solve_is_pure_run_later`, `SolveProps.C102_exception_ends_solve`
* C104: `SolveMpiProps.C104_same_as_serial`, `SolveMpiProps.C104_in_step`, `SolveMpiProps.C104_exception_refuted`, `SolveMpiProps.C104_file_is_unweighted`
* C105: `TraceRhs.C105_kinetic_energy`
* C106: `TraceInit.C106_full_orbit_start`, `TraceInit.C106_negative_charge_refuted`
* C107: `TraceAngle.C107_flux_transits`
* C108: `TraceThms.C108_crossing_seen`, `TraceThms.C108_bracket`
* C110: `BoozProps.C110_residual_jacobian`, `BoozProps.C110_residual_hessian`, `BoozThms.C110_penalty_gradient`, `BoozThms.C110_penalty_hessian`, `BoozThms.C110_vectorized_value`, `BoozThms.C110_vectorized_gradient`, `BoozThms.C110_vectorized_hessian`, `BoozThms.C110_zero_iff`, `BoozThms.C110_coils_field_ok`, `BoozThms.C110_default_G`
* C111: `BoozThms.C111_exact_stationary`, `BoozThms.C111_exact_constraints`, `BoozThms.C111_exact_jacobian`
* C112: `TensorSym.C112_excluded`, `TensorSym.C112_series`, `TensorThms.C112_jacobians`, `TensorThms.C112_first_derivatives`, `TensorThms.C112_second_derivatives`, `TensorSym.C112_stellsym`, `TensorSym.C112_field_period`, `TensorSym.C112_clamped`, `TensorSym.C112_clamped_theta_refuted`, `TensorSym.C112_clamped_phi_refuted`, `TensorSym.C112_gamma_impl`, `TensorSym.C112_gamma_impl_refuted`
* C113: `MaskProps.C113_residual_symmetry`, `MaskProps.C113_mirror_zero`, `MaskProps.C113_kept_equations_suffice`, `MaskProps.C113_coils_sym`
* C116: `AdjProps.C116_r`, `AdjProps.C116_J`, `AdjThms.C116_exact_vjp`, `AdjThms.C116_exact_gradient`, `AdjCoils.C116_coils_family`, `AdjCoils.C116_iotas_exact`, `AdjThms.C116_nonstellsym_gradient_raises`
* C117: `AdjThms.C117_ls_vjp`, `AdjThms.C117_ls_gradient`, `AdjThms.C117_surface_label`, `AdjCoils.C117_gradient_coils`, `AdjThms.C117_boozer_residual`, `AdjEx.C117_label_gradient_wrong`
* C118: `QsrProps.C118_nonneg_zero`, `QsrProps.C118_best_approximation`, `QsrThms.C118_scale_invariant`, `QsrThms.C118_gradient`, `QsrThms.C118_boozer_partials`, `QsrThms.C118_exact_gradient`
* C119: `QfmProps.C119_range`, `QfmProps.C119_scale_invariant`, `QfmProps.C119_gradient`
* C121: `FourProps.C121_coefficients`, `FourVals.C121_values`, `FourProps.C121_half_period_refuted`
* C124: `EqProps.C124_equally_spaced`, `EqProps.C124_for_surface`, `EqProps.C124_same_conductor`
* C125: `FrameProps.C125_frenet_orthonormal`, `FrameProps.C125_frenet_dash`, `FrameProps.C125_frenet_torsion`, `FrameProps.C125_centroid_orthonormal`, `FrameProps.C125_centroid_dash`, `FrameProps.C125_centroid_torsion`, `FrameProps.C125_mean_gammadash_vanishes`, `FrameProps.C125_rotation`, `FrameProps.C125_strain`
* C126: `HelixProps.C126_field_period`, `HelixProps.C126_closed`, `HelixProps.C126_rotational_symmetry`, `HelixProps.C126_stellarator_symmetry`, `HelixProps.C126_documented_series`, `HelixProps.C126_helical_field_period`, `HelixProps.C126_helical_closed`, `HelixProps.C126_helical_rotational_symmetry`, `HelixProps.C126_helical_on_torus`, `HelixProps.C126_helical_stellarator_symmetry`, `HelixProps.C126_helical_null_dof`
* C127: `FieldAProps.C127_toroidal_d2B`
* C128: `DipoleProps.C128_B`, `DipoleProps.C128_A`
* C130: `AxisProps.C130_linearised`
* C133: `ForceProps.C133_gradient`
* C134: `FintProps.C134_exact`, `FintProps.C134_interpolates`, `FintProps.C134_laws`

## `ClassicalDedekindReals.sig_forall_dec`, `Classical_Prop.classic`, `FunctionalExtensionality.functional_extensionality_dep`

* C96: `RCLSThms.C96_wireframe`

## `ClassicalDedekindReals.sig_forall_dec`, `ClassicalDedekindReals.sig_not_dec`, `Classical_Prop.classic`, `FunctionalExtensionality.functional_extensionality_dep`

* C41: `FieldProps.C41_evaluation_never_stale`, `FieldProps.C41_points`, `FieldProps.C41_stale_when_everything_is_fixed`, `FieldProps.C41_unrung_refuted`
* C42: `FieldProps.C42_field_per_coil_never_stale`, `FieldProps.C42_field_per_coil_small_argument`, `FieldProps.C42_potential_right_after_evaluation`, `FieldProps.C42_potential_zero_when_never_evaluated`, `FieldProps.C42_potential_stale_after_set_points`, `FieldProps.C42_potential_per_coil_refuted`
* C61: `PointsModel.C61_cart_to_cyl`, `PointsModel.C61_cyl_round_trip`, `PointsModel.C61_negative_angle_not_normalised`
* C105: `TraceRhs.C105_energy_cartesian`, `TraceRhs.C105_full_orbit`, `TraceRhs.C105_full_orbit_speed`, `TraceRhs.C105_field_line`, `TraceRhs.C105_cartesian_equations`, `TraceRhs.C105_boozer_general`, `TraceRhs.C105_boozer_vacuum`, `TraceRhs.C105_quasisymmetry`
* C107: `TraceAngle.C107_get_phi`, `TraceAngle.C107_toroidal_transits`, `TraceAngle.C107_poloidal_transits`, `TraceAngle.C107_transit_criterion`, `TraceAngle.C107_transit_criterion_flux`, `TraceAngle.C107_backward_refuted`
* C108: `TraceLoop.C108_solve`, `TraceLoop.C108_terminates`, `TraceThms.C108_hit_rows`, `TraceThms.C108_hit_on_plane`, `TraceThms.C108_forward_count`, `TraceThms.C108_backward_count`, `TraceThms.C108_stopped_after_tmax_refuted`
* C109: `TraceThms.C109_criteria`, `TraceThms.C109_no_memory`, `TraceThms.C109_particles_independent`, `TraceThms.C109_mpi_is_serial`
* C127: `FieldAProps.C127_toroidal`, `FieldAProps.C127_toroidal_A`, `FieldAProps.C127_poloidal`, `FieldAProps.C127_poloidal_gradabs`, `FieldAProps.C127_mirror`
* C128: `DipoleProps.C128_basis`, `DipoleProps.C128_images`, `DipoleProps.C128_periodic`, `DipoleProps.C128_stellsym`
* C129: `DipoleProps.C129_inductance`
* C130: `AxisProps.C130_return_map`, `AxisProps.C130_eigenvalue`, `AxisProps.C130_sign`, `AxisProps.C130_on_axis_iota`
* C131: `ReimanProps.C131_jacobian`, `ReimanProps.C131_divergence_free`, `ReimanProps.C131_flux_function`, `ReimanProps.C131_unperturbed`, `ReimanProps.C131_periodic`, `ReimanProps.C131_stellarator_symmetric`
* C132: `ScalarProps.C132_gradient`, `ScalarProps.C132_B`, `ScalarProps.C132_dB`
* C133: `ForceProps.C133_circle_circ`, `ForceProps.C133_circle_rect`, `ForceProps.C133_circle_force`, `ForceProps.C133_rect_symmetric`, `ForceProps.C133_regularization_scale`, `ForceProps.C133_current`, `ForceProps.C133_size`, `ForceProps.C133_force`, `ForceProps.C133_rigid`, `ForceProps.C133_objectives_invariant`, `ForceProps.C133_lp_value`, `ForceProps.C133_lp_circle`, `ForceProps.C133_lp_zero`, `ForceProps.C133_msf`, `ForceProps.C133_biot_savart`
* C134: `FintProps.C134_at_samples`
