{
 "claims": [
  {
   "property": "C01",
   "status": "proved",
   "theorems": [
    "C01_free_x_roundtrip",
    "C01_full_x_roundtrip"
   ],
   "note": "DOFs level; graph level in C11/C12"
  },
  {
   "property": "C02",
   "status": "proved",
   "theorems": [
    "C02_free_wrong_length_rejected",
    "C02_full_wrong_length_rejected",
    "C02_failed_operation_is_atomic"
   ],
   "note": ""
  },
  {
   "property": "C03",
   "status": "proved",
   "theorems": [
    "C03_fix_unfix",
    "C03_unknown_key",
    "C03_status_is_last_given",
    "C03_status_untouched",
    "C03_free_count",
    "C03_all_any_status"
   ],
   "note": ""
  },
  {
   "property": "C04",
   "status": "proved",
   "theorems": [
    "C04_set_get",
    "C04_get",
    "C04_unknown_key_rejected",
    "C04_bound_updates",
    "C04_key_denotes_one"
   ],
   "note": ""
  },
  {
   "property": "C05",
   "status": "proved",
   "theorems": [
    "C05_views_aligned",
    "C05_bounds_roundtrip"
   ],
   "note": ""
  },
  {
   "property": "C06",
   "status": "proved",
   "theorems": [
    "C06_constructed_wf",
    "C06_constructor_accepts_exactly",
    "C06_constructor_defaults",
    "C06_history_wf",
    "C06_history_names"
   ],
   "note": ""
  },
  {
   "property": "C07",
   "status": "proved",
   "theorems": [
    "C07_full_bounds_setter_refuted"
   ],
   "note": "finding: the natural expectation (store v) is false for every input"
  },
  {
   "property": "C08",
   "status": "proved",
   "theorems": [
    "C08_independent_when_arrays_are_fresh",
    "C08_target_gets_the_values",
    "C08_shared_array_refuted",
    "C08_constructor_and_getter_refuted",
    "C08_exact_effect"
   ],
   "note": "finding: arrays are stored without copying"
  },
  {
   "property": "C09",
   "status": "proved",
   "theorems": [
    "C09_ancestors_are_the_closure",
    "C09_add_parent",
    "C09_cycle_never_returns",
    "C09_pop_parent",
    "C09_pop_parent_out_of_range",
    "C09_remove_parent",
    "C09_remove_parent_absent",
    "C09_every_call_returns"
   ],
   "note": "also: adding a parent that closes a cycle never returns (RecursionError in python)"
  },
  {
   "property": "C10",
   "status": "proved",
   "theorems": [
    "C10_sizes_count_each_dofs_once",
    "C10_free_blocks",
    "C10_full_blocks"
   ],
   "note": ""
  },
  {
   "property": "C100",
   "status": "proved",
   "theorems": [
    "C100_data_are_current",
    "C100_after_a_change",
    "C100_register",
    "C100_unnoticed",
    "C100_one_transform_per_surface",
    "C100_distance",
    "C100_documented_clearing_breaks_register"
   ],
   "note": "booz_xform is an arbitrary function applied surface by surface; notification by the equilibrium is C15/C16"
  },
  {
   "property": "C101",
   "status": "proved",
   "theorems": [
    "C101_values",
    "C101_zero_iff_symmetric",
    "C101_documented_symmetry",
    "C101_documented_sign_is_reversed",
    "C101_helicity_m",
    "C101_asymmetric_part_ignored",
    "C101_asymmetric_counterexample",
    "C101_blocks"
   ],
   "note": ""
  },
  {
   "property": "C102",
   "status": "proved",
   "theorems": [
    "C102_optimizer_sees_residuals_at_x",
    "C102_solve_is_pure_run",
    "C102_solve_is_pure_run_later",
    "C102_exception_ends_solve"
   ],
   "note": "functions deterministic with fixed output lengths; the optimizer cannot catch exceptions of its callbacks"
  },
  {
   "property": "C103",
   "status": "proved",
   "theorems": [
    "C103_serial_solve",
    "C103_objective_at_x",
    "C103_solve_is_pure_run",
    "C103_one_length",
    "C103_first_failure_refuted"
   ],
   "note": "with grad=True, constrained_serial_solve passes the FiniteDifference object instead of its jac method, which scipy ignores (text finding, scipy is not modelled)"
  },
  {
   "property": "C104",
   "status": "proved",
   "theorems": [
    "C104_same_as_serial",
    "C104_in_step",
    "C104_exception_refuted",
    "C104_file_is_unweighted",
    "C104_constrained_in_step",
    "C104_constrained_same_as_serial",
    "C104_constrained_repeat_refuted",
    "C104_constrained_evaluated_before_refuted"
   ],
   "note": "derivative-free mode; message delivery is C20/C48"
  },
  {
   "property": "C105",
   "status": "proved",
   "theorems": [
    "C105_energy_cartesian",
    "C105_kinetic_energy",
    "C105_full_orbit",
    "C105_full_orbit_speed",
    "C105_field_line",
    "C105_cartesian_equations",
    "C105_boozer_general",
    "C105_boozer_noK",
    "C105_boozer_vacuum",
    "C105_quasisymmetry"
   ],
   "note": "exact flow; the integrator's error is not modelled. The general Boozer RHS divides by v_par: states with v_par <> 0"
  },
  {
   "property": "C106",
   "status": "proved",
   "theorems": [
    "C106_full_orbit_start",
    "C106_negative_charge_refuted"
   ],
   "note": "B parallel to z divides by zero in the code and is excluded"
  },
  {
   "property": "C107",
   "status": "proved",
   "theorems": [
    "C107_get_phi",
    "C107_toroidal_transits",
    "C107_poloidal_transits",
    "C107_flux_transits",
    "C107_transit_criterion",
    "C107_transit_criterion_flux",
    "C107_backward_refuted"
   ],
   "note": ""
  },
  {
   "property": "C108",
   "status": "proved",
   "theorems": [
    "C108_solve",
    "C108_terminates",
    "C108_crossing_seen",
    "C108_bracket",
    "C108_hit_rows",
    "C108_hit_on_plane",
    "C108_forward_count",
    "C108_backward_count",
    "C108_stopped_after_tmax_refuted"
   ],
   "note": "integrator and root finder arbitrary; rows of one step are ordered by plane index, not time; a stopped particle's last state is in the hits only"
  },
  {
   "property": "C109",
   "status": "proved",
   "theorems": [
    "C109_criteria",
    "C109_no_memory",
    "C109_particles_independent",
    "C109_mpi_is_serial"
   ],
   "note": ""
  },
  {
   "property": "C11",
   "status": "proved",
   "theorems": [
    "C11_set_x",
    "C11_wrong_length_rejected"
   ],
   "note": ""
  },
  {
   "property": "C110",
   "status": "proved",
   "theorems": [
    "C110_residual_jacobian",
    "C110_residual_hessian",
    "C110_penalty_gradient",
    "C110_penalty_hessian",
    "C110_vectorized_value",
    "C110_vectorized_gradient",
    "C110_vectorized_hessian",
    "C110_zero_iff",
    "C110_coils_field_ok",
    "C110_default_G"
   ],
   "note": "over the reals; label and its derivatives are hypotheses (C67 for area and volume)"
  },
  {
   "property": "C111",
   "status": "proved",
   "theorems": [
    "C111_exact_stationary",
    "C111_exact_constraints",
    "C111_exact_jacobian"
   ],
   "note": "over the reals"
  },
  {
   "property": "C112",
   "status": "proved",
   "theorems": [
    "C112_num_dofs",
    "C112_set_then_get",
    "C112_get_then_set",
    "C112_excluded",
    "C112_series",
    "C112_jacobians",
    "C112_first_derivatives",
    "C112_second_derivatives",
    "C112_stellsym",
    "C112_field_period",
    "C112_clamped",
    "C112_clamped_theta_refuted",
    "C112_clamped_phi_refuted",
    "C112_gamma_impl",
    "C112_gamma_impl_refuted"
   ],
   "note": "over the reals; the C++ integer divisions 1/2, nfp/2 and nfp*nfp/2 are kept"
  },
  {
   "property": "C113",
   "status": "proved",
   "theorems": [
    "C113_kept_not_redundant",
    "C113_dropped_redundant",
    "C113_residual_symmetry",
    "C113_mirror_zero",
    "C113_kept_equations_suffice",
    "C113_square_system",
    "C113_rejected",
    "C113_docstring_layout_refuted",
    "C113_coils_sym"
   ],
   "note": "over the reals; np.allclose with its default tolerances, the layout theorems for exact grids"
  },
  {
   "property": "C114",
   "status": "proved",
   "theorems": [
    "C114_exact_success",
    "C114_penalty_success",
    "C114_exact_false_failure_refuted",
    "C114_run_code",
    "C114_objective",
    "C114_needs_first_run",
    "C114_free_currents",
    "C114_manual_not_recorded",
    "C114_stale_surface_and_target",
    "C114_zero_weight",
    "C114_new_target_ignored_refuted",
    "C114_solver_memo",
    "C114_lbfgs_result"
   ],
   "note": "the linear algebra of one Newton step and scipy's minimisers are parameters: the theorems hold for any; three behaviours a user may not expect are proved as they are (false failure, ignored target, unrecorded manual solve)"
  },
  {
   "property": "C115",
   "status": "proved",
   "theorems": [
    "C115_forward_backward",
    "C115_adjoint"
   ],
   "note": "exact arithmetic; scipy's solve_triangular is modelled by substitution; C115_ex is a concrete case with a row exchange"
  },
  {
   "property": "C116",
   "status": "proved",
   "theorems": [
    "C116_r",
    "C116_J",
    "C116_exact_vjp",
    "C116_exact_gradient",
    "C116_iotas",
    "C116_surface_function",
    "C116_coils_family",
    "C116_iotas_exact",
    "C116_nonstellsym_gradient_raises"
   ],
   "note": "the implicit function (surface as a function of the coils) is taken as given and differentiable; B_vjp is tied to the coils by C57; C116_ex meets every hypothesis"
  },
  {
   "property": "C117",
   "status": "proved",
   "theorems": [
    "C117_ls_vjp",
    "C117_ls_gradient",
    "C117_surface_label",
    "C117_gradient_coils",
    "C117_boozer_residual",
    "C117_label_gradient_wrong"
   ],
   "note": "as C116; finding: the direct dependence of the label on the coils is not in the gradient; C117_ex meets every hypothesis"
  },
  {
   "property": "C118",
   "status": "proved",
   "theorems": [
    "C118_nonneg_zero",
    "C118_best_approximation",
    "C118_scale_invariant",
    "C118_gradient",
    "C118_boozer_partials",
    "C118_exact_gradient"
   ],
   "note": "exact real arithmetic; the implicit dependence of the surface on the coils as in C116; C118_ex is a concrete case"
  },
  {
   "property": "C119",
   "status": "proved",
   "theorems": [
    "C119_range",
    "C119_scale_invariant",
    "C119_gradient"
   ],
   "note": "exact real arithmetic; the vjps of the surface are the contractions of C67; C119_ex is a concrete case"
  },
  {
   "property": "C12",
   "status": "proved",
   "theorems": [
    "C12_set_full_x",
    "C12_length_contract_refuted",
    "C12_too_long",
    "C12_too_short"
   ],
   "note": "finding: the length is not checked before assigning"
  },
  {
   "property": "C120",
   "status": "proved",
   "theorems": [
    "C120_positions",
    "C120_names",
    "C120_constructor",
    "C120_new",
    "C120_set_get",
    "C120_x_update_lost",
    "C120_asarray",
    "C120_set_asarray",
    "C120_change_resolution",
    "C120_set_shifted",
    "C120_set_after_change_refuted"
   ],
   "note": "SPEC file reading and CoilNormalField are not modelled; all dofs taken as free for x; set_asarray and constructor shape theorems are stated for the stellarator symmetric case; C120_ex is a concrete case"
  },
  {
   "property": "C121",
   "status": "proved",
   "theorems": [
    "C121_coefficients",
    "C121_values",
    "C121_half_period_refuted"
   ],
   "note": "Over the reals.  Finding: the Nyquist factor compares |n| with nphi/2 on every grid; on half period grids the Nyquist mode is |n| = nphi, so mode nphi/2 is halved (C121_half_period_refuted)."
  },
  {
   "property": "C122",
   "status": "proved",
   "theorems": [
    "C122_assign",
    "C122_recalculate",
    "C122_consistent",
    "C122_nsv",
    "C122_isometry",
    "C122_response",
    "C122_lower_nsv_refuted",
    "C122_nsv_fixed_refuted",
    "C122_default_refuted",
    "C122_default"
   ],
   "note": "Over the reals; the SVD itself is an argument of the model (its defining equations are hypotheses of C122_isometry and C122_response).  Findings: lowering nsv leaves the coils displaced by the dropped dofs and the next assignment moves them; the nsv setter drops fixed dofs and frees everything; the default identity basis with 0 < nsv < dof_size constructs but every assignment raises after storing."
  },
  {
   "property": "C123",
   "status": "proved",
   "theorems": [
    "C123_penalty_parents",
    "C123_single_parent",
    "C123_sum_refuted",
    "C123_new",
    "C123_set_base_refuted",
    "C123_set_surface"
   ],
   "note": "Findings: the loops 'for parent in target.parents: target.remove_parent(parent)' skip every second parent; the base_coils setter writes _coils, which nothing reads."
  },
  {
   "property": "C124",
   "status": "proved",
   "theorems": [
    "C124_equally_spaced",
    "C124_for_surface",
    "C124_same_conductor"
   ],
   "note": "Over the reals.  Finding: for_surface makes the curves with the surface's stellsym but symmetrises with stellsym=True: for a surface without stellarator symmetry the coils coincide in pairs."
  },
  {
   "property": "C125",
   "status": "proved",
   "theorems": [
    "C125_frenet_orthonormal",
    "C125_frenet_dash",
    "C125_frenet_torsion",
    "C125_centroid_orthonormal",
    "C125_centroid_dash",
    "C125_centroid_torsion",
    "C125_mean_gammadash_vanishes",
    "C125_rotation",
    "C125_filament",
    "C125_grid",
    "C125_strain"
   ],
   "note": "Over the reals.  Finding: rotated_centroid_frame_dash differentiates the centroid as if it moved with the mean of gammadash; with nq <= order or partial curves the frame torsion (and gammadash of filaments) is wrong."
  },
  {
   "property": "C126",
   "status": "proved",
   "theorems": [
    "C126_field_period",
    "C126_closed",
    "C126_rotational_symmetry",
    "C126_stellarator_symmetry",
    "C126_documented_series",
    "C126_helical_field_period",
    "C126_helical_closed",
    "C126_helical_rotational_symmetry",
    "C126_helical_on_torus",
    "C126_helical_stellarator_symmetry",
    "C126_helical_null_dof"
   ],
   "note": "Over the reals.  Finding: the first B entry of CurveHelical (sine of mode 0) is a dof without effect."
  },
  {
   "property": "C127",
   "status": "proved",
   "theorems": [
    "C127_toroidal",
    "C127_toroidal_d2B",
    "C127_toroidal_A",
    "C127_toroidal_d2A",
    "C127_poloidal",
    "C127_poloidal_gradabs",
    "C127_mirror"
   ],
   "note": "Over the reals.  Findings: the entry xxx of ToroidalField._d2B has y^3 misplaced; dA_by_dX of ToroidalField and dB_by_dX of PoloidalField are transposed (GradAbsB of a PoloidalField has the wrong sign)."
  },
  {
   "property": "C128",
   "status": "proved",
   "theorems": [
    "C128_B",
    "C128_A",
    "C128_basis",
    "C128_images",
    "C128_periodic",
    "C128_stellsym"
   ],
   "note": "Over the reals.  Finding: dipole_field_dA is transposed with respect to the documented dA_by_dX."
  },
  {
   "property": "C129",
   "status": "proved",
   "theorems": [
    "C129_inductance"
   ],
   "note": "Over the reals."
  },
  {
   "property": "C13",
   "status": "proved",
   "theorems": [
    "C13_set_x_flags",
    "C13_set_full_x_flags",
    "C13_set_flags",
    "C13_unflagged_means_unchanged"
   ],
   "note": ""
  },
  {
   "property": "C130",
   "status": "proved",
   "theorems": [
    "C130_linearised",
    "C130_return_map",
    "C130_eigenvalue",
    "C130_sign",
    "C130_on_axis_iota"
   ],
   "note": "Over the reals, the initial value problem solved exactly.  Findings: with currents the wrong matrix is integrated (index order of dB_by_dX); the sign of iota is not determined."
  },
  {
   "property": "C131",
   "status": "proved",
   "theorems": [
    "C131_jacobian",
    "C131_divergence_free",
    "C131_flux_function",
    "C131_unperturbed",
    "C131_periodic",
    "C131_stellarator_symmetric"
   ],
   "note": "Over the reals."
  },
  {
   "property": "C132",
   "status": "proved",
   "theorems": [
    "C132_gradient",
    "C132_B",
    "C132_dB"
   ],
   "note": "Over the reals; sympy's diff is the symbolic derivative, proved to be the derivative along every path."
  },
  {
   "property": "C133",
   "status": "proved",
   "theorems": [
    "C133_circle_circ",
    "C133_circle_rect",
    "C133_circle_force",
    "C133_rect_symmetric",
    "C133_regularization_scale",
    "C133_current",
    "C133_size",
    "C133_force",
    "C133_rigid",
    "C133_objectives_invariant",
    "C133_lp_value",
    "C133_lp_circle",
    "C133_lp_zero",
    "C133_msf",
    "C133_gradient",
    "C133_biot_savart"
   ],
   "note": "Over the reals; jax's grad is a hypothesis (partials).  Finding: LpCurveForce.J sums over the quadrature points instead of averaging, so it is the documented integral times their number (C133_lp_value, C133_lp_circle)."
  },
  {
   "property": "C134",
   "status": "proved",
   "theorems": [
    "C134_exact",
    "C134_interpolates",
    "C134_at_samples",
    "C134_laws"
   ],
   "note": "Over the reals; 1/tan is written cos/sin.  Off the samples means not congruent to a sample point modulo 2 pi: at x_k + 2 pi q with q <> 0 the guard D == 0 does not apply and the formula divides by 0."
  },
  {
   "property": "C135",
   "status": "proved",
   "theorems": [
    "C135_probability",
    "C135_curve",
    "C135_edge",
    "C135_scale",
    "C135_surface",
    "C135_fortran_refuted"
   ],
   "note": "The random numbers are inputs; the probability is the length of the acceptance interval.  Findings: safetyfactor is ignored; with exactly nsamples accepted draws, and for nsamples = 0, the call fails (C135_edge); for Fortran-ordered gamma the indices are unravelled in the wrong order and points of area 0 can be returned (C135_fortran_refuted)."
  },
  {
   "property": "C14",
   "status": "proved",
   "theorems": [
    "C14_cached_value_is_current",
    "C14_evaluation_returns",
    "C14_value_unique"
   ],
   "note": "for arbitrary user functions and every interleaving; graphs without repeated parents"
  },
  {
   "property": "C15",
   "status": "proved",
   "theorems": [
    "C15_fix_unfix",
    "C15_fix_all_unfix_all",
    "C15_local_fix_all",
    "C15_full_fix_unfix",
    "C15_unknown_key",
    "C10_sizes_count_each_dofs_once"
   ],
   "note": "sizes are current in every reachable state by C10"
  },
  {
   "property": "C16",
   "status": "proved",
   "theorems": [
    "C16_pop_keeps_others",
    "C16_duplicate_parent_refuted",
    "C16_pop_drops_the_link",
    "C16_notified_along_child_links"
   ],
   "note": "finding: child links are a set"
  },
  {
   "property": "C17",
   "status": "proved",
   "theorems": [
    "C17_lower_bounds",
    "C17_upper_bounds",
    "C17_wrong_length_rejected",
    "C17_full_lower_bounds_refuted",
    "C17_full_lower_bounds_always_raise"
   ],
   "note": "finding"
  },
  {
   "property": "C18",
   "status": "proved",
   "theorems": [
    "C18_arguments_in_place",
    "C18_unchanged_dofs_give_original_call",
    "C18_accepts_exactly",
    "C18_inferred_indicators"
   ],
   "note": ""
  },
  {
   "property": "C19",
   "status": "proved",
   "theorems": [
    "C19_same_class_distinct_names",
    "C19_make_optimizable_names_refuted",
    "C19_equal_names_lose_dofs_refuted",
    "C19_all_names_equal",
    "C19_one_ancestor_per_name",
    "C19_full_vector_of_same_named_parents"
   ],
   "note": "finding"
  },
  {
   "property": "C20",
   "status": "proved",
   "theorems": [
    "C20_steps",
    "C20_raises_exactly",
    "C20_which_error"
   ],
   "note": "exact reals"
  },
  {
   "property": "C21",
   "status": "proved",
   "theorems": [
    "C21_every_index_on_exactly_one_process",
    "C21_intervals_balanced_and_ordered"
   ],
   "note": ""
  },
  {
   "property": "C22",
   "status": "proved",
   "theorems": [
    "C22_add",
    "C22_sub",
    "C22_mul",
    "C22_iadd",
    "C22_isub",
    "C22_results_may_be_updated",
    "C22_laws",
    "C22_iadd_shared_array_refuted",
    "C22_inplace_arrays"
   ],
   "note": "explicit heap of arrays; += and -= under the non-aliasing condition the counterexample shows to be needed"
  },
  {
   "property": "C23",
   "status": "proved",
   "theorems": [
    "C23_gradient",
    "C23_nothing_free",
    "C23_as_derivative",
    "C23_gradient_pairs_with_x"
   ],
   "note": "for every reachable graph state"
  },
  {
   "property": "C24",
   "status": "proved",
   "theorems": [
    "C24_value",
    "C24_derivative",
    "C24_gradient",
    "C24_empty_sum_refuted"
   ],
   "note": "expression trees of any depth without empty sums; empty sums raise (order dependent), shown separately"
  },
  {
   "property": "C25",
   "status": "proved",
   "theorems": [
    "C25_contents_preserved",
    "C25_graph_preserved"
   ],
   "note": "contents for all saveable graphs; isomorphism for graphs without bound methods (with them sharing is lost, see C51); non-vacuity: diamond_saveable"
  },
  {
   "property": "C26",
   "status": "proved",
   "theorems": [
    "C26_equal_names_confused",
    "C26_not_preserved"
   ],
   "note": "refuted: proved that the two objects are always confused; C26_example"
  },
  {
   "property": "C27",
   "status": "proved",
   "theorems": [
    "C27_difference_quotients",
    "C27_exact_on_affine_maps",
    "C27_centered_exact_on_quadratic_maps"
   ],
   "note": "exact reals"
  },
  {
   "property": "C28",
   "status": "proved",
   "theorems": [
    "C28_stale_shape_refuted",
    "C27_difference_quotients",
    "C28_columns_of_the_first_call",
    "C28_columns"
   ],
   "note": "finding: the shape is cached"
  },
  {
   "property": "C29",
   "status": "proved",
   "theorems": [
    "C29_distributed_equals_serial",
    "C29_each_point_evaluated_once"
   ],
   "note": "exact reals (so the order of the reduction does not matter)"
  },
  {
   "property": "C30",
   "status": "proved",
   "theorems": [
    "C30_ngroups_clamped",
    "C30_groups_partition_the_processes",
    "C30_group_communicator",
    "C30_leaders"
   ],
   "note": "exact integer division"
  },
  {
   "property": "C31",
   "status": "proved",
   "theorems": [
    "C31_terminates",
    "C31_no_deadlock",
    "C31_tasks_in_order",
    "C31_every_maximal_run_completes"
   ],
   "note": "actions that raise are not modelled; task constants differ from STOP"
  },
  {
   "property": "C32",
   "status": "proved",
   "theorems": [
    "C32_objective_is_weighted_sum",
    "C32_from_tuples",
    "C32_from_sigma"
   ],
   "note": "real arithmetic; vector valued functions included"
  },
  {
   "property": "C33",
   "status": "proved",
   "theorems": [
    "C33_history_matches_reference",
    "C33_current_residuals",
    "C33_no_recomputation"
   ],
   "note": "the functions are pure functions of x (cache coherence of the flags is C13/C14), fixed output lengths"
  },
  {
   "property": "C34",
   "status": "proved",
   "theorems": [
    "C33_history_matches_reference",
    "C34_refuted",
    "C34_refuted_raises"
   ],
   "note": "the exact length is part of the reference of C33; the two _refuted theorems show that the naive expectation fails"
  },
  {
   "property": "C35",
   "status": "proved",
   "theorems": [
    "C35_sum_of_problems",
    "C35_sum_of_many",
    "C35_refuted"
   ],
   "note": "holds for consecutive functions, refuted for interleaved ones"
  },
  {
   "property": "C36",
   "status": "proved",
   "theorems": [
    "C36_feasible_iff_nonpositive",
    "C36_no_finite_bound",
    "C36_infinite_bound_refuted"
   ],
   "note": "bounds scalar or one per component"
  },
  {
   "property": "C37",
   "status": "proved",
   "theorems": [
    "C37_history_matches_reference",
    "C37_values_at_current_x",
    "C37_refuted_length"
   ],
   "note": ""
  },
  {
   "property": "C38",
   "status": "proved",
   "theorems": [
    "C38_order_and_count",
    "C38_data",
    "C38_rotation_invariant",
    "C38_reflection_invariant"
   ],
   "note": "order, count, exact objects, geometry and invariance of the set; AssertionError exactly on a length mismatch."
  },
  {
   "property": "C39",
   "status": "proved",
   "theorems": [
    "C39_arithmetic",
    "C39_builtin_sum",
    "C39_vjp_is_derivative",
    "C39_vjp_entries"
   ],
   "note": "operators, python sum(), values and vjp of any current tree."
  },
  {
   "property": "C40",
   "status": "proved",
   "theorems": [
    "C40_value",
    "C40_gradient"
   ],
   "note": "value, sign, zero set, exceptions; derivative including the kink."
  },
  {
   "property": "C41",
   "status": "proved",
   "theorems": [
    "C41_evaluation_never_stale",
    "C41_points",
    "C41_stale_when_everything_is_fixed",
    "C41_unrung_refuted"
   ],
   "note": "exact characterisation; the unconditional version is refuted (recompute_bell skips the invalidation when no dof is free)"
  },
  {
   "property": "C42",
   "status": "proved",
   "theorems": [
    "C42_field_per_coil_never_stale",
    "C42_field_per_coil_small_argument",
    "C42_potential_right_after_evaluation",
    "C42_potential_zero_when_never_evaluated",
    "C42_potential_stale_after_set_points",
    "C42_potential_per_coil_refuted"
   ],
   "note": "exact characterisation; dA_by_dcoilcurrents calls compute instead of compute_A, so the unconditional version is refuted"
  },
  {
   "property": "C43",
   "status": "proved",
   "theorems": [
    "C43_reduced_point_in_domain",
    "C43_negative_angle_leaves_domain",
    "C43_negative_angle_refuted",
    "C43_symmetric_evaluation_exact",
    "C43_coils_symmetric_evaluation",
    "C43_gradient_signs"
   ],
   "note": "Exact reals; fmod modelled as truncation toward zero."
  },
  {
   "property": "C44",
   "status": "proved",
   "theorems": [
    "C44_phi_points",
    "C44_theta_points",
    "C44_defaults",
    "C44_errors",
    "C44_grid_shape",
    "C44_half_period_mirror",
    "C44_periods_tile_torus",
    "C44_half_periods_tile_period",
    "C44_deduced_range"
   ],
   "note": "SurfQuad.v"
  },
  {
   "property": "C45",
   "status": "proved",
   "theorems": [
    "C45_mn_match_names",
    "C45_dofs_are_named_coefficients",
    "C45_sizes",
    "C45_names_exactly_the_dofs",
    "C45_names_distinct",
    "C45_set_then_get",
    "C45_set_leaves_others",
    "C45_set_get_coefficient",
    "C45_get_is_coefficient",
    "C45_bad_index",
    "C45_absent_arrays",
    "C45_hidden_coefficients"
   ],
   "note": "SurfModel.v, SurfProps.v"
  },
  {
   "property": "C46",
   "status": "proved",
   "theorems": [
    "C46_coefficients",
    "C46_dofs",
    "C46_status_forgotten",
    "C46_grow_shrink",
    "C46_grow_shrink_dofs",
    "C46_change_wf",
    "C46_fixed_range"
   ],
   "note": "SurfRes.v"
  },
  {
   "property": "C47",
   "status": "proved",
   "theorems": [
    "C47_external_copies_in_sync",
    "C47_history",
    "C47_replace_dofs_refuted",
    "C47_replace_dofs",
    "C47_repaired_by_assignment"
   ],
   "note": "finding: replace_dofs does not call the setter"
  },
  {
   "property": "C48",
   "status": "proved",
   "theorems": [
    "C48_no_argument_uses_current_x",
    "C48_no_argument_uses_last_explicit_point_refuted",
    "C48_no_argument"
   ],
   "note": "finding: the explicit point is kept"
  },
  {
   "property": "C49",
   "status": "proved",
   "theorems": [
    "C49_x_not_restored_after_exception_refuted",
    "C27_difference_quotients",
    "C49_x_after_the_call"
   ],
   "note": "finding: no try/finally"
  },
  {
   "property": "C50",
   "status": "proved",
   "theorems": [
    "C50_explicit_point_is_never_stale",
    "C50_no_argument_is_stale_refuted",
    "C50_no_argument_first_call",
    "C50_no_argument_after_explicit",
    "C50_no_argument_is_frozen"
   ],
   "note": "finding: results are cached under the key None"
  },
  {
   "property": "C51",
   "status": "proved",
   "theorems": [
    "C51_methods_split",
    "C51_object_and_method_split"
   ],
   "note": "refuted for every object; contents are preserved by C25_contents_preserved; C51_example"
  },
  {
   "property": "C52",
   "status": "proved",
   "theorems": [
    "C52_no_redirect",
    "C52_same_module",
    "C52_moved_fails",
    "C52_moved_mixture"
   ],
   "note": "exact characterisation of the redirect lookup; moved modules fail; C52_example"
  },
  {
   "property": "C53",
   "status": "proved",
   "theorems": [
    "C53_ref_dict_fails",
    "C53_class_dict_becomes_object"
   ],
   "note": "refuted"
  },
  {
   "property": "C54",
   "status": "proved",
   "theorems": [
    "C54_shared_object_three_problems"
   ],
   "note": "negative property: the code behaves badly, for all such problems"
  },
  {
   "property": "C55",
   "status": "proved",
   "theorems": [
    "C55_field_has_field_period",
    "C55_field_is_stellarator_symmetric"
   ],
   "note": "for B and A."
  },
  {
   "property": "C56",
   "status": "proved",
   "theorems": [
    "C56_dB_is_derivative_of_B",
    "C56_d2B_is_derivative_of_dB",
    "C56_dA_is_derivative_of_A",
    "C56_d2A_is_derivative_of_dA"
   ],
   "note": "over exact reals; SIMD lanes and padding are not modelled."
  },
  {
   "property": "C57",
   "status": "proved",
   "theorems": [
    "C57_B_vjp",
    "C57_dB_vjp",
    "C57_A_vjp",
    "C57_dA_vjp"
   ],
   "note": "over exact reals."
  },
  {
   "property": "C58",
   "status": "proved",
   "theorems": [
    "C58_div_B_zero",
    "C58_B_is_curl_A",
    "C58_second_derivatives_symmetric"
   ],
   "note": ""
  },
  {
   "property": "C59",
   "status": "proved",
   "theorems": [
    "C59_rotated_curve",
    "C59_rotation_preserves_geometry",
    "C59_vjp_is_transposed"
   ],
   "note": ""
  },
  {
   "property": "C60",
   "status": "proved",
   "theorems": [
    "C60_B_vjp",
    "C60_dB_vjp",
    "C60_A_vjp",
    "C60_dA_vjp"
   ],
   "note": "A_vjp assumes dA_by_dcoilcurrents returns the current A arrays; see C42 for when it does not."
  },
  {
   "property": "C61",
   "status": "proved",
   "theorems": [
    "C61_cart_to_cyl",
    "C61_cyl_to_cart",
    "C61_cyl_round_trip",
    "C61_set_cyl_get_cyl",
    "C61_negative_angle_not_normalised"
   ],
   "note": "over the reals"
  },
  {
   "property": "C62",
   "status": "proved",
   "theorems": [
    "C62_GradAbsB_is_gradient_of_AbsB",
    "C62_cylindrical_components_rotate"
   ],
   "note": "over the reals"
  },
  {
   "property": "C63",
   "status": "proved",
   "theorems": [
    "C63_batches",
    "C63_skip_cell_iff",
    "C63_value",
    "C63_skipped",
    "C63_interpolant_exists",
    "C63_reproduces_polynomials",
    "C63_exact_at_nodes",
    "uniform_good",
    "chebyshev_good"
   ],
   "note": "Exact reals, one output component."
  },
  {
   "property": "C64",
   "status": "proved",
   "theorems": [
    "C64_throws_iff",
    "C64_first_axis_outside_unchanged",
    "C64_last_axis_wraps",
    "C64_extrapolation_wrong_refuted",
    "C64_below_box_accepted_refuted"
   ],
   "note": "The property as a user would expect it (outside the box: error, or unchanged) is refuted by two witnesses; the characterisation is proved."
  },
  {
   "property": "C65",
   "status": "proved",
   "theorems": [
    "C65_gamma_closed_form",
    "C65_gammadash1",
    "C65_gammadash2",
    "C65_gammadash1dash1",
    "C65_gammadash1dash2",
    "C65_gammadash2dash2",
    "C65_field_period",
    "C65_stellsym",
    "C65_simd_rows"
   ],
   "note": "SurfGeom.v, SurfGeomProps.v; real arithmetic"
  },
  {
   "property": "C66",
   "status": "proved",
   "theorems": [
    "C66_length",
    "C66_dgamma_by_dcoeff",
    "C66_dgammadash1_by_dcoeff",
    "C66_dgammadash2_by_dcoeff",
    "C66_dgammadash1dash1_by_dcoeff",
    "C66_dgammadash1dash2_by_dcoeff",
    "C66_dgammadash2dash2_by_dcoeff",
    "C66_dgamma_vjp",
    "C66_dgammadash1_vjp",
    "C66_dgammadash2_vjp",
    "C66_vjp_in_bounds",
    "C66_vjp_length",
    "C66_hidden_entries_move_the_surface"
   ],
   "note": "SurfGeomJac.v; real arithmetic"
  },
  {
   "property": "C67",
   "status": "proved",
   "theorems": [
    "C67_dnormal_by_dcoeff",
    "C67_dfirst_fund_form_by_dcoeff",
    "C67_dunitnormal_by_dcoeff",
    "C67_dsecond_fund_form_by_dcoeff",
    "C67_discriminant",
    "C67_principal_curvatures",
    "C67_unitnormal",
    "C67_dmean_curvature",
    "C67_dgauss_curvature",
    "C67_dprincipal_curvatures",
    "C67_dnormal_by_dcoeff_vjp",
    "C67_darea_by_dcoeff",
    "C67_d2normal_by_dcoeffdcoeff",
    "C67_d2area_by_dcoeffdcoeff",
    "C67_dvolume_by_dcoeff",
    "C67_d2volume_by_dcoeffdcoeff",
    "C67_second_derivatives_symmetric",
    "C67_d2volume_simd",
    "C67_rz_linear",
    "C67_rz_area",
    "C67_rz_volume",
    "C67_rz_d2area",
    "C67_rz_d2volume",
    "C67_torus_regular"
   ],
   "note": "Real arithmetic. The hypotheses 'linear' and 'regular' are met by SurfaceRZFourier (C67_rz_linear) and by every circular torus (C67_torus_regular)."
  },
  {
   "property": "C68",
   "status": "proved",
   "theorems": [
    "C68_set_dofs_reads_past_the_end_iff_short",
    "C68_set_then_get",
    "C68_gamma_is_the_documented_series",
    "C68_one_name_per_dof",
    "C68_derivatives_along_the_curve",
    "C68_closed",
    "C68_derivatives_by_dofs",
    "C68_jax_agrees",
    "C68_vjp"
   ],
   "note": "exact reals; set_dofs/get_dofs/gamma.../vjp of curvexyzfourier and curve.h"
  },
  {
   "property": "C69",
   "status": "proved",
   "theorems": [
    "C69_arrays_keep_their_sizes",
    "C69_set_then_get",
    "C69_gamma_is_the_documented_series",
    "C69_derivatives_along_the_curve",
    "C69_derivatives_by_dofs",
    "C69_field_period"
   ],
   "note": "exact reals"
  },
  {
   "property": "C70",
   "status": "proved",
   "theorems": [
    "C70_rotation",
    "C70_zero_quaternion_is_no_rotation",
    "C70_scaling_the_quaternion",
    "C70_gamma_is_the_documented_curve",
    "C70_planar",
    "C70_set_then_get",
    "C70_get_then_set",
    "C70_derivatives_along_the_curve",
    "C70_derivatives_by_dofs",
    "C70_zero_quaternion_not_differentiable"
   ],
   "note": "exact reals; includes the refuted case (zero quaternion)"
  },
  {
   "property": "C71",
   "status": "proved",
   "theorems": [
    "C71_dincremental_arclength",
    "C71_dkappa",
    "C71_dtorsion",
    "C71_dkappadash",
    "C71_dfrenet_frame",
    "C71_kappadash",
    "C71_frenet_frame_is_orthonormal",
    "C71_frenet_serret",
    "C71_dincremental_vjp",
    "C71_dkappa_vjp",
    "C71_dtorsion_vjp",
    "C71_rotated_curve"
   ],
   "note": "exact reals, pointwise; jax vjp enters as a hypothesis (it returns the gradient)"
  },
  {
   "property": "C72",
   "status": "proved",
   "theorems": [
    "C72_every_query_is_fresh",
    "C72_curvexyzfourier_is_fresh",
    "C72_curverzfourier_is_fresh",
    "C72_current_values",
    "C72_positions_are_always_fresh",
    "C72_persistent_values_are_never_recomputed",
    "C72_curveplanarfourier_derivatives_are_stale",
    "C72_curveplanarfourier_stale_is_wrong",
    "C72_shape_is_fixed_at_first_use",
    "C72_nan_is_forever",
    "C72_user_nan_stays",
    "C72_returned_arrays_are_the_cache"
   ],
   "note": "Generic theorems about the two maps, instantiated with the tables of the curve classes. The staleness of the derivatives of CurvePlanarFourier is a defect of the code, characterised exactly."
  },
  {
   "property": "C73",
   "status": "proved",
   "theorems": [
    "C73_within_collection",
    "C73_between_collections",
    "C73_zero_threshold"
   ],
   "note": "exact reals; candidates modelled in loop order, C74/C75 hold for every permutation"
  },
  {
   "property": "C74",
   "status": "proved",
   "theorems": [
    "C74_value",
    "C74_num_basecurves",
    "C74_nonnegative_and_zero",
    "C74_gradient",
    "C74_shortest_distance",
    "C74_symmetric_curves"
   ],
   "note": "jax gradients written out and proved to be the derivative"
  },
  {
   "property": "C75",
   "status": "proved",
   "theorems": [
    "C75_answers",
    "C75_fresh_answer",
    "C75_fresh_histories",
    "C75_gradient",
    "C75_shortest_distance",
    "C75_stale_answer"
   ],
   "note": "the code does not depend on the surface; exact characterisation of every answer, with a stale witness"
  },
  {
   "property": "C76",
   "status": "proved",
   "theorems": [
    "C76_values",
    "C76_nonnegative_and_zero",
    "C76_length_gradient",
    "C76_curvature_gradient",
    "C76_torsion_gradient",
    "C76_msc_gradient",
    "C76_vjp_met"
   ],
   "note": "J as sums over quadrature points, zero sets, and gradients with respect to the dofs; jax vjps enter through the predicate is_vjp, which C76_vjp_met shows satisfiable wherever the curvature is nonzero. p natural."
  },
  {
   "property": "C77",
   "status": "proved",
   "theorems": [
    "C77_arguments",
    "C77_index_partition",
    "C77_value",
    "C77_nonnegative_and_zero",
    "C77_gradient",
    "C77_too_many_intervals"
   ],
   "note": "For every partition the rounding of linspace can produce; the last theorem is the exact failure of the 'partial' mode on coarse grids."
  },
  {
   "property": "C78",
   "status": "proved",
   "theorems": [
    "C78_value",
    "C78_downsampling",
    "C78_permutation",
    "C78_motions",
    "C78_orientation",
    "C78_coplanar",
    "C78_locally_constant"
   ],
   "note": "Exact reals; std::round characterised as a nearest nonnegative integer."
  },
  {
   "property": "C79",
   "status": "proved",
   "theorems": [
    "C79_value",
    "C79_nonnegative_and_zero",
    "C79_scaling",
    "C79_orientation",
    "C79_gradient"
   ],
   "note": "Exact reals; the derivative of the field with respect to its dofs enters through gradient3 (C57)."
  },
  {
   "property": "C80",
   "status": "proved",
   "theorems": [
    "C80_fresh",
    "C80_other_objective",
    "C80_moved_surface",
    "C80_stale_refuted"
   ],
   "note": "Exact characterisation; the naive claim (always the current surface) is refuted."
  },
  {
   "property": "C81",
   "status": "proved",
   "theorems": [
    "C81_value",
    "C81_enough_objectives",
    "C81_derivative",
    "C81_gradient",
    "C81_failures"
   ],
   "note": "All ranks at once; exact reals."
  },
  {
   "property": "C82",
   "status": "proved",
   "theorems": [
    "C82_access",
    "C82_no_bell",
    "C82_owner_keeps"
   ],
   "note": "Abstract attribute values."
  },
  {
   "property": "C83",
   "status": "proved",
   "theorems": [
    "C83_projection",
    "C83_largest_step",
    "C83_overshoot_bound",
    "C83_overshoot_refuted"
   ],
   "note": "Exact reals. The naive claim (moments always within the bound) is refuted by a concrete problem."
  },
  {
   "property": "C84",
   "status": "proved",
   "theorems": [
    "C84_descent",
    "C84_fixed_point",
    "C84_short_verbose"
   ],
   "note": "Exact reals; finiteness of the number of iterations to convergence is not claimed."
  },
  {
   "property": "C85",
   "status": "proved",
   "theorems": [
    "C85_prox_l1",
    "C85_prox_l0",
    "C85_proxy_feasible",
    "C85_descent",
    "C85_quiet_fails"
   ],
   "note": "Exact reals; hypotheses met by C85_meets."
  },
  {
   "property": "C86",
   "status": "proved",
   "theorems": [
    "C86_greedy",
    "C86_magnets",
    "C86_moments",
    "C86_overrun",
    "C86_overrun_refuted"
   ],
   "note": "Exact reals; all scores below the sentinel 1e50 (hypothesis `moderate`, met by C86_meets)."
  },
  {
   "property": "C87",
   "status": "proved",
   "theorems": [
    "C87_run",
    "C87_magnets",
    "C87_parity"
   ],
   "note": "Exact reals; scores below 1e50; backtracking interval positive (0 dies with a remainder by zero). Hypotheses met by C87_meets."
  },
  {
   "property": "C88",
   "status": "proved",
   "theorems": [
    "C88_baseline",
    "C88_count",
    "C88_divides",
    "C88_overflow",
    "C88_backtracking_overflow",
    "C88_connectivity"
   ],
   "note": "Buffer sizes as in the C++; the out-of-bounds write is modelled as an error result."
  },
  {
   "property": "C89",
   "status": "proved",
   "theorems": [
    "C89_kirchhoff",
    "C89_partners",
    "C89_exact"
   ],
   "note": "Exact reals; n_theta even, n_phi >= 2."
  },
  {
   "property": "C90",
   "status": "proved",
   "theorems": [
    "C90_span",
    "C90_loop",
    "C90_neighbors"
   ],
   "note": "n_theta even, n_phi >= 2."
  },
  {
   "property": "C91",
   "status": "proved",
   "theorems": [
    "C91_toroidal",
    "C91_poloidal",
    "C91_set_poloidal",
    "C91_set_toroidal",
    "C91_tf",
    "C91_tf_check"
   ],
   "note": "The claim about the poloidal current needs n_theta >= 4."
  },
  {
   "property": "C92",
   "status": "proved",
   "theorems": [
    "C92_wellformed",
    "C92_update",
    "C92_constrained",
    "C92_sound",
    "C92_disjoint",
    "C92_set_free",
    "C92_free_undone",
    "C92_add_implied",
    "C92_set_constrained",
    "C92_breaks",
    "C92_breaks_nothing"
   ],
   "note": "User constraints with a built-in segment type are outside the model. Examples free_undone_case and breaks_case meet the hypotheses."
  },
  {
   "property": "C93",
   "status": "proved",
   "theorems": [
    "C93_matrices",
    "C93_no_crossings",
    "C93_all_constrained"
   ],
   "note": "C93_no_crossings is the refutation for assume_no_crossings on a 4 x 2 wireframe; C93_all_constrained shows the ValueError is reachable at every size."
  },
  {
   "property": "C94",
   "status": "proved",
   "theorems": [
    "C94_constraints",
    "C94_free_cells",
    "C94_currents",
    "C94_counts",
    "C94_crossings",
    "C94_no_new_coils"
   ],
   "note": "Generic over the tables (GSCOProps) and for the tables of the toroidal wireframe (GSCOWire)."
  },
  {
   "property": "C95",
   "status": "proved",
   "theorems": [
    "C95_trace",
    "C95_replay",
    "C95_increase",
    "C95_undo_missed",
    "C95_match_current_stop"
   ],
   "note": "C95_undo_missed and C95_match_current_stop are runs that show the two weaknesses named in the statement."
  },
  {
   "property": "C96",
   "status": "proved",
   "theorems": [
    "C96_optimal",
    "C96_dependent",
    "C96_sizes",
    "C96_weights",
    "C96_single_unknown",
    "C96_wireframe",
    "C96_fresh",
    "C96_diagonal_only",
    "C96_matrix_not_minimised",
    "C96_kernels_exist"
   ],
   "note": "scipy.linalg.qr and lstsq are parameters with their contracts as hypotheses (kernels_ok); C96_kernels_exist constructs exact implementations of both for all sizes. solve_triangular is modelled."
  },
  {
   "property": "C97",
   "status": "proved",
   "theorems": [
    "C97_values",
    "C97_dfds_is_the_derivative",
    "C97_pressure_arguments",
    "C97_one_species",
    "C97_spec_value",
    "C97_spec_jump",
    "C97_spec_range"
   ],
   "note": "scipy's spline enters as a pair (value, derivative) with the derivative as hypothesis (constructor b_spline)"
  },
  {
   "property": "C98",
   "status": "proved",
   "theorems": [
    "C98_accessors_are_current",
    "C98_history_does_not_matter",
    "C98_no_needless_run",
    "C98_removed_profile_stays",
    "C98_asymmetric_boundary_ignored",
    "C98_second_object_takes_over",
    "C98_shared_profile_goes_stale",
    "C98_indata_assignment_is_not_seen",
    "C98_wout_object",
    "C98_file_boundary",
    "C98_total_current"
   ],
   "note": "VMEC is an arbitrary function of its input data; notification of a Vmec object by its parents is C15/C16"
  },
  {
   "property": "C99",
   "status": "proved",
   "theorems": [
    "C99_files_of_group_0",
    "C99_first_and_last",
    "C99_other_groups",
    "C99_keep_all"
   ],
   "note": ""
  }
 ]
}