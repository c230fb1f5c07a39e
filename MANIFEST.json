{
 "claims": [
  {
   "property": "C01",
   "status": "proved",
   "theorems": [
    "C01_variable_registry"
   ],
   "note": ""
  },
  {
   "property": "C02",
   "status": "proved",
   "theorems": [
    "C02_factor_registry"
   ],
   "note": ""
  },
  {
   "property": "C03",
   "status": "proved",
   "theorems": [
    "C03_columns_tile"
   ],
   "note": ""
  },
  {
   "property": "C04",
   "status": "proved",
   "theorems": [
    "C04_rows_tile"
   ],
   "note": ""
  },
  {
   "property": "C05",
   "status": "proved",
   "theorems": [
    "C05_finalize_iff",
    "C05_no_undefined_behaviour",
    "C05_library_graphs"
   ],
   "note": "C05_no_undefined_behaviour holds for arbitrary factor classes whose own code is safe; C05_library_graphs discharges that for the library's classes, correctly used"
  },
  {
   "property": "C06",
   "status": "proved",
   "theorems": [
    "C06_residual_stack",
    "C06_library_graphs"
   ],
   "note": ""
  },
  {
   "property": "C07",
   "status": "proved",
   "theorems": [
    "C07_dense_jacobian"
   ],
   "note": "proved for every call after the first finalization, not only the first"
  },
  {
   "property": "C08",
   "status": "partial",
   "theorems": [
    "C08_sparse_equals_dense",
    "C08_no_active_refuted"
   ],
   "note": "proved for graphs in which at least one factor lists an optimised variable; otherwise the second sparse call throws (C08_no_active_refuted)"
  },
  {
   "property": "C09",
   "status": "proved",
   "theorems": [
    "C09_depends_on_current_values",
    "C09_library_factors"
   ],
   "note": ""
  },
  {
   "property": "C10",
   "status": "proved",
   "theorems": [
    "C10_nothing_before_finalize"
   ],
   "note": ""
  },
  {
   "property": "C100",
   "status": "proved",
   "theorems": [
    "C100_superposition"
   ],
   "note": "over the reals, for runs in which no exception was caught and exact factorisations; the variables and factors of the three graphs are listed in the same order (C68 covers other orders)"
  },
  {
   "property": "C101",
   "status": "proved",
   "theorems": [
    "C101_held_no_larger",
    "C101_agreeing_no_larger"
   ],
   "note": "over the reals, for runs of at least one iteration in which no exception was caught and exact factorisations; the further measurements are in no other way restricted (any factors that meet the shape and buffer contracts); variables that an increment of zero leaves unchanged (C86_library_variables); with Levenberg-Marquardt, positive damping settings and variables whose rejected steps are undone exactly (C27); away from an optimum see C96 and C97"
  },
  {
   "property": "C102",
   "status": "proved",
   "theorems": [
    "C102_design_decides"
   ],
   "note": "over the reals, for runs in which no exception was caught and exact factorisations; with Levenberg-Marquardt for variables whose rejected steps are undone exactly (C27)"
  },
  {
   "property": "C103",
   "status": "proved",
   "theorems": [
    "C103_better_instruments",
    "C103_at_most_times"
   ],
   "note": "over the reals, for runs in which no exception was caught and exact factorisations; with Levenberg-Marquardt for variables whose rejected steps are undone exactly (C27)"
  },
  {
   "property": "C11",
   "status": "proved",
   "theorems": [
    "C11_vector_round_trip"
   ],
   "note": ""
  },
  {
   "property": "C12",
   "status": "proved",
   "theorems": [
    "C12_apply_increment"
   ],
   "note": ""
  },
  {
   "property": "C13",
   "status": "partial",
   "theorems": [
    "C13_graph_calls_keep_constants",
    "C13_gauss_newton_keeps_constants",
    "C13_levenberg_marquardt_partial",
    "C13_rotation_refuted"
   ],
   "note": "graph calls and Gauss-Newton proved; Levenberg-Marquardt for variables that set_value_from_vector(value()) restores; refuted for a constant RotationVariable, whose matrix changes when a step is rejected"
  },
  {
   "property": "C14",
   "status": "partial",
   "theorems": [
    "C14_refinalize_residual_partial",
    "C14_refinalize_jacobians_partial",
    "C14_dense_after_refinalize_refuted",
    "C14_sparse_after_refinalize_refuted"
   ],
   "note": "residual part proved; Jacobian parts refuted: validity flags are not reset by finalize_structure()"
  },
  {
   "property": "C15",
   "status": "partial",
   "theorems": [
    "C15_placement_by_index_partial",
    "C15_factor_placement_refuted"
   ],
   "note": "refuted: the placement map is keyed by insertion index; holds when ids are insertion indices"
  },
  {
   "property": "C16",
   "status": "partial",
   "theorems": [
    "C16_repeated_variable_dense_refuted",
    "C16_repeated_variable_sparse_refuted"
   ],
   "note": "refuted: the last block wins; later sparse calls throw"
  },
  {
   "property": "C17",
   "status": "proved",
   "theorems": [
    "C17_bounded_work"
   ],
   "note": ""
  },
  {
   "property": "C18",
   "status": "proved",
   "theorems": [
    "C18_final_status"
   ],
   "note": ""
  },
  {
   "property": "C19",
   "status": "partial",
   "theorems": [
    "C19_lm_never_worse_partial",
    "C19_rotation_refuted"
   ],
   "note": "proved for variables that restore exactly (over doubles and reals); refuted with a RotationVariable"
  },
  {
   "property": "C20",
   "status": "proved",
   "theorems": [
    "C20_rejected_step_undone",
    "C20_library_classes"
   ],
   "note": ""
  },
  {
   "property": "C21",
   "status": "partial",
   "theorems": [
    "C21_stats_gauss_newton",
    "C21_stats_levenberg_marquardt_partial",
    "C21_rotation_refuted"
   ],
   "note": "Gauss-Newton in full; Levenberg-Marquardt for variables that restore exactly; refuted with a RotationVariable"
  },
  {
   "property": "C22",
   "status": "proved",
   "theorems": [
    "C22_failed_step_changes_nothing"
   ],
   "note": ""
  },
  {
   "property": "C23",
   "status": "partial",
   "theorems": [
    "C23_damping_upper_partial",
    "C23_damping_growth_partial",
    "C23_damping_floor",
    "C23_damping_bounded",
    "C23_upper_bound_refuted"
   ],
   "note": "lower limit proved; upper limit proved when no attempt fails numerically, otherwise a growth bound; refuted in general"
  },
  {
   "property": "C24",
   "status": "proved",
   "theorems": [
    "C24_one_step_solves_linear",
    "C24_well_posed_linear"
   ],
   "note": ""
  },
  {
   "property": "C25",
   "status": "partial",
   "theorems": [
    "C25_covariance_guarded_partial",
    "C25_finite_refuted"
   ],
   "note": "all guards proved except finiteness of the entries, which is refuted (symmetrisation can overflow)"
  },
  {
   "property": "C26",
   "status": "partial",
   "theorems": [
    "C26_covariance_block_partial",
    "C26_stale_jacobian_refuted",
    "C26_second_run_refuted"
   ],
   "note": "proved relative to the Jacobian held when covariances are prepared; refuted for the Jacobian at the final estimate; C77 says exactly which estimate the Jacobian belongs to, C78 when that is the final one"
  },
  {
   "property": "C27",
   "status": "proved",
   "theorems": [
    "C27_pose2d_wrapped"
   ],
   "note": ""
  },
  {
   "property": "C28",
   "status": "partial",
   "theorems": [
    "C28_inverse_range_clipped",
    "C28_inverse_range_nearest",
    "C28_inverse_range_doubles",
    "C28_nan_refuted"
   ],
   "note": "proved over reals, and over doubles for arguments that are not NaN; refuted for NaN"
  },
  {
   "property": "C29",
   "status": "partial",
   "theorems": [
    "C29_plane_unit_normal_partial",
    "C29_plane_unit_or_zero",
    "C29_plane_direction",
    "C29_zero_normal_refuted"
   ],
   "note": "unit or zero after every history, unit when the zero normal is never asked for; refuted when it is"
  },
  {
   "property": "C30",
   "status": "partial",
   "theorems": [
    "C30_pose_rotation_partial",
    "C30_pose_from_matrix",
    "C30_small_vector_refuted"
   ],
   "note": "exact where no rotation vector is nonzero and shorter than 1e-10; refuted below"
  },
  {
   "property": "C31",
   "status": "partial",
   "theorems": [
    "C31_exp_rotation_partial",
    "C31_exp_fixes",
    "C31_exp_neg_transpose",
    "C31_exp_almost_orthonormal",
    "C31_exp_inverse_partial",
    "C31_small_vector_refuted"
   ],
   "note": "exact for w = 0 and |w| >= 1e-10; orthonormal within 1e-20 for all; refuted for nonzero |w| < 1e-10"
  },
  {
   "property": "C32",
   "status": "partial",
   "theorems": [
    "C32_log_of_exp_partial",
    "C32_exp_of_log_partial",
    "C32_log_at_most_pi",
    "C32_log_of_exp_near",
    "C32_exp_of_log_near",
    "C32_log_of_exp_refuted",
    "C32_exp_of_log_refuted"
   ],
   "note": "exact outside the small-angle window [1e-10, 1e-5); error bounds everywhere; exactness refuted inside the window"
  },
  {
   "property": "C33",
   "status": "partial",
   "theorems": [
    "C33_pose_increment_partial",
    "C33_rotation_increment",
    "C33_small_rotation_refuted"
   ],
   "note": "exact for PoseVariable outside the small-angle windows and for RotationVariable; refuted inside"
  },
  {
   "property": "C34",
   "status": "partial",
   "theorems": [
    "C34_inverse_jacobian",
    "C34_inverse_jacobian_near",
    "C34_velocity_unique",
    "C34_log_step_partial",
    "C34_log_derivative_partial",
    "C34_log_step_zero",
    "C34_small_angle_refuted",
    "C34_beyond_pi_refuted"
   ],
   "note": "inverse of the Jacobian of Exp for |w| >= 1e-8, and up to 1e-16 for 1e-10 < |w| < 1e-8; derivative of Log for 1e-5 < |w| < pi and at 0; refuted for smaller angles and beyond pi"
  },
  {
   "property": "C35",
   "status": "partial",
   "theorems": [
    "C35_generic_prior_exact",
    "C35_generic_between_exact",
    "C35_linear_velocity_exact",
    "C35_plane_value_refuted"
   ],
   "note": "proved for variables whose increments add to value(); refuted for a generic prior on a PlaneVariable"
  },
  {
   "property": "C36",
   "status": "proved",
   "theorems": [
    "C36_position_prior_exact",
    "C36_position_between_exact"
   ],
   "note": ""
  },
  {
   "property": "C37",
   "status": "proved",
   "theorems": [
    "C37_bearing_exact",
    "C37_near_refuted"
   ],
   "note": "C37_near_refuted shows that the minimum distance is needed"
  },
  {
   "property": "C38",
   "status": "proved",
   "theorems": [
    "C38_inverse_range_exact"
   ],
   "note": ""
  },
  {
   "property": "C39",
   "status": "proved",
   "theorems": [
    "C39_tangent_basis",
    "C39_zero",
    "C39_front_exact"
   ],
   "note": ""
  },
  {
   "property": "C40",
   "status": "proved",
   "theorems": [
    "C40_bearing_exact",
    "C40_range_bearing_exact"
   ],
   "note": ""
  },
  {
   "property": "C41",
   "status": "partial",
   "theorems": [
    "C41_prior_exact",
    "C41_between_exact",
    "C41_between_zero",
    "C41_local_frame_refuted",
    "C41_local_frame_meaning"
   ],
   "note": "Jacobians proved; the local-frame variant uses the opposite rotation: refuted, true meaning proved"
  },
  {
   "property": "C42",
   "status": "partial",
   "theorems": [
    "C42_unscaled_exact",
    "C42_unscaled_zero",
    "C42_scaled_exact_partial",
    "C42_scaled_refuted",
    "C42_scaled_meaning"
   ],
   "note": "proved without range scaling; with it the offset has the wrong sign: refuted, true meaning proved; the scaled Jacobian is proved beyond 1e-12 from the reference point"
  },
  {
   "property": "C43",
   "status": "partial",
   "theorems": [
    "C43_exact",
    "C43_zero_partial",
    "C43_flipped_refuted"
   ],
   "note": "Jacobian proved; zero exactly for parallel normals, so refuted for the opposite normal"
  },
  {
   "property": "C44",
   "status": "partial",
   "theorems": [
    "C44_rotation_prior_partial",
    "C44_orientation_prior_partial",
    "C44_orientation_between_partial",
    "C44_small_angle_refuted"
   ],
   "note": "proved for rotation errors that are zero or between 1e-5 and 3.14; refuted for smaller ones"
  },
  {
   "property": "C45",
   "status": "partial",
   "theorems": [
    "C45_exact_partial",
    "C45_output_vector_refuted",
    "C45_zero",
    "C45_origin_refuted"
   ],
   "note": "blocks exact when the output vector has 0 or 5 elements; otherwise out-of-bounds access (refuted)"
  },
  {
   "property": "C46",
   "status": "partial",
   "theorems": [
    "C46_generic_prior",
    "C46_generic_between",
    "C46_linear_velocity",
    "C46_position_prior",
    "C46_position_between",
    "C46_rotation_prior",
    "C46_orientation_prior_partial",
    "C46_tiny_prior_refuted",
    "C46_orientation_between",
    "C46_bearing",
    "C46_inverse_range_bearing",
    "C46_bearing_2d",
    "C46_range_bearing_2d",
    "C46_pose_2d_prior",
    "C39_zero",
    "C41_between_zero",
    "C41_local_frame_refuted",
    "C42_unscaled_zero",
    "C42_scaled_refuted",
    "C43_zero_partial",
    "C43_flipped_refuted",
    "C45_zero",
    "C45_origin_refuted"
   ],
   "note": "proved for most factors; refuted for orientation priors closer than 1e-5 to the identity, the local-frame 2D between factor, the range-scaled plane factor, the plane prior and the coordinate transform's documented origin"
  },
  {
   "property": "C47",
   "status": "proved",
   "theorems": [
    "C47_overloads_agree",
    "C47_residual_size"
   ],
   "note": ""
  },
  {
   "property": "C48",
   "status": "partial",
   "theorems": [
    "C48_shapes_partial",
    "C48_constant_generic_prior_refuted",
    "C48_transform_buffer_refuted"
   ],
   "note": "proved for all 18 classes except a generic prior on a constant variable (two matrices) and a coordinate transform with an output vector of a length other than 0 and 5 (out-of-bounds access); both are refuted"
  },
  {
   "property": "C49",
   "status": "partial",
   "theorems": [
    "C49_quotients_partial",
    "C49_library",
    "C49_returns",
    "C49_rotation_returns",
    "C49_set_rotation_returns",
    "C49_affine",
    "C49_generic_prior",
    "C49_generic_between",
    "C49_rotation_refuted",
    "C49_exception_refuted"
   ],
   "note": "proved for all variables but rotations under 1e-5 rad built from a matrix (refuted: they are changed) and for calls that end normally (refuted: an exception leaves a variable perturbed)"
  },
  {
   "property": "C50",
   "status": "partial",
   "theorems": [
    "C50_inlier",
    "C50_outlier",
    "C50_continuous",
    "C50_derivative_partial",
    "C50_derivative_refuted",
    "C50_constant_refuted"
   ],
   "note": "residual part proved; the transformed Jacobian is the derivative below the threshold, above it exactly in directions that keep the residual's length: refuted there; empty matrices of constant variables are undefined behaviour"
  },
  {
   "property": "C51",
   "status": "partial",
   "theorems": [
    "C51_refuted"
   ],
   "note": "refuted: the graph never reads the kernel of a factor"
  },
  {
   "property": "C52",
   "status": "proved",
   "theorems": [
    "C52_total",
    "C52_never_decreases"
   ],
   "note": "total over exact seconds; monotone also in doubles"
  },
  {
   "property": "C53",
   "status": "partial",
   "theorems": [
    "C53_verdict_partial",
    "C53_library",
    "C53_linear_graphs",
    "C53_constant_prior",
    "C53_not_finalized",
    "C53_nan_refuted",
    "C53_rotation_refuted"
   ],
   "note": "proved over the reals for variables that return; in doubles a NaN Jacobian passes, and small rotations are changed by the test: both refuted"
  },
  {
   "property": "C54",
   "status": "partial",
   "theorems": [
    "C54_increment_partial",
    "C54_set_partial",
    "C54_set_accepts_refuted",
    "C54_set_undefined_refuted",
    "C54_rotation_increment_refuted"
   ],
   "note": "proved for apply_increment of every class but rotations and for set_value_from_vector of generic, plane and 2D pose variables; refuted for the rest"
  },
  {
   "property": "C55",
   "status": "partial",
   "theorems": [
    "C55_lm_success_improves_partial",
    "C55_nan_refuted",
    "C55_short_step_refuted"
   ],
   "note": "proved for Levenberg-Marquardt with restorable variables; refuted for Gauss-Newton"
  },
  {
   "property": "C56",
   "status": "partial",
   "theorems": [
    "C56_levenberg_marquardt_steps_partial",
    "C58_library_graphs"
   ],
   "note": "proved over the reals for runs without an exception inside a step and variables that set_value_from_vector(value()) restores; a system counts as unsolvable only if it is ill-posed"
  },
  {
   "property": "C57",
   "status": "proved",
   "theorems": [
    "C57_how_a_run_ends"
   ],
   "note": "for every number system; a run with a smaller iteration limit gives the statistics after earlier iterations"
  },
  {
   "property": "C58",
   "status": "proved",
   "theorems": [
    "C58_gauss_newton_steps",
    "C58_library_graphs"
   ],
   "note": "over the reals; includes runs ended by an exception; the hypotheses on factors are proved of the library classes"
  },
  {
   "property": "C59",
   "status": "partial",
   "theorems": [
    "C59_along_increments",
    "C59_increments_exist",
    "C59_motions_exist",
    "C59_identity_pose_refuted"
   ],
   "note": "proved where the variables are in the interior of their increment's regular region; refuted for a pose at the identity"
  },
  {
   "property": "C60",
   "status": "partial",
   "theorems": [
    "C60_loss_refuted"
   ],
   "note": "refuted: holds exactly for residuals with norm at most delta"
  },
  {
   "property": "C61",
   "status": "proved",
   "theorems": [
    "C61_limit"
   ],
   "note": "over the reals, for library variables that are regular and that set_value_from_vector returns to their state (see C49)"
  },
  {
   "property": "C62",
   "status": "partial",
   "theorems": [
    "C62_success_means_converged_refuted",
    "C57_how_a_run_ends"
   ],
   "note": "false: reaching the iteration limit is reported as SUCCESS too; C57 has the exact list of reasons"
  },
  {
   "property": "C63",
   "status": "proved",
   "theorems": [
    "C63_descent_direction"
   ],
   "note": "holds without damping too, if a solution exists; C56 and C58 say that every increment is such a solution"
  },
  {
   "property": "C64",
   "status": "proved",
   "theorems": [
    "C64_failure_codes"
   ],
   "note": "over the reals, for every solver that factorises exactly (C66); runs without an exception"
  },
  {
   "property": "C65",
   "status": "proved",
   "theorems": [
    "C65_unobservable_fails",
    "C65_well_posed_steps"
   ],
   "note": "over the reals, runs without an exception; the second part says that one iteration does not fail"
  },
  {
   "property": "C66",
   "status": "proved",
   "theorems": [
    "C66_ldlt_exact",
    "C56_levenberg_marquardt_steps_partial",
    "C23_damping_bounded"
   ],
   "note": "Eigen's algorithm is modelled in Ldlt.v, with a dense store of L; that enough damping avoids numerical failures enters C56 (failures only for ill-posed systems) and C23_damping_bounded"
  },
  {
   "property": "C67",
   "status": "proved",
   "theorems": [
    "C67_covariance_available"
   ],
   "note": "relative to the Jacobian that the graph holds when covariances are prepared (see C26), first preparation after setup()"
  },
  {
   "property": "C68",
   "status": "proved",
   "theorems": [
    "C68_insertion_order"
   ],
   "note": "over the reals, Gauss-Newton, solvers that factorise exactly (C66); objects are identified by address, so both runs start from the same values. Runs that end in a numerical failure are excluded: the pivots compared with 1e-12 depend on the order"
  },
  {
   "property": "C69",
   "status": "proved",
   "theorems": [
    "C69_session_defined",
    "C69_library_session_defined",
    "C69_library_new_variable",
    "C69_ldlt_sized",
    "C69_all_constant_refuted"
   ],
   "note": "any scalars, any solver with vectors of the right length (C69_ldlt_sized: LDL^T is one). The last theorem shows that the condition on optimised variables is needed: optimize() takes minCoeff() of an empty vector when all variables are constant"
  },
  {
   "property": "C70",
   "status": "proved",
   "theorems": [
    "C70_optimize_returns",
    "C70_optimize_completes",
    "C70_library_returns",
    "C70_library_completes"
   ],
   "note": "any scalars, any solver with vectors of the right length; runs are bounded by max_num_iterations and by the five attempts of a Levenberg-Marquardt step"
  },
  {
   "property": "C71",
   "status": "proved",
   "theorems": [
    "C71_floating_graph_fails"
   ],
   "note": "over the reals, solvers that factorise exactly (C66), runs without exceptions (C70 says when); [indifferent] in SpecGauge.v lists for each class which translations it does not notice, proved of the Jacobians in GaugeFactors.v"
  },
  {
   "property": "C72",
   "status": "proved",
   "theorems": [
    "C72_floating_centre_kept"
   ],
   "note": "as C71, for runs of the Levenberg-Marquardt method with positive damping settings; variables in states that set_value_from_vector(value()) restores (all classes except RotationVariable, see C22)"
  },
  {
   "property": "C73",
   "status": "proved",
   "theorems": [
    "C73_displaced_session",
    "C73_plane_refuted"
   ],
   "note": "over the reals, any solver; the two processes iterate over their hash maps in the same order; inverse ranges and their limits at least 1e-9 (the defaults are 1e-6 and 1000); set_variable_values_from_vector left out, set_value_from_vector included. The second theorem shows why plane-observed points must stay"
  },
  {
   "property": "C74",
   "status": "proved",
   "theorems": [
    "C74_reports_decide"
   ],
   "note": "any scalars and solver; the two processes iterate over their hash maps in the same order; set_variable_values_from_vector left out"
  },
  {
   "property": "C75",
   "status": "proved",
   "theorems": [
    "C75_unconnected_part",
    "C75_library_reads_only"
   ],
   "note": "over the reals, solvers that factorise exactly (C66), runs without exceptions and with the same number of iterations (the stopping rules look at the whole graph)"
  },
  {
   "property": "C76",
   "status": "proved",
   "theorems": [
    "C76_unseen_motion_fails"
   ],
   "note": "over the reals, solvers that factorise exactly (C66); the motion is given at the starting values, with one turning, growth and translation per connected group; runs in which no factor throws"
  },
  {
   "property": "C77",
   "status": "proved",
   "theorems": [
    "C77_jacobian_of_last_iteration",
    "C77_covariances_before_last_step"
   ],
   "note": "first part for every scalar type and solver; second part over the reals, solvers that factorise exactly (C66), first preparation after setup() (C26 refutes it for later ones); with Levenberg-Marquardt, variables whose rejected steps are undone exactly (C27)"
  },
  {
   "property": "C78",
   "status": "proved",
   "theorems": [
    "C78_constant_jacobians",
    "C78_final_covariances"
   ],
   "note": "over the reals, solvers that factorise exactly (C66), first preparation after setup(); with Levenberg-Marquardt, variables whose rejected steps are undone exactly (C27)"
  },
  {
   "property": "C79",
   "status": "proved",
   "theorems": [
    "C79_floating_no_covariances",
    "C79_unseen_motion_no_covariances"
   ],
   "note": "over the reals, solvers that factorise exactly (C66), first preparation after setup(); runs in which no factor throws"
  },
  {
   "property": "C80",
   "status": "proved",
   "theorems": [
    "C80_other_units",
    "C80_levenberg_marquardt_refuted"
   ],
   "note": "over the reals; one solver exact, the other factorising exactly (C66); runs in which no factor throws and that take the same number of iterations (the stopping thresholds are not free of units); inverse ranges and their limits at least 1e-9 in both systems; the part about Levenberg-Marquardt is refuted, as stated"
  },
  {
   "property": "C81",
   "status": "proved",
   "theorems": [
    "C81_insertion_order_covariances"
   ],
   "note": "over the reals, solvers that factorise exactly (C66), Gauss-Newton; both runs are first runs of their optimiser (no Hessian kept from before)"
  },
  {
   "property": "C82",
   "status": "proved",
   "theorems": [
    "C82_covariances_in_other_units"
   ],
   "note": "over the reals, solvers that factorise exactly (C66), Gauss-Newton; inverse ranges and plane factors as in C80; both runs are first runs of their optimiser"
  },
  {
   "property": "C83",
   "status": "proved",
   "theorems": [
    "C83_unconnected_part_covariances"
   ],
   "note": "over the reals, solvers that factorise exactly (C66), Gauss-Newton; the two graphs share their objects; both runs are first runs of their optimiser"
  },
  {
   "property": "C84",
   "status": "proved",
   "theorems": [
    "C84_other_frame",
    "C84_local_difference_refuted"
   ],
   "note": "over the reals; one solver exact, the other factorising exactly (C66); runs in which no factor throws and that take the same number of iterations; the part about differences in the frame of the first pose is refuted, as stated"
  },
  {
   "property": "C85",
   "status": "proved",
   "theorems": [
    "C85_covariances_in_other_frame"
   ],
   "note": "over the reals, solvers that factorise exactly (C66), Gauss-Newton; both runs are first runs of their optimiser"
  },
  {
   "property": "C86",
   "status": "proved",
   "theorems": [
    "C86_gauss_newton_stays",
    "C86_rests_only_there",
    "C86_levenberg_marquardt_fails",
    "C86_fitting_estimates",
    "C86_library_variables",
    "C86_linear_variables",
    "C86_levenberg_marquardt_refuted"
   ],
   "note": "over the reals, solvers that factorise exactly (C66); runs in which no exception is caught; Levenberg-Marquardt for variables that are restored exactly (all library classes but RotationVariable); that Levenberg-Marquardt reports SUCCESS at an optimum is refuted, as stated"
  },
  {
   "property": "C87",
   "status": "proved",
   "theorems": [
    "C87_other_space",
    "C87_small_rotations_refuted"
   ],
   "note": "over the reals; one solver exact, the other factorising exactly (C66); runs in which no factor throws and that take the same number of iterations; the increments avoid the windows in which ExpMapSO3 and LogMapSO3 approximate; the part about priors near the identity is refuted, as stated"
  },
  {
   "property": "C88",
   "status": "proved",
   "theorems": [
    "C88_covariances_in_other_space"
   ],
   "note": "over the reals, solvers that factorise exactly (C66), Gauss-Newton; both runs are first runs of their optimiser; increments as in C87"
  },
  {
   "property": "C89",
   "status": "proved",
   "theorems": [
    "C89_gauss_newton_step_norm",
    "C89_levenberg_marquardt_iterations"
   ],
   "note": "over the reals; runs in which no factor throws; Levenberg-Marquardt for variables whose increments can be undone (C18) and solvers that factorise exactly (C66)"
  },
  {
   "property": "C90",
   "status": "partial",
   "theorems": [
    "C90_turns_one_into_the_other",
    "C90_back",
    "C90_nearly_parallel",
    "C90_opposite_refuted"
   ],
   "note": "over the reals; exact unless the vectors are within 1e-10 of parallel or opposite; approximate when nearly parallel; refuted for opposite vectors"
  },
  {
   "property": "C91",
   "status": "proved",
   "theorems": [
    "C91_restated",
    "C91_information"
   ],
   "note": "over the reals, Gauss-Newton, for inverse ranges and limits of at least 1e-9; C91_information is the general statement for any factors"
  },
  {
   "property": "C92",
   "status": "proved",
   "theorems": [
    "C92_resumed",
    "C92_resumed_elsewhere",
    "C92_number_of_iterations"
   ],
   "note": "over the reals, for runs in which no exception was caught; C92_resumed is for one optimiser object and the library classes"
  },
  {
   "property": "C93",
   "status": "proved",
   "theorems": [
    "C93_contracts",
    "C93_contracts_any"
   ],
   "note": "over the reals, for runs in which no exception was caught and exact factorisations; C93_contracts_any is for any classes with affine residuals and additive increments"
  },
  {
   "property": "C94",
   "status": "proved",
   "theorems": [
    "C94_nearer",
    "C94_nearer_any"
   ],
   "note": "over the reals, for runs in which no exception was caught, exact factorisations, and variables that set_value_from_vector(value()) restores (all classes but RotationVariable)"
  },
  {
   "property": "C95",
   "status": "proved",
   "theorems": [
    "C95_forgets",
    "C95_forgets_any"
   ],
   "note": "over the reals, for runs in which no exception was caught and exact factorisations; the starts differ by increments to the optimised variables"
  },
  {
   "property": "C96",
   "status": "proved",
   "theorems": [
    "C96_no_larger",
    "C96_no_larger_any"
   ],
   "note": "over the reals, for runs in which no exception was caught, at least one iteration allowed and exact factorisations; with Levenberg-Marquardt, variables whose rejected steps are undone exactly (C27)"
  },
  {
   "property": "C97",
   "status": "proved",
   "theorems": [
    "C97_no_larger",
    "C97_no_larger_any"
   ],
   "note": "over the reals, for runs in which no exception was caught, at least one iteration allowed and exact factorisations; with Levenberg-Marquardt, variables whose rejected steps are undone exactly (C27)"
  },
  {
   "property": "C98",
   "status": "proved",
   "theorems": [
    "C98_gauss_newton_stays",
    "C98_any_method_stays",
    "C98_taken_away"
   ],
   "note": "over the reals, for runs in which no exception was caught and exact factorisations; variables that an increment of zero leaves unchanged (C86_library_variables); with Levenberg-Marquardt, positive damping settings, at least one iteration allowed and variables whose rejected steps are undone exactly (C27)"
  },
  {
   "property": "C99",
   "status": "proved",
   "theorems": [
    "C99_run_stays",
    "C99_any_method_stays"
   ],
   "note": "over the reals, for runs in which no exception was caught and exact factorisations; variables that an increment of zero leaves unchanged (C86_library_variables); with Levenberg-Marquardt, positive damping settings, at least one iteration allowed and variables whose rejected steps are undone exactly (C27)"
  }
 ]
}