# Design of the verification model

Subject: `/repo` (factorama, C++ factor-graph least squares). Proof assistant: Rocq/Coq 8.16.1.

## 1. Shape of the model

The model is a set of total Gallina functions that follow the C++ functions one by one.

* **Outcomes.** A call yields `Ok v`, `Throw e` (a C++ exception) or `UB u` (undefined behaviour: out-of-range
  `segment`, null dereference, index past the end of a `std::vector`, an Eigen size assertion that is compiled out in the
  default Release build). Functions that mutate an object return the object's state *also* on `Throw`, because C++ keeps
  the partially updated object.
* **Scalars.** All code is written over a record `num` of scalar operations (`+ - * /`, `sqrt`, `sin`, ..., `<`, `<=`,
  literals). Structural and control-flow theorems hold for *every* such record, hence also for IEEE doubles with NaN.
  Numerical theorems (derivatives, rotations) use the instance `RN` over Coq's real numbers: rounding is not modelled there.
  Witnesses over doubles use the instance `BN` (Float.v): IEEE binary64 of Flocq, with the libm functions as parameters.
* **Objects.** Variables live in a heap addressed by pointers (`nat`); variable ids are `Z` and independent of
  addresses, so two objects may share an id. Factors are records of their virtual functions
  (`variables()`, `residual_size()`, both `compute_residual` overloads, `compute_jacobians` with its in/out vector).
  Graph theorems quantify over arbitrary factor and variable classes; the concrete classes are instances.
* **Hash maps.** `std::unordered_map` iteration order is an arbitrary permutation passed to the model function.
* **Eigen.** Dense matrices are (rows, cols, function). `SparseMatrix` is modelled in its uncompressed mode: per-column
  capacity, sorted entries, and one linear value array for `valuePtr()`. The LDLT solver is an oracle
  (arbitrary functions `compute`, `info`, `vectorD`, `solve`); Ldlt.v models Eigen's own algorithm as one instance.

## 2. Plan per property (written before the proofs)

| id | modelled as | proof idea |
|----|-------------|-----------|
| C01, C02 | `step` over all graph operations, registry lists | invariant by induction over operation lists |
| C03, C04 | `finalize` writes placement maps | closed form of offsets = prefix sums (separate spec) |
| C05 | `finalize` outcome | case analysis against a declarative predicate |
| C06 | `compute_residual` over an arbitrary permutation | disjoint segment writes commute; equals `concat` spec |
| C07 | `compute_dense` over an arbitrary permutation | entry-wise spec, block writes to disjoint rows |
| C08, C09 | `compute_sparse` with Eigen storage model | cursor-write lemma; invariant over calls |
| C10 | outcome of every operation when not finalized | case analysis + invariant |
| C11, C12 | `get_vector`, `set_vector`, `apply_increment` | induction over variables |
| C13 | graph operations and both step functions | frame lemma on the heap |
| C14 | two finalizations in one history | residual part proved; Jacobian parts expected to be refuted by a witness |
| C15 | `factor_placement` lookup | expected to be refuted; holds when ids are insertion indices |
| C16 | dense/sparse with repeated variables | expected to be refuted |
| C17, C18, C21, C22 | `optimize` loop with solver oracle | induction over iterations |
| C19, C20, C23 | `lm_step` | induction over attempts; cap on failure paths expected to be refuted |
| C24 | `gn_step` on affine graphs over R | normal equations and Pythagoras |
| C25, C26 | covariance functions | history invariants; freshness and symmetry expected to be refuted |
| C27-C30, C54 | variable state machines over R | invariant over operation sequences |
| C31-C34 | SO(3) functions over R | matrix algebra, trigonometry, Coquelicot derivatives |
| C35-C45 | factor residuals/Jacobians over R | directional derivative of every residual component equals J*dx |
| C46 | residual zero sets over R | algebra |
| C47, C48 | both overloads, in/out vectors for every factor class | case analysis; two classes expected to be refuted |
| C49, C53 | `numerical_jacobians`, `detailed_factor_test` | induction over columns/variables/factors |
| C50, C51 | `HuberKernel` over R; kernel pointer not read by any factor | derivative; refuted parts by witness |
| C52 | `Stopwatch` over event lists with clock readings | induction over events |
| C55 | optimize with NaN-aware scalars | LM part proved over R; GN and NaN parts expected to be refuted |
| C56, C58 | step functions over R, exact solver | every move of a run satisfies a relation defined by the normal equations |
| C57, C62 | `optimize` loop | runs with smaller iteration limits are prefixes; C62 refuted by a run over doubles |
| C59 | curves of `apply_increment` | exact Jacobians compose with the curves' velocities; refuted at the identity pose |
| C60 | `HuberKernel` over R | refuted by a residual above the threshold |
| C61 | `numerical_jacobians` over R | difference quotients of exact Jacobians |
| C63 | normal equations | algebra over finite sums |
| C64, C65 | `gn_step` with an exact factorisation | null vectors from rejected pivots, x^T H x = pivot for some x |
| C66 | Eigen's LDL^T, any ordering | induction over columns; invariant H = L D L^T on the leading block |
| C67 | covariance functions with an exact factorisation | inverse by columns, block of an inverse is definite |
| C68 | `optimize` twice, on permuted graphs | coordinate-free form of the normal equations (one unknown per variable address and component), uniqueness of their solution, simulation of the two loops |
| C69, C70 | graph and optimiser calls over arbitrary scalars and solvers | invariant (sizes of all buffers, shapes of all values) kept by every call; UB excluded call by call |
| C71, C72 | `optimize` on library graphs | per class: the Jacobian blocks of the measured variables cancel on a translation; a vector without effect in the kernel of J makes LDL^T fail, and is orthogonal to every damped step; induction over the moves of C56 |
| C73, C74 | two whole sessions side by side | a relation between states kept by every call (logical relation); for C73 each class is shown to report the same in displaced memories |
| C75 | two `optimize` runs over the same objects, one graph a part of the other | the Gauss-Newton equations of the part are among those of the whole graph and have one solution; induction over the moves of C56 |
| C76 | `optimize` on library graphs | per class: the Jacobian blocks of the measured variables cancel on the velocity field of a similarity (the rotation blocks against the position blocks); then as C71 |
| C77 | `optimize`, `compute_sparse`, `prepare`, `estimate_covariance` | the run with a smaller limit is a prefix of the run (C39 machinery); the graph's matrix is only written at the start of an iteration; then C67 |
| C78 | the same; Jacobians of library classes | Jacobian blocks of these classes are equal on all heaps reached; then C77 |
| C79 | the same on library graphs | C71/C72 give an unobservable direction at every estimate of the run; then C77 |
| C80 | all factor and variable classes, `optimize` with Gauss-Newton | a step of the changed problem is the changed step: the normal equations are transformed by an invertible matrix and their solution is unique (`ChangeRun.other_coordinates`); then each class |
| C81 | `prepare_to_estimate_covariances`, `estimate_covariance` after `optimize` | the block reported is the covariance defined without coordinates (`SpecMarginal.marginal`), which does not mention the order (`MarginalRun.order_covariances`) |
| C82 | same, all factor and variable classes | the covariance of a problem in other coordinates is T P T^t / mu (`MarginalMore.marginal_changed`), with C80 for the estimate at which it is taken |
| C83 | same | columns of the joint covariance of the whole vanish outside the part (`MarginalMore.column_part`), with C75 for the estimate at which it is taken |
| C84 | planar variable and factor classes, `optimize` with Gauss-Newton | per class: in the turned frame the residual is turned (or the same) and the Jacobian is conjugated by the turn; then `ChangeRun.other_coordinates` as for C80 |
| C85 | `prepare_to_estimate_covariances`, `estimate_covariance` after `optimize` | as C82, with the turn in place of the units |
| C86 | `optimize` with both methods | the solution of the (damped) normal equations with a zero gradient is zero because the accepted matrix is definite, so C56/C58 give moves that stay; status by C18, C55, C57 and C64 |
| C87 | spatial variable and factor classes, `optimize` with Gauss-Newton | per class: with R Q^t in place of R and turned points the residual is the same (or turned) and the Jacobian is multiplied by the turn; then `ChangeIf.other_coordinates_if`, the version of C80's argument with a condition on the increments |
| C88 | `prepare_to_estimate_covariances`, `estimate_covariance` after `optimize` | as C85, with the turn in space |
| C89 | `step_gauss_newton`, `lm_step`, `optimize`, the statistics record | follow the recorded norm through the run: it is written once per iteration, from the increment applied (or zeros); an iteration of Levenberg-Marquardt is described by the inductive relation `iteration` of SpecLength, independent of the model |
| C90 | `LogMapS2` (Sphere.v) | the axis is b x u normalised; with sin and cos of the angle from the cross and dot product, Rodrigues' formula maps b to u by polynomial identities |
| C91 | two runs on two graphs over the same variables (Graph.v, Optimizer.v, FactorLib.v) | both steps solve normal equations whose coefficients are sums over the factors; repetition scales residuals and Jacobians by 1/k (Units lemmas), so the sums agree; the solution is unique |
| C92 | `setup`, `optimize` (Optimizer.v) | every iteration is a step that is determined by the values of the variables alone; sequences of such steps can be joined, and are unique for a given length |
| C93 | `optimize` (Optimizer.v), FactorsLin.v, `linear_velocity` (FactorsGeo.v) | the Jacobian is the same everywhere and the residual affine, so the difference to the optimum solves the normal equations of every step; steps are unique, hence each leaves 1 - rate of the difference |
| C94 | `optimize`, `lm_step` (Optimizer.v), FactorsLin.v, `linear_velocity` (FactorsGeo.v) | with e the difference to the optimum, x the step and l > 0 the damping, J^T J (x + e) = -l x, hence x.x + x.e <= 0 and the distance falls by at least rate (2 - rate) x.x; rejected steps are taken back |
| C95 | `optimize`, `gn_step` (Optimizer.v), FactorsLin.v, `linear_velocity` (FactorsGeo.v) | residuals affine in the difference to the first start, hence the end point of a full step solves normal equations that do not mention where the step began; uniqueness from the factorisation |
| C96 | `optimize`, `prepare`, `estimate_covariance` (Optimizer.v), FactorLib.v | the covariance is the inverse of the normal matrix (C78, C83); solutions of the two systems of normal equations for a combination of the elements are compared by the square of their difference, summed over the measurements of the first graph |
| C97 | `optimize`, `prepare`, `estimate_covariance` (Optimizer.v), `block_for` (FactorsLin.v), FactorLib.v | as C96; the solution for the second graph, extended by zero for the variables held constant, is compared with that for the first |
| C98 | `optimize` (Optimizer.v) | the gradient block by block (SpecBlocks): factors with zero residuals contribute nothing, variables outside of the first graph have no derivative in it; then as C86 |
| C99 | `optimize` (Optimizer.v), FactorsLin.v, FactorsGeo.v, FactorLib.v | residuals and the blocks of the variables still optimised do not depend on constant flags, class by class; then as C98 |
| C100 | `optimize` (Optimizer.v), FactorsLin.v, FactorsGeo.v (linear velocity) | residuals are jointly affine in values and measurements and the three Jacobians are the same, class by class; the normal equations are linear and, as there is no unobservable direction, solved once; C95's recursion gives the fraction covered in k iterations |
| C101 | `optimize`, `prepare`, `estimate_covariance` (Optimizer.v), all factor classes | no iterate leaves the optimum (C86, C98, C99), so the factorisation a covariance comes from belongs to the start values; there the blocks of the variables still optimised are the same in both graphs and the inequalities of C96 and C97 apply |
| C102 | `optimize`, `prepare`, `estimate_covariance` (Optimizer.v), the classes of C78 | the Jacobians of the two graphs agree block by block wherever the variables are; C81's coordinate-free covariance is a function of these blocks |
| C103 | `optimize`, `prepare`, `estimate_covariance` (Optimizer.v), the classes of C78 | each row of the Jacobian blocks is multiplied by a factor of at least 1, so no motion is noticed less; then as C96 |

No property was found to be inexpressible.

## 3. Trusted base

* The Coq kernel (and coqchk).
* Axioms: only those of Coq's standard library reals / logic, listed per theorem by `Print Assumptions` (section 5).
* The reading of the C++ code as the model (each definition cites file and lines), the semantics of Eigen
  operations used (Eigen is not part of /repo and was modelled from its documented behaviour), and
  the Release build configuration (`assert` disabled).
* `int`/`size_t` arithmetic is unbounded in the model (no problem with 2^31 rows is considered).
* Not modelled: printing/verbose output, timing values inside the optimiser (the Stopwatch class itself is modelled), memory
  management (shared_ptr lifetime), copying of FactorGraph objects, the Python bindings, plotting.

## 4. What is modelled

| Source in /repo/src/factorama | Model |
|---|---|
| factor_graph.hpp/.cpp: add_variable, add_factor, finalize_structure, both compute_full_residual_vector overloads, dense and sparse Jacobian with its index caches, value vectors, increments, lookups | Graph.v |
| factor_graph.cpp: detailed_factor_test; numerical_jacobian.hpp | NumJac.v |
| Eigen::SparseMatrix as used by the graph (reserve, insert, valuePtr) | Sparse.v |
| sparse_optimizer.hpp/.cpp: setup, optimize, both step functions, statistics, covariance functions | Optimizer.v |
| Eigen::SimplicialLDLT as used by the optimiser | Ldlt.v (the theorems in Optimizer terms quantify over arbitrary solvers; C64-C67 over exact factorisations, of which Ldlt.v is one) |
| *_variable.hpp/.cpp, all eight classes | Vars.v, VarOps.v (call sequences) |
| random_utils.hpp/.cpp | Geom.v; LogMapS2 in Sphere.v |
| generic_prior_factor, generic_between_factor | FactorsLin.v |
| the other sixteen factor classes | FactorsGeo.v; FactorLib.v has all eighteen in one type |
| kernels.hpp, Factor::SetKernel | Kernel.v |
| stopwatch.hpp | Stopwatch.v |

Not modelled: print functions and verbose output, timing members of the optimiser, lifetime of `shared_ptr` objects (objects are never
freed), copies of FactorGraph objects, the Python bindings,
examples, `int` and `size_t` overflow, allocation failure, threads.

Files named `Spec*.v` hold the vocabulary of the statements, `Props*.v` hold the property theorems, concrete cases and `Print Assumptions`;
all other files hold proofs.

## 5. Axioms per theorem (`Print Assumptions`)

All are axioms of Coq's standard library.

* **A0**: closed under the global context
* **A1**: `ClassicalDedekindReals.sig_forall_dec`, `ClassicalDedekindReals.sig_not_dec`, `Classical_Prop.classic`, `FunctionalExtensionality.functional_extensionality_dep`

* PropsAgree.v, A1: C98_gauss_newton_stays, C98_any_method_stays, C98_taken_away
* PropsBlend.v, A1: C100_superposition
* PropsContract.v, A1: C93_contracts, C93_contracts_any
* PropsCov.v, A0: C77_jacobian_of_last_iteration
* PropsCov.v, A1: C77_covariances_before_last_step, C78_constant_jacobians, C78_final_covariances, C79_floating_no_covariances, C79_unseen_motion_no_covariances
* PropsDefined.v, A0: C69_session_defined, C70_optimize_returns, C70_optimize_completes, C69_ldlt_sized, C69_library_session_defined, C69_library_new_variable, C70_library_returns, C70_library_completes, C69_all_constant_refuted
* PropsDesign.v, A1: C102_design_decides
* PropsFactors.v, A1: C35_generic_prior_exact, C35_generic_between_exact, C35_linear_velocity_exact, C35_plane_value_refuted, C36_position_prior_exact, C36_position_between_exact, C37_bearing_exact, C37_near_refuted, C38_inverse_range_exact, C39_tangent_basis, C39_zero, C39_front_exact, C40_bearing_exact, C40_range_bearing_exact, C41_prior_exact, C41_between_exact, C41_between_zero, C41_local_frame_refuted, C41_local_frame_meaning, C42_unscaled_exact, C42_unscaled_zero, C42_scaled_exact_partial, C42_scaled_refuted, C42_scaled_meaning, C43_exact, C43_zero_partial, C43_flipped_refuted, C44_rotation_prior_partial, C44_orientation_prior_partial, C44_orientation_between_partial, C44_small_angle_refuted, C45_exact_partial, C45_output_vector_refuted, C45_zero, C45_origin_refuted, C46_generic_prior, C46_generic_between, C46_linear_velocity, C46_position_prior, C46_position_between, C46_rotation_prior, C46_orientation_prior_partial, C46_tiny_prior_refuted, C46_orientation_between, C46_bearing, C46_inverse_range_bearing, C46_bearing_2d, C46_range_bearing_2d, C46_pose_2d_prior, C59_along_increments, C59_increments_exist, C59_motions_exist, C59_identity_pose_refuted
* PropsForget.v, A1: C95_forgets, C95_forgets_any
* PropsFrame.v, A1: C84_other_frame, C85_covariances_in_other_frame, C84_local_difference_refuted
* PropsGauge.v, A1: C71_floating_graph_fails, C72_floating_centre_kept
* PropsGeom.v, A1: C31_exp_rotation_partial, C31_exp_fixes, C31_exp_neg_transpose, C31_exp_almost_orthonormal, C31_exp_inverse_partial, C31_small_vector_refuted, C32_log_of_exp_partial, C32_exp_of_log_partial, C32_log_at_most_pi, C32_log_of_exp_near, C32_exp_of_log_near, C32_log_of_exp_refuted, C32_exp_of_log_refuted, C34_inverse_jacobian, C34_inverse_jacobian_near, C34_velocity_unique, C34_log_step_partial, C34_log_derivative_partial, C34_log_step_zero, C34_small_angle_refuted, C34_beyond_pi_refuted
* PropsGraph.v, A0: C01_variable_registry, C02_factor_registry, C03_columns_tile, C04_rows_tile, C05_finalize_iff, C05_no_undefined_behaviour, C06_residual_stack, C07_dense_jacobian, C08_sparse_equals_dense, C09_depends_on_current_values, C10_nothing_before_finalize, C11_vector_round_trip, C12_apply_increment, C13_graph_calls_keep_constants, C14_refinalize_residual_partial, C14_refinalize_jacobians_partial, C15_placement_by_index_partial, C14_dense_after_refinalize_refuted, C14_sparse_after_refinalize_refuted, C15_factor_placement_refuted, C16_repeated_variable_dense_refuted, C16_repeated_variable_sparse_refuted, C08_no_active_refuted
* PropsGrown.v, A1: C96_no_larger, C96_no_larger_any
* PropsHeld.v, A1: C99_run_stays, C99_any_method_stays
* PropsInfo.v, A1: C91_restated, C91_information
* PropsKeen.v, A1: C103_better_instruments, C103_at_most_times
* PropsLength.v, A1: C89_gauss_newton_step_norm, C89_levenberg_marquardt_iterations
* PropsMarginal.v, A1: C81_insertion_order_covariances, C82_covariances_in_other_units, C83_unconnected_part_covariances
* PropsMoved.v, A0: C74_reports_decide
* PropsMoved.v, A1: C73_displaced_session, C73_plane_refuted
* PropsNearer.v, A1: C94_nearer, C94_nearer_any
* PropsNumJac.v, A0: C49_quotients_partial, C49_library, C49_exception_refuted, C53_library, C53_not_finalized
* PropsNumJac.v, A1: C49_returns, C49_rotation_returns, C49_set_rotation_returns, C49_affine, C49_generic_prior, C49_generic_between, C49_rotation_refuted, C53_verdict_partial, C53_linear_graphs, C53_constant_prior, C53_nan_refuted, C53_rotation_refuted, C61_limit
* PropsOptimizer.v, A0: C13_gauss_newton_keeps_constants, C13_levenberg_marquardt_partial, C17_bounded_work, C18_final_status, C19_lm_never_worse_partial, C20_rejected_step_undone, C21_stats_gauss_newton, C21_stats_levenberg_marquardt_partial, C22_failed_step_changes_nothing, C25_covariance_guarded_partial, C55_lm_success_improves_partial
* PropsOptimizer.v, A1: C20_library_classes, C13_rotation_refuted, C19_rotation_refuted, C21_rotation_refuted, C23_upper_bound_refuted, C25_finite_refuted, C26_stale_jacobian_refuted, C26_second_run_refuted, C55_nan_refuted, C55_short_step_refuted, C23_damping_upper_partial, C23_damping_growth_partial, C23_damping_floor, C24_one_step_solves_linear, C26_covariance_block_partial
* PropsOrder.v, A1: C68_insertion_order
* PropsPart.v, A0: C75_library_reads_only
* PropsPart.v, A1: C75_unconnected_part
* PropsPinned.v, A1: C97_no_larger, C97_no_larger_any
* PropsRest.v, A1: C86_gauss_newton_stays, C86_rests_only_there, C86_levenberg_marquardt_fails, C86_fitting_estimates, C86_library_variables, C86_linear_variables, C86_levenberg_marquardt_refuted
* PropsResume.v, A1: C92_resumed, C92_resumed_elsewhere, C92_number_of_iterations
* PropsShape.v, A0: C47_overloads_agree, C47_residual_size, C48_shapes_partial, C48_constant_generic_prior_refuted, C48_transform_buffer_refuted, C05_library_graphs, C06_library_graphs, C09_library_factors
* PropsSharper.v, A1: C101_held_no_larger, C101_agreeing_no_larger
* PropsSimilar.v, A1: C76_unseen_motion_fails
* PropsSizes.v, A0: C54_increment_partial, C54_set_partial, C54_set_accepts_refuted, C54_set_undefined_refuted, C54_rotation_increment_refuted
* PropsSpace.v, A1: C87_other_space, C88_covariances_in_other_space, C87_small_rotations_refuted
* PropsSphere.v, A1: C90_turns_one_into_the_other, C90_back, C90_nearly_parallel, C90_opposite_refuted
* PropsSteps.v, A0: C57_how_a_run_ends
* PropsSteps.v, A1: C62_success_means_converged_refuted, C58_gauss_newton_steps, C56_levenberg_marquardt_steps_partial, C58_library_graphs, C63_descent_direction
* PropsTools.v, A1: C50_inlier, C50_outlier, C50_continuous, C50_derivative_partial, C50_derivative_refuted, C50_constant_refuted, C51_refuted, C52_total, C52_never_decreases, C60_loss_refuted
* PropsUnits.v, A1: C80_other_units, C80_levenberg_marquardt_refuted
* PropsVars.v, A1: C27_pose2d_wrapped, C28_inverse_range_clipped, C28_inverse_range_nearest, C28_inverse_range_doubles, C28_nan_refuted, C29_plane_unit_normal_partial, C29_plane_unit_or_zero, C29_plane_direction, C29_zero_normal_refuted, C30_pose_rotation_partial, C30_pose_from_matrix, C30_small_vector_refuted, C33_pose_increment_partial, C33_rotation_increment, C33_small_rotation_refuted
* PropsVerdict.v, A1: C66_ldlt_exact, C64_failure_codes, C65_unobservable_fails, C65_well_posed_steps, C24_well_posed_linear, C23_damping_bounded, C67_covariance_available
