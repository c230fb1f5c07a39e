{"id": "C01", "title": "Variable registry is keyed by unique ids", "statement": "After any history of calls on a FactorGraph, all variables returned by get_all_variables() have pairwise distinct ids, appear in the order in which they were added, get_variable(id) returns exactly the one that was added with that id (null for any other id), and add_variable of an id that is already present throws and changes nothing.", "quantifier": "for every sequence of graph operations and every id", "why_tests_cant": "Unit tests add a handful of variables; the claim is about every interleaving of adds, failed adds, finalizations and computations.", "anchors": ["src/factorama/factor_graph.cpp: add_variable, get_variable, get_all_variables", "src/factorama/factor_graph.hpp: num_variables"]}
{"id": "C02", "title": "Factor registry is keyed by unique ids", "statement": "After any history, all factors returned by get_all_factors() have pairwise distinct ids and are in insertion order; add_factor of a present id throws and changes nothing.", "quantifier": "for every sequence of graph operations", "why_tests_cant": "As C01: every interleaving, not a few examples.", "anchors": ["src/factorama/factor_graph.cpp: add_factor, get_all_factors"]}
{"id": "C03", "title": "Variable columns tile the increment vector", "statement": "After a successful finalize_structure(), the non-constant variables, in the order added, occupy consecutive disjoint column ranges [index, index+size) that exactly tile [0, num_values()); constant variables get width 0; variable_placement(id) reports precisely that range.", "quantifier": "for every history leading up to a successful finalize_structure() and every variable in the graph", "why_tests_cant": "Needs induction over arbitrary numbers of variables, sizes and constant flags.", "anchors": ["src/factorama/factor_graph.cpp: finalize_structure", "src/factorama/factor_graph.hpp: variable_placement, num_values"]}
{"id": "C04", "title": "Factor rows tile the residual vector", "statement": "After a successful finalize_structure(), the factors, in the order added, occupy consecutive disjoint row ranges that exactly tile [0, num_residuals()), each as long as the factor's residual_size().", "quantifier": "for every history leading up to a successful finalize_structure()", "why_tests_cant": "Arbitrary numbers and sizes of factors.", "anchors": ["src/factorama/factor_graph.cpp: finalize_structure", "src/factorama/factor_graph.hpp: factor_placement_map, num_residuals"]}
{"id": "C05", "title": "finalize_structure rejects exactly the malformed graphs", "statement": "finalize_structure() throws if and only if some factor lists a null variable, or lists a non-constant variable whose id is not registered in the graph, or the residual count is smaller than the number of optimised values; in every other case it succeeds and no compute call afterwards runs into undefined behaviour because of the layout.", "quantifier": "for every reachable graph", "why_tests_cant": "The error conditions must be exhaustive over all graphs; tests can only sample.", "anchors": ["src/factorama/factor_graph.cpp: finalize_structure"]}
{"id": "C06", "title": "Residual vector is the stack of factor residuals", "statement": "compute_full_residual_vector() returns the concatenation, in insertion order, of every factor's residual at the current variable values, whatever the iteration order of the hash map, whatever was in the output buffer before, and whatever its previous size.", "quantifier": "for every finalized graph, every hash-map iteration order, every prior buffer content", "why_tests_cant": "The unordered_map iteration order is implementation-defined; a test exercises a single order.", "anchors": ["src/factorama/factor_graph.cpp: compute_full_residual_vector"]}
{"id": "C07", "title": "Dense Jacobian holds each block at its place and zero elsewhere", "statement": "compute_full_jacobian_matrix(), called for the first time after a successful finalize_structure(), returns the num_residuals x num_values matrix whose entry (i,j) is the entry of the owning factor's block for the variable owning column j, and zero when that factor does not list that variable, independently of hash-map order.", "quantifier": "for every finalized graph whose factors list each optimised variable at most once; every entry (i,j); every hash-map order", "why_tests_cant": "All graphs, sizes and entries.", "anchors": ["src/factorama/factor_graph.cpp: compute_full_jacobian_matrix"]}
{"id": "C08", "title": "Sparse and dense Jacobians agree", "statement": "compute_sparse_jacobian_matrix() equals compute_full_jacobian_matrix() entry by entry, on the first call and on every later call (which takes a different code path writing into the raw value array), after any changes of variable values in between.", "quantifier": "for every finalized graph without repeated variables in one factor, every number of calls, every sequence of value updates in between", "why_tests_cant": "The second call uses raw-pointer copying with layout assumptions; only an induction over calls settles all of them.", "anchors": ["src/factorama/factor_graph.cpp: compute_sparse_jacobian_matrix, copy_sparse_data_to_eigen_matrix, compute_full_jacobian_matrix"]}
{"id": "C09", "title": "Recomputation always reflects current values", "statement": "After a successful finalization, every later call of compute_full_residual_vector, compute_full_jacobian_matrix or compute_sparse_jacobian_matrix returns a result that depends only on the variable values at the time of the call, not on earlier calls or earlier values.", "quantifier": "for every history of value updates and compute calls after the first finalization", "why_tests_cant": "Cached buffers and validity flags make staleness history-dependent.", "anchors": ["src/factorama/factor_graph.cpp: compute_full_residual_vector, compute_full_jacobian_matrix, compute_sparse_jacobian_matrix"]}
{"id": "C10", "title": "Nothing works before finalization", "statement": "Until finalize_structure() has succeeded once, every compute call, apply_increment and every cached accessor throws and leaves variables and graph unchanged.", "quantifier": "for every history without a successful finalize_structure()", "why_tests_cant": "All histories, including ones with failed finalizations.", "anchors": ["src/factorama/factor_graph.cpp: apply_increment, compute_full_residual_vector, compute_full_jacobian_matrix, compute_sparse_jacobian_matrix", "src/factorama/factor_graph.hpp: jacobian, sparse_jacobian, residual"]}
{"id": "C11", "title": "Variable vector round trip", "statement": "For a finalized graph, get_variable_vector() has num_values() entries, is the concatenation of the non-constant variables' values in insertion order, set_variable_values_from_vector(get_variable_vector()) leaves every variable's value unchanged, and after set_variable_values_from_vector(x) get_variable_vector() returns x for variables that store vectors verbatim.", "quantifier": "for every finalized graph and every vector of the right length", "why_tests_cant": "All sizes, mixes of constant and non-constant variables.", "anchors": ["src/factorama/factor_graph.cpp: get_variable_vector, set_variable_values_from_vector"]}
{"id": "C12", "title": "apply_increment distributes the increment and rejects wrong sizes", "statement": "apply_increment(dx) throws without touching any variable when dx does not have num_values() entries; otherwise each non-constant variable receives exactly the slice of dx at its placement, once, and nothing else changes.", "quantifier": "for every finalized graph and every vector dx", "why_tests_cant": "All sizes and layouts.", "anchors": ["src/factorama/factor_graph.cpp: apply_increment"]}
{"id": "C13", "title": "Constant variables are never modified", "statement": "No graph operation, no Gauss-Newton or Levenberg-Marquardt run, accepted or rejected, changes the state of a variable that is flagged constant.", "quantifier": "for every history, graph, solver behaviour and number of iterations", "why_tests_cant": "The LM rollback path writes constant variables as well; correctness depends on every reject history.", "anchors": ["src/factorama/factor_graph.cpp: apply_increment, set_variable_values_from_vector", "src/factorama/sparse_optimizer.cpp: single_step_gauss_newton, single_step_levenberg_marquardt"]}
{"id": "C14", "title": "Re-finalization yields fresh results", "statement": "After adding variables or factors (or changing constant flags) and calling finalize_structure() again successfully, the residual vector, the dense Jacobian and the sparse Jacobian computed next are those of the new structure.", "quantifier": "for every history with several successful finalizations", "why_tests_cant": "History dependent: validity flags survive finalization.", "anchors": ["src/factorama/factor_graph.cpp: finalize_structure, compute_full_jacobian_matrix, compute_sparse_jacobian_matrix, copy_sparse_data_to_eigen_matrix"]}
{"id": "C15", "title": "factor_placement(id) finds the factor with that id", "statement": "After a successful finalize_structure(), factor_placement(id) is valid exactly for the ids of added factors and returns the placement of the factor with that id.", "quantifier": "for every finalized graph and every id", "why_tests_cant": "All id assignments; tests tend to use ids equal to the insertion index.", "anchors": ["src/factorama/factor_graph.hpp: factor_placement", "src/factorama/factor_graph.cpp: finalize_structure"]}
{"id": "C16", "title": "Repeated variables contribute the sum of their blocks", "statement": "If a factor lists the same optimised variable more than once, the Jacobian columns of this variable in the factor's rows are the sum of the corresponding blocks (the total derivative).", "quantifier": "for every finalized graph with factors listing a variable repeatedly", "why_tests_cant": "All graphs with such factors; chain rule requires summation.", "anchors": ["src/factorama/factor_graph.cpp: compute_full_jacobian_matrix, compute_sparse_jacobian_matrix"]}
{"id": "C17", "title": "Bounded work", "statement": "optimize() performs at most max_num_iterations iterations, the reported iteration count never exceeds it, and each Levenberg-Marquardt iteration factorises at most five matrices.", "quantifier": "for every graph, settings, and behaviour of the linear solver", "why_tests_cant": "Adversarial solver/graph behaviour cannot be enumerated.", "anchors": ["src/factorama/sparse_optimizer.cpp: optimize, single_step_levenberg_marquardt"]}
{"id": "C18", "title": "Final status is meaningful", "statement": "When optimize() returns, the status is not RUNNING; FAILED, SINGULAR_HESSIAN and ILL_CONDITIONED imply valid=false; SUCCESS implies valid=true; valid=false implies a failure status.", "quantifier": "for every graph, settings, solver behaviour", "why_tests_cant": "Every exit path of the loop must be covered under every oracle behaviour.", "anchors": ["src/factorama/sparse_optimizer.cpp: optimize, single_step_gauss_newton, single_step_levenberg_marquardt"]}
{"id": "C19", "title": "Levenberg-Marquardt never makes things worse", "statement": "With method LevenbergMarquardt, the final cost is never larger than the initial cost, every accepted step strictly decreases it, and status SUCCESS/valid implies the final cost is at most the initial.", "quantifier": "for every graph, settings and linear-solver behaviour (including wrong solutions)", "why_tests_cant": "Monotonicity over arbitrary iteration histories.", "anchors": ["src/factorama/sparse_optimizer.cpp: single_step_levenberg_marquardt, optimize"]}
{"id": "C20", "title": "A rejected Levenberg-Marquardt step is undone", "statement": "When an LM step is rejected, every variable has the same state as before the step, so a run in which no step is accepted leaves all variables as they were.", "quantifier": "for every graph whose variables restore exactly under set_value_from_vector(value()), every solver behaviour", "why_tests_cant": "All sequences of rejected attempts.", "anchors": ["src/factorama/sparse_optimizer.cpp: single_step_levenberg_marquardt"]}
{"id": "C21", "title": "Reported statistics describe the final state", "statement": "When optimize() returns without an exception inside a step, the reported chi2 and residual_norm are the squared norm and norm of the residual at the variables' final values, and initial_stats_ those at the initial values.", "quantifier": "for every graph, settings, solver behaviour", "why_tests_cant": "All exit paths, including rejected steps and factorisation failures.", "anchors": ["src/factorama/sparse_optimizer.cpp: optimize, single_step_gauss_newton, single_step_levenberg_marquardt"]}
{"id": "C22", "title": "A failed Gauss-Newton step changes nothing", "statement": "If a Gauss-Newton iteration ends with FAILED (factorisation or solve), SINGULAR_HESSIAN or ILL_CONDITIONED, that iteration leaves every variable value, the iteration count and the reported cost unchanged.", "quantifier": "for every graph and solver behaviour", "why_tests_cant": "All failure modes at any iteration.", "anchors": ["src/factorama/sparse_optimizer.cpp: single_step_gauss_newton"]}
{"id": "C23", "title": "Damping parameter stays within its limits", "statement": "During a Levenberg-Marquardt run the damping parameter never exceeds max(initial_lambda, max_lambda) and after an accepted step it is at least 1e-12.", "quantifier": "for every graph, settings with nonnegative factors, solver behaviour", "why_tests_cant": "All accept/reject/failure histories.", "anchors": ["src/factorama/sparse_optimizer.cpp: single_step_levenberg_marquardt", "src/factorama/sparse_optimizer.hpp: OptimizerSettings::max_lambda"]}
{"id": "C24", "title": "One Gauss-Newton step solves linear problems", "statement": "If all factors are affine in the variables (vector-space variables), the linear solver is exact and learning_rate is 1, a single Gauss-Newton step reaches a global minimiser of the cost: no other assignment of the non-constant variables has a smaller cost.", "quantifier": "for every affine graph of any size and any starting point", "why_tests_cant": "All dimensions, all starting points, all competing assignments.", "anchors": ["src/factorama/sparse_optimizer.cpp: single_step_gauss_newton", "src/factorama/factor_graph.cpp: compute_sparse_jacobian_matrix, compute_full_residual_vector"]}
{"id": "C25", "title": "Covariance results are guarded", "statement": "estimate_covariance reports valid only if the variable is non-null, optimised, placed, the optimisation completed, and covariances were prepared; when invalid the matrix is empty; when valid it is a size x size matrix with finite entries and diagonal at most 1e12.", "quantifier": "for every history of setup/optimize/prepare/estimate calls and solver behaviour", "why_tests_cant": "All call orders.", "anchors": ["src/factorama/sparse_optimizer.cpp: estimate_covariance, prepare_to_estimate_covariances"]}
{"id": "C26", "title": "Covariance is the marginal block of the inverse information matrix", "statement": "With an exact solver, a valid covariance equals the variable's diagonal block of the inverse of J^T J for the Jacobian J at the final estimate, and it is symmetric.", "quantifier": "for every graph, settings and call history", "why_tests_cant": "Freshness of the cached Hessian depends on the call history.", "anchors": ["src/factorama/sparse_optimizer.cpp: prepare_to_estimate_covariances, estimate_covariance"]}
{"id": "C27", "title": "2D pose angle stays wrapped", "statement": "After construction and after any sequence of set_value_from_vector / set_theta / set_pose_2d / apply_increment calls, a Pose2DVariable's heading lies in [-pi, pi] and equals the requested angle modulo 2*pi.", "quantifier": "for every operation sequence and every real angle", "why_tests_cant": "Unbounded angles and sequences.", "anchors": ["src/factorama/pose_2d_variable.cpp: set_value_from_vector, apply_increment, wrap_angle", "src/factorama/pose_2d_variable.hpp"]}
{"id": "C28", "title": "Inverse range stays clipped", "statement": "After construction and any sequence of set_value_from_vector / apply_increment calls, the inverse range of an InverseRangeVariable lies in [minimum_inverse_range, maximum_inverse_range], so the reconstructed point is finite.", "quantifier": "for every operation sequence and every real input", "why_tests_cant": "Unbounded inputs and sequences.", "anchors": ["src/factorama/inverse_range_variable.cpp", "src/factorama/inverse_range_variable.hpp"]}
{"id": "C29", "title": "Plane normals stay unit length", "statement": "After construction and any sequence of set_value_from_vector / apply_increment calls a PlaneVariable's normal is a unit vector and value() agrees with unit_vector()/distance_from_origin().", "quantifier": "for every operation sequence and every real input", "why_tests_cant": "Unbounded inputs and sequences.", "anchors": ["src/factorama/plane_variable.hpp"]}
{"id": "C30", "title": "Pose rotation matrices are rotations", "statement": "After construction and any sequence of PoseVariable setters and increments, dcm_CW() is orthonormal with determinant +1 and is the rotation by the stored rotation vector.", "quantifier": "for every operation sequence and every real input", "why_tests_cant": "Drift and branch thresholds show only on particular inputs.", "anchors": ["src/factorama/pose_variable.cpp", "src/factorama/pose_variable.hpp"]}
{"id": "C31", "title": "Exponential map produces rotations", "statement": "ExpMapSO3(w) is orthonormal with determinant +1, fixes w, and ExpMapSO3(-w) is its inverse.", "quantifier": "for every real vector w", "why_tests_cant": "Every real input including branch thresholds.", "anchors": ["src/factorama/random_utils.cpp: ExpMapSO3, skew_symmetric"]}
{"id": "C32", "title": "Logarithm and exponential maps are inverse", "statement": "LogMapSO3(ExpMapSO3(w)) = w for |w| < pi, and ExpMapSO3(LogMapSO3(R)) = R for every rotation matrix R; LogMapSO3 always returns a vector of norm at most pi.", "quantifier": "for every real vector and every rotation matrix", "why_tests_cant": "Three numeric branches; every angle.", "anchors": ["src/factorama/random_utils.cpp: LogMapSO3, ExpMapSO3, unskew"]}
{"id": "C33", "title": "Rotation increments compose on the left", "statement": "apply_increment with rotation part d on a pose or rotation variable makes the new rotation ExpMapSO3(d) * R_old and adds the position part to the position.", "quantifier": "for every pose and increment", "why_tests_cant": "Every real input; log/exp re-parameterisation inside.", "anchors": ["src/factorama/pose_variable.cpp: apply_increment", "src/factorama/rotation_variable.hpp: apply_increment"]}
{"id": "C34", "title": "SO(3) inverse Jacobian", "statement": "compute_inverse_right_jacobian_so3(w) is the matrix inverse of the SO(3) Jacobian it is used for, so that Log(Exp(d) Exp(w)) = w + M d + o(|d|).", "quantifier": "for every w with |w| < 2*pi away from the threshold", "why_tests_cant": "Every real input.", "anchors": ["src/factorama/random_utils.cpp: compute_inverse_right_jacobian_so3"]}
{"id": "C35", "title": "Linear factor Jacobians are exact", "statement": "For GenericPriorFactor, GenericBetweenFactor and LinearVelocityFactor each returned block is the exact derivative of the residual with respect to the variable's increment.", "quantifier": "for every dimension, value, measurement and sigma", "why_tests_cant": "All dimensions and reals.", "anchors": ["src/factorama/generic_prior_factor.hpp", "src/factorama/generic_between_factor.cpp", "src/factorama/linear_velocity_factor.cpp"]}
{"id": "C36", "title": "Pose position factor Jacobians are exact", "statement": "For PosePositionPriorFactor and PosePositionBetweenFactor (world and local frame) each returned block is the derivative of the residual under the left rotation perturbation used by the pose.", "quantifier": "for every pose, calibration, measurement and sigma", "why_tests_cant": "Every real input and direction.", "anchors": ["src/factorama/pose_prior_factors.cpp", "src/factorama/pose_between_factors.hpp"]}
{"id": "C37", "title": "3D bearing factor Jacobians are exact", "statement": "For BearingObservationFactor, each returned block is the derivative of the residual wherever the landmark is at least the documented minimum distance (1e-9) away from the camera; closer than that compute_jacobians throws instead of returning a block.", "quantifier": "for every pose, landmark, measurement and sigma", "why_tests_cant": "Every real input and direction.", "anchors": ["src/factorama/bearing_observation_factor.cpp"]}
{"id": "C38", "title": "Inverse range bearing factor Jacobians are exact", "statement": "For InverseRangeBearingFactor with an inverse range above 1e-9, each returned block is the derivative of the residual wherever the point is at least 1e-9 away from the camera; closer than that compute_jacobians throws.", "quantifier": "for every pose, inverse range, origin, bearing and sigma", "why_tests_cant": "Every real input and direction.", "anchors": ["src/factorama/inverse_range_bearing_factor.cpp"]}
{"id": "C39", "title": "Bearing projection factor is well posed", "statement": "BearingProjectionFactor2D's tangent basis is orthonormal and orthogonal to the measured bearing; in front of the image plane the residual is zero exactly when the predicted bearing equals the measurement and each Jacobian block is the derivative of the residual.", "quantifier": "for every unit measurement, pose and landmark", "why_tests_cant": "Branches on the measured direction; every real input.", "anchors": ["src/factorama/bearing_projection_factor_2d.cpp"]}
{"id": "C40", "title": "2D bearing and range-bearing Jacobians are exact", "statement": "For BearingObservationFactor2D and RangeBearingFactor2D each block is the derivative of the residual wherever the landmark is at least 1e-9 away and not exactly opposite to the measured direction (the angle-wrap discontinuity); closer than 1e-9 compute_jacobians throws.", "quantifier": "for every 2D pose, landmark, measurement", "why_tests_cant": "Every real input and direction.", "anchors": ["src/factorama/bearing_observation_factor_2d.cpp", "src/factorama/range_bearing_factor_2d.cpp"]}
{"id": "C41", "title": "2D pose factor Jacobians are exact", "statement": "For Pose2DPriorFactor and Pose2DBetweenFactor (both frames) each block is the derivative of the residual away from the wrap discontinuity, and the local-frame variant measures the displacement in the first pose's frame.", "quantifier": "for every pair of 2D poses and measurement", "why_tests_cant": "Every real input and direction.", "anchors": ["src/factorama/pose_2d_prior_factor.cpp", "src/factorama/pose_2d_between_factor.cpp"]}
{"id": "C42", "title": "Plane factor measures the distance to the plane", "statement": "PlaneFactor's residual (with and without range scaling) is zero exactly when the point lies on the plane, and each block is the derivative of the residual.", "quantifier": "for every plane, point, sigma and scaling mode", "why_tests_cant": "Every real input and direction.", "anchors": ["src/factorama/plane_factor.cpp"]}
{"id": "C43", "title": "Plane prior", "statement": "PlanePriorFactor's residual is zero exactly when the plane equals the prior, and its block is the derivative of the residual along the plane variable's increments.", "quantifier": "for every plane and prior", "why_tests_cant": "Every real input and direction.", "anchors": ["src/factorama/plane_prior_factor.cpp"]}
{"id": "C44", "title": "Orientation factor Jacobians are exact", "statement": "For PoseOrientationPriorFactor, RotationPriorFactor and PoseOrientationBetweenFactor each block is the derivative of the residual under left rotation perturbations.", "quantifier": "for every rotation away from angle pi", "why_tests_cant": "Every real input and direction.", "anchors": ["src/factorama/pose_prior_factors.cpp", "src/factorama/rotation_prior_factor.hpp", "src/factorama/pose_between_factors.hpp"]}
{"id": "C45", "title": "Coordinate transform factor Jacobians are exact", "statement": "For CoordinateTransformFactor each of the five blocks is the derivative of the residual.", "quantifier": "for every rotation, origin, scale, landmark pair and sigma", "why_tests_cant": "Every real input and direction.", "anchors": ["src/factorama/coordinate_transform_factor.hpp"]}
{"id": "C46", "title": "Residual vanishes exactly at the measurement", "statement": "Each measurement or prior factor's residual is zero if and only if the variables reproduce the measurement, for every positive sigma.", "quantifier": "for every variable state, measurement and sigma > 0", "why_tests_cant": "Every real input.", "anchors": ["src/factorama/*_factor*.cpp"]}
{"id": "C47", "title": "Both residual overloads agree", "statement": "compute_residual() and compute_residual(Ref) of every factor give the same numbers, of length residual_size().", "quantifier": "for every factor type and variable state", "why_tests_cant": "Duplicated code paths; every input.", "anchors": ["src/factorama/*_factor*.cpp", "src/factorama/base_types.hpp: Factor::compute_residual"]}
{"id": "C48", "title": "Jacobian shape contract", "statement": "compute_jacobians yields, whatever the output vector contained before, exactly one matrix per listed variable, empty for constant variables and residual_size x variable size otherwise.", "quantifier": "for every factor type, constant-flag combination and prior content of the output vector", "why_tests_cant": "The output vector is reused between calls; every prior content matters.", "anchors": ["src/factorama/*_factor*.cpp: compute_jacobians", "src/factorama/base_types.hpp: Factor::compute_jacobians"]}
{"id": "C49", "title": "Numerical Jacobians are side-effect free and exact on affine factors", "statement": "ComputeNumericalJacobians leaves every variable as it was, returns one matrix per variable (empty for constants), equals the central difference quotient, and equals the analytic Jacobian for affine factors.", "quantifier": "for every factor, variable state and epsilon", "why_tests_cant": "Every factor/variable and the restore path.", "anchors": ["src/factorama/numerical_jacobian.hpp"]}
{"id": "C50", "title": "Huber kernel", "statement": "HuberKernel leaves residuals with norm at most delta unchanged, shrinks larger ones to squared norm delta*norm keeping the direction, is continuous at the threshold, and apply_to_jacobians is the derivative of apply_to_residual.", "quantifier": "for every delta > 0, residual and Jacobian", "why_tests_cant": "Every real input.", "anchors": ["src/factorama/kernels.hpp"]}
{"id": "C51", "title": "Kernels set on a factor take effect", "statement": "After SetKernel(k) on a factor in the graph, the residuals and Jacobians used by the optimiser are those transformed by k.", "quantifier": "for every factor and kernel", "why_tests_cant": "Must hold for all factor classes.", "anchors": ["src/factorama/base_types.hpp: SetKernel", "src/factorama/kernels.hpp"]}
{"id": "C52", "title": "Stopwatch measures the total running time", "statement": "Stopwatch::elapsed() is the total duration during which the watch was running since the last reset, for any interleaving of start/stop/reset/elapsed, repeated starts and stops being harmless; it never decreases between resets.", "quantifier": "for every operation sequence and every nondecreasing clock", "why_tests_cant": "All interleavings.", "anchors": ["src/factorama/stopwatch.hpp"]}
{"id": "C53", "title": "detailed_factor_test verdict", "statement": "detailed_factor_test returns true if and only if for every factor the analytic and numerical Jacobians have matching shapes and differ by less than max(1e-2, tol*max|J|) in every entry, and leaves the graph unchanged.", "quantifier": "for every finalized graph and tolerance", "why_tests_cant": "All graphs and factor behaviours.", "anchors": ["src/factorama/factor_graph.cpp: detailed_factor_test"]}
{"id": "C54", "title": "Variables reject wrong sizes atomically", "statement": "set_value_from_vector and apply_increment with a vector of the wrong length throw and leave the variable unchanged.", "quantifier": "for every variable type, state and vector", "why_tests_cant": "Every length.", "anchors": ["src/factorama/*_variable.*"]}
{"id": "C55", "title": "Success means finite, improved cost", "statement": "If optimize() ends with status SUCCESS and valid=true, the final residual norm is a number (not NaN) and not larger than the initial residual norm.", "quantifier": "for every graph, settings, solver behaviour, including NaN-producing factors", "why_tests_cant": "NaN and small-step paths are not exercised by tests.", "anchors": ["src/factorama/sparse_optimizer.cpp: optimize"]}
{"id": "C56", "title": "Levenberg-Marquardt trial steps solve the damped normal equations", "statement": "With an exact linear solver, a Levenberg-Marquardt run is a sequence of attempts, each of which either finds the damped system unsolvable and raises lambda, or moves the variables by learning_rate times a solution of (J^T J + lambda I) dx = -J^T r for the Jacobian and residual of the current estimate and the damping in force, which is kept exactly if it lowers the cost and taken back otherwise; lambda starts at initial_lambda and is multiplied by the configured factors.", "quantifier": "for every graph, settings, iteration and damping history", "why_tests_cant": "Every iteration of every run.", "anchors": ["src/factorama/sparse_optimizer.cpp: single_step_levenberg_marquardt"]}
{"id": "C57", "title": "What a finished optimisation guarantees", "statement": "If optimize() reports SUCCESS, then the iteration limit was reached, or the last step norm is below step_tolerance, or the residual norm fell by less than residual_tolerance, or it rose but is still below its initial value; DIVERGED means that it rose to at least its initial value or exceeds ten times that; and no earlier iteration met any of these conditions.", "quantifier": "for every graph, settings and solver behaviour", "why_tests_cant": "Every way a run can end.", "anchors": ["src/factorama/sparse_optimizer.cpp: optimize"]}
{"id": "C58", "title": "Gauss-Newton increments solve the normal equations", "statement": "With an exact linear solver, every increment that the Gauss-Newton optimiser applies is learning_rate times a solution of J^T J dx = -J^T r for the Jacobian and residual of the current estimate.", "quantifier": "for every graph, settings and iteration", "why_tests_cant": "Every iteration of every run.", "anchors": ["src/factorama/sparse_optimizer.cpp: single_step_gauss_newton"]}
{"id": "C59", "title": "Jacobians describe apply_increment", "statement": "The Jacobian blocks that the factors return are the derivatives of the residual along the curves that apply_increment(s * d) of the variables traces.", "quantifier": "for every factor, variable state and direction d", "why_tests_cant": "The small-angle shortcuts act on a set that random tests miss.", "anchors": ["src/factorama/*_factor*", "src/factorama/*_variable.*: apply_increment"]}
{"id": "C60", "title": "Huber kernel implements its documented loss", "statement": "Half the squared norm of the residual transformed by HuberKernel is the loss documented in its header: n^2/2 if the norm n is at most delta, delta*n - delta^2/2 otherwise.", "quantifier": "for every delta > 0 and residual", "why_tests_cant": "Every real residual; the tests compare with the implemented formula.", "anchors": ["src/factorama/kernels.hpp: HuberKernel"]}
{"id": "C61", "title": "Numerical Jacobians converge to the exact Jacobian", "statement": "Where a factor's analytic Jacobian is the exact derivative, ComputeNumericalJacobians comes arbitrarily close to it in every entry for all small enough epsilon of either sign.", "quantifier": "for every factor with an exact Jacobian, regular variable states and tolerance", "why_tests_cant": "A limit; tests use a fixed epsilon.", "anchors": ["src/factorama/numerical_jacobian.hpp"]}
{"id": "C62", "title": "SUCCESS means that a tolerance was met", "statement": "If optimize() reports SUCCESS, the last step norm or the last decrease of the residual norm is below the configured tolerance.", "quantifier": "for every graph, settings and solver behaviour", "why_tests_cant": "Every way a run can end.", "anchors": ["src/factorama/sparse_optimizer.cpp: optimize"]}
{"id": "C63", "title": "Increments are descent directions", "statement": "With an exact linear solver and a non-negative damping parameter, the slope of the cost along every increment that is tried is strictly negative wherever the gradient J^T r is not zero.", "quantifier": "for every Jacobian of any shape and rank, residual and damping", "why_tests_cant": "All matrices; algebra in any dimension.", "anchors": ["src/factorama/sparse_optimizer.cpp: single_step_gauss_newton, single_step_levenberg_marquardt"]}
{"id": "C64", "title": "Failure codes of Gauss-Newton mean what they say", "statement": "With exact arithmetic, a Gauss-Newton run that ends with FAILED has met a non-zero direction along which no residual changes to first order at the final estimate; SINGULAR_HESSIAN means that there is none, but a direction of length at least 1 along which |J x|^2 is below 1e-14; ILL_CONDITIONED means that |J x|^2 is more than 10^12 times smaller than some squared column of J.", "quantifier": "for every graph, settings, fill-reducing ordering and iteration", "why_tests_cant": "Every rank-deficient or badly scaled problem.", "anchors": ["src/factorama/sparse_optimizer.cpp: single_step_gauss_newton", "src/factorama/sparse_optimizer.hpp: OptimizerStatus"]}
{"id": "C65", "title": "Unobservable problems are rejected, well-posed ones are not", "statement": "With exact arithmetic, Gauss-Newton started where some combination of variables does not influence any residual to first order ends with status FAILED at iteration 0 and leaves every variable as it was; started at a point where no direction is close to that, the first iteration does not fail.", "quantifier": "for every graph and every unobservable direction", "why_tests_cant": "Every null space; tests have a few fixed singular graphs.", "anchors": ["src/factorama/sparse_optimizer.cpp: single_step_gauss_newton"]}
{"id": "C66", "title": "The sparse factorisation is exact for every ordering", "statement": "In exact arithmetic the factorisation that the optimiser uses (SimplicialLDLT) accepts a Gauss-Newton or damped matrix exactly if it is positive definite, delivers exact solutions, and has one positive pivot per unknown, whatever fill-reducing ordering is used; so Levenberg-Marquardt attempts with a large enough damping parameter never count as numerical failures.", "quantifier": "for every matrix of every size and every ordering", "why_tests_cant": "All sizes, sparsity patterns and orderings.", "anchors": ["src/factorama/sparse_optimizer.cpp: single_step_gauss_newton, single_step_levenberg_marquardt, prepare_to_estimate_covariances"]}
{"id": "C67", "title": "Covariances are available exactly for observable problems", "statement": "With exact arithmetic, preparing covariances after optimize() makes them unavailable for all variables if some combination of variables does not influence any residual; otherwise every optimised variable either has a symmetric positive definite covariance, its block of the inverse of J^T J, or that block has a variance above 1e12.", "quantifier": "for every graph, call history and variable", "why_tests_cant": "Every Jacobian of any rank.", "anchors": ["src/factorama/sparse_optimizer.cpp: prepare_to_estimate_covariances, estimate_covariance"]}
{"id": "C68", "title": "Insertion order does not matter", "statement": "With exact arithmetic, two graphs over the same variable and factor objects that differ only in the order in which variables and factors were added give the same Gauss-Newton run: the same final variable values and the same statistics (status, cost, step size, residual norm, iterations), provided neither run ends in a numerical failure. The fill-reducing orderings of the two factorisations may differ.", "quantifier": "for every pair of graphs related by a permutation of variables and factors, every orderings, settings and number of iterations", "why_tests_cant": "All permutations of all graphs; a test compares a few.", "anchors": ["src/factorama/factor_graph.cpp: add_variable, add_factor, finalize_structure", "src/factorama/sparse_optimizer.cpp: optimize, single_step_gauss_newton"]}
{"id": "C69", "title": "Sessions after finalization have no undefined behaviour", "statement": "Once finalize_structure() has accepted a graph that optimises at least one variable of positive size, no sequence of value changes, residual and Jacobian computations, setup(), optimize(), prepare_to_estimate_covariances() and estimate_covariance() calls on variables of the graph, in any order, has undefined behaviour (no access out of bounds, no size mismatch, no reduction of an empty vector), whatever the arithmetic produces, infinities and NaN included, and whatever the linear solver answers as long as its vectors have the right length. For library variables and factors used as documented this holds without further conditions. A graph all of whose variables are constant is accepted by finalize_structure() too, and there optimize() is undefined.", "quantifier": "for every finalized graph, every session of every length, every scalar arithmetic and every solver", "why_tests_cant": "All call orders and all values including NaN; sanitizer runs see single paths.", "anchors": ["src/factorama/factor_graph.cpp: compute_full_residual_vector, compute_sparse_jacobian_matrix, apply_increment, set_variable_values_from_vector", "src/factorama/sparse_optimizer.cpp: optimize, single_step_gauss_newton, single_step_levenberg_marquardt, prepare_to_estimate_covariances, estimate_covariance"]}
{"id": "C70", "title": "optimize() returns", "statement": "On a finalized graph with an optimised variable, optimize() returns normally for every setting, solver and arithmetic if the residuals can be computed at the start; it throws no exception of its own, and exceptions from later steps end the run with a failure status. If the factors' Jacobians are always available (all library classes except those that measure directions or rotations) no exception occurs on the way.", "quantifier": "for every finalized graph, setting, solver and arithmetic", "why_tests_cant": "All values and all numbers of iterations.", "anchors": ["src/factorama/sparse_optimizer.cpp: optimize, single_step_gauss_newton, single_step_levenberg_marquardt"]}
{"id": "C71", "title": "A graph that floats freely is refused by Gauss-Newton", "statement": "With exact arithmetic, if some variables can be translated (together or component by component, planes along) without any measurement noticing - a map without a position prior or a fixed pose, two parts of a map without a connection, a variable with only rotational measurements - then a Gauss-Newton run ends with FAILED at the first step and leaves all variables as they are. Which measurements notice a translation is given per factor class.", "quantifier": "for every graph over all eighteen factor classes, all values, measurements and sigmas", "why_tests_cant": "All shapes of graphs and all values; a test tries one unanchored map.", "anchors": ["src/factorama/sparse_optimizer.cpp: single_step_gauss_newton, optimize", "src/factorama/*_factor.cpp: compute_jacobians"]}
{"id": "C72", "title": "Levenberg-Marquardt keeps the centre of a floating map", "statement": "With exact arithmetic and positive damping, a Levenberg-Marquardt run on such a graph moves the variables without moving their centre: for every translation that no measurement notices, the sum of the moving coordinates, weighted with the translation, is the same before and after optimize(). In particular the mean position of every unanchored part of a map stays where it was.", "quantifier": "for every graph without RotationVariables whose planes stay, all values, settings and numbers of iterations", "why_tests_cant": "An invariant of all runs of all lengths.", "anchors": ["src/factorama/sparse_optimizer.cpp: single_step_levenberg_marquardt, optimize", "src/factorama/*_factor.cpp: compute_jacobians"]}
{"id": "C73", "title": "Where the origin is does not matter", "statement": "With exact arithmetic, a problem written down in another place is the same problem: if every position, landmark, planar pose, plain vector and inverse-range origin of a session is displaced, each by an amount of its own, such that relative measurements connect equally displaced objects (differences may change if the measured-difference variable changes with them, moving bodies may get another velocity), and absolute priors are displaced with their variables, then the whole session - any sequence of graph, variable, optimize() and covariance calls, both methods, any settings and any solver - gives displaced variables and otherwise the same results: same statistics, costs and status, same exceptions, same residuals, Jacobians and covariances. The exception is PlaneFactor: its observed points must stay, since sliding a point along the plane leaves the residual but changes the Jacobian.", "quantifier": "for every pair of displaced sessions over all eighteen factor classes, all displacements, values, settings and solvers", "why_tests_cant": "All sessions and all displacements; a test moves one map to one other place.", "anchors": ["src/factorama/sparse_optimizer.cpp: optimize, estimate_covariance", "src/factorama/*_factor.cpp: compute_residual, compute_jacobians", "src/factorama/*_variable.hpp: apply_increment, set_value_from_vector"]}
{"id": "C74", "title": "Only what factors and variables report matters", "statement": "Two sessions whose variables have the same ids, sizes and constant flags and react alike to increments and values, and whose factors report the same ids, variables, residual sizes, residuals and Jacobians, cannot be told apart: statistics, status, exceptions, residuals, Jacobians, covariances are the same, and the variables stay related, through any sequence of calls. So a user-defined Factor or Variable class can replace another one that reports the same, whatever it stores.", "quantifier": "for every variable and factor class, number system, solver and session", "why_tests_cant": "All classes derived from Variable and Factor and all call sequences.", "anchors": ["src/factorama/factor_graph.cpp: finalize_structure, compute_full_residual_vector, compute_sparse_jacobian_matrix, apply_increment", "src/factorama/sparse_optimizer.cpp: optimize, estimate_covariance", "src/factorama/base_types.hpp: Variable, Factor"]}
{"id": "C75", "title": "Unconnected parts do not influence each other", "statement": "With exact arithmetic, a part of a graph that shares only constant variables with the rest is optimised by Gauss-Newton as if the rest were not there: after the same number of iterations its variables have the values that optimize() on the part alone gives them, whatever the other variables and measurements are, and in whatever order everything was added. The factors of the library look at no variables except those they list. (With Levenberg-Marquardt the parts are coupled by the common damping parameter.)", "quantifier": "for every graph and every part of it connected to the rest through constants only, all values, sizes and numbers of iterations", "why_tests_cant": "All graphs and all ways to split them.", "anchors": ["src/factorama/factor_graph.cpp: finalize_structure, compute_sparse_jacobian_matrix, apply_increment", "src/factorama/sparse_optimizer.cpp: optimize, single_step_gauss_newton", "src/factorama/*_factor.cpp: compute_residual, compute_jacobians"]}
{"id": "C76", "title": "Unmeasured rotation or scale makes Gauss-Newton fail", "statement": "With exact arithmetic, if the variables that are optimised can be turned, scaled and translated (constants staying where they are) so that, to first order, no measurement of the graph changes, then optimize() with Gauss-Newton reports FAILED in its first iteration and leaves every variable as it was: for instance a map made from directions only whose single anchor is one camera (its scale is free) or one landmark (its scale and its orientation are free), even when there are at least as many residuals as unknowns so that finalize_structure() accepts it. What a measurement notices is stated class by class: directions notice neither turning nor scaling of camera and point together, relative positions in the body frame and distances to planes do not notice turning, relative orientations do not notice a common turning, and so on for all classes of the library.", "quantifier": "for every library graph, all values of its variables and measurements, and every motion built from rotations, scalings and translations", "why_tests_cant": "All graphs, all states, all motions.", "anchors": ["src/factorama/*_factor.cpp: compute_jacobians", "src/factorama/sparse_optimizer.cpp: optimize, single_step_gauss_newton"]}
{"id": "C77", "title": "Covariances describe the estimate before the last step", "statement": "After optimize() returned without a recorded exception and with max_num_iterations at least 1, the sparse Jacobian that the graph holds, which prepare_to_estimate_covariances() uses, is the one of the estimate that the same call would have returned if the iteration limit had been set to the last iteration that was begun: the variables before the last step, not the variables that the user now reads. With exact arithmetic and an exact LDL^T solver, the first preparation then succeeds, and the estimates are: none for any variable if some change of the optimised variables has no first-order effect on the residuals there; otherwise for every optimised variable the block of the inverse of J^T J at that earlier estimate, which is symmetric and positive definite, or none if a variance exceeds 10^12.", "quantifier": "for every graph, every number of iterations, both methods, every variable", "why_tests_cant": "All runs, all stopping reasons.", "anchors": ["src/factorama/sparse_optimizer.cpp: optimize, prepare_to_estimate_covariances, estimate_covariance", "src/factorama/factor_graph.cpp: compute_sparse_jacobian_matrix, sparse_jacobian"]}
{"id": "C78", "title": "Covariances describe the final estimate when Jacobians are constant", "statement": "With exact arithmetic and an exact LDL^T solver: if no Jacobian depends on the values of the variables, the covariances reported after optimize() are those of the variables as they now are, by either method. Of the library's factor classes this holds for generic priors, generic between factors, linear velocity factors, position priors, pose priors in the plane, and relative positions and planar relative poses expressed in the global frame.", "quantifier": "for every graph of such factors, every number of iterations, both methods, every variable", "why_tests_cant": "All graphs, all runs.", "anchors": ["src/factorama/sparse_optimizer.cpp: optimize, prepare_to_estimate_covariances, estimate_covariance", "src/factorama/*_factor.cpp: compute_jacobians"]}
{"id": "C79", "title": "Graphs without anchor get no covariance", "statement": "With exact arithmetic and an exact LDL^T solver: if some of the optimised variables of a library graph can be translated together without any measurement noticing, then after optimize(), by either method and however many iterations it took, the first preparation of covariances succeeds and estimate_covariance() reports no valid covariance for any variable, also for those that other measurements would determine on their own. With Gauss-Newton the same holds for motions that turn or scale.", "quantifier": "for every floating library graph, every run, every variable", "why_tests_cant": "All graphs, all runs of any length.", "anchors": ["src/factorama/sparse_optimizer.cpp: optimize, prepare_to_estimate_covariances, estimate_covariance"]}
{"id": "C80", "title": "Units and a common weight do not matter to Gauss-Newton", "statement": "With exact arithmetic and exact LDL^T solvers: let one library graph state the same problem as another in other units - every value, prior and standard deviation of a length (or of any other quantity, per variable) multiplied by the number of new units in an old one, directions, rotations and angles unchanged, inverse ranges divided - and let moreover all standard deviations be multiplied by a common factor k. Then after the same number of Gauss-Newton iterations the estimates of the two graphs are the same in their respective units, and the sum of squared residuals is divided by k^2. This covers all eighteen factor classes and all variable classes; plane factors with distance scaling only without change of unit. It fails for Levenberg-Marquardt: the same measurements with all standard deviations doubled lead to another estimate after one iteration.", "quantifier": "for every pair of library graphs related in this way, every number of iterations, every choice of positive units and factor", "why_tests_cant": "All graphs, all units, runs of any length.", "anchors": ["src/factorama/sparse_optimizer.cpp: optimize, step_gauss_newton, step_levenberg_marquardt", "src/factorama/*_factor.cpp: compute_residual, compute_jacobians", "src/factorama/*_variable.cpp: apply_increment"]}
{"id": "C81", "title": "The order of insertion does not matter to the covariances", "statement": "With exact arithmetic and exact LDL^T solvers: if two graphs hold the same variables and factors, added in different orders, and the same settings were used for a Gauss-Newton run on each that did not fail, then estimate_covariance() answers the same for every variable: the same matrix, or none for both (a variance above 10^12).", "quantifier": "for every pair of finalised graphs over the same objects, every order of insertion, every number of iterations at least one", "why_tests_cant": "All graphs and all orders of insertion.", "anchors": ["src/factorama/sparse_optimizer.cpp: prepare_to_estimate_covariances, estimate_covariance, optimize", "src/factorama/factor_graph.cpp: finalize_structure"]}
{"id": "C82", "title": "Covariances follow the units and the weights", "statement": "With exact arithmetic and exact LDL^T solvers: if a library graph states the problem of another in other units, u_i new units of element i of a variable in an old one, and with all standard deviations moreover multiplied by k, then after the same number of iterations of a Gauss-Newton run that did not fail the two covariances P and Q of every optimised variable satisfy Q_ij = k^2 u_i u_j P_ij; each is reported unless one of its variances exceeds 10^12 (a threshold in the units in use).", "quantifier": "for every pair of library graphs related in this way, every choice of positive units and factor, every number of iterations at least one", "why_tests_cant": "All graphs, all units, runs of any length.", "anchors": ["src/factorama/sparse_optimizer.cpp: prepare_to_estimate_covariances, estimate_covariance, optimize", "src/factorama/*_factor.cpp: compute_jacobians"]}
{"id": "C83", "title": "Covariances of an unconnected part are those it would have alone", "statement": "With exact arithmetic and exact LDL^T solvers: if no measurement connects some of the variables of a graph to the others, then after Gauss-Newton runs that did not fail and took the same number of iterations estimate_covariance() answers for these variables as it does for a graph that holds only them and their measurements.", "quantifier": "for every finalised graph, every unconnected part of it, every number of iterations at least one", "why_tests_cant": "All graphs and parts of any size.", "anchors": ["src/factorama/sparse_optimizer.cpp: prepare_to_estimate_covariances, estimate_covariance, optimize"]}
{"id": "C84", "title": "The planar frame does not matter to Gauss-Newton", "statement": "With exact arithmetic and exact LDL^T solvers: let one library graph state the same planar problem as another in a frame turned by any angle and displaced by any vector - planar poses, landmarks and points turned and displaced, headings increased by the angle up to whole turns, velocities and world-frame differences turned, priors along with their variables, bearings and ranges unchanged, variables that have nothing to do with the plane unchanged. Then after the same number of Gauss-Newton iterations the estimates are the same in their respective frames, and so is the sum of squared residuals. Factors covered: Pose2DPriorFactor, Pose2DBetweenFactor in the world frame, BearingObservationFactor2D, RangeBearingFactor2D, LinearVelocityFactor and GenericPriorFactor/GenericBetweenFactor on planar points and vectors, and any factor all of whose variables are unaffected. It fails for Pose2DBetweenFactor with the difference measured in the frame of the first pose: a measurement that fits before a quarter turn does not fit after it.", "quantifier": "for every pair of library graphs related in this way, every angle and displacement, every number of iterations", "why_tests_cant": "All graphs, all frames, runs of any length.", "anchors": ["src/factorama/sparse_optimizer.cpp: optimize, step_gauss_newton", "src/factorama/pose_2d_*_factor.cpp, bearing_observation_factor_2d.cpp, range_bearing_factor_2d.cpp: compute_residual, compute_jacobians", "src/factorama/pose_2d_variable.cpp: apply_increment"]}
{"id": "C85", "title": "Covariances are turned with the planar frame", "statement": "With exact arithmetic and exact LDL^T solvers: for two graphs that state a planar problem in two frames as in C84, after the same number of iterations of Gauss-Newton runs that did not fail the covariances P and Q of every optimised variable satisfy Q = T P T^t, where T turns the first two elements by the angle between the frames (and is the identity for variables that have nothing to do with the plane); each is reported unless one of its variances exceeds 10^12.", "quantifier": "for every pair of library graphs related in this way, every angle and displacement, every number of iterations at least one", "why_tests_cant": "All graphs, all frames, runs of any length.", "anchors": ["src/factorama/sparse_optimizer.cpp: prepare_to_estimate_covariances, estimate_covariance, optimize"]}
{"id": "C86", "title": "Optimising an optimum changes nothing", "statement": "With exact arithmetic and an exact LDL^T solver: let the gradient J^T r vanish at the current estimate (for example because all residuals are zero) and let increments of zero leave the variables as they are (the library's variables, when angles are wrapped, normals have unit length, inverse ranges are within their limits and rotation vectors are the logarithms of the matrices). Then a run of Gauss-Newton leaves all values and the cost as they were and reports SUCCESS, after at most one iteration if the residual tolerance is positive; or it reports FAILED, SINGULAR_HESSIAN or ILL_CONDITIONED and the Jacobian there is singular or ill-conditioned as that code says. A single Gauss-Newton iteration that ends with SUCCESS leaves all values as they were only at such estimates, if the variables are plain vectors and the learning rate is not zero. Levenberg-Marquardt with positive damping settings leaves all values as they were too, but never reports SUCCESS there: the status is a failure code and the statistics are marked invalid.", "quantifier": "for every graph, every class of variables and factors, every number of iterations, every exact LDL^T solver", "why_tests_cant": "All graphs and estimates; the answer of the solver is exact.", "anchors": ["src/factorama/sparse_optimizer.cpp: optimize, single_step_gauss_newton, single_step_levenberg_marquardt", "src/factorama/*_variable.cpp: apply_increment"]}
{"id": "C87", "title": "The spatial frame does not matter to Gauss-Newton", "statement": "With exact arithmetic and exact LDL^T solvers: let one library graph state the same spatial problem as another in a frame turned by any rotation Q and displaced by any vector - positions, landmarks and points turned and displaced, camera orientations R (from the world) replaced by R Q^t, velocities and world-frame differences turned, origins and directions of inverse-range points along with them, priors along with their variables, observations in the camera frame unchanged, variables that have nothing to do with the frame unchanged. Let every Gauss-Newton increment turn each camera by nothing or by at least 1e-10 rad and leave it at the identity or at least 1e-5 rad away from it (where the library's exponential and logarithm are exact). Then after the same number of Gauss-Newton iterations the estimates are the same in their respective frames, and so is the sum of squared residuals. Factors covered: PosePositionPriorFactor, PoseOrientationPriorFactor with a prior at least 1e-5 rad from the identity, PosePositionBetweenFactor in either frame, PoseOrientationBetweenFactor, BearingObservationFactor, BearingProjectionFactor2D, InverseRangeBearingFactor, LinearVelocityFactor and GenericPriorFactor/GenericBetweenFactor on points and vectors in space, and any factor all of whose variables are unaffected. It fails for orientation priors closer to the identity: a camera turned by 1e-6 rad fits its prior after a quarter turn of the frame, but not before.", "quantifier": "for every pair of library graphs related in this way, every rotation and displacement, every number of iterations", "why_tests_cant": "All graphs, all frames, runs of any length.", "anchors": ["src/factorama/sparse_optimizer.cpp: optimize, step_gauss_newton", "src/factorama/pose_prior_factors.cpp, pose_between_factors.cpp, bearing_observation_factor.cpp, bearing_projection_factor_2d.cpp, inverse_range_bearing_factor.cpp: compute_residual, compute_jacobians", "src/factorama/pose_variable.cpp: apply_increment", "src/factorama/random_utils.cpp: ExpMapSO3, LogMapSO3"]}
{"id": "C88", "title": "Covariances are turned with the spatial frame", "statement": "With exact arithmetic and exact LDL^T solvers: for two graphs that state a spatial problem in two frames as in C87, after the same number of iterations of Gauss-Newton runs that did not fail the covariances P and P' of every optimised variable satisfy P' = T P T^t, where T turns the first three elements by the rotation between the frames and leaves the rotational elements of camera poses (and variables that have nothing to do with the frame) as they are; each is reported unless one of its variances exceeds 10^12.", "quantifier": "for every pair of library graphs related in this way, every rotation and displacement, every number of iterations at least one", "why_tests_cant": "All graphs, all frames, runs of any length.", "anchors": ["src/factorama/sparse_optimizer.cpp: prepare_to_estimate_covariances, estimate_covariance, optimize"]}
{"id": "C89", "title": "The reported step norm is the length of the last increment, and an iteration tries at most five dampings", "statement": "With exact arithmetic and an exact solver (LDL^T for Levenberg-Marquardt), after optimize() returns without a caught exception: for Gauss-Newton the reported step norm is the Euclidean length of the increment, learning rate included, by which the last iteration moved the variables from the previous estimate to the final one, and it is -1 if no iteration was made. For Levenberg-Marquardt every iteration makes at most five attempts, all at the same estimate: an attempt whose system is refused as ill-posed multiplies the damping by its up-factor (without a limit), an attempt that does not lower the cost likewise as long as the result is below the maximum, and otherwise sets the damping to the maximum and ends the iteration; neither changes the estimate; the first attempt that lowers the cost is kept, multiplies the damping by its down-factor (to no less than 1e-12) and ends the iteration; without a kept attempt the fifth ends it. The reported step norm is the length of the increment kept in the last iteration, and 0 if that iteration kept none; the reported damping is the one after the last iteration.", "quantifier": "for every finalized graph, all variable values, any number of iterations and all settings", "why_tests_cant": "Needs the factors' outcome at every attempt of every run, for arbitrary graphs and settings; a test sees single runs.", "anchors": ["src/factorama/sparse_optimizer.cpp: optimize, single_step_gauss_newton, single_step_levenberg_marquardt", "src/factorama/sparse_optimizer.hpp: OptimizerStats::delta_norm, OptimizerSettings"]}
{"id": "C90", "title": "The logarithm on the sphere turns one unit vector into the other", "statement": "In real arithmetic, for two unit vectors b and u, LogMapS2(b, u) is the rotation vector w, perpendicular to both, whose length is the angle between b and u, such that the rotation by w takes b to u; and it recovers every w perpendicular to b with 0 < |w| < pi from b and its image. (Proved when |sin| of the angle is at least 1e-10. For smaller angles it returns zero, and the image of b is within 2e-10 of u in every coordinate. Refuted for opposite vectors: it returns zero although b is not u.)", "quantifier": "for all pairs of unit vectors", "why_tests_cant": "All unit vectors, exact statement about rotations.", "anchors": ["src/factorama/random_utils.cpp: LogMapS2, ExpMapSO3"]}
{"id": "C91", "title": "Repeating a measurement with matching weights changes nothing", "statement": "In exact arithmetic, for Gauss-Newton: if one graph states a measurement once and another states it several times with standard deviations k1, k2, ... times the original where 1/k1^2 + 1/k2^2 + ... = 1, if factors all of whose variables are constant are added or left out, and if constant variables are registered in one graph and not in the other (all in any order), then after the same number of iterations both runs hold the same values of all variables, report the same covariances, and their costs differ by the same amount as at the start. More generally, runs with the same J^T J and J^T r at the values they pass hold the same values after the same number of iterations. (Every inverse range and its limits at least 1e-9, where the guard of the library is not reached.)", "quantifier": "for all graphs of library variables and factors, numbers of repetitions, weights, orders, numbers of iterations, and any two solvers", "why_tests_cant": "Two different graphs and whole runs are compared, with weights that are real numbers.", "anchors": ["src/factorama/sparse_optimizer.cpp: optimize, single_step_gauss_newton, prepare_to_estimate_covariances, estimate_covariance", "src/factorama/factor_graph.cpp: compute_sparse_jacobian_matrix, compute_full_residual_vector"]}
{"id": "C92", "title": "Gauss-Newton can be interrupted and resumed", "statement": "In exact arithmetic, a Gauss-Newton run of n iterations, a new setup with the same learning rate, and a second run of m iterations leave all variables at the values a single run of n + m iterations reaches. The second run may use another optimiser object and another linear solver; tolerances, iteration limit and solver influence the values only through the number of iterations made.", "quantifier": "for all graphs, start values, learning rates, tolerances, numbers of iterations n and m, and any solvers", "why_tests_cant": "Equality of whole runs of any length for all graphs.", "anchors": ["src/factorama/sparse_optimizer.cpp: setup, optimize, single_step_gauss_newton", "src/factorama/sparse_optimizer.hpp: OptimizerSettings, current_stats_"]}
{"id": "C93", "title": "On linear problems Gauss-Newton leaves (1 - rate)^k of the distance to the optimum", "statement": "Let a graph consist of generic and landmark variables with GenericPriorFactors, GenericBetweenFactors and LinearVelocityFactors (other variables may take part if they are constant). In exact arithmetic, after a Gauss-Newton run of k iterations with learning rate r every coordinate of every variable is at (1 - r)^k times its initial distance from any assignment at which the gradient vanishes; the reported cost exceeds the cost there by (1 - r)^(2k) times the initial excess; and no assignment has a lower cost than that one.", "quantifier": "for all graphs of these classes, start values, learning rates, numbers of iterations, exact linear solvers and stationary assignments", "why_tests_cant": "An exact rate for all graphs and any number of iterations.", "anchors": ["src/factorama/sparse_optimizer.cpp: optimize, single_step_gauss_newton", "src/factorama/sparse_optimizer.hpp: OptimizerSettings, current_stats_, initial_stats_", "src/factorama/linear_velocity_factor.cpp: compute_residual, compute_jacobians", "src/factorama/generic_between_factor.cpp: compute_residual, compute_jacobians", "src/factorama/generic_prior_factor.hpp: compute_residual, compute_jacobians"]}
{"id": "C94", "title": "On linear problems Levenberg-Marquardt never moves away from an optimum", "statement": "Let a graph consist of generic and landmark variables with GenericPriorFactors, GenericBetweenFactors and LinearVelocityFactors (other variables may take part if they are constant), and take any assignment at which the gradient vanishes; a singular problem has many. In exact arithmetic, with a learning rate between 0 and 2, positive initial and maximal damping and a positive growth factor, a Levenberg-Marquardt run either leaves every variable as it was or ends strictly nearer to that assignment, in the Euclidean distance over all optimised coordinates.", "quantifier": "for all graphs of these classes, singular ones included, start values, settings in that range, numbers of iterations, exact linear solvers and stationary assignments", "why_tests_cant": "A statement about every optimum and any number of iterations and rejected steps.", "anchors": ["src/factorama/sparse_optimizer.cpp: optimize, single_step_levenberg_marquardt", "src/factorama/sparse_optimizer.hpp: OptimizerSettings"]}
{"id": "C95", "title": "On linear problems Gauss-Newton forgets where it started", "statement": "Let a graph consist of generic and landmark variables with GenericPriorFactors, GenericBetweenFactors and LinearVelocityFactors (other variables may take part if they are constant), and run Gauss-Newton on it from two different assignments of start values with the same learning rate. In exact arithmetic, if both runs make k iterations, then every coordinate of the difference between the two results is exactly (1 - learning_rate)^k times what it was between the two starts. With a learning rate of 1 the two runs end with the same values in all variables as soon as each makes at least one iteration, however many each makes.", "quantifier": "for all graphs of these classes, pairs of start values, learning rates, numbers of iterations and exact linear solvers", "why_tests_cant": "A relation between two runs from arbitrary start values; tests start from a few places and compare with a tolerance.", "anchors": ["src/factorama/sparse_optimizer.cpp: optimize, single_step_gauss_newton", "src/factorama/generic_variable.hpp: apply_increment", "src/factorama/generic_prior_factor.hpp: compute_residual"]}
{"id": "C96", "title": "Additional variables and measurements never make the others less certain", "statement": "Take a graph all of whose factors are of the classes with Jacobians that do not depend on the values (generic priors and differences, linear velocities, position priors, 2D pose priors, position and 2D pose differences in the global frame), and a second graph that has all its variables and factors and any further ones of any class. Optimize both and ask for covariances, in exact arithmetic. Then either some variable that is only in the second graph is not determined by its measurements and no variable of the second graph gets a covariance, or every optimised variable that has a covariance in the first graph has one in the second, and it is no larger: no linear combination of its elements has a larger variance. Neither start values nor settings nor the order in which things were added matter for this.", "quantifier": "for all pairs of such graphs of any size, start values, settings and exact linear solvers", "why_tests_cant": "An inequality between two runs over all extensions of a graph, and over all directions; tests look at a few extensions and at diagonal entries.", "anchors": ["src/factorama/sparse_optimizer.cpp: prepare_to_estimate_covariances, estimate_covariance", "src/factorama/factor_graph.cpp: add_variable, add_factor"]}
{"id": "C97", "title": "Holding a variable constant never makes the others less certain", "statement": "Take a graph all of whose factors are of the classes with Jacobians that do not depend on the values (generic priors and differences, linear velocities, position priors, 2D pose priors, position and 2D pose differences in the global frame), and the same graph built with more of its variables constant. Optimize both and ask for covariances, in exact arithmetic. Every variable that is still optimised and has a covariance in the first graph has one in the second, and it is no larger: no linear combination of its elements has a larger variance. Neither start values nor settings nor the order in which things were added matter for this.", "quantifier": "for all such graphs of any size, sets of variables held constant, start values, settings and exact linear solvers", "why_tests_cant": "An inequality between two runs over all choices of the variables held constant, and over all directions; tests look at a few graphs and at diagonal entries.", "anchors": ["src/factorama/sparse_optimizer.cpp: prepare_to_estimate_covariances, estimate_covariance", "src/factorama/base_types.hpp: Variable::is_constant, Variable::set_constant"]}
{"id": "C98", "title": "Measurements that agree with the estimate do not move it", "statement": "Suppose Gauss-Newton leaves an estimate as it is (one iteration reports SUCCESS and changes no variable, or: the gradient of the cost vanishes). Add any factors, of these or of further variables, whose residuals at this estimate are zero, in any order. In exact arithmetic, running Gauss-Newton or Levenberg-Marquardt on the larger graph changes no variable, whatever the settings; with Gauss-Newton the reported cost is the same as before and the status is SUCCESS unless the Jacobian is singular or ill-conditioned. The same holds when such factors are taken away.", "quantifier": "for all graphs of any size with factors and variables of any class, sets of agreeing factors, settings and exact linear solvers", "why_tests_cant": "A statement about all sets of additional factors with zero residuals, linear or not; tests add one measurement to one graph, in rounded arithmetic.", "anchors": ["src/factorama/sparse_optimizer.cpp: single_step_gauss_newton, single_step_levenberg_marquardt, optimize", "src/factorama/factor_graph.cpp: compute_full_residual_vector, compute_sparse_jacobian_matrix"]}
{"id": "C99", "title": "An optimum stays one when variables are held constant there", "statement": "Suppose Gauss-Newton leaves an estimate as it is (one iteration reports SUCCESS and changes no variable, or: the gradient of the cost vanishes). Build the graph again with the same values and some more of the variables constant. In exact arithmetic, for all factor classes of the library, running Gauss-Newton or Levenberg-Marquardt on it changes no variable, whatever the settings and the order in which things were added; with Gauss-Newton the reported cost is the same as before.", "quantifier": "for all graphs of any size with factors of any of the 18 classes, sets of variables held constant, settings and exact linear solvers", "why_tests_cant": "A statement about all subsets of the variables and all combinations of factor classes; tests hold one or two variables constant, in rounded arithmetic.", "anchors": ["src/factorama/sparse_optimizer.cpp: single_step_gauss_newton, single_step_levenberg_marquardt, optimize", "src/factorama/base_types.hpp: is_constant, set_constant", "src/factorama/factor_graph.cpp: compute_sparse_jacobian_matrix"]}
{"id": "C100", "title": "On linear problems the estimate is an affine function of the measurements", "statement": "Take three graphs of generic and landmark variables with GenericPriorFactors, GenericBetweenFactors and LinearVelocityFactors that have the same variables, factors and standard deviations (other variables may take part if they are constant). Let every prior, every constant value (such as the measured difference of a between factor) and every start value of the third be 1 - t times that of the first plus t times that of the second, for any real t. In exact arithmetic, if the three Gauss-Newton runs use the same learning rate and make the same number of iterations, then all values of the third result are 1 - t times those of the first plus t times those of the second. With a learning rate of 1 the numbers of iterations may differ, as long as each run makes at least one.", "quantifier": "for all such graphs of any size, real t, learning rates, numbers of iterations, settings and exact linear solvers", "why_tests_cant": "An identity between three runs for all graphs, all measurements and all weights; tests compare single results with tolerances.", "anchors": ["src/factorama/sparse_optimizer.cpp: single_step_gauss_newton, optimize", "src/factorama/generic_prior_factor.hpp: compute_residual, compute_jacobians", "src/factorama/generic_between_factor.cpp: compute_residual, compute_jacobians", "src/factorama/linear_velocity_factor.cpp: compute_residual, compute_jacobians"]}
{"id": "C101", "title": "At an optimum, holding variables constant or adding measurements that agree never makes the others less certain, whatever the factors", "statement": "Let the current values of a graph with factors of any classes of the library be an optimum, i.e. the gradient of the cost vanishes there. (a) Hold any of the variables constant at these values. In exact arithmetic, after a run on either graph, every covariance reported for the first graph for a variable that is still optimised is also reported for the second, with the same size, and is no larger: no linear combination of the variable's elements has a larger variance. (b) Instead, add further measurements that agree with the values, maybe of further variables. Then either some motion in which a further variable takes part goes unnoticed by all factors and the second graph reports no covariance at all, or every covariance of the first graph is also reported for the second and is no larger there. The claims hold with Gauss-Newton, and with Levenberg-Marquardt for variables whose rejected steps are undone exactly; the two graphs may use different methods.", "quantifier": "for all graphs of any size and factors of all classes at an optimum, both ways of changing the graph, settings and exact linear solvers", "why_tests_cant": "An inequality between matrices over all graphs and all directions; where Jacobians depend on the values it holds at the optimum only, which tests with tolerances do not isolate.", "anchors": ["src/factorama/sparse_optimizer.cpp: prepare_to_estimate_covariances, estimate_covariance, optimize", "src/factorama/factor_graph.cpp: compute_sparse_jacobian_matrix", "src/factorama/base_types.hpp: Variable::is_constant, Variable::set_constant"]}
{"id": "C102", "title": "Where Jacobians do not depend on the values, covariances do not depend on what was measured", "statement": "Take two graphs with the same variables (same ids, sizes and constant flags, maybe different values) and the same factors except for what was measured: generic priors and between factors, linear velocity factors, position priors, position between factors in the global frame, 2D pose priors and 2D pose between factors in the global frame, with the same variables and standard deviations but other prior values, other values of the measurement variables and other start values, added in any order. In exact arithmetic, after runs of at least one iteration with either method, estimate_covariance reports the same matrix for every optimised variable in both graphs, or none in both. So the certainty of a planned set of measurements can be found before any of them is made.", "quantifier": "for all such pairs of graphs of any size, outcomes of the measurements, start values, orders, settings and exact linear solvers", "why_tests_cant": "An equation between two runs for all outcomes of the measurements; tests compare a few results with tolerances.", "anchors": ["src/factorama/sparse_optimizer.cpp: prepare_to_estimate_covariances, estimate_covariance", "src/factorama/generic_prior_factor.hpp: compute_jacobians", "src/factorama/generic_between_factor.cpp: compute_jacobians", "src/factorama/linear_velocity_factor.cpp: compute_jacobians", "src/factorama/pose_prior_factors.cpp: compute_jacobians", "src/factorama/pose_2d_prior_factor.cpp: compute_jacobians", "src/factorama/pose_2d_between_factor.cpp: compute_jacobians"]}
{"id": "C103", "title": "Smaller standard deviations never make an estimate less certain", "statement": "Take two graphs with the same variables (same ids, sizes and constant flags, maybe different values) and the same factors, where in the second graph some standard deviations are smaller (all positive) and the outcomes of the measurements may differ: generic priors and between factors, linear velocity factors, position priors, position between factors in the global frame, 2D pose priors and 2D pose between factors in the global frame (position and angle standard deviations separately), added in any order. In exact arithmetic, after runs of at least one iteration with either method, every optimised variable for which estimate_covariance reports a covariance in the first graph has one in the second, of the same size, and no linear combination of its elements has a larger variance. More generally, if every standard deviation of the second graph is at most m times that of the first, for any m > 0, then wherever both graphs have a covariance, every linear combination of the elements has in the second a standard deviation of at most m times that in the first.", "quantifier": "for all such pairs of graphs of any size, standard deviations, outcomes of the measurements, start values, orders, settings and exact linear solvers", "why_tests_cant": "An inequality between two runs for all standard deviations and all linear combinations; tests compare a few results.", "anchors": ["src/factorama/sparse_optimizer.cpp: prepare_to_estimate_covariances, estimate_covariance", "src/factorama/generic_prior_factor.hpp: compute_jacobians", "src/factorama/generic_between_factor.cpp: compute_jacobians", "src/factorama/linear_velocity_factor.cpp: compute_jacobians", "src/factorama/pose_prior_factors.cpp: compute_jacobians", "src/factorama/pose_2d_prior_factor.cpp: compute_jacobians", "src/factorama/pose_2d_between_factor.cpp: compute_jacobians"]}
